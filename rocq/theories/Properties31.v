(** * Property theorems, part 31: shapes when small contours are left out and contours do not touch (C40). *)
From Verif Require Import Base Spec QLib ModelSegm SegmProofs MergeProofs PlanarGeo PlanarSum ModelFill ModelFilter FillProofs FillCorrect
  ModelCross CrossProofs CrossPoint CoreResults Properties01 ModelSplit SplitProofs SplitPlanar SplitPass BinsProofs SplitApply SplitLoop
  ModelFrag ModelOverlay OverlayProofs FragProofs GridCover Properties02
  ModelGraph GraphProofs ModelExtract ExtractProofs ContourResults Rotation NextLink Properties03
  MoveLemma SectorLemma Sides WalkSides Orient Properties04 ModelBind BindProofs BindSweep Thin Nest Properties05 Properties29 AreaMono Fewer Apart Properties30
  Masked Kept KeptShapes.
From Coq Require Import Permutation.
Open Scope Z_scope.

(** ** Binding looks only at the contours that are valid *)
Lemma anchors_valid dbg cw m ps : (forall p, In p ps -> p_valid p = true) -> forall ix,
  anchors_of dbg cw ix (map (revalidate m) ps) = anchors_of dbg cw ix (filter (fun p => is_valid m (p_contour p)) ps).
Proof.
  induction ps as [|p ps IH]; intros V ix; auto. specialize (IH (fun q I => V q (or_intror I))). pose proof (V p (or_introl eq_refl)) as Vp.
  cbn [map filter anchors_of]. change (p_valid (revalidate m p)) with (is_valid m (p_contour p)). change (p_hole (revalidate m p)) with (p_hole p).
  destruct (is_valid m (p_contour p)); cbn [andb]; [|apply IH]. cbn [anchors_of]. rewrite Vp. cbn [andb]. destruct (p_hole p); [|apply IH].
  change (anchor_of dbg cw (revalidate m p)) with (anchor_of dbg cw p). rewrite IH. auto.
Qed.
Lemma contours_valid m ps : (forall p, In p ps -> p_valid p = true) ->
  outer_contours (map (revalidate m) ps) = outer_contours (filter (fun p => is_valid m (p_contour p)) ps) /\
  hole_contours (map (revalidate m) ps) = hole_contours (filter (fun p => is_valid m (p_contour p)) ps).
Proof.
  intro V.
  assert (K : forall f : bool -> bool, map p_contour (filter (fun p => p_valid p && f (p_hole p)) (map (revalidate m) ps)) =
    map p_contour (filter (fun p => p_valid p && f (p_hole p)) (filter (fun p => is_valid m (p_contour p)) ps))).
  { intro f. induction ps as [|p ps IH]; auto. specialize (IH (fun q I => V q (or_intror I))). pose proof (V p (or_introl eq_refl)) as Vp. cbn [map filter].
    change (p_valid (revalidate m p)) with (is_valid m (p_contour p)). change (p_hole (revalidate m p)) with (p_hole p).
    destruct (is_valid m (p_contour p)); cbn [andb]; auto. cbn [filter]. rewrite Vp. cbn [andb]. destruct (f (p_hole p)); cbn [map]; rewrite IH; auto. }
  unfold outer_contours, hole_contours. split; [apply (K negb)|apply (K (fun b => b))].
Qed.

(** ** gluing *)
Section Glue.
  Variable segs : list (segment cntB).
  Hypothesis A : arrangement segs.
  Variables (fr : FillRule) (r : OverlayRule) (inc0 : fill_t -> bool) (g : graph) (pts : list pt).
  Notation links := (kept inc0 fr segs).
  Notation inc := (fun l => is_included r (l_fill l)).
  Hypothesis G : graph_of links g pts.
  Hypothesis Fi : filter inc links = result_links fr r segs.
  Hypothesis Ap : apart (result_links fr r segs).
  Notation R q := (bool_op r (inside fr (wind (subj_chain segs) q)) (inside fr (wind (clip_chain segs) q))).
  Notation P := (glue_planar segs A fr inc0 g pts G).
  Variables (clean : bool -> list pt -> list pt * bool) (clockwise simplify : bool) (min_area : Z) (ps : list piece).
  Hypothesis M : 0 <= min_area.
  Hypothesis Ck : clean_ok clean.
  Hypothesis Si : simplify_ok clean.
  Hypothesis De : dedup_ok clean.
  Hypothesis H : extract_pieces g clean r clockwise simplify 0 (flags inc links) = Some ps.
  Notation left := (filter (big min_area) (outer_contours ps) ++ filter (big min_area) (hole_contours ps)).

  Lemma glue_left dbg : exists shapes, extract_shapes dbg g clean r clockwise simplify min_area (flags inc links) = Some shapes /\
    grouped (filter (big min_area) (outer_contours ps)) (filter (big min_area) (hole_contours ps)) shapes /\
    (forall q, contours_wind (outer_contours ps ++ hole_contours ps) q = sign_of clockwise * bz (R q)) /\
    nz_shapes_ok (sign_of clockwise) (fun q => negb (contours_wind left q =? 0)) shapes.
  Proof.
    set (kR := fun i => coef r (lk g i)).
    assert (Len : length (flags inc links) = length (g_links g)) by (unfold flags; rewrite map_length; symmetry; apply (go_len _ _ _ G)).
    assert (NV : forall i, valid g i -> not_visited (flags inc links) i = is_included r (l_fill (lk g i))).
    { intros i V. destruct (glue_link segs fr inc0 g pts G i V) as (l & Hl & _ & <-). apply (flags_visited inc links i l Hl). }
    assert (KR : forall i, valid g i -> if not_visited (flags inc links) i then kR i = 1 \/ kR i = -1 else kR i = 0).
    { intros i V. rewrite (NV i V). unfold kR, coef. destruct (is_included r _); auto. destruct (is_fill_top r _); auto. }
    assert (WRb : forall q, wind (ch (ges g) (kx g kR)) q = bz (R q)).
    { intro q. rewrite <- (region_signed segs A fr r q). fold (result_links fr r segs). unfold wind, ch, link_chain. rewrite !zsum_map. cbn [fst snd].
      apply (glue_sum segs A fr r inc0 g pts G Fi (fun e k => if under e q then k else 0)). intro e. destruct (under e q); auto. }
    assert (BR : balanced (ch (ges g) (kx g kR))).
    { intro v. rewrite <- (links_balanced segs A fr r v). fold (result_links fr r segs). unfold boundary, ch, link_chain. rewrite !zsum_map. cbn [fst snd].
      apply (glue_sum segs A fr r inc0 g pts G Fi (fun e k => k * (bz (pt_eqb (sb e) v) - bz (pt_eqb (sa e) v)))). intro e. lia. }
    assert (WR : forall q, wind (ch (ges g) (kx g kR)) q = 0 \/ wind (ch (ges g) (kx g kR)) q = 1).
    { intro q. rewrite WRb. destruct (R q); auto. }
    assert (KT : forall i, valid g i -> not_visited (flags inc links) i = true -> kR i = if is_fill_top r (l_fill (lk g i)) then 1 else -1).
    { intros i V U. rewrite (NV i V) in U. unfold kR, coef. rewrite U. auto. }
    pose proof (ginv_start g P kR (flags inc links) KR BR WR) as GI.
    assert (Ev0 : forall v, Nat.Even (degree (filter inc links) v)) by (intro v; rewrite Fi; apply result_even; auto).
    assert (Ev : all_even g (flags inc links)) by (eapply flags_even; [exact G|exact Ev0]).
    pose proof (glue_wf segs A fr inc0 g pts G) as GW. pose proof (glue_nodup segs fr inc0 g pts G) as Nd. pose proof (glue_sorted segs A fr inc0 g pts G) as GS.
    assert (Sp : forall p, In p ps -> Forall2 (edge_of links) (edges (p_raw p)) (p_used p) /\ p_contour p = fst (clean simplify (p_raw p)) /\ p_valid p = is_valid 0 (p_contour p)).
    { destruct (pieces_spec links g pts inc clean r clockwise simplify 0 G (blinks_wf segs A fr _) Ev0) as (ps' & P1 & P2 & _). rewrite H in P1. injection P1 as <-.
      rewrite Forall_forall in P2. exact P2. }
    assert (Va : forall p, In p ps -> (exists q, contour_wind (p_raw p) q <> 0) -> p_valid p = true).
    { intros p I Nz. destruct (Sp p I) as (_ & Ec & Ev'). eapply valid_pieces; eauto. }
    pose proof (extract_steps g pts GW P Nd GS kR (flags inc links) KR BR WR clean r clockwise simplify 0 KT _ 0 _ ps GI Ev Len (fun i _ => Nat.le_0_l i) H Va) as St.
    assert (T2 : two g (flags inc links)).
    { apply apart_two with (pts := pts); auto; [apply blinks_nodup; auto|rewrite Fi; auto]. }
    assert (Tw : forall v x y z, valid g x -> valid g y -> valid g z -> not_visited (flags inc links) x = true -> not_visited (flags inc links) y = true -> not_visited (flags inc links) z = true ->
      (v = sa (seg g x) \/ v = sb (seg g x)) -> (v = sa (seg g y) \/ v = sb (seg g y)) -> (v = sa (seg g z) \/ v = sb (seg g z)) -> x = y \/ y = z \/ x = z).
    { assert (Li : forall x, valid g x -> not_visited (flags inc links) x = true -> exists l, In l (result_links fr r segs) /\ l_seg l = seg g x).
        { intros x V U. destruct (glue_link segs fr inc0 g pts G x V) as (l & Hl & El & _). exists l. split; auto. rewrite <- Fi. apply filter_In. split; [eapply nth_error_In; eauto|].
          rewrite <- (flags_visited inc links x l Hl). auto. }
      intros v x y z Vx Vy Vz Ux Uy Uz Tx Ty Tz. destruct (Li x Vx Ux) as (l & Il & El). destruct (Li y Vy Uy) as (l' & Il' & El'). destruct (Li z Vz Uz) as (l'' & Il'' & El'').
        rewrite <- El in Tx. rewrite <- El' in Ty. rewrite <- El'' in Tz.
        destruct (Ap v l l' l'' Il Il' Il'' Tx Ty Tz) as [X|[X|X]]; [left|right; left|right; right]; apply (seg_inj g P); auto; congruence. }
    assert (Th : forall i p, at_ ps i p -> thinned (p_contour p) (p_raw p) /\ (p_mod p = false -> p_contour p = p_raw p)).
    { intros i p Hi. pose proof (raw_goes_on g P kR (flags inc links) KR clean clockwise simplify ps St i p Hi) as Go.
      destruct (steps_at _ _ _ _ _ _ _ ps St i p Hi) as (vi & vi' & t & Sf & _). pose proof (sf_clean _ _ _ _ _ _ _ _ _ _ Sf) as Sc.
      destruct simplify.
      - destruct (Si (p_raw p) Go) as [X Y]. rewrite Sc in X, Y. auto.
      - assert (E : clean false (p_raw p) = (p_raw p, false)).
        { apply De. destruct (Sp p (nth_error_In _ _ Hi)) as (Wk & _). eapply walk_distinct; [|exact Wk]. apply blinks_wf; auto. }
        rewrite E in Sc. injection Sc as <- <-. split; auto. apply T_same. }
    assert (Cw : forall i p q, at_ ps i p -> contour_wind (p_contour p) q = main_dir clockwise * wind (C g kR p) q).
    { intros i p q Hi. rewrite (thinned_wind (p_contour p) (p_raw p) q (proj1 (Th i p Hi))). destruct (steps_at _ _ _ _ _ _ _ ps St i p Hi) as (vi & vi' & t & Sf & _). apply (sf_cw _ _ _ _ _ _ _ _ _ _ Sf). }
    assert (Vl : forall p, In p ps -> p_valid p = true).
    { intros p I. apply In_nth_error in I as (i & Hi). destruct (steps_at _ _ _ _ _ _ _ ps St i p Hi) as (vi & vi' & t & Sf & _). apply (sf_valid _ _ _ _ _ _ _ _ _ _ Sf). }
    set (keep := fun p => is_valid min_area (p_contour p)).
    assert (Kp : forall p, In p ps -> keep p = big min_area (p_contour p)).
    { intros p I. unfold keep. rewrite big_valid. pose proof (Vl p I) as V. rewrite (proj2 (proj2 (Sp p I))), big_valid in V. apply andb_true_iff in V as [-> _]. cbn [andb].
      destruct (Z.eqb_spec min_area 0) as [->|]; auto. unfold big. symmetry. apply Z.leb_le. apply Z.div_pos; lia. }
    assert (Km : forall i j p p' q, (i < j)%nat -> at_ ps i p -> at_ ps j p' -> wind (C g kR p) q <> 0 -> wind (C g kR p') q <> 0 -> keep p' = true -> keep p = true).
    { intros i j p p' q L Hi Hj N N'. rewrite !Kp by (eapply nth_error_In; eauto). unfold big. rewrite !Z.leb_le. intro B. eapply Z.le_trans; [exact B|]. apply Z.div_le_mono; [lia|].
      set (d := main_dir clockwise * sgn p). set (d' := main_dir clockwise * sgn p').
      assert (Dd : forall x k q0, at_ ps k x -> (main_dir clockwise * sgn x) * contour_wind (p_contour x) q0 = if wind (C g kR x) q0 =? 0 then 0 else 1).
      { intros x k q0 Hx. rewrite (Cw k x q0 Hx). destruct (windC g kR (flags inc links) clean clockwise simplify ps St k x Hx q0) as [-> | ->].
        - rewrite Z.eqb_refl. lia.
        - destruct (Z.eqb_spec (sgn x) 0) as [E|E]; [unfold sgn in E; destruct (p_hole x); discriminate|]. unfold main_dir, sgn. destruct clockwise, (p_hole x); reflexivity. }
      assert (Ab : forall x k, at_ ps k x -> Z.abs (area2 (p_contour x)) = main_dir clockwise * sgn x * area2 (p_contour x)).
      { intros x k Hx. assert (X : 0 * area2 (p_contour x) <= main_dir clockwise * sgn x * area2 (p_contour x)).
        { apply area_mono. intro q0. rewrite (Dd x k q0 Hx). destruct (_ =? _); lia. }
        unfold main_dir, sgn in *. destruct clockwise, (p_hole x); lia. }
      rewrite (Ab p i Hi), (Ab p' j Hj). apply area_mono. intro q0. rewrite (Dd p i q0 Hi), (Dd p' j q0 Hj).
      destruct (Z.eqb_spec (wind (C g kR p') q0) 0) as [E|E]; [destruct (_ =? _); lia|].
      pose proof (nest g P kR (flags inc links) clean clockwise simplify ps St i j p p' L Hi Hj q0 q E N') as X.
      destruct (Z.eqb_spec (wind (C g kR p) q0) 0) as [E'|E']; [congruence|lia]. }
    set (Dr := D ps keep). set (visK := mask Dr (flags inc links)).
    pose proof (mask_masked Dr (flags inc links)) as Mk. fold visK in Mk.
    set (k' := kK kR ps keep).
    assert (NK : forall i, not_visited visK i = true -> not_visited (flags inc links) i = true /\ Dr i = false).
    { intros i U. rewrite (masked_un Dr _ _ i Mk) in U. apply andb_true_iff in U as [U1 U2]. apply negb_true_iff in U2. auto. }
    assert (KR' : forall i, valid g i -> if not_visited visK i then k' i = 1 \/ k' i = -1 else k' i = 0).
    { intros i V. specialize (KR i V). rewrite (masked_un Dr _ _ i Mk). unfold k', kK. fold Dr. destruct (not_visited (flags inc links) i), (Dr i); cbn [andb negb]; auto. }
    pose proof (kK_bal g P kR (flags inc links) KR clean clockwise simplify ps St keep) as BR'. fold k' in BR'.
    pose proof (kept_wind g P kR (flags inc links) KR clean clockwise simplify ps St keep Km) as WR'. fold k' in WR'.
    assert (KT' : forall i, valid g i -> not_visited visK i = true -> k' i = if is_fill_top r (l_fill (lk g i)) then 1 else -1).
    { intros i V U. destruct (NK i U) as [U1 U2]. unfold k', kK. fold Dr. rewrite U2. auto. }
    assert (Du : forall p, In p ps -> forall x, In x (p_used p) -> Dr x = negb (keep p)).
    { intros p I x Ix. apply In_nth_error in I as (i & Hi). apply (D_used g kR (flags inc links) clean clockwise simplify ps St keep i p x Hi Ix). }
    assert (EvK : all_even g visK).
    { apply mask_even; auto. intros x y n k Hn Ix Iy Ux Uy.
      assert (Vx : valid g x) by (unfold valid; rewrite <- Len; apply unvisited_lt; auto).
      destruct (steps_all g kR (flags inc links) clean clockwise simplify _ ps St x Vx Ux) as (i & p & Hi & Xp). pose proof (nth_error_In _ _ Hi) as I.
      destruct (closed_pieces g pts GW clean r clockwise simplify Dr 0 _ _ _ _ Ev Len T2 H p I) as [_ Cl].
      rewrite (Du p I x Xp), (Du p I y); auto. apply (Cl x y n k); auto. }
    assert (LenK : length visK = length (g_links g)) by (rewrite (proj1 Mk); auto).
    destruct (extract_masked g pts GW clean r clockwise simplify Dr 0 _ 0 (flags inc links) visK ps Ev Len T2 Mk H) as (fuel & Hk).
    { intros p I _. destruct (keep p) eqn:K; [right|left]; intros x Ix; rewrite (Du p I x Ix), K; auto. }
    assert (Fk : filter (fun p => negb (dropped Dr p)) ps = filter keep ps).
    { apply filter_ext_in. intros p I. pose proof I as I0. apply In_nth_error in I0 as (i & Hi). destruct (steps_at _ _ _ _ _ _ _ ps St i p Hi) as (vi & vi' & t & Sf & _).
      destruct (sf_used _ _ _ _ _ _ _ _ _ _ Sf) as (u & Eu). unfold dropped. destruct (keep p) eqn:K.
      - rewrite Eu. cbn [forallb]. rewrite (Du p I t) by (rewrite Eu; left; auto). rewrite K. auto.
      - apply negb_false_iff, forallb_forall. intros x Ix. rewrite (Du p I x Ix), K. auto. }
    rewrite Fk in Hk.
    assert (St' : steps g k' visK clean clockwise simplify visK (filter keep ps)).
    { apply (extract_steps g pts GW P Nd GS k' visK KR' BR' WR' clean r clockwise simplify 0 KT' fuel 0 visK (filter keep ps) (ginv_start g P k' visK KR' BR' WR') EvK LenK (fun i _ => Nat.le_0_l i) Hk).
      intros p I _. apply filter_In in I as [I _]. auto. }
    assert (Th' : forall i p, at_ (filter keep ps) i p -> thinned (p_contour p) (p_raw p) /\ (p_mod p = false -> p_contour p = p_raw p)).
    { intros i p Hi. apply nth_error_In in Hi. apply filter_In in Hi as [I _]. apply In_nth_error in I as (j & Hj). apply (Th j p Hj). }
    destruct (kept_shapes g P k' visK KR' BR' WR' clean clockwise simplify (filter keep ps) St' Th') with (dbg := dbg) as (shapes & Jn & Gr & Ok).
    { intros v x y z Vx Vy Vz Ux Uy Uz. apply Tw; auto; apply NK; auto. }
    destruct (contours_valid min_area ps Vl) as [Eo Eh]. fold keep in Eo, Eh.
    destruct (raised 0 min_area ps) as [Ro Rh]; [lia|intros p I; apply (Sp p I)|].
    exists shapes. split; [|split; [|split]].
    - unfold extract_shapes. rewrite (extract_revalidate g pts GW clean r clockwise simplify 0 min_area (flags inc links) ps Ev Len T2 H).
      rewrite (anchors_valid dbg clockwise min_area ps Vl 0), Eo, Eh. exact Jn.
    - rewrite <- Ro, <- Rh, Eo, Eh. exact Gr.
    - intro q. rewrite <- WRb, (total g P kR (flags inc links) KR clean clockwise simplify ps St q). change (sign_of clockwise) with (main_dir clockwise). rewrite <- zsum_mult.
      unfold contours_wind. rewrite zsum_app. unfold outer_contours, hole_contours. rewrite !zsum_map, !zsum_filter, <- zsum_plus. apply zsum_ext. intros p I. rewrite (Vl p I). cbn [andb].
      transitivity (contour_wind (p_contour p) q); [destruct (p_hole p); cbn [negb]; lia|]. apply In_nth_error in I as (i & Hi). eauto.
    - assert (E : forall q, contours_wind left q = main_dir clockwise * wind (ch (ges g) (kx g k')) q).
      { intro q. rewrite <- Ro, <- Rh, Eo, Eh. unfold k'. rewrite (kK_wind g P kR (flags inc links) KR clean clockwise simplify ps St keep q), <- zsum_mult.
        unfold contours_wind. rewrite zsum_app. unfold outer_contours, hole_contours. rewrite !zsum_map, !zsum_filter, <- zsum_plus. apply zsum_ext. intros p I. rewrite (Vl p I). cbn [andb].
        destruct (keep p); [|lia].
        transitivity (contour_wind (p_contour p) q); [destruct (p_hole p); cbn [negb]; lia|]. apply In_nth_error in I as (i & Hi). eauto. }
      destruct Ok as (O1 & O2 & O3). split; auto. split; auto. intro q. rewrite O3, !negb_true_iff, !Z.eqb_neq, E. unfold main_dir. destruct clockwise; lia.
  Qed.
End Glue.

(** ** C40 with a minimal area *)
(** the contours that are large enough *)
Definition left_over (min_area : Z) (ps : list piece) : list (list pt) := filter (big min_area) (outer_contours ps ++ hole_contours ps).

(** If no two contours of the result touch, and none touches itself: the contours of at least the minimal area,
    and no others, are grouped into shapes, which do not overlap and make up exactly the region these contours
    bound.  ([ps] are the contours of the whole result, found with minimal area 0.) *)
Theorem C40_min_area_partial segs fr r ends clean clockwise simplify dbg min_area : arrangement segs -> ends_ok (result_links fr r segs) ends ->
  clean_ok clean -> simplify_ok clean -> dedup_ok clean -> apart (result_links fr r segs) -> 0 <= min_area ->
  exists g ps shapes, graph_new (result_links fr r segs) ends = Some g /\
    extract_pieces g clean r clockwise simplify 0 (repeat false (length (result_links fr r segs))) = Some ps /\
    (forall q, contours_wind (outer_contours ps ++ hole_contours ps) q =
       sign_of clockwise * bz (bool_op r (inside fr (wind (subj_chain segs) q)) (inside fr (wind (clip_chain segs) q)))) /\
    extract_shapes dbg g clean r clockwise simplify min_area (repeat false (length (result_links fr r segs))) = Some shapes /\
    grouped (filter (big min_area) (outer_contours ps)) (filter (big min_area) (hole_contours ps)) shapes /\
    shapes_ok (sign_of clockwise) (fun q => negb (contours_wind (left_over min_area ps) q =? 0)) shapes.
Proof.
  intros A E Ck Si De Ap M. destruct (blinks_graph segs A fr _ ends E) as (g & pts & H & G). fold (result_links fr r segs) in *.
  set (inc := fun l => is_included r (l_fill l)).
  assert (Al : forall l, In l (result_links fr r segs) -> inc l = true).
  { intros l I. apply blinks_in in I as (s & f & _ & If & ->). exact If. }
  assert (Fi : filter inc (result_links fr r segs) = result_links fr r segs).
  { revert Al. generalize (result_links fr r segs). induction l as [|x l IH]; intro Al; auto. simpl. rewrite (Al x) by (simpl; auto). f_equal. apply IH. intros; apply Al; simpl; auto. }
  assert (Ff : flags inc (result_links fr r segs) = repeat false (length (result_links fr r segs))).
  { rewrite <- flags_all. unfold flags. apply map_ext_in. intros l I. rewrite (Al l I). auto. }
  destruct (pieces_spec (result_links fr r segs) g pts inc clean r clockwise simplify 0 G (blinks_wf segs A fr _)) as (ps & P1 & P2 & _).
  { intro v. rewrite Fi. apply result_even; auto. }
  destruct (glue_left segs A fr r (is_included r) g pts G Fi Ap clean clockwise simplify min_area ps M Ck Si De P1 dbg) as (shapes & Hs & Gr & Rg & Ok).
  change (kept (is_included r) fr segs) with (result_links fr r segs) in Hs. fold inc in Hs.
  exists g, ps, shapes. rewrite <- Ff. split; auto. split; auto. split; auto. split; [exact Hs|]. split; auto.
  apply shapes_covers; [destruct clockwise; discriminate|]. unfold left_over. rewrite filter_app. exact Ok.
Qed.
(** the same for an [OverlayGraph] kept by the caller and asked for any rule *)
Theorem C40_min_area_graph_partial segs fr r ends clean clockwise simplify dbg min_area : arrangement segs ->
  let links := kept is_included_filler fr segs in
  ends_ok links ends -> clean_ok clean -> simplify_ok clean -> dedup_ok clean -> apart (result_links fr r segs) -> 0 <= min_area ->
  exists g ps shapes, graph_new links ends = Some g /\
    extract_pieces g clean r clockwise simplify 0 (filter_by_rule r links) = Some ps /\
    (forall q, contours_wind (outer_contours ps ++ hole_contours ps) q =
       sign_of clockwise * bz (bool_op r (inside fr (wind (subj_chain segs) q)) (inside fr (wind (clip_chain segs) q)))) /\
    extract_shapes dbg g clean r clockwise simplify min_area (filter_by_rule r links) = Some shapes /\
    grouped (filter (big min_area) (outer_contours ps)) (filter (big min_area) (hole_contours ps)) shapes /\
    shapes_ok (sign_of clockwise) (fun q => negb (contours_wind (left_over min_area ps) q =? 0)) shapes.
Proof.
  intros A links E Ck Si De Ap M. destruct (blinks_graph segs A fr _ ends E) as (g & pts & H & G). fold links in G, H.
  set (inc := fun l => is_included r (l_fill l)).
  assert (Fi : filter inc links = result_links fr r segs) by (apply graph_reuse; auto).
  destruct (pieces_spec links g pts inc clean r clockwise simplify 0 G (blinks_wf segs A fr _)) as (ps & P1 & P2 & _).
  { intro v. rewrite Fi. apply result_even; auto. }
  destruct (glue_left segs A fr r is_included_filler g pts G Fi Ap clean clockwise simplify min_area ps M Ck Si De P1 dbg) as (shapes & Hs & Gr & Rg & Ok).
  exists g, ps, shapes. split; auto. split; [exact P1|]. split; auto. split; [exact Hs|]. split; auto.
  apply shapes_covers; [destruct clockwise; discriminate|]. unfold left_over. rewrite filter_app. exact Ok.
Qed.

(** ** the whole run *)
Section WithContracts.
  Variable layout_new : Z -> Z -> nat -> option (Z -> nat).
  Hypothesis Lay : layout_ok layout_new.
  Variable query : list (nat * xseg) -> Z * Z -> Z -> list (nat * xseg).
  Hypothesis Qry : query_ok query.
  Variable tree_new : Z * Z -> bool.
  Notation merged adds := (sort_merge (input_segments adds)).

  (** No crossing needs rounding and the contours of the result do not touch: for every minimal area the shapes
      returned are made of the contours of the exact result that are large enough. *)
  Theorem C40_overlay_min_area_partial fuel solver adds r fr clean clockwise simplify dbg min_area : bounded_input adds -> no_grid solver (length (merged adds)) ->
    Forall (fun a => open_contour (fst a)) adds -> merged adds <> [] -> exact_crossings (map sx (merged adds)) -> clean_ok clean -> simplify_ok clean -> dedup_ok clean -> 0 <= min_area ->
    exists ls, overlay_links layout_new query tree_new (S fuel) solver r fr (input_segments adds) = ROk ls /\
      forall ends, ends_ok ls ends -> apart ls -> exists g ps shapes, graph_new ls ends = Some g /\
        extract_pieces g clean r clockwise simplify 0 (repeat false (length ls)) = Some ps /\
        (forall q, contours_wind (outer_contours ps ++ hole_contours ps) q =
           sign_of clockwise * bz (bool_op r (inside fr (contours_wind (operand Subject adds) q)) (inside fr (contours_wind (operand Clip adds) q)))) /\
        extract_shapes dbg g clean r clockwise simplify min_area (repeat false (length ls)) = Some shapes /\
        grouped (filter (big min_area) (outer_contours ps)) (filter (big min_area) (hole_contours ps)) shapes /\
        shapes_ok (sign_of clockwise) (fun q => negb (contours_wind (left_over min_area ps) q =? 0)) shapes.
  Proof.
    intros B N O NE Ex Ck Si De M. destruct (merged_balanced adds) as [BS BC].
    destruct (split_exact layout_new Lay query Qry tree_new (input_segments adds) (input_inv adds B) BS BC solver fuel N Ex (or_introl NE)) as (out & H & W1 & W2).
    assert (WS : forall q, wind (subj_chain out) q = contours_wind (operand Subject adds) q).
    { intro q. rewrite W1. unfold subj_chain at 1. rewrite sort_merge_wind by (reflexivity || (intros [? ?]; simpl; lia)). apply input_wind_subj; auto. }
    assert (WC : forall q, wind (clip_chain out) q = contours_wind (operand Clip adds) q).
    { intro q. rewrite W2. unfold clip_chain at 1. rewrite sort_merge_wind by (reflexivity || (intros [? ?]; simpl; lia)). apply input_wind_clip; auto. }
    destruct (C20_region_exact layout_new Lay query Qry tree_new fuel solver adds r fr B N O NE Ex) as (ls & Hl & _).
    exists ls. split; auto. intros ends E Ap.
    destruct (overlay_arrangement layout_new Lay query Qry tree_new _ _ _ _ _ _ B N Hl) as (segs & Hs & A & ->).
    assert (S : segs = out) by (rewrite Hs in H; [injection H; auto|intro X; apply NE; rewrite X; reflexivity]). subst segs.
    destruct (C40_min_area_partial out fr r ends clean clockwise simplify dbg min_area A E Ck Si De Ap M) as (g & ps & shapes & Hg & Hp & Rg & Hx & Gr & Ok).
    exists g, ps, shapes. split; auto. split; auto. split; auto. intro q. rewrite Rg, WS, WC. auto.
  Qed.
End WithContracts.

(** ** Examples *)
Example C40_min_area_example :
  (exists ls, links_of RUnion EvenOdd side_adds = Some ls /\ apart ls) /\
  (exists o h isl, run_simplified RUnion EvenOdd false 0 side_adds = Some [[o; h]; [isl]] /\
     run_simplified RUnion EvenOdd false 25 side_adds = Some [[o; h]] /\
     run_simplified RUnion EvenOdd false 201 side_adds = Some [[o]] /\ area2 o / 2 = 800 /\ area2 isl / 2 = 24).
Proof.
  split; [eexists; split; [vm_compute; reflexivity|apply apartb_ok; vm_compute; reflexivity]|].
  do 3 eexists. split; [vm_compute; reflexivity|]. split; [vm_compute; reflexivity|]. split; [vm_compute; reflexivity|]. split; reflexivity.
Qed.
Print Assumptions C40_overlay_min_area_partial.
Print Assumptions C40_min_area_graph_partial.
