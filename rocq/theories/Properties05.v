(** * Property theorems, part 5: assembling contours into shapes (C22, C40). *)
From Verif Require Import Base Spec QLib ModelSegm SegmProofs MergeProofs PlanarGeo PlanarSum ModelFill ModelFilter FillProofs FillCorrect
  ModelCross CrossProofs CoreResults Properties01 ModelSplit SplitProofs SplitPlanar SplitPass BinsProofs SplitApply SplitLoop
  ModelFrag ModelOverlay OverlayProofs FragProofs GridCover Properties02
  ModelGraph GraphProofs ModelExtract ExtractProofs ContourResults Rotation NextLink Properties03
  MoveLemma SectorLemma Sides WalkSides Orient Properties04 ModelBind BindProofs BindSweep Thin Nest.
Open Scope Z_scope.

(** ** Specification *)
(** Contours grouped into shapes: shape number [k] starts with the [k]-th outer contour, what
    follows are holes, and over all shapes every hole is used exactly once. *)
Definition grouped {X} (outers holes : list X) (shapes : list (list X)) : Prop :=
  map (@hd_error X) shapes = map Some outers /\ Permutation (concat (map (@tl X) shapes)) holes.
(** one shape, main direction [d]: an outer contour, holes of the opposite direction inside it, no
    two of which enclose a common point; so a point has winding number [d] or 0 with respect to it *)
Definition shape_ok (d : Z) (sh : list (list pt)) : Prop :=
  exists o hs, sh = o :: hs /\ turns d o /\ Forall (turns (- d)) hs /\
    (forall h q, In h hs -> encloses h q -> encloses o q) /\
    (forall a b h h' q, a <> b -> nth_error hs a = Some h -> nth_error hs b = Some h' -> ~ (encloses h q /\ encloses h' q)) /\
    (forall q, contours_wind sh q = 0 \/ contours_wind sh q = d).
(** the point lies in the shape: inside the outer contour and in none of the holes *)
Definition covers (sh : list (list pt)) (q : qpt) : Prop :=
  match sh with [] => False | o :: hs => encloses o q /\ forall h, In h hs -> ~ encloses h q end.
(** the shapes make up the region [R], and no two of them overlap *)
Definition shapes_ok (d : Z) (R : qpt -> bool) (shapes : list (list (list pt))) : Prop :=
  Forall (shape_ok d) shapes /\
  (forall k k' sh sh' q, k <> k' -> nth_error shapes k = Some sh -> nth_error shapes k' = Some sh' -> ~ (covers sh q /\ covers sh' q)) /\
  forall q, (exists sh, In sh shapes /\ covers sh q) <-> R q = true.
(** contract of [dedup_contour] of [i_shape], used when [simplify_contour] is off: a contour without
    equal neighbours is not changed *)
Definition dedup_ok (clean : bool -> list pt -> list pt * bool) : Prop :=
  forall c, (forall e, In e (edges c) -> fst e <> snd e) -> clean false c = (c, false).

Definition nz_at (sh : list (list pt)) (q : qpt) : Prop := contours_wind sh q <> 0.
Lemma covers_spec o hs q d : d <> 0 -> turns d o -> Forall (turns (- d)) hs -> (forall h, In h hs -> encloses h q -> encloses o q) ->
  (forall a b h h', a <> b -> nth_error hs a = Some h -> nth_error hs b = Some h' -> ~ (encloses h q /\ encloses h' q)) ->
  (nz_at (o :: hs) q <-> covers (o :: hs) q).
Proof.
  intros Nd To Th In1 Dis. unfold nz_at, covers, encloses, contours_wind in *. rewrite zsum_cons. destruct To as [To _]. rewrite Forall_forall in Th.
  assert (Cs : (forall h, In h hs -> contour_wind h q = 0) \/ exists h, In h hs /\ contour_wind h q <> 0 /\ zsum (fun c => contour_wind c q) hs = contour_wind h q).
  { clear - Dis. induction hs as [|h hs IH]; [left; intros ? []|].
    assert (D' : forall a b h h' : _, a <> b -> nth_error hs a = Some h -> nth_error hs b = Some h' -> ~ (contour_wind h q <> 0 /\ contour_wind h' q <> 0)).
    { intros a b x y N Ha Hb. apply (Dis (S a) (S b)); auto. }
    destruct (Z.eq_dec (contour_wind h q) 0) as [Z0|Nz].
    - destruct (IH D') as [A|(x & Ix & Nx & E)]; [left; intros y [<-|I]; auto|]. right. exists x. split; [right; auto|]. split; auto. rewrite zsum_cons. lia.
    - right. exists h. split; [left; auto|]. split; auto. rewrite zsum_cons, zsum_zero; [lia|]. intros y I. apply In_nth_error in I as (n & Hn).
      destruct (Z.eq_dec (contour_wind y q) 0) as [|N2]; auto. exfalso. apply (Dis 0%nat (S n) h y); auto. }
  destruct Cs as [A|(h & Ih & Nh & E)].
  - rewrite zsum_zero by auto. rewrite Z.add_0_r. split; [|tauto]. intro N. split; auto.
  - rewrite E. split.
    + intro N. exfalso. apply N. destruct (Th h Ih) as [T _]. destruct (T q) as [X|X]; [congruence|]. specialize (In1 h Ih Nh). destruct (To q) as [Y|Y]; [congruence|]. lia.
    + intros [_ N]. exfalso. apply (N h Ih Nh).
Qed.

(** ** C22: every hole is attached to exactly one outer contour *)
Lemma assembled_grouped {X} (outers holes : list X) par out : assembled outers holes par out -> grouped outers holes out.
Proof.
  intro As. split; [|eapply assembled_concat; eauto]. destruct As as (_ & _ & Lo & Sp).
  apply nth_ext with (d := None) (d' := None); [rewrite !map_length; auto|]. intros k Lk. rewrite map_length, Lo in Lk.
  destruct (nth_error outers k) as [o|] eqn:Eo; [|apply nth_error_None in Eo; lia]. specialize (Sp k o Eo).
  transitivity (Some o); [apply nth_error_nth; rewrite nth_error_map, Sp; auto|symmetry; apply nth_error_nth; rewrite nth_error_map, Eo; auto].
Qed.

(** Whatever [extract] returns, its shapes are the kept outer contours in order, each followed by
    holes, every kept hole in exactly one shape (if there is an outer contour at all). *)
Theorem C22_holes_once dbg g clean r clockwise simplify min_area vis ps shapes :
  extract_pieces g clean r clockwise simplify min_area vis = Some ps -> outer_contours ps <> [] ->
  extract_shapes dbg g clean r clockwise simplify min_area vis = Some shapes ->
  grouped (outer_contours ps) (hole_contours ps) shapes.
Proof.
  intros E N H. unfold extract_shapes in H. rewrite E in H. destruct (anchors_of dbg clockwise 0 ps) as [[an srt]|]; [|discriminate].
  destruct (join_assembled _ _ _ _ _ _ H N) as (par & As). eapply assembled_grouped; eauto.
Qed.
(** the public joining functions: holes added to shapes of one contour each *)
Theorem C22_join_unsorted dbg outers holes clockwise shapes : outers <> [] ->
  join_unsorted_holes dbg (map (fun c => [c]) outers) holes clockwise = Some shapes -> grouped outers holes shapes.
Proof. intros N H. destruct (join_unsorted_assembled _ _ _ _ _ H N) as (par & As). eapply assembled_grouped; eauto. Qed.
Theorem C22_join_sorted dbg outers holes anchors clockwise shapes : outers <> [] ->
  join_sorted_holes dbg (map (fun c => [c]) outers) holes anchors clockwise = Some shapes -> grouped outers holes shapes.
Proof. intros N H. destruct (join_assembled _ _ _ _ _ _ H N) as (par & As). eapply assembled_grouped; eauto. Qed.

Definition nz_shapes_ok (d : Z) (R : qpt -> bool) (shapes : list (list (list pt))) : Prop :=
  Forall (shape_ok d) shapes /\
  (forall k k' sh sh' q, k <> k' -> nth_error shapes k = Some sh -> nth_error shapes k' = Some sh' -> ~ (nz_at sh q /\ nz_at sh' q)) /\
  forall q, (exists sh, In sh shapes /\ nz_at sh q) <-> R q = true.
Lemma shape_covers d sh q : d <> 0 -> shape_ok d sh -> (nz_at sh q <-> covers sh q).
Proof.
  intros Nd (o & hs & -> & T & Th & I & D & _). apply (covers_spec o hs q d); auto.
  - intros h Ih. apply I; auto.
  - intros a b h h' N Ha Hb. apply (D a b); auto.
Qed.
Lemma shapes_covers d R shapes : d <> 0 -> nz_shapes_ok d R shapes -> shapes_ok d R shapes.
Proof.
  intros Nd (F & D & C). split; auto. assert (Eq : forall sh q, In sh shapes -> (nz_at sh q <-> covers sh q)).
  { intros sh q I. rewrite Forall_forall in F. apply (shape_covers d); auto. }
  split.
  - intros k k' sh sh' q N E E' [C1 C2]. apply (D k k' sh sh' q N E E'). split; apply Eq; auto; eapply nth_error_In; eauto.
  - intro q. rewrite <- C. split; intros (sh & I & X); exists sh; split; auto; apply Eq; auto.
Qed.

(** no two contours touch, and none touches itself: at most two links of the result end in a point *)
Definition apart (ls : list link) : Prop := forall v l l' l'', In l ls -> In l' ls -> In l'' ls ->
  v = l_a l \/ v = l_b l -> v = l_a l' \/ v = l_b l' -> v = l_a l'' \/ v = l_b l'' -> l = l' \/ l' = l'' \/ l = l''.

(** ** gluing *)
Section Glue.
  Variable segs : list (segment cntB).
  Hypothesis A : arrangement segs.
  Variables (fr : FillRule) (r : OverlayRule) (inc0 : fill_t -> bool) (g : graph) (pts : list pt).
  Notation links := (kept inc0 fr segs).
  Notation inc := (fun l => is_included r (l_fill l)).
  Hypothesis G : graph_of links g pts.
  Hypothesis Fi : filter inc links = result_links fr r segs.
  Notation R q := (bool_op r (inside fr (wind (subj_chain segs) q)) (inside fr (wind (clip_chain segs) q))).
  Notation P := (glue_planar segs A fr inc0 g pts G).
  Variables (clean : bool -> list pt -> list pt * bool) (clockwise simplify : bool) (min_area : Z) (ps : list piece).
  Hypothesis H : extract_pieces g clean r clockwise simplify min_area (flags inc links) = Some ps.
  Hypothesis Va : forall p, In p ps -> (exists q, contour_wind (p_raw p) q <> 0) -> p_valid p = true.
  (** nothing is cleaned away, or points lying between their neighbours, and the edges that are left meet only in common ends *)
  Hypothesis Un : (forall p, In p ps -> clean simplify (p_raw p) = (p_raw p, false)) \/
    ((forall c, goes_on c -> thinned (fst (clean simplify c)) c /\ (snd (clean simplify c) = false -> fst (clean simplify c) = c)) /\
     (apart (result_links fr r segs) \/
      (forall p p' E E', In p ps -> In p' ps -> In E (edges (p_contour p)) -> In E' (edges (p_contour p')) -> nrm E <> nrm E' ->
        forall q, on_seg (nrm E) q -> on_seg (nrm E') q -> is_end (nrm E) q /\ is_end (nrm E') q))).
  Hypothesis On : (clockwise = true -> forall p, In p ps -> p_hole p = true -> second_once (p_raw p)) \/ apart (result_links fr r segs).

  Lemma glue_any dbg : exists shapes, extract_shapes dbg g clean r clockwise simplify min_area (flags inc links) = Some shapes /\
    grouped (outer_contours ps) (hole_contours ps) shapes /\ nz_shapes_ok (sign_of clockwise) (fun q => R q) shapes.
  Proof.
    set (kR := fun i => coef r (lk g i)).
    assert (Len : length (flags inc links) = length (g_links g)) by (unfold flags; rewrite map_length; symmetry; apply (go_len _ _ _ G)).
    assert (NV : forall i, valid g i -> not_visited (flags inc links) i = is_included r (l_fill (lk g i))).
    { intros i V. destruct (glue_link segs fr inc0 g pts G i V) as (l & Hl & _ & <-). apply (flags_visited inc links i l Hl). }
    assert (KR : forall i, valid g i -> if not_visited (flags inc links) i then kR i = 1 \/ kR i = -1 else kR i = 0).
    { intros i V. rewrite (NV i V). unfold kR, coef. destruct (is_included r _); auto. destruct (is_fill_top r _); auto. }
    assert (WRb : forall q, wind (ch (ges g) (kx g kR)) q = bz (R q)).
    { intro q. rewrite <- (region_signed segs A fr r q). fold (result_links fr r segs). unfold wind, ch, link_chain. rewrite !zsum_map. cbn [fst snd].
      apply (glue_sum segs A fr r inc0 g pts G Fi (fun e k => if under e q then k else 0)). intro e. destruct (under e q); auto. }
    assert (BR : balanced (ch (ges g) (kx g kR))).
    { intro v. rewrite <- (links_balanced segs A fr r v). fold (result_links fr r segs). unfold boundary, ch, link_chain. rewrite !zsum_map. cbn [fst snd].
      apply (glue_sum segs A fr r inc0 g pts G Fi (fun e k => k * (bz (pt_eqb (sb e) v) - bz (pt_eqb (sa e) v)))). intro e. lia. }
    assert (WR : forall q, wind (ch (ges g) (kx g kR)) q = 0 \/ wind (ch (ges g) (kx g kR)) q = 1).
    { intro q. rewrite WRb. destruct (R q); auto. }
    assert (KT : forall i, valid g i -> not_visited (flags inc links) i = true -> kR i = if is_fill_top r (l_fill (lk g i)) then 1 else -1).
    { intros i V U. rewrite (NV i V) in U. unfold kR, coef. rewrite U. auto. }
    pose proof (ginv_start g P kR (flags inc links) KR BR WR) as GI.
    assert (Ev : all_even g (flags inc links)).
    { eapply flags_even; [exact G|]. intro v. rewrite Fi. apply result_even; auto. }
    pose proof (glue_wf segs A fr inc0 g pts G) as GW. pose proof (glue_nodup segs fr inc0 g pts G) as Nd. pose proof (glue_sorted segs A fr inc0 g pts G) as GS.
    pose proof (extract_steps g pts GW P Nd GS kR (flags inc links) KR BR WR clean r clockwise simplify min_area KT _ 0 _ ps GI Ev Len (fun i _ => Nat.le_0_l i) H Va) as St.
    destruct (glue_oriented segs A fr r inc0 g pts G Fi clean clockwise simplify min_area ps H Va) as [O1 O2].
    assert (Tn : forall p, In p ps -> turns (piece_dir clockwise (p_hole p)) (p_raw p)).
    { intros p I. apply in_split in I as (l1 & l2 & E). destruct (O2 l1 p l2 E) as (X1 & X2 & _). split; auto. }
    assert (Nz : forall p, In p ps -> exists q, contour_wind (p_raw p) q <> 0).
    { intros p I. destruct (Tn p I) as [_ (q & E)]. exists q. rewrite E. unfold piece_dir, main_dir. destruct (p_hole p), clockwise; discriminate. }
    assert (Len3 : forall p, In p ps -> (3 <= length (p_raw p))%nat).
    { intros p I. destruct (Nz p I) as (q & N). destruct (le_lt_dec 3 (length (p_raw p))) as [|L]; auto. exfalso. apply N. apply short_contour; auto. }
    assert (Scl : forall p, In p ps -> p_contour p = fst (clean simplify (p_raw p)) /\ p_mod p = snd (clean simplify (p_raw p))).
    { intros p I. apply In_nth_error in I as (i & Hi). destruct (steps_at _ _ _ _ _ _ _ ps St i p Hi) as (vi & vi' & t & Sf & _). pose proof (sf_clean _ _ _ _ _ _ _ _ _ _ Sf) as Sc. rewrite Sc. auto. }
    assert (Tw : apart (result_links fr r segs) -> forall v x y z, valid g x -> valid g y -> valid g z -> not_visited (flags inc links) x = true -> not_visited (flags inc links) y = true -> not_visited (flags inc links) z = true ->
      (v = sa (seg g x) \/ v = sb (seg g x)) -> (v = sa (seg g y) \/ v = sb (seg g y)) -> (v = sa (seg g z) \/ v = sb (seg g z)) -> x = y \/ y = z \/ x = z).
    { intro Two.
      assert (Li : forall x, valid g x -> not_visited (flags inc links) x = true -> exists l, In l (result_links fr r segs) /\ l_seg l = seg g x).
        { intros x V U. destruct (glue_link segs fr inc0 g pts G x V) as (l & Hl & El & _). exists l. split; auto. rewrite <- Fi. apply filter_In. split; [eapply nth_error_In; eauto|].
          rewrite <- (flags_visited inc links x l Hl). auto. }
      intros v x y z Vx Vy Vz Ux Uy Uz Tx Ty Tz. destruct (Li x Vx Ux) as (l & Il & El). destruct (Li y Vy Uy) as (l' & Il' & El'). destruct (Li z Vz Uz) as (l'' & Il'' & El'').
        rewrite <- El in Tx. rewrite <- El' in Ty. rewrite <- El'' in Tz.
        destruct (Two v l l' l'' Il Il' Il'' Tx Ty Tz) as [X|[X|X]]; [left|right; left|right; right]; apply (seg_inj g P); auto; congruence. }
    assert (On' : clockwise = true -> forall i p, at_ ps i p -> p_hole p = true -> second_once (p_raw p)).
    { intros Cw i p Hi Hh. pose proof (nth_error_In _ _ Hi) as I. destruct On as [On0|Two]; [apply On0; auto|].
      pose proof (untouched_once g kR (flags inc links) KR clean clockwise simplify ps St i p (Tw Two) Hi (Len3 p I)) as N.
      intros a k E1 E2. rewrite NoDup_nth_error in N. apply N; [apply nth_error_Some; congruence|congruence]. }
    assert (Bd : (forall p q, In p ps -> contour_wind (p_contour p) q = contour_wind (p_raw p) q) /\
      exists out par, join_pieces clockwise ps dbg = Some out /\ assembled (outer_contours ps) (hole_contours ps) par out /\ forall ix k, nth_error par ix = Some k -> belongs g kR ps ix k).
    { destruct Un as [U|[Tc Md]].
      - assert (Cl : forall i p, at_ ps i p -> p_contour p = p_raw p /\ p_mod p = false /\ (3 <= length (p_raw p))%nat).
        { intros i p Hi. apply nth_error_In in Hi. destruct (Scl p Hi) as [-> ->]. rewrite (U p Hi). auto. }
        split; [|apply (bind_shapes g P kR (flags inc links) KR BR WR clean clockwise simplify ps St Cl On' dbg)].
        intros p q I. apply In_nth_error in I as (i & Hi). destruct (Cl i p Hi) as (-> & _). auto.
      - assert (Th : forall i p, at_ ps i p -> thinned (p_contour p) (p_raw p) /\ (p_mod p = false -> p_contour p = p_raw p)).
        { intros i p Hi. pose proof (raw_goes_on g P kR (flags inc links) KR clean clockwise simplify ps St i p Hi) as Go. destruct (Scl p (nth_error_In _ _ Hi)) as [-> ->]. apply Tc; auto. }
        assert (Cw : forall p q, In p ps -> contour_wind (p_contour p) q = contour_wind (p_raw p) q).
        { intros p q I. apply In_nth_error in I as (i & Hi). apply thinned_wind. apply (Th i p Hi). }
        assert (Th' : forall i p, at_ ps i p -> (3 <= length (p_raw p))%nat /\ (3 <= length (p_contour p))%nat /\ thinned (p_contour p) (p_raw p) /\ (p_mod p = false -> p_contour p = p_raw p)).
        { intros i p Hi. pose proof (nth_error_In _ _ Hi) as I. split; auto. split; [|apply (Th i p Hi)]. destruct (Nz p I) as (q & N). destruct (le_lt_dec 3 (length (p_contour p))) as [|L]; auto.
          exfalso. apply N. rewrite <- (Cw p q I). apply short_contour; auto. }
        split; auto. apply (bind_thinned g P kR (flags inc links) KR BR WR clean clockwise simplify ps St Th' On').
        destruct Md as [Two|Pl]; [|intros i j p p' E E' Hi Hj; apply Pl; eapply nth_error_In; eauto].
        apply (untouched_planar g P kR (flags inc links) KR clean clockwise simplify ps St Th'). 
        apply Tw; auto. }
    destruct Bd as (Con & out & par & Jn & As & Bel).
    assert (Cw' : forall i p q, at_ ps i p -> contour_wind (p_contour p) q = contour_wind (p_raw p) q) by (intros i p q Hi; apply Con; eapply nth_error_In; eauto).
    assert (Tn' : forall p, In p ps -> turns (piece_dir clockwise (p_hole p)) (p_contour p)).
    { intros p I. destruct (Tn p I) as [T1 (q & T2)]. split; [intro q'; rewrite (Con p q' I); auto|exists q; rewrite (Con p q I); auto]. }
    exists out. split; [|split].
    - unfold extract_shapes. rewrite H. unfold join_pieces in Jn. destruct (anchors_of dbg clockwise 0 ps) as [[an srt]|]; auto.
    - eapply assembled_grouped; eauto.
    - assert (Vl : forall p, In p ps -> p_valid p = true) by auto.
      assert (Ol : forall c, In c (outer_contours ps) -> turns (sign_of clockwise) c).
      { intros c I. apply in_map_iff in I as (p & <- & I). apply filter_In in I as [I B]. apply andb_true_iff in B as [_ B]. apply negb_true_iff in B.
        pose proof (Tn' p I) as T. rewrite B in T. exact T. }
      assert (Hl : forall c, In c (hole_contours ps) -> turns (- sign_of clockwise) c).
      { intros c I. apply in_map_iff in I as (p & <- & I). apply filter_In in I as [I B]. apply andb_true_iff in B as [_ B].
        pose proof (Tn' p I) as T. rewrite B in T. exact T. }
      assert (Sd : sign_of clockwise <> 0) by (destruct clockwise; discriminate).
      pose proof (assembled_grouped _ _ _ _ As) as [Gh Gt].
      assert (Sw : forall k sh q, nth_error out k = Some sh -> contours_wind sh q = 0 \/ contours_wind sh q = sign_of clockwise).
      { intros k sh q E. destruct (nest_shapes g P kR (flags inc links) KR clean clockwise simplify ps St Cw' out par As Bel k sh E) as (o & po & hs & _ & _ & W & _).
        destruct (W q) as [[_ X]|[_ X]]; auto. }
      assert (Dj : forall k k' sh sh' q, k <> k' -> nth_error out k = Some sh -> nth_error out k' = Some sh' -> ~ (nz_at sh q /\ nz_at sh' q)).
      { intros k k' sh sh' q N E E' [C1 C2]. apply N.
        apply (nest_disjoint g P kR (flags inc links) KR clean clockwise simplify ps St Cw' out par k k' sh sh' q As Bel E E' C1 C2). }
      split; [|split; auto].
      + apply Forall_forall. intros sh I. pose proof I as I0. apply In_nth_error in I0 as (k & E).
        destruct (nest_shapes g P kR (flags inc links) KR clean clockwise simplify ps St Cw' out par As Bel k sh E) as (o & po & hs & Es & _ & W & En & Di).
        exists (p_contour po), hs. split; auto. split; [|split; [|split; [|split]]].
        * apply Ol. assert (Is : In (Some (p_contour po)) (map Some (outer_contours ps))) by (rewrite <- Gh; apply in_map_iff; exists sh; split; [rewrite Es; auto|auto]).
          apply in_map_iff in Is as (c & Ec & Ic). injection Ec as <-. auto.
        * apply Forall_forall. intros h Ih. apply Hl. apply (Permutation_in _ Gt). apply in_concat. exists hs. split; auto. apply in_map_iff. exists sh. split; [rewrite Es; auto|auto].
        * intros h q Ih N. unfold encloses in *. rewrite (En h q Ih N). exact Sd.
        * intros a b h h' q Nab Ha Hb [N1 N2]. apply N2. apply (Di a b h h' q); auto.
        * intro q. apply (Sw k); auto.
      + intro q.
        assert (Tot : zsum (fun sh => contours_wind sh q) out = sign_of clockwise * bz (R q)).
        { transitivity (contours_wind (concat out) q).
          - unfold contours_wind. clear. induction out as [|s l IH]; auto. cbn [concat]. rewrite zsum_cons, zsum_app, IH. auto.
          - unfold contours_wind. rewrite (zsum_perm _ _ _ (assembled_all _ _ _ _ As)), zsum_app. change (sign_of clockwise) with (main_dir clockwise). rewrite <- (O1 q).
            unfold outer_contours, hole_contours, pieces_wind. rewrite !zsum_map, !zsum_filter, <- zsum_plus. apply zsum_ext. intros p I. rewrite (Vl p I), <- (Con p q I). destruct (p_hole p); simpl; lia. }
        split.
        * intros (sh & I & Cv). apply In_nth_error in I as (k & E). destruct (R q) eqn:ER; auto. exfalso. simpl in Tot. rewrite Z.mul_0_r in Tot.
          apply nth_error_split in E as (l1 & l2 & -> & Lk). rewrite zsum_app, zsum_cons in Tot.
          assert (Z1 : forall l, (forall s, In s l -> exists k', k' <> k /\ nth_error (l1 ++ sh :: l2) k' = Some s) -> zsum (fun sh => contours_wind sh q) l = 0).
          { intros l Hl'. apply zsum_zero. intros s Is. destruct (Hl' s Is) as (k' & Nk & Ek). destruct (Z.eq_dec (contours_wind s q) 0); auto. exfalso.
            apply (Dj k' k s sh q); auto. rewrite nth_error_app2 by lia. rewrite Lk, Nat.sub_diag. auto. }
          rewrite (Z1 l1), (Z1 l2) in Tot.
          -- apply Cv. lia.
          -- intros s Is. apply In_nth_error in Is as (n & En). exists (S k + n)%nat. split; [lia|]. rewrite nth_error_app2 by lia. replace (S k + n - length l1)%nat with (S n) by lia. auto.
          -- intros s Is. apply In_nth_error in Is as (n & En). assert (n < length l1)%nat by (apply nth_error_Some; congruence). exists n. split; [lia|]. rewrite nth_error_app1; auto.
        * intro ER. rewrite ER in Tot. assert (Nt : zsum (fun sh => contours_wind sh q) out <> 0) by (rewrite Tot; simpl; lia).
          clear - Nt. induction out as [|s l IH]; [rewrite zsum_nil in Nt; congruence|]. rewrite zsum_cons in Nt. destruct (Z.eq_dec (contours_wind s q) 0) as [Z0|N].
          -- destruct IH as (sh & I & Cv); [lia|]. exists sh. split; [right; auto|auto].
          -- exists s. split; [left; auto|auto].
  Qed.
End Glue.

(** ** C40: shapes nest and tile the result *)
(** The extracted contours are grouped into shapes: holes inside their outer contour, disjoint
    from each other, and the shapes do not overlap and together are the result region.  No index
    is out of bounds ([Some]), with or without debug assertions.
    Conditions: no contour is discarded as too small, cleaning changes none of them, and, only if
    outer contours are to run clockwise, no hole passes twice through its second point. *)
Theorem C40_shapes_partial segs fr r ends clean clockwise simplify min_area : arrangement segs -> ends_ok (result_links fr r segs) ends ->
  exists g ps, graph_new (result_links fr r segs) ends = Some g /\
    extract_pieces g clean r clockwise simplify min_area (repeat false (length (result_links fr r segs))) = Some ps /\
    ((min_area = 0 \/ (forall p, In p ps -> p_valid p = true)) -> (forall p, In p ps -> clean simplify (p_raw p) = (p_raw p, false)) ->
     (clockwise = true -> forall p, In p ps -> p_hole p = true -> second_once (p_raw p)) ->
     forall dbg, exists shapes, extract_shapes dbg g clean r clockwise simplify min_area (repeat false (length (result_links fr r segs))) = Some shapes /\
       grouped (outer_contours ps) (hole_contours ps) shapes /\
       shapes_ok (sign_of clockwise) (fun q => bool_op r (inside fr (wind (subj_chain segs) q)) (inside fr (wind (clip_chain segs) q))) shapes).
Proof.
  intros A E. destruct (blinks_graph segs A fr _ ends E) as (g & pts & H & G). fold (result_links fr r segs) in *.
  set (inc := fun l => is_included r (l_fill l)).
  assert (Al : forall l, In l (result_links fr r segs) -> inc l = true).
  { intros l I. apply blinks_in in I as (s & f & _ & If & ->). exact If. }
  assert (Fi : filter inc (result_links fr r segs) = result_links fr r segs).
  { revert Al. generalize (result_links fr r segs). induction l as [|x l IH]; intro Al; auto. simpl. rewrite (Al x) by (simpl; auto). f_equal. apply IH. intros; apply Al; simpl; auto. }
  assert (Ff : flags inc (result_links fr r segs) = repeat false (length (result_links fr r segs))).
  { rewrite <- flags_all. unfold flags. apply map_ext_in. intros l I. rewrite (Al l I). auto. }
  destruct (pieces_spec (result_links fr r segs) g pts inc clean r clockwise simplify min_area G (blinks_wf segs A fr _)) as (ps & P1 & P2 & _).
  { intro v. rewrite Fi. apply result_even; auto. }
  rewrite <- Ff. exists g, ps. split; auto. split; auto. intros V U On dbg.
  destruct (glue_any segs A fr r (is_included r) g pts G Fi clean clockwise simplify min_area ps P1) with (dbg := dbg) as (shapes & Hs & Gr & Ok); [|left; exact U|left; exact On|].
  - intros p I (q & Nz). destruct V as [M|V]; [|auto]. rewrite Forall_forall in P2. destruct (P2 p I) as (_ & Ec & ->). rewrite (U p I) in Ec. cbn [fst] in Ec. rewrite Ec.
    unfold is_valid. destruct (Nat.ltb_spec (length (p_raw p)) 3) as [L|L]; [exfalso; apply Nz; apply short_contour; auto|]. rewrite M. auto.
  - exists shapes. split; auto. split; auto. apply shapes_covers; auto. destruct clockwise; discriminate.
Qed.

(** the same for an [OverlayGraph] kept by the caller and asked for any rule *)
Theorem C40_shapes_graph_partial segs fr r ends clean clockwise simplify min_area : arrangement segs ->
  let links := kept is_included_filler fr segs in
  ends_ok links ends ->
  exists g ps, graph_new links ends = Some g /\
    extract_pieces g clean r clockwise simplify min_area (filter_by_rule r links) = Some ps /\
    ((min_area = 0 \/ (forall p, In p ps -> p_valid p = true)) -> (forall p, In p ps -> clean simplify (p_raw p) = (p_raw p, false)) ->
     (clockwise = true -> forall p, In p ps -> p_hole p = true -> second_once (p_raw p)) ->
     forall dbg, exists shapes, extract_shapes dbg g clean r clockwise simplify min_area (filter_by_rule r links) = Some shapes /\
       grouped (outer_contours ps) (hole_contours ps) shapes /\
       shapes_ok (sign_of clockwise) (fun q => bool_op r (inside fr (wind (subj_chain segs) q)) (inside fr (wind (clip_chain segs) q))) shapes).
Proof.
  intros A links E. destruct (blinks_graph segs A fr _ ends E) as (g & pts & H & G). fold links in G, H.
  set (inc := fun l => is_included r (l_fill l)).
  assert (Fi : filter inc links = result_links fr r segs) by (apply graph_reuse; auto).
  destruct (pieces_spec links g pts inc clean r clockwise simplify min_area G (blinks_wf segs A fr _)) as (ps & P1 & P2 & _).
  { intro v. rewrite Fi. apply result_even; auto. }
  exists g, ps. split; auto. split; [exact P1|]. intros V U On dbg.
  destruct (glue_any segs A fr r is_included_filler g pts G Fi clean clockwise simplify min_area ps P1) with (dbg := dbg) as (shapes & Hs & Gr & Ok); [|left; exact U|left; exact On|].
  - intros p I (q & Nz). destruct V as [M|V]; [|auto]. rewrite Forall_forall in P2. destruct (P2 p I) as (_ & Ec & ->). rewrite (U p I) in Ec. cbn [fst] in Ec. rewrite Ec.
    unfold is_valid. destruct (Nat.ltb_spec (length (p_raw p)) 3) as [L|L]; [exfalso; apply Nz; apply short_contour; auto|]. rewrite M. auto.
  - exists shapes. split; [exact Hs|]. split; auto. apply shapes_covers; auto. destruct clockwise; discriminate.
Qed.

(** counter-clockwise outer contours, [simplify_contour] off, no smallest area: no condition is left *)
Lemma walk_distinct links c u : Forall (fun l => pt_lt (l_a l) (l_b l)) links -> closed_walk links c u -> forall e, In e (edges c) -> fst e <> snd e.
Proof.
  intros W F e I. unfold closed_walk in F. induction F as [|e' i es is H F IH]; [destruct I|]. destruct I as [<-|I]; auto.
  destruct H as (l & Hl & E). rewrite Forall_forall in W. assert (L := W l (nth_error_In _ _ Hl)).
  assert (N : l_a l <> l_b l) by (apply pt_lt_neq; exact L).
  destruct E as [-> | ->]; simpl; congruence.
Qed.
Theorem C40_shapes_plain_partial segs fr r ends clean dbg : arrangement segs -> ends_ok (result_links fr r segs) ends -> dedup_ok clean ->
  exists g shapes, graph_new (result_links fr r segs) ends = Some g /\
    extract_shapes dbg g clean r false false 0 (repeat false (length (result_links fr r segs))) = Some shapes /\
    shapes_ok 1 (fun q => bool_op r (inside fr (wind (subj_chain segs) q)) (inside fr (wind (clip_chain segs) q))) shapes.
Proof.
  intros A E De. destruct (C40_shapes_partial segs fr r ends clean false false 0 A E) as (g & ps & Hg & Hp & S).
  destruct (C18_extraction segs fr r ends clean false false 0 A E) as (g' & ps' & Hg' & Hp' & W & _). rewrite Hg in Hg'. injection Hg' as <-. rewrite Hp in Hp'. injection Hp' as <-.
  destruct S with (dbg := dbg) as (shapes & Hs & _ & Ok); auto; [|discriminate|].
  - intros p I. apply De. eapply walk_distinct; [|apply W; auto]. apply blinks_wf; auto.
  - exists g, shapes. auto.
Qed.

(** ** The whole run: contours in, shapes out *)
Section WithContracts.
  Variable layout_new : Z -> Z -> nat -> option (Z -> nat).
  Hypothesis Lay : layout_ok layout_new.
  Variable query : list (nat * xseg) -> Z * Z -> Z -> list (nat * xseg).
  Hypothesis Qry : query_ok query.
  Variable tree_new : Z * Z -> bool.
  Notation split_input fuel solver adds := (split_segments layout_new query tree_new fuel solver (input_segments adds)).
  Notation merged adds := (sort_merge (input_segments adds)).

  (** No crossing needs rounding: the shapes returned make up exactly the region asked for. *)
  Theorem C40_overlay_exact_partial fuel solver adds r fr clean dbg : bounded_input adds -> no_grid solver (length (merged adds)) ->
    Forall (fun a => open_contour (fst a)) adds -> merged adds <> [] -> exact_crossings (map sx (merged adds)) -> dedup_ok clean ->
    exists ls, overlay_links layout_new query tree_new (S fuel) solver r fr (input_segments adds) = ROk ls /\
      forall ends, ends_ok ls ends -> exists g shapes, graph_new ls ends = Some g /\
        extract_shapes dbg g clean r false false 0 (repeat false (length ls)) = Some shapes /\
        shapes_ok 1 (fun q => bool_op r (inside fr (contours_wind (operand Subject adds) q)) (inside fr (contours_wind (operand Clip adds) q))) shapes.
  Proof.
    intros B N O NE Ex Cl. destruct (merged_balanced adds) as [BS BC].
    destruct (split_exact layout_new Lay query Qry tree_new (input_segments adds) (input_inv adds B) BS BC solver fuel N Ex (or_introl NE)) as (out & H & W1 & W2).
    assert (WS : forall q, wind (subj_chain out) q = contours_wind (operand Subject adds) q).
    { intro q. rewrite W1. unfold subj_chain at 1. rewrite sort_merge_wind by (reflexivity || (intros [? ?]; simpl; lia)). apply input_wind_subj; auto. }
    assert (WC : forall q, wind (clip_chain out) q = contours_wind (operand Clip adds) q).
    { intro q. rewrite W2. unfold clip_chain at 1. rewrite sort_merge_wind by (reflexivity || (intros [? ?]; simpl; lia)). apply input_wind_clip; auto. }
    destruct (C20_region_exact layout_new Lay query Qry tree_new fuel solver adds r fr B N O NE Ex) as (ls & Hl & _).
    exists ls. split; auto. intros ends E.
    destruct (overlay_arrangement layout_new Lay query Qry tree_new _ _ _ _ _ _ B N Hl) as (segs & Hs & A & ->).
    assert (S : segs = out) by (rewrite Hs in H; [injection H; auto|intro X; apply NE; rewrite X; reflexivity]). subst segs.
    destruct (C40_shapes_plain_partial out fr r ends clean dbg A E Cl) as (g & shapes & Hg & Hx & F & D & C).
    exists g, shapes. split; auto. split; auto. split; auto. split; auto. intro q. rewrite C, WS, WC. tauto.
  Qed.

  (** with rounding: the same relative to the contours after splitting *)
  Theorem C40_overlay_split_partial fuel solver adds r fr clean dbg ls ends : bounded_input adds -> no_grid solver (length (merged adds)) ->
    dedup_ok clean -> overlay_links layout_new query tree_new fuel solver r fr (input_segments adds) = ROk ls -> ends_ok ls ends ->
    exists segs g shapes, (input_segments adds <> [] -> split_input fuel solver adds = Done segs) /\ graph_new ls ends = Some g /\
      extract_shapes dbg g clean r false false 0 (repeat false (length ls)) = Some shapes /\
      shapes_ok 1 (fun q => bool_op r (inside fr (wind (subj_chain segs) q)) (inside fr (wind (clip_chain segs) q))) shapes.
  Proof.
    intros B N Cl Hl E. destruct (overlay_arrangement layout_new Lay query Qry tree_new _ _ _ _ _ _ B N Hl) as (segs & Hs & A & ->).
    destruct (C40_shapes_plain_partial segs fr r ends clean dbg A E Cl) as (g & shapes & Hg & Hx & Ok).
    exists segs, g, shapes. auto.
  Qed.
End WithContracts.

(** ** Examples *)
Definition run_shapes (dbg : bool) (r : OverlayRule) (fr : FillRule) (clockwise : bool) (min_area : Z) (adds : input) : option (list (list (list pt))) :=
  match overlay_links lay4 qry (fun _ => true) 5 (mk_solver StAuto) r fr (input_segments adds) with
  | ROk ls => match graph_new ls (sorted_ends ls) with
              | Some g => extract_shapes dbg g keep r clockwise false min_area (repeat false (length ls))
              | None => None
              end
  | _ => None
  end.
(** the contract on [dedup_contour] can be met: drop points equal to their successor *)
Definition dedup1 (simplify : bool) (c : list pt) : list pt * bool :=
  let c' := map fst (filter (fun e => negb (pt_eqb (fst e) (snd e))) (edges c)) in (c', negb (length c' =? length c)%nat).
Lemma combine_fst {A B} (l : list A) (m : list B) : length l = length m -> map fst (combine l m) = l.
Proof. revert m. induction l as [|x l IH]; intros [|y m] H; try discriminate; auto. simpl. f_equal. apply IH. injection H; auto. Qed.
Lemma edges_fst c : map fst (edges c) = c.
Proof. destruct c as [|p r]; auto. apply combine_fst. simpl. rewrite app_length. simpl. lia. Qed.
Example dedup1_ok : dedup_ok dedup1.
Proof.
  intros c H. unfold dedup1. assert (F : filter (fun e => negb (pt_eqb (fst e) (snd e))) (edges c) = edges c).
  { revert H. generalize (edges c) as l. induction l as [|e l IH]; intro H; auto. simpl. replace (negb (pt_eqb (fst e) (snd e))) with true; [f_equal; apply IH; intros; apply H; simpl; auto|]. symmetry. assert (I : In e (e :: l)) by (simpl; auto). apply negb_true_iff. destruct (pt_eqb (fst e) (snd e)) eqn:E; auto. apply pt_eqb_eq in E. destruct (H e I E). }
  rewrite F, edges_fst, Nat.eqb_refl. auto.
Qed.

(** two crossing squares with a square hole in one of them, an island in the hole, and a hole in the island *)
Definition nest_adds : input :=
  [(sq 0 0 40, Subject); ([Pt 5 5; Pt 5 35; Pt 35 35; Pt 35 5], Subject); (sq 10 10 20, Subject); ([Pt 12 12; Pt 12 20; Pt 20 20; Pt 20 12], Subject);
   (sq 38 (-5) 20, Clip)].
Example C40_example :
  bounded_input nest_adds /\ Forall (fun a => open_contour (fst a)) nest_adds /\ exact_crossings (map sx (sort_merge (input_segments nest_adds))) /\
  exists out1 h1 out2 h2, run_shapes true RUnion NonZero false 0 nest_adds = Some [[out1; h1]; [out2; h2]] /\
    length out1 = 8%nat /\ length h1 = 4%nat /\ out2 = [Pt 10 30; Pt 10 10; Pt 30 10; Pt 30 30] /\ h2 = [Pt 12 12; Pt 12 20; Pt 20 20; Pt 20 12].
Proof.
  split; [repeat constructor|]. split; [repeat constructor; discriminate|]. split.
  - apply exactb_ok. vm_compute. reflexivity.
  - do 4 eexists. split; [vm_compute; reflexivity|]. repeat split.
Qed.

(** ** Where the claim fails *)
(** Clockwise outer contours: the anchor of a hole is taken from the first two points of its walk
    ([core/extract.rs:91-105]).  When an island touches the leftmost point of its hole, that pair is
    not the lower edge there, the hole is found below itself, and it is attached to a shape far
    away (release) or an index is out of bounds (debug).  Counter-clockwise the result is right. *)
Definition island_adds : input :=
  [([Pt (-20) 0; Pt (-15) 0; Pt (-15) 10; Pt (-20) 10], Subject); (sq 0 0 10, Subject); ([Pt 2 5; Pt 5 8; Pt 8 5; Pt 5 2], Subject); ([Pt 2 5; Pt 4 4; Pt 4 6], Subject)].
Theorem C40_clockwise_refuted :
  bounded_input island_adds /\ Forall (fun a => open_contour (fst a)) island_adds /\ exact_crossings (map sx (sort_merge (input_segments island_adds))) /\
  run_shapes true RSubject NonZero true 0 island_adds = None /\
  (exists far o h, run_shapes false RSubject NonZero true 0 island_adds = Some [[far; h]; [o]] /\
     (exists q, encloses h q /\ encloses o q /\ ~ encloses far q)) /\
  (exists far o h isl, run_shapes true RSubject NonZero false 0 island_adds = Some [[far]; [o; h]; [isl]]).
Proof.
  split; [repeat constructor|]. split; [repeat constructor; discriminate|]. split; [apply exactb_ok; vm_compute; reflexivity|]. split; [vm_compute; reflexivity|]. split.
  - do 3 eexists. split; [vm_compute; reflexivity|]. exists (13 # 2, 9 # 2)%Q. unfold encloses. vm_compute. split; [discriminate|]. split; [discriminate|]. auto.
  - do 4 eexists. vm_compute. reflexivity.
Qed.
(** [min_area] above 0: the first two contours found here are discarded, the links left over are
    classified as a hole (see C23, C37), and that hole is attached to a shape it is not inside of *)
Definition small_adds : input :=
  [([Pt 100 0; Pt 200 0; Pt 200 10], Subject); ([Pt 300 0; Pt 500 0; Pt 500 10], Subject);
   ([Pt 0 0; Pt 1 (-300); Pt 2 (-300)], Subject); ([Pt 0 0; Pt 5 0; Pt 5 1], Subject); ([Pt 0 0; Pt 6 5; Pt 6 6], Subject)].
Theorem C40_min_area_refuted :
  bounded_input small_adds /\ Forall (fun a => open_contour (fst a)) small_adds /\ exact_crossings (map sx (sort_merge (input_segments small_adds))) /\
  run_shapes true RSubject NonZero false 10 small_adds = None /\
  (exists far o h, run_shapes false RSubject NonZero false 10 small_adds = Some [[far; h]; [o]] /\
     (exists q, encloses h q /\ ~ encloses far q /\ ~ encloses o q)) /\
  (exists shapes, run_shapes true RSubject NonZero false 0 small_adds = Some shapes /\ map (@length (list pt)) shapes = [1; 1; 1; 1; 1]%nat).
Proof.
  split; [repeat constructor|]. split; [repeat constructor; discriminate|]. split; [apply exactb_ok; vm_compute; reflexivity|]. split; [vm_compute; reflexivity|]. split.
  - do 3 eexists. split; [vm_compute; reflexivity|]. exists (13 # 10, -290 # 1)%Q. unfold encloses. vm_compute. split; [discriminate|]. split; intro X; apply X; reflexivity.
  - eexists. split; vm_compute; reflexivity.
Qed.
(** [simplify_contour], which is on by default: a hole touching the straight side of another hole at a point
    that is then dropped as collinear.  The side of the first hole, now longer, passes through the leftmost
    point of the second: the sweep does not see it below that point, and the second hole is attached to an
    island inside of the first.  Without simplification the grouping is right. *)
Definition run_simplified (r : OverlayRule) (fr : FillRule) (clockwise : bool) (min_area : Z) (adds : input) : option (list (list (list pt))) :=
  match overlay_links lay4 qry (fun _ => true) 5 (mk_solver StAuto) r fr (input_segments adds) with
  | ROk ls => match graph_new ls (sorted_ends ls) with
              | Some g => extract_shapes true g clean_line r clockwise true min_area (repeat false (length ls))
              | None => None
              end
  | _ => None
  end.
Definition touch_adds : input :=
  [(sq 0 0 20, Subject); ([Pt 2 2; Pt 12 2; Pt 12 10; Pt 2 10], Subject); ([Pt 4 4; Pt 10 4; Pt 10 6; Pt 4 6], Subject); ([Pt 7 10; Pt 9 13; Pt 9 11], Subject)].
Theorem C40_simplify_refuted :
  bounded_input touch_adds /\ Forall (fun a => open_contour (fst a)) touch_adds /\ exact_crossings (map sx (sort_merge (input_segments touch_adds))) /\
  clean_ok clean_line /\
  (exists o h isl h', run_simplified RSubject EvenOdd false 0 touch_adds = Some [[o; h]; [isl; h']] /\
     (exists q, encloses h' q /\ encloses o q /\ ~ encloses isl q)) /\
  (exists o h isl h', run_shapes true RSubject EvenOdd false 0 touch_adds = Some [[o; h; h']; [isl]]).
Proof.
  split; [repeat constructor|]. split; [repeat constructor; discriminate|]. split; [apply exactb_ok; vm_compute; reflexivity|]. split; [apply clean_line_ok|]. split.
  - do 4 eexists. split; [vm_compute; reflexivity|]. exists (17 # 2, 23 # 2)%Q. unfold encloses. vm_compute. split; [discriminate|]. split; [discriminate|]. auto.
  - do 4 eexists. vm_compute. reflexivity.
Qed.
Print Assumptions C40_overlay_exact_partial.
(** a hole added to the wider of two squares *)
Example C22_example : exists shapes, join_unsorted_holes true [[sq 0 0 10]; [sq 20 0 10]] [[Pt 22 2; Pt 22 4; Pt 24 4]] false = Some shapes /\
  map (@length (list pt)) shapes = [1; 2]%nat.
Proof. eexists. split; [vm_compute; reflexivity|reflexivity]. Qed.
