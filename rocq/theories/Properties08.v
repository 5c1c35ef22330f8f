(** * Property theorems, part 8: edges and shapes as vectors (C28). *)
From Verif Require Import Base Spec QLib ModelSegm SegmProofs MergeProofs PlanarGeo PlanarSum ModelFill ModelFilter FillProofs FillCorrect
  ModelCross CrossProofs CoreResults Properties01 ModelSplit SplitProofs SplitPlanar SplitPass BinsProofs SplitApply SplitLoop
  ModelFrag ModelOverlay OverlayProofs FragProofs GridCover Properties02
  ModelGraph GraphProofs ModelExtract ExtractProofs ContourResults Rotation NextLink Properties03
  MoveLemma SectorLemma Sides WalkSides Orient Properties04 ModelBind BindProofs BindSweep Nest Properties05 ModelVector VectorProofs.
Open Scope Z_scope.

(** ** Specification *)
(** the point at distance [d] to the left of [q], looking along the vector from [a] to [b] (measured
    vertically, for a vertical vector horizontally); the right side of a vector is the left side of
    the opposite vector *)
Definition left_side (a b : pt) (q : qpt) (d : Q) : qpt :=
  if px a =? px b then (if py a <? py b then ((fst q - d)%Q, snd q) else ((fst q + d)%Q, snd q))
  else if px a <? px b then (fst q, (snd q + d)%Q) else (fst q, (snd q - d)%Q).
Definition right_side (a b : pt) := left_side b a.
(** the edge a vector runs along, ends ordered *)
Definition edge_under (e : vedge) : xseg := if pt_ltb (ve_a e) (ve_b e) then XS (ve_a e) (ve_b e) else XS (ve_b e) (ve_a e).
(** the four flags of a vector ([SUBJ_LEFT], [SUBJ_RIGHT], [CLIP_LEFT], [CLIP_RIGHT]: bits 0 to 3) tell
    whether the operands are filled to its left and to its right, next to any interior point of it *)
Definition sides_told (segs : list (segment cntB)) (fr : FillRule) (e : vedge) : Prop :=
  forall q, inside_seg (edge_under e) q -> near (fun d =>
    N.testbit (ve_fill e) 0 = inside fr (wind (subj_chain segs) (left_side (ve_a e) (ve_b e) q d)) /\
    N.testbit (ve_fill e) 1 = inside fr (wind (subj_chain segs) (right_side (ve_a e) (ve_b e) q d)) /\
    N.testbit (ve_fill e) 2 = inside fr (wind (clip_chain segs) (left_side (ve_a e) (ve_b e) q d)) /\
    N.testbit (ve_fill e) 3 = inside fr (wind (clip_chain segs) (right_side (ve_a e) (ve_b e) q d))).
(** every vector starts where the previous one ends, cyclically *)
Definition closed_path (p : list vedge) : Prop := map (fun e => (ve_a e, ve_b e)) p = edges (map ve_a p).

(** ** flags *)
Lemma side_reverse_bits f : N.testbit (side_reverse f) 0 = N.testbit f 1 /\ N.testbit (side_reverse f) 1 = N.testbit f 0 /\
  N.testbit (side_reverse f) 2 = N.testbit f 3 /\ N.testbit (side_reverse f) 3 = N.testbit f 2.
Proof.
  assert (L0 : forall a, N.testbit (N.shiftl a 1) 0 = false) by (intro a; apply N.shiftl_spec_low; reflexivity).
  assert (Lh : forall a i, N.testbit (N.shiftl a 1) (N.succ i) = N.testbit a i).
  { intros a i. rewrite N.shiftl_spec_high' by lia. f_equal. lia. }
  assert (Rs : forall a i, N.testbit (N.shiftr a 1) i = N.testbit a (N.succ i)) by (intros a i; rewrite N.shiftr_spec' by auto; f_equal; lia).
  pose proof (fun a => Lh a 0%N) as L1. pose proof (fun a => Lh a 1%N) as L2. pose proof (fun a => Lh a 2%N) as L3. cbn [N.succ Pos.succ] in L1, L2, L3.
  pose proof (fun a => Rs a 0%N) as R0. pose proof (fun a => Rs a 1%N) as R1. pose proof (fun a => Rs a 2%N) as R2. pose proof (fun a => Rs a 3%N) as R3. cbn [N.succ Pos.succ] in R0, R1, R2, R3.
  assert (B : forall m i, N.testbit (N.land f m) i = N.testbit f i && N.testbit m i) by (intros; apply N.land_spec).
  unfold side_reverse. rewrite !N.lor_spec, !L0, !L1, !L2, !L3, !R0, !R1, !R2, !R3, !B.
  simpl (N.testbit 1 _). simpl (N.testbit 2 _). simpl (N.testbit 4 _). simpl (N.testbit 8 _).
  repeat split; rewrite ?andb_true_r, ?andb_false_r, ?orb_false_r, ?orb_false_l; reflexivity.
Qed.
Lemma side_top s q d : wf_xseg s -> left_side (sa s) (sb s) q d = top_side s q d /\ right_side (sa s) (sb s) q d = bottom_side s q d.
Proof.
  unfold wf_xseg, pt_lt, right_side, left_side, top_side, bottom_side. intro W. rewrite (Z.eqb_sym (px (sb s))).
  destruct (Z.eqb_spec (px (sa s)) (px (sb s))).
  - destruct (Z.ltb_spec (py (sa s)) (py (sb s))), (Z.ltb_spec (py (sb s)) (py (sa s))); try lia; auto.
  - destruct (Z.ltb_spec (px (sa s)) (px (sb s))), (Z.ltb_spec (px (sb s)) (px (sa s))); try lia; auto.
Qed.
Lemma kept_fill segs fr inc l : In l (kept inc fr segs) -> exists j s, nth_error segs j = Some s /\ nth_error (fill_boolean fr segs) j = Some (l_fill l) /\ l_seg l = sx s.
Proof.
  unfold build_links. intro I. apply in_map_iff in I as ([s f] & <- & I). apply filter_In in I as [I _]. apply In_nth_error in I as (j & Hj).
  exists j, s. assert (X : nth_error segs j = Some s /\ nth_error (fill_boolean fr segs) j = Some f).
  { clear - Hj. revert j Hj. generalize (fill_boolean fr segs). induction segs as [|x l IH]; intros [|y m] [|j] Hj; simpl in *; try discriminate; auto. injection Hj as -> ->. auto. }
  destruct X as [X1 X2]. split; auto. split; auto. destruct s as [[? ?] ?]. auto.
Qed.
Lemma sides_ok segs fr inc l e : arrangement segs -> In l (kept inc fr segs) ->
  e = vedge_new (l_fill l) (l_a l) (l_b l) \/ e = vedge_new (l_fill l) (l_b l) (l_a l) -> edge_under e = l_seg l /\ sides_told segs fr e.
Proof.
  intros A I E. destruct (kept_fill _ _ _ _ I) as (j & s & Hs & Hf & El). pose proof (arr_wf _ A s (nth_error_In _ _ Hs)) as W.
  assert (Lab : pt_ltb (l_a l) (l_b l) = true). { apply pt_ltb_lt. change (wf_xseg (l_seg l)). rewrite El. auto. }
  assert (Lba : pt_ltb (l_b l) (l_a l) = false). { destruct (pt_ltb (l_b l) (l_a l)) eqn:X; auto. apply pt_ltb_lt in X, Lab. exfalso. eapply pt_lt_irrefl, pt_lt_trans; eauto. }
  destruct (side_reverse_bits (l_fill l)) as (R0 & R1 & R2 & R3).
  destruct E as [-> | ->]; unfold sides_told, edge_under, vedge_new; cbn [ve_a ve_b ve_fill]; rewrite ?Lab, ?Lba; (split; [reflexivity|]); intros q Q0; fold (l_seg l) in Q0; rewrite El in Q0;
    destruct (C02_fill_flags segs fr j s _ q A Hs Hf Q0) as (eps & Pe & F); exists eps; (split; [exact Pe|]); intros d Hd; destruct (F d Hd) as (F0 & F1 & F2 & F3);
    destruct (side_top (sx s) q d W) as [T1 T2]; rewrite <- El in T1, T2; cbn [l_seg sa sb] in T1, T2; rewrite El in T1, T2.
  - rewrite T1, T2. auto.
  - change (left_side (l_b l) (l_a l) q d) with (right_side (l_a l) (l_b l) q d). change (right_side (l_b l) (l_a l) q d) with (left_side (l_a l) (l_b l) q d).
    rewrite T1, T2, R0, R1, R2, R3. auto.
Qed.

(** ** C28: separate vectors *)
Lemma graph_fields links g pts : graph_of links g pts -> map (fun l => (l_a l, l_b l, l_fill l)) (g_links g) = map (fun l => (l_a l, l_b l, l_fill l)) links.
Proof.
  intro G. apply (nth_ext _ _ (Pt 0 0, Pt 0 0, 0%N) (Pt 0 0, Pt 0 0, 0%N)); [rewrite !map_length; apply (go_len _ _ _ G)|].
  intros i Li. rewrite map_length, (go_len _ _ _ G) in Li. apply nth_error_Some in Li. destruct (nth_error links i) as [l|] eqn:Hl; [|congruence].
  destruct (go_link _ _ _ G i l Hl) as (l' & Hl' & A & B & F & _).
  rewrite (nth_error_nth _ _ _ (map_nth_error _ _ _ Hl')), (nth_error_nth _ _ _ (map_nth_error _ _ _ Hl)). congruence.
Qed.
(** every edge of the arrangement once and in its order, its ends ordered, its flags true of its sides *)
Theorem C28_separate segs fr ends g : arrangement segs -> ends_ok (kept (fun _ => true) fr segs) ends -> graph_new (kept (fun _ => true) fr segs) ends = Some g ->
  map (fun e => XS (ve_a e) (ve_b e)) (separate_vectors g) = map sx segs /\
  Forall (fun e => pt_lt (ve_a e) (ve_b e) /\ sides_told segs fr e) (separate_vectors g).
Proof.
  intros A E H. destruct (blinks_graph segs A fr _ ends E) as (g' & pts & H' & G). rewrite H in H'. injection H' as <-.
  pose proof (graph_fields _ _ _ G) as Gf.
  assert (Sv : separate_vectors g = map (fun l => VE (l_a l) (l_b l) (l_fill l)) (kept (fun _ => true) fr segs)).
  { unfold separate_vectors. transitivity (map (fun t => VE (fst (fst t)) (snd (fst t)) (snd t)) (map (fun l => (l_a l, l_b l, l_fill l)) (g_links g))).
    - rewrite map_map. auto.
    - rewrite Gf, map_map. auto. }
  rewrite Sv. split.
  - rewrite map_map. cbn [ve_a ve_b]. pose proof (fill_boolean_length segs fr) as L. unfold build_links. rewrite filter_true, map_map.
    clear - L. revert L. generalize (fill_boolean fr segs). induction segs as [|s l IH]; intros [|f fs] L; simpl in *; try discriminate; auto. rewrite IH by lia. destruct s as [[? ?] ?]. auto.
  - apply Forall_forall. intros e I. apply in_map_iff in I as (l & <- & I). pose proof (blinks_wf segs A fr (fun _ => true)) as W. rewrite Forall_forall in W. specialize (W l I).
    split; [exact W|]. assert (Ee : VE (l_a l) (l_b l) (l_fill l) = vedge_new (l_fill l) (l_a l) (l_b l)).
    { unfold vedge_new. apply pt_ltb_lt in W. rewrite W. auto. }
    rewrite Ee. eapply sides_ok; eauto.
Qed.

(** ** shapes *)
Lemma vjoin_assembled srt dbg outers holes out : vjoin srt dbg (map (fun c => [c]) outers) holes true = Some out -> outers <> [] ->
  exists par, assembled outers holes par out.
Proof.
  intros H N. destruct outers as [|o os]; [contradiction|]. cbn [map] in H. destruct holes as [|h hs].
  { assert (E : out = map (fun c => [c]) (o :: os)) by (destruct os; cbn [map vjoin] in *; congruence). subst out. exists [].
    split; auto. split; auto. split; [apply map_length|]. intros k c E. apply single_nth; auto. }
  destruct os as [|o2 os].
  { simpl in H. injection H as <-. exists (repeat O (length (h :: hs))). split; [apply repeat_length|]. split.
    - apply Forall_forall. intros x I. apply repeat_spec in I. subst x. simpl. lia.
    - split; auto. intros k c E. destruct k as [|[|k]]; simpl in E; try discriminate. injection E as <-. rewrite given_all. auto. }
  set (outers := o :: o2 :: os) in *. assert (H' : vscan_join srt dbg (map (fun c => [c]) outers) (h :: hs) true = Some out) by exact H.
  unfold vscan_join in H'. destruct (all_some _) as [[|first an]|]; try discriminate. destruct (all_some _); [|discriminate].
  destruct (dbg && _); [discriminate|]. cbv zeta in H'. destruct (bind _ _ _ _) as [parents|]; [|discriminate].
  destruct (push_assembled _ _ _ _ H') as (par & As & _). eauto.
Qed.

Lemma nodup_mid {X} (a b c : list X) : NoDup (a ++ b ++ c) -> NoDup b.
Proof. induction a as [|x a IH]; simpl; intro N; [|inversion N; auto]. induction b as [|y b IB]; [constructor|]. simpl in N. inversion N as [|? ? Ni Nd]; subst. constructor; auto. intro I. apply Ni, in_or_app. auto. Qed.
Lemma Forall2_nth {X Y} (R : X -> Y -> Prop) l m : Forall2 R l m -> forall x, In x l -> exists y, In y m /\ R x y.
Proof. induction 1 as [|a b l m Rab F IH]; intros x []; [subst; exists b; simpl; auto|]. destruct (IH x H) as (y & I & Hy). exists y. simpl. auto. Qed.
Lemma Forall2_nth' {X Y} (R : X -> Y -> Prop) l m : Forall2 R l m -> forall y, In y m -> exists x, In x l /\ R x y.
Proof. induction 1 as [|a b l m Rab F IH]; intros y []; [subst; exists a; simpl; auto|]. destruct (IH y H) as (x & I & Hx). exists x. simpl. auto. Qed.
Lemma Forall2_filter {X Y} (R : X -> Y -> Prop) (f : X -> bool) (h : Y -> bool) l m : Forall2 R l m -> (forall x y, R x y -> f x = h y) -> Forall2 R (filter f l) (filter h m).
Proof. intros F E. induction F as [|x y l m Rxy F IH]; simpl; auto. rewrite <- (E x y Rxy). destruct (f x); auto. Qed.
Lemma Forall2_map_eq {X Y Z} (R : X -> Y -> Prop) (f : X -> Z) (h : Y -> Z) l m : Forall2 R l m -> (forall x y, R x y -> f x = h y) -> map f l = map h m.
Proof. intros F E. induction F; simpl; f_equal; auto. Qed.

(** The result as vectors, if at most four of its edges meet in any vertex: closed paths that use every
    edge of the result exactly once, with true flags; the outer paths run clockwise, the holes
    counter-clockwise, together they are the boundary of the result; and the shapes group them. *)
Theorem C28_shape_vectors_partial segs fr r ends srt dbg : arrangement segs -> ends_ok (result_links fr r segs) ends ->
  (forall v, (degree (result_links fr r segs) v <= 4)%nat) ->
  exists g outers holes, graph_new (result_links fr r segs) ends = Some g /\
    Forall closed_path (outers ++ holes) /\
    Permutation (map edge_under (concat (outers ++ holes))) (map l_seg (result_links fr r segs)) /\
    Forall (sides_told segs fr) (concat (outers ++ holes)) /\
    Forall (fun p => turns (-1) (to_path p)) outers /\ Forall (fun p => turns 1 (to_path p)) holes /\
    (forall q, contours_wind (map to_path (outers ++ holes)) q =
      if bool_op r (inside fr (wind (subj_chain segs) q)) (inside fr (wind (clip_chain segs) q)) then -1 else 0) /\
    (forall shapes, extract_shape_vectors srt dbg g r = Some shapes -> grouped outers holes shapes) /\
    ((length outers <= 1)%nat \/ holes = [] -> exists shapes, extract_shape_vectors srt dbg g r = Some shapes).
Proof.
  intros A E D. destruct (blinks_graph segs A fr _ ends E) as (g & pts & H & G). fold (result_links fr r segs) in *.
  set (inc := fun l => is_included r (l_fill l)). set (ls := result_links fr r segs) in *.
  assert (Al : forall l, In l ls -> inc l = true) by (intros l I; apply blinks_in in I as (s & f & _ & If & ->); exact If).
  assert (Fi : filter inc ls = ls).
  { clear - Al. revert Al. generalize ls. clear ls. intro l. induction l as [|x l IH]; intro Al; auto. simpl. rewrite (Al x) by (simpl; auto). f_equal. apply IH. intros; apply Al; simpl; auto. }
  assert (Ff : flags inc ls = repeat false (length ls)).
  { rewrite <- flags_all. unfold flags. apply map_ext_in. intros l I. rewrite (Al l I). auto. }
  assert (Fg : filter_by_rule r (g_links g) = flags inc ls).
  { unfold filter_by_rule, flags, inc. pose proof (graph_fields _ _ _ G) as Gf.
    transitivity (map (fun t => negb (is_included r (snd t))) (map (fun l => (l_a l, l_b l, l_fill l)) (g_links g))); [rewrite map_map; auto|]. rewrite Gf, map_map. auto. }
  pose proof (blinks_wf segs A fr (is_included r)) as Wf. pose proof (blinks_nodup segs A fr (is_included r)) as Ndl. fold ls in Wf, Ndl.
  assert (Fi' : filter inc (kept (is_included r) fr segs) = result_links fr r segs) by exact Fi.
  destruct (pieces_spec ls g pts inc keep r true false 0 G Wf) as (ps & P1 & P2 & P3 & P4 & P5).
  { intro v. rewrite Fi. apply result_even; auto. }
  assert (Raw : forall p, In p ps -> p_contour p = p_raw p /\ p_valid p = true /\ Forall2 (edge_of ls) (edges (p_raw p)) (p_used p)).
  { intros p I. rewrite Forall_forall in P2. destruct (P2 p I) as (Ed & Ec & Ev). cbn [keep fst] in Ec. split; auto. split; auto. rewrite Ev, Ec. unfold is_valid.
    assert (Np : p_raw p <> []).
    { apply in_split in I as (l1 & l2 & ->). destruct (glue_oriented segs A fr r (is_included r) g pts G Fi' keep true false 0 _ P1) as [_ O2].
      - intros p' I' (q & Nz). destruct (P2 p' I') as (_ & Ec' & Ev'). rewrite Ev', Ec'. cbn [keep fst]. unfold is_valid.
        destruct (Nat.ltb_spec (length (p_raw p')) 3) as [L|L]; auto. exfalso. apply Nz. apply short_contour; auto.
      - destruct (O2 l1 p l2 eq_refl) as (_ & (q & X) & _). intro Z0. rewrite Z0 in X. unfold piece_dir, main_dir in X. destruct (p_hole p); vm_compute in X; discriminate. }
    assert (Nu : NoDup (p_used p)). { apply in_split in I as (l1 & l2 & ->). rewrite map_app, concat_app in P3. cbn [map concat] in P3. exact (nodup_mid _ _ _ P3). }
    pose proof (walk_long ls _ _ Wf Ndl Ed Nu Np). destruct (Nat.ltb_spec (length (p_raw p)) 3); [lia|auto]. }
  assert (Va : forall p, In p ps -> p_valid p = true) by (intros p I; apply Raw; auto).
  (* the vector loop *)
  pose proof (glue_wf segs A fr (is_included r) g pts G) as GW. pose proof (glue_nodup segs fr (is_included r) g pts G) as Np. pose proof (glue_sorted segs A fr (is_included r) g pts G) as GS.
  pose proof (glue_planar segs A fr (is_included r) g pts G) as GP.
  assert (Len : length (flags inc ls) = length (g_links g)) by (unfold flags; rewrite map_length; symmetry; apply (go_len _ _ _ G)).
  assert (Ev : all_even g (flags inc ls)) by (eapply flags_even; [exact G|]; intro v; rewrite Fi; apply result_even; auto).
  assert (D4 : forall j n, nth_error (g_nodes g) j = Some n -> (deg (flags inc ls) n <= 4)%nat).
  { intros j n Hn. assert (Hj : (j < length pts)%nat) by (rewrite <- (go_nlen _ _ _ G); apply nth_error_Some; congruence). apply nth_error_Some in Hj. destruct (nth_error pts j) as [v|] eqn:Hv; [|congruence].
    rewrite (deg_degree ls g pts inc j n v G Hn Hv), Fi. apply D. }
  destruct (vector_sync g pts GW GP Np GS r keep _ 0%nat _ ps Ev Len (fun i _ => Nat.le_0_l i) D4 P1 Va (length (flags inc ls)) ltac:(lia)) as (vps & Hv & Fv).
  assert (Vof : forall v, In v vps -> exists p, In p ps /\ vp_of g p v) by (apply (Forall2_nth' _ _ _ Fv)).
  assert (Rp : Forall2 (fun p v => p_contour p = to_path (vp_path v) /\ vp_hole v = p_hole p /\ p_valid p = true) ps vps).
  { clear - Fv Raw. induction Fv as [|p v l m X F IH]; constructor.
    - destruct X as (X1 & X2 & _). destruct (Raw p (or_introl eq_refl)) as (Y1 & Y2 & _). rewrite X2. auto.
    - apply IH. intros; apply Raw; simpl; auto. }
  (* links of the graph and of the result *)
  assert (Lk : forall i l', nth_error (g_links g) i = Some l' -> exists l, nth_error ls i = Some l /\ l_a l' = l_a l /\ l_b l' = l_b l /\ l_fill l' = l_fill l).
  { intros i l' Hl'. destruct (nth_error ls i) as [l|] eqn:Hl.
    - destruct (go_link _ _ _ G i l Hl) as (l2 & H2 & A1 & B1 & F1 & _). exists l. split; auto. rewrite Hl' in H2. injection H2 as ->. auto.
    - apply nth_error_None in Hl. rewrite <- (go_len _ _ _ G) in Hl. apply nth_error_None in Hl. congruence. }
  assert (Vm : forall e i, vmatch g e i -> exists l, nth_error ls i = Some l /\ (e = vedge_new (l_fill l) (l_a l) (l_b l) \/ e = vedge_new (l_fill l) (l_b l) (l_a l))).
  { intros e i (l' & Hl' & X). destruct (Lk i l' Hl') as (l & Hl & A1 & B1 & F1). exists l. split; auto. rewrite <- A1, <- B1, <- F1. auto. }
  set (outers := vouters vps). set (holes := vholes vps). exists g, outers, holes. split; auto.
  assert (All : Permutation (outers ++ holes) (map vp_path vps)).
  { unfold outers, holes, vouters, vholes. clear. induction vps as [|v l IH]; auto. cbn [filter map]. destruct (vp_hole v); cbn [negb map app].
    - symmetry. apply Permutation_cons_app. symmetry. auto.
    - constructor. auto. }
  assert (InP : forall path, In path (outers ++ holes) -> exists v, In v vps /\ vp_path v = path).
  { intros path I. apply (Permutation_in _ All) in I. apply in_map_iff in I as (v & Ev' & I). eauto. }
  assert (Clo : forall path, In path (outers ++ holes) -> closed_path path).
  { intros path I. destruct (InP path I) as (v & Iv & <-). destruct (Vof v Iv) as (p & Ip & _ & Et & Eu & F2). destruct (Raw p Ip) as (_ & _ & F1). unfold closed_path.
    change (map ve_a (vp_path v)) with (to_path (vp_path v)). rewrite Et. rewrite <- Eu in F1.
    assert (Fst : map fst (edges (p_raw p)) = map ve_a (vp_path v)).
    { change (map ve_a (vp_path v)) with (to_path (vp_path v)). rewrite Et. destruct (p_raw p) as [|a c]; auto. apply map_fst_combine. rewrite app_length. simpl. lia. }
    rewrite Forall_forall in Wf. clear - F1 F2 Fst Vm Wf. revert F1 F2 Fst. generalize (edges (p_raw p)) (vp_used v). induction (vp_path v) as [|e es IH]; intros ed us F1 F2 Fst.
    - inversion F2; subst. inversion F1; auto.
    - inversion F2 as [|? i ? us' M F2']; subst. inversion F1 as [|x ? ed' ? X F1']; subst. cbn [map] in *. injection Fst as Ex Fst. f_equal; [|apply (IH ed' us'); auto].
      destruct (Vm e i M) as (l & Hl & De). destruct X as (l2 & Hl2 & Dx). rewrite Hl in Hl2. injection Hl2 as <-. specialize (Wf l (nth_error_In _ _ Hl)).
      assert (Ne : l_a l <> l_b l) by (intro Z0; rewrite Z0 in Wf; eapply pt_lt_irrefl; eauto).
      destruct De as [-> | ->], Dx as [-> | ->]; cbn [vedge_new ve_a ve_b fst] in *; congruence. }
  assert (Told : forall e, In e (concat (outers ++ holes)) -> exists i l, In i (concat (map vp_used vps)) /\ nth_error ls i = Some l /\ edge_under e = l_seg l /\ sides_told segs fr e).
  { intros e I. apply in_concat in I as (path & Ip & Ie). destruct (InP path Ip) as (v & Iv & <-). destruct (Vof v Iv) as (p & _ & _ & _ & _ & F2).
    destruct (Forall2_nth _ _ _ F2 e Ie) as (i & Ii & M). destruct (Vm e i M) as (l & Hl & De). exists i, l.
    split; [apply in_concat; exists (vp_used v); split; auto; apply in_map; auto|]. split; auto. apply (sides_ok segs fr (is_included r) l e A); auto. eapply nth_error_In; eauto. }
  assert (Us : map vp_used vps = map p_used ps).
  { symmetry. eapply Forall2_map_eq; [exact Fv|]. intros p v (_ & _ & X & _). auto. }
  split; [apply Forall_forall; auto|]. split; [|split; [|split; [|split; [|split; [|split]]]]].
  - (* every edge once *)
    set (sg := fun i => match nth_error ls i with Some l => l_seg l | None => XS (Pt 0 0) (Pt 0 0) end).
    transitivity (map edge_under (concat (map vp_path vps))).
    { apply Permutation_map. clear - All. induction All; simpl; auto; [apply Permutation_app_head; auto|rewrite !app_assoc; apply Permutation_app_tail, Permutation_app_comm|etransitivity; eauto]. }
    assert (Eq : map edge_under (concat (map vp_path vps)) = map sg (concat (map vp_used vps))).
    { assert (F : Forall2 (fun e i => vmatch g e i) (concat (map vp_path vps)) (concat (map vp_used vps))).
      { assert (X : forall v, In v vps -> Forall2 (vmatch g) (vp_path v) (vp_used v)) by (intros v Iv; destruct (Vof v Iv) as (p & _ & _ & _ & _ & F2); auto).
        clear - X. induction vps as [|v l IH]; simpl; auto. apply Forall2_app; [apply X; simpl; auto|apply IH; intros; apply X; simpl; auto]. }
      eapply Forall2_map_eq; [exact F|]. intros e i M. destruct (Vm e i M) as (l & Hl & De). unfold sg. rewrite Hl. eapply sides_ok; eauto. eapply nth_error_In; exact Hl. }
    rewrite Eq, Us. transitivity (map sg (seq 0 (length ls))).
    { apply Permutation_map. apply NoDup_Permutation; auto using seq_NoDup. intro i. rewrite in_seq. split.
      - intro I. apply P4 in I as (l & Hl & _). assert (i < length ls)%nat by (apply nth_error_Some; congruence). lia.
      - intros [_ L]. simpl in L. assert (X : nth_error ls i <> None) by (apply nth_error_Some; auto). destruct (nth_error ls i) as [l|] eqn:Hl; [|congruence]. eapply P5; eauto. apply Al. eapply nth_error_In; eauto. }
    replace (map sg (seq 0 (length ls))) with (map l_seg ls); [apply Permutation_refl|].
    apply (nth_ext _ _ (sg O) (sg O)); [rewrite !map_length, seq_length; auto|]. intros i Li. rewrite map_length in Li. rewrite map_nth, seq_nth by auto. simpl.
    pose proof Li as Li'. apply nth_error_Some in Li'. destruct (nth_error ls i) as [l|] eqn:Hl; [|congruence].
    unfold sg at 2. rewrite Hl. apply nth_error_nth. rewrite nth_error_map, Hl. auto.
  - apply Forall_forall. intros e I. destruct (Told e I) as (i & l & _ & _ & _ & X). auto.
  - destruct (C37_direction segs fr r ends keep true false 0 A keep_ok E) as (g' & ps' & Hg' & Hp' & Dd). fold ls in Hg', Hp'. rewrite H in Hg'. injection Hg' as <-. rewrite <- Ff, P1 in Hp'. injection Hp' as <-.
    destruct (Dd (or_introl eq_refl)) as (D1 & _). apply Forall_forall. intros path I. apply in_map_iff in I as (v & <- & I). apply filter_In in I as [I B]. destruct (Vof v I) as (p & Ip & Eh & Et & _).
    rewrite Forall_forall in D1. rewrite Et. apply D1. destruct (Raw p Ip) as (Ec & Evv & _). apply in_map_iff. exists p. split; auto. apply filter_In. split; auto. rewrite Evv, <- Eh. auto.
  - destruct (C37_direction segs fr r ends keep true false 0 A keep_ok E) as (g' & ps' & Hg' & Hp' & Dd). fold ls in Hg', Hp'. rewrite H in Hg'. injection Hg' as <-. rewrite <- Ff, P1 in Hp'. injection Hp' as <-.
    destruct (Dd (or_introl eq_refl)) as (_ & D1 & _). apply Forall_forall. intros path I. apply in_map_iff in I as (v & <- & I). apply filter_In in I as [I B]. destruct (Vof v I) as (p & Ip & Eh & Et & _).
    rewrite Forall_forall in D1. rewrite Et. apply D1. destruct (Raw p Ip) as (Ec & Evv & _). apply in_map_iff. exists p. split; auto. apply filter_In. split; auto. rewrite Evv, <- Eh. auto.
  - destruct (C37_direction segs fr r ends keep true false 0 A keep_ok E) as (g' & ps' & Hg' & Hp' & Dd). fold ls in Hg', Hp'. rewrite H in Hg'. injection Hg' as <-. rewrite <- Ff, P1 in Hp'. injection Hp' as <-.
    destruct (Dd (or_introl eq_refl)) as (_ & _ & _ & _ & D1). intro q. specialize (D1 q). unfold sign_of in D1.
    transitivity (contours_wind (outer_contours ps) q + contours_wind (hole_contours ps) q).
    + unfold contours_wind. rewrite zsum_map, zsum_app. unfold outers, holes, vouters, vholes, outer_contours, hole_contours. rewrite !zsum_map.
      clear - Rp. induction Rp as [|p v l m (X1 & X2 & X3) F IH]; auto. cbn [filter]. rewrite X2, X3. destruct (p_hole p); cbn [negb andb]; rewrite !zsum_cons, X1; lia.
    + rewrite D1. destruct (bool_op _ _ _); simpl; lia.
  - intros shapes Hs. unfold extract_shape_vectors in Hs. unfold vector_pieces in Hs. rewrite Fg, Hv in Hs.
    destruct outers as [|o os] eqn:Eo.
    + assert (Hn : holes = []).
      { destruct (C37_direction segs fr r ends keep true false 0 A keep_ok E) as (g' & ps' & Hg' & Hp' & Dd). fold ls in Hg', Hp'. rewrite H in Hg'. injection Hg' as <-. rewrite <- Ff, P1 in Hp'. injection Hp' as <-.
        destruct (Dd (or_introl eq_refl)) as (_ & Tu & En & _). destruct holes as [|h hs] eqn:Eh; [auto|]. exfalso.
        assert (Hc : hole_contours ps = map to_path (vholes vps) /\ outer_contours ps = map to_path (vouters vps)).
        { unfold hole_contours, outer_contours, vholes, vouters. rewrite !map_map. split.
          - eapply Forall2_map_eq; [eapply Forall2_filter; [exact Rp|]|]; cbv beta; [intros p v (_ & X & Y); rewrite X, Y; auto|intros p v (X & _); auto].
          - eapply Forall2_map_eq; [eapply Forall2_filter; [exact Rp|]|]; cbv beta; [intros p v (_ & X & Y); rewrite X, Y; auto|intros p v (X & _); auto]. }
        destruct Hc as [Hc Oc]. unfold holes in Eh. unfold outers in Eo. rewrite Hc, Oc, Eh, Eo in *. cbn [map] in *.
        apply Forall_inv in Tu. destruct Tu as [_ (q & Tq)]. destruct (En (to_path h) q) as (c & [] & _); [simpl; auto|]. unfold encloses. rewrite Tq. discriminate. }
      fold holes in Hs. rewrite Hn in *. unfold outers in Eo. rewrite Eo in Hs. cbn [map vjoin] in Hs. injection Hs as <-. apply (assembled_grouped [] [] []). split; auto. split; auto. split; auto. intros k c E'. destruct k; discriminate.
    + rewrite <- Eo in *. fold outers holes in Hs. destruct (vjoin_assembled _ _ _ _ _ Hs) as (par & As); [rewrite Eo; discriminate|]. eapply assembled_grouped; eauto.
  - intro Hc. unfold extract_shape_vectors, vector_pieces. rewrite Fg, Hv. fold outers holes. clearbody outers holes.
    destruct outers as [|o [|o2 os]]; cbn [map vjoin]; eauto; destruct holes as [|h hs]; eauto. destruct Hc as [Hc|Hc]; [simpl in Hc; lia|discriminate].
Qed.


(** ** Whole runs *)
Section WithContracts.
  Variable layout_new : Z -> Z -> nat -> option (Z -> nat).
  Hypothesis Lay : layout_ok layout_new.
  Variable query : list (nat * xseg) -> Z * Z -> Z -> list (nat * xseg).
  Hypothesis Qry : query_ok query.
  Variable tree_new : Z * Z -> bool.
  Notation split_input fuel solver adds := (split_segments layout_new query tree_new fuel solver (input_segments adds)).
  Notation merged adds := (sort_merge (input_segments adds)).

  Lemma separate_arrangement fuel solver adds fr ls : bounded_input adds -> no_grid solver (length (merged adds)) ->
    separate_links layout_new query tree_new fuel solver fr (input_segments adds) = ROk ls ->
    exists segs, (input_segments adds <> [] -> split_input fuel solver adds = Done segs) /\ arrangement segs /\ ls = kept (fun _ => true) fr segs.
  Proof.
    intros B N H. unfold separate_links, build_boolean in H.
    assert (A0 : arrangement []).
    { constructor; try (intros ? []; fail); try (intro v; reflexivity); [constructor|intros ? ? []|constructor]. }
    destruct (input_segments adds) as [|s0 l0] eqn:E0.
    { injection H as <-. exists []. split; [tauto|]. auto. }
    rewrite <- E0 in *. destruct (split_input fuel solver adds) as [segs| |] eqn:ES; try discriminate.
    destruct (C14_planar_partial layout_new Lay query Qry tree_new _ _ _ _ B N ES) as [_ A].
    exists segs. split; auto. split; auto. destruct segs as [|s1 l1]; injection H as <-; auto.
  Qed.

  (** [into_separate_vectors]: the edges of the split input, each once, with true flags *)
  Theorem C28_into_separate_vectors fuel solver adds fr ls ends : bounded_input adds -> no_grid solver (length (merged adds)) ->
    separate_links layout_new query tree_new fuel solver fr (input_segments adds) = ROk ls -> ends_ok ls ends ->
    exists segs g, (input_segments adds <> [] -> split_input fuel solver adds = Done segs) /\ graph_new ls ends = Some g /\
      map (fun e => XS (ve_a e) (ve_b e)) (separate_vectors g) = map sx segs /\ NoDup (map sx segs) /\ planar (map sx segs) /\
      Forall (fun e => pt_lt (ve_a e) (ve_b e) /\ sides_told segs fr e) (separate_vectors g).
  Proof.
    intros B N Hl E. destruct (separate_arrangement _ _ _ _ _ B N Hl) as (segs & Hs & A & ->).
    destruct (blinks_graph segs A fr _ ends E) as (g & pts & H & G). destruct (C28_separate segs fr ends g A E H) as [S1 S2].
    exists segs, g. split; auto. split; auto. split; auto. split; [apply (arr_nodup _ A)|]. split; [apply (arr_planar _ A)|]. auto.
  Qed.

  (** the same relative to the contours given, if all crossings are at integer points *)
  Theorem C28_into_separate_vectors_exact fuel solver adds fr : bounded_input adds -> no_grid solver (length (merged adds)) ->
    Forall (fun a => open_contour (fst a)) adds -> merged adds <> [] -> exact_crossings (map sx (merged adds)) ->
    exists ls, separate_links layout_new query tree_new (S fuel) solver fr (input_segments adds) = ROk ls /\
      forall ends, ends_ok ls ends -> exists g, graph_new ls ends = Some g /\
        let es := separate_vectors g in
        NoDup (map (fun e => XS (ve_a e) (ve_b e)) es) /\ planar (map (fun e => XS (ve_a e) (ve_b e)) es) /\
        forall e, In e es -> pt_lt (ve_a e) (ve_b e) /\ forall q, inside_seg (XS (ve_a e) (ve_b e)) q -> near (fun d =>
          let subj p := inside fr (contours_wind (operand Subject adds) p) in
          let clip p := inside fr (contours_wind (operand Clip adds) p) in
          N.testbit (ve_fill e) 0 = subj (left_side (ve_a e) (ve_b e) q d) /\ N.testbit (ve_fill e) 1 = subj (right_side (ve_a e) (ve_b e) q d) /\
          N.testbit (ve_fill e) 2 = clip (left_side (ve_a e) (ve_b e) q d) /\ N.testbit (ve_fill e) 3 = clip (right_side (ve_a e) (ve_b e) q d)).
  Proof.
    intros B N O NE Ex. destruct (merged_balanced adds) as [BS BC].
    destruct (split_exact layout_new Lay query Qry tree_new (input_segments adds) (input_inv adds B) BS BC solver fuel N Ex (or_introl NE)) as (out & H & W1 & W2).
    assert (WS : forall q, wind (subj_chain out) q = contours_wind (operand Subject adds) q).
    { intro q. rewrite W1. unfold subj_chain at 1. rewrite sort_merge_wind by (reflexivity || (intros [? ?]; simpl; lia)). apply input_wind_subj; auto. }
    assert (WC : forall q, wind (clip_chain out) q = contours_wind (operand Clip adds) q).
    { intro q. rewrite W2. unfold clip_chain at 1. rewrite sort_merge_wind by (reflexivity || (intros [? ?]; simpl; lia)). apply input_wind_clip; auto. }
    destruct (C14_planar_partial layout_new Lay query Qry tree_new _ _ _ _ B N H) as [_ A].
    exists (kept (fun _ => true) fr out). split.
    { unfold separate_links, build_boolean. destruct (input_segments adds) as [|s0 l0] eqn:E0; [exfalso; apply NE; reflexivity|]. rewrite H. destruct out; auto. }
    intros ends E. destruct (blinks_graph out A fr _ ends E) as (g & pts & Hg & G). destruct (C28_separate out fr ends g A E Hg) as [S1 S2].
    exists g. split; auto. cbv zeta. rewrite S1. split; [apply (arr_nodup _ A)|]. split; [apply (arr_planar _ A)|].
    intros e I. rewrite Forall_forall in S2. destruct (S2 e I) as [Lab T]. split; auto. intros q Q0. unfold sides_told, edge_under in T. assert (Lab' : pt_ltb (ve_a e) (ve_b e) = true) by (apply pt_ltb_lt; auto).
    rewrite Lab' in T. destruct (T q Q0) as (eps & Pe & F). exists eps. split; auto. intros d Hd. destruct (F d Hd) as (F0 & F1 & F2 & F3). rewrite WS in F0, F1. rewrite WC in F2, F3. auto.
  Qed.

  (** [into_shape_vectors] *)
  Theorem C28_into_shape_vectors_partial fuel solver adds r fr ls ends srt dbg : bounded_input adds -> no_grid solver (length (merged adds)) ->
    overlay_links layout_new query tree_new fuel solver r fr (input_segments adds) = ROk ls -> ends_ok ls ends -> (forall v, (degree ls v <= 4)%nat) ->
    exists segs g outers holes, (input_segments adds <> [] -> split_input fuel solver adds = Done segs) /\ graph_new ls ends = Some g /\
      Forall closed_path (outers ++ holes) /\
      Permutation (map edge_under (concat (outers ++ holes))) (map l_seg ls) /\
      Forall (sides_told segs fr) (concat (outers ++ holes)) /\
      Forall (fun p => turns (-1) (to_path p)) outers /\ Forall (fun p => turns 1 (to_path p)) holes /\
      (forall q, contours_wind (map to_path (outers ++ holes)) q =
        if bool_op r (inside fr (wind (subj_chain segs) q)) (inside fr (wind (clip_chain segs) q)) then -1 else 0) /\
      (forall shapes, extract_shape_vectors srt dbg g r = Some shapes -> grouped outers holes shapes) /\
      ((length outers <= 1)%nat \/ holes = [] -> exists shapes, extract_shape_vectors srt dbg g r = Some shapes).
  Proof.
    intros B N Hl E D. destruct (overlay_arrangement layout_new Lay query Qry tree_new _ _ _ _ _ _ B N Hl) as (segs & Hs & A & ->).
    destruct (C28_shape_vectors_partial segs fr r ends srt dbg A E D) as (g & outers & holes & Rest). exists segs, g, outers, holes. split; auto.
  Qed.
End WithContracts.

(** ** C28 fails for shapes: three inputs without any crossing *)
Definition vadds (cs : list (list pt)) : input := map (fun c => (c, Subject)) cs.
Definition vlinks (cs : list (list pt)) := result_links EvenOdd RSubject (sort_merge (input_segments (vadds cs))).
Definition vshapes (srt : list idseg -> list idseg) (dbg : bool) (cs : list (list pt)) : option (list (list (list vedge))) :=
  match graph_new (vlinks cs) (sorted_ends (vlinks cs)) with Some g => extract_shape_vectors srt dbg g RSubject | None => None end.
Definition vpaths (cs : list (list pt)) : option (list (bool * list pt)) :=
  match graph_new (vlinks cs) (sorted_ends (vlinks cs)) with
  | Some g => option_map (map (fun p => (vp_hole p, to_path (vp_path p)))) (vector_pieces g RSubject (filter_by_rule RSubject (g_links g))) | None => None end.
Definition box x0 y0 x1 y1 := [Pt x0 y0; Pt x1 y0; Pt x1 y1; Pt x0 y1].

Lemma degree_check ls k : Forall (fun w => (degree ls w <= k)%nat) (map l_a ls ++ map l_b ls) -> forall v, (degree ls v <= k)%nat.
Proof.
  intros F v. assert (X : In v (map l_a ls ++ map l_b ls) \/ degree ls v = O).
  { clear F. unfold degree. induction ls as [|l ls IH]; auto. cbn [map filter]. destruct (pt_eqb (l_a l) v) eqn:Ea; [apply pt_eqb_eq in Ea as <-; left; simpl; auto|]. cbn [orb].
    destruct (pt_eqb (l_b l) v) eqn:Eb; [apply pt_eqb_eq in Eb as <-; left; apply in_or_app; right; simpl; auto|]. destruct IH as [I|Z0]; auto. left. apply in_app_or in I. apply in_or_app. simpl. tauto. }
  destruct X as [X | ->]; [rewrite Forall_forall in F; auto|lia].
Qed.
Lemma degree_checkb ls k : forallb (fun w => (degree ls w <=? k)%nat) (map l_a ls ++ map l_b ls) = true -> forall v, (degree ls v <= k)%nat.
Proof. intro F. apply degree_check. apply Forall_forall. intros w I. rewrite forallb_forall in F. apply Nat.leb_le, F, I. Qed.
Lemma perm_single (srt : list idseg -> list idseg) x : (forall l, Permutation (srt l) l) -> srt [x] = [x].
Proof. intro P. apply Permutation_length_1_inv. symmetry. auto. Qed.

(** A square with a hole and, to the right of it, another rectangle: only the top edges of the outer
    paths take part in the search for the shape around a hole; no edge below the hole is found and the
    call panics, whatever the sort does among equal [x]. *)
Definition vin_panic := [box 0 0 100 100; box 10 10 50 50; box 200 (-1) 300 100].
Definition vpanic : list (list vedge) * list (list vedge) := Eval vm_compute in
  match graph_new (vlinks vin_panic) (sorted_ends (vlinks vin_panic)) with
  | Some g => match vector_pieces g RSubject (filter_by_rule RSubject (g_links g)) with Some ps => (vouters ps, vholes ps) | None => ([], []) end | None => ([], []) end.
Theorem C28_panic_refuted srt : (forall l, Permutation (srt l) l) ->
  planar (map sx (sort_merge (input_segments (vadds vin_panic)))) /\ (forall v, (degree (vlinks vin_panic) v <= 2)%nat) /\
  vshapes srt false vin_panic = None.
Proof.
  intro Hp. split; [apply planarb_ok; vm_compute; reflexivity|]. split.
  - apply degree_checkb. vm_compute. reflexivity.
  - unfold vshapes, extract_shape_vectors.
    replace (match graph_new (vlinks vin_panic) (sorted_ends (vlinks vin_panic)) with Some g => match vector_pieces g RSubject (filter_by_rule RSubject (g_links g)) with Some ps => vjoin srt false (map (fun c => [c]) (vouters ps)) (vholes ps) true | None => None end | None => None end) with
      (vjoin srt false (map (fun c => [c]) (fst vpanic)) (snd vpanic) true).
    + cbv -[bind push_holes]. rewrite (perm_single srt) by auto. vm_compute. reflexivity.
    + vm_compute. reflexivity.
Qed.
(** the two shapes and the hole; with one shape only, nothing has to be searched and the result is right *)
Example vpanic_paths : vpaths vin_panic = Some [(false, [Pt 0 0; Pt 0 100; Pt 100 100; Pt 100 0]); (true, [Pt 10 50; Pt 10 10; Pt 50 10; Pt 50 50]);
  (false, [Pt 200 (-1); Pt 200 100; Pt 300 100; Pt 300 (-1)])].
Proof. vm_compute. reflexivity. Qed.
Definition sort_x := isort (fun s o => px (sa (id_seg s)) <=? px (sa (id_seg o))).
Example vector_one_shape : option_map (map (map to_path)) (vshapes sort_x true (firstn 2 vin_panic)) =
  Some [[[Pt 0 0; Pt 0 100; Pt 100 100; Pt 100 0]; [Pt 10 50; Pt 10 10; Pt 50 10; Pt 50 50]]].
Proof. vm_compute. reflexivity. Qed.

(** The other rectangle further down: the hole of the square goes to the rectangle below. *)
Definition vin_wrong := [box 0 0 100 100; box 10 10 50 50; box 1 (-200) 300 (-100)].
Theorem C28_wrong_shape_refuted :
  planar (map sx (sort_merge (input_segments (vadds vin_wrong)))) /\ (forall v, (degree (vlinks vin_wrong) v <= 2)%nat) /\
  option_map (map (map to_path)) (vshapes sort_x false vin_wrong) =
    Some [[[Pt 0 0; Pt 0 100; Pt 100 100; Pt 100 0]]; [[Pt 1 (-200); Pt 1 (-100); Pt 300 (-100); Pt 300 (-200)]; [Pt 10 50; Pt 10 10; Pt 50 10; Pt 50 50]]].
Proof.
  split; [apply planarb_ok; vm_compute; reflexivity|]. split.
  - apply degree_checkb. vm_compute. reflexivity.
  - vm_compute. reflexivity.
Qed.

(** Three triangles with the same leftmost vertex (six edges meet in it): the search for the next start
    passes over the unused upper edge of the third triangle, which is then taken for a hole, though
    the result has no hole at all (and the call panics). *)
Definition vin_fan := [[Pt 0 0; Pt 1 (-3); Pt 2 (-5)]; [Pt 0 0; Pt 100 100; Pt 100 90]; [Pt 0 0; Pt 100 70; Pt 100 60]].
Theorem C28_misread_hole_refuted :
  planar (map sx (sort_merge (input_segments (vadds vin_fan)))) /\ degree (vlinks vin_fan) (Pt 0 0) = 6%nat /\
  vpaths vin_fan = Some [(false, [Pt 0 0; Pt 100 100; Pt 100 90]); (false, [Pt 0 0; Pt 100 70; Pt 100 60]); (true, [Pt 1 (-3); Pt 0 0; Pt 2 (-5)])] /\ vshapes sort_x false vin_fan = None.
Proof.
  split; [apply planarb_ok; vm_compute; reflexivity|]. split; [vm_compute; reflexivity|]. split.
  - vm_compute. reflexivity.
  - vm_compute. reflexivity.
Qed.

(** ** Example: two squares that touch in a corner and two overlapping ones *)
Definition vex_adds : input := [(sq 0 0 4, Subject); (sq 4 4 4, Subject); (sq 2 2 4, Clip)].
Example vex_separate : exists ls, separate_links lay4 qry (fun _ => true) 1 (mk_solver StAuto) EvenOdd (input_segments vex_adds) = ROk ls /\
  forall ends, ends_ok ls ends -> exists g, graph_new ls ends = Some g /\
    let es := separate_vectors g in
    NoDup (map (fun e => XS (ve_a e) (ve_b e)) es) /\ planar (map (fun e => XS (ve_a e) (ve_b e)) es) /\
    forall e, In e es -> pt_lt (ve_a e) (ve_b e) /\ forall q, inside_seg (XS (ve_a e) (ve_b e)) q -> near (fun d =>
      let subj p := inside EvenOdd (contours_wind (operand Subject vex_adds) p) in
      let clip p := inside EvenOdd (contours_wind (operand Clip vex_adds) p) in
      N.testbit (ve_fill e) 0 = subj (left_side (ve_a e) (ve_b e) q d) /\ N.testbit (ve_fill e) 1 = subj (right_side (ve_a e) (ve_b e) q d) /\
      N.testbit (ve_fill e) 2 = clip (left_side (ve_a e) (ve_b e) q d) /\ N.testbit (ve_fill e) 3 = clip (right_side (ve_a e) (ve_b e) q d)).
Proof.
  apply (C28_into_separate_vectors_exact lay4 lay4_ok qry qry_ok).
  - repeat constructor; vm_compute; reflexivity.
  - left. vm_compute. reflexivity.
  - repeat (apply Forall_cons; [left; discriminate|]). constructor.
  - vm_compute. discriminate.
  - apply exactb_ok. vm_compute. reflexivity.
Qed.
Definition vex_links := Eval vm_compute in
  match overlay_links lay4 qry (fun _ => true) 1 (mk_solver StAuto) RXor EvenOdd (input_segments vex_adds) with ROk ls => ls | _ => [] end.
Example vex_shape : overlay_links lay4 qry (fun _ => true) 1 (mk_solver StAuto) RXor EvenOdd (input_segments vex_adds) = ROk vex_links /\
  ends_ok vex_links (sorted_ends vex_links) /\ (forall v, (degree vex_links v <= 4)%nat) /\ degree vex_links (Pt 4 4) = 4%nat.
Proof.
  split; [vm_compute; reflexivity|]. split; [apply sorted_ends_ok|]. split; [apply degree_checkb; vm_compute; reflexivity|]. vm_compute. reflexivity.
Qed.

Print Assumptions C28_separate.
Print Assumptions C28_shape_vectors_partial.
Print Assumptions C28_into_separate_vectors.
Print Assumptions C28_into_separate_vectors_exact.
Print Assumptions C28_into_shape_vectors_partial.
Print Assumptions C28_panic_refuted.
Print Assumptions C28_wrong_shape_refuted.
Print Assumptions C28_misread_hole_refuted.
