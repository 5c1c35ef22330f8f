(** * Property theorems, part 2: splitting, strategies, end-to-end regions.

    [layout_ok] and [query_ok] are the contracts of the two external data structures
    ([i_key_sort::BinLayout]: the bin index is monotone; [i_tree::SegExpTree]: a range query
    returns stored segments, and all that are alive and meet the range); instances that
    satisfy them are given below.  [no_grid solver n]: the solver does not use the grid
    strategy for n segments (LIST; TREE and AUTO up to 16000 segments). *)
From Verif Require Import Base Spec QLib ModelSegm SegmProofs MergeProofs PlanarGeo PlanarSum ModelFill ModelFilter FillProofs FillCorrect
  ModelCross CrossProofs CrossPoint MarksProofs CoreResults Properties01 ModelSplit SplitProofs SplitPlanar SplitPass BinsProofs SplitApply SplitLoop
  ModelFrag ModelOverlay OverlayProofs FragProofs GridCover.
Open Scope Z_scope.

(** ** Instances of the contracts, example inputs *)
Definition lay4 : Z -> Z -> nat -> option (Z -> nat) := fun mn mx _ => Some (fun x => Z.to_nat ((x - mn) / 4)).
Definition qry : list (nat * xseg) -> Z * Z -> Z -> list (nat * xseg) := fun l r t =>
  filter (fun x => (t <=? px (sb (snd x))) && (y_min (snd x) <=? snd r) && (fst r <=? y_max (snd x))) l.
Example lay4_ok : layout_ok lay4.
Proof.
  intros mn mx n index E x y L1 L2 L3. injection E as <-. apply Z2Nat.inj_le; try (apply Z.div_pos; lia).
  apply Z.div_le_mono; lia.
Qed.
Example qry_ok : query_ok qry.
Proof.
  intros l lo hi t. split.
  - intros x H. apply filter_In in H. tauto.
  - intros j s H A B D. apply filter_In. split; auto. simpl. lia.
Qed.
Definition mk_solver (st : Strategy) : Solver := Slv st (MkPrec 0 1).
(** two overlapping squares and a triangle cutting both, with integer and non-integer crossings *)
Definition ex2_adds : input :=
  [(sq 0 0 10, Subject); (sq 5 5 10, Clip); ([Pt (-3) 2; Pt 17 4; Pt 3 17], Clip)].
Definition ex3_adds : input :=
  [(sq 0 0 10, Subject); (sq 5 5 10, Clip); ([Pt (-2) (-2); Pt 12 12; Pt 2 2; Pt 0 20], Subject); ([Pt 5 0; Pt 7 0; Pt 10 7; Pt 10 9], Clip)].
Example ex2_bounded : bounded_input ex2_adds.
Proof. repeat constructor. Qed.
Example ex3_bounded : bounded_input ex3_adds.
Proof. repeat constructor. Qed.

Section WithContracts.
  Variable layout_new : Z -> Z -> nat -> option (Z -> nat).
  Hypothesis Lay : layout_ok layout_new.
  Variable query : list (nat * xseg) -> Z * Z -> Z -> list (nat * xseg).
  Hypothesis Qry : query_ok query.
  Variable tree_new : Z * Z -> bool.
  Notation split_input fuel solver adds := (split_segments layout_new query tree_new fuel solver (input_segments adds)).
  Notation merged adds := (sort_merge (input_segments adds)).

  Lemma split_all fuel solver adds out : bounded_input adds -> split_input fuel solver adds = Done out ->
    inv out /\ wf_boundary (merged adds) out.
  Proof.
    intros B H. destruct (merged_balanced adds) as [BS BC]. pose proof (input_inv adds B) as I.
    unfold split_segments, solver_split in H.
    assert (L : forall tree r, split_loop layout_new query tree_new fuel solver tree r (merged adds) = Done out ->
       inv out /\ wf_boundary (merged adds) out).
    { intros tree r H'. destruct (loop_spec layout_new Lay query Qry tree_new solver fuel tree r _ _ I BS BC H') as (A & _ & C). auto. }
    assert (T : forall r, tree_split layout_new query tree_new fuel solver r (merged adds) = Done out ->
       inv out /\ wf_boundary (merged adds) out).
    { intros r H'. unfold tree_split in H'. destruct (merged adds) eqn:E; [discriminate|]. eapply L; eauto. }
    destruct (is_list_split _ _); [eapply L; eauto|].
    destruct (is_fragmentation_required _ _); [|eapply T; eauto].
    unfold fragment_split in H. destruct (grid_new _ _) as [g|]; [|eapply T; eauto].
    apply (frag_loop_spec layout_new Lay g fuel (snap_radius solver) _ I). auto.
  Qed.

  (** ** C11: splitting never creates degenerate edges (every strategy, grid included). *)
  Theorem C11_nondegenerate fuel solver adds out : bounded_input adds -> split_input fuel solver adds = Done out ->
    forall s, In s out -> pt_lt (sa (sx s)) (sb (sx s)) /\ (subj (sc s) <> 0 \/ clip (sc s) <> 0).
  Proof.
    intros B H s Hs. destruct (split_all _ _ _ _ B H) as [[_ W N _] _]. rewrite Forall_forall in W, N.
    split; [apply W; auto|]. specialize (N s Hs). destruct (sc s); simpl in *. lia.
  Qed.
  (** every split point chosen for an edge differs from both of its ends *)
  Theorem C11_split_points (xs : list xseg) r tree i p : StronglySorted xseg_lt xs -> Forall wf_xseg xs -> 1 <= r ->
    In (i, p) (fst ((if tree : bool then tree_pass query else list_pass) r xs)) ->
    exists s, nth_error xs i = Some s /\ p <> sa s /\ p <> sb s.
  Proof.
    intros S W Hr I. apply (pass_not_end xs r (conj S W) Hr).
    destruct tree; [apply (tree_pass_spec r Hr query Qry xs (conj S W)); auto|apply (list_pass_spec r Hr xs (conj S W)); auto].
  Qed.

  (** ** C12: whatever the split points, contours stay closed. *)
  Theorem C12_any_split_points segs ms out v :
    StronglySorted (fun s t => xseg_lt (sx s) (sx t)) segs -> Forall (fun s => wf_xseg (sx s)) segs ->
    Forall (fun s : segment cntB => subj (sc s) <> 0 \/ clip (sc s) <> 0) segs ->
    (forall i p, In (i, p) ms -> (i < length segs)%nat /\ (forall s0, hd_error segs = Some s0 -> px (sa (sx s0)) <= px p)) ->
    apply layout_new ms segs = Some out ->
    boundary (subj_chain out) v = boundary (subj_chain segs) v /\ boundary (clip_chain out) v = boundary (clip_chain segs) v.
  Proof.
    intros S W N R H.
    assert (NE : Forall (fun s : segment cntB => wc_not_empty (sc s) = true) segs).
    { eapply Forall_impl; [|exact N]. intros [x [a b]]; simpl; lia. }
    destruct ms as [|m0 ms0] eqn:EM; [unfold apply in H; destruct segs; discriminate|]. rewrite <- EM in *.
    rewrite (apply_spec layout_new Lay segs ms NE (okB segs) W S) in H.
    - injection H as <-. unfold subj_chain, clip_chain.
      split; rewrite sort_merge_boundary by (reflexivity || (intros [? ?]; simpl; lia));
        apply pieces_boundary; auto.
    - intros [i p] Im. apply (R i p Im).
    - intros [i p] s0 Im H0. apply (R i p Im). destruct segs; [discriminate|]. exact H0.
    - rewrite EM. discriminate.
  Qed.
  Theorem C12_closed_after_split fuel solver adds out : bounded_input adds -> split_input fuel solver adds = Done out ->
    balanced (subj_chain out) /\ balanced (clip_chain out).
  Proof.
    intros B H. destruct (split_all _ _ _ _ B H) as [_ WB]. destruct (merged_balanced adds) as [BS BC].
    eapply boundary_balanced; eauto.
  Qed.

  (** ** C13: split points on the edges leave all winding numbers unchanged. *)
  Theorem C13_exact_split segs ms out q :
    StronglySorted (fun s t => xseg_lt (sx s) (sx t)) segs -> Forall (fun s => wf_xseg (sx s)) segs ->
    Forall (fun s : segment cntB => subj (sc s) <> 0 \/ clip (sc s) <> 0) segs ->
    (forall i p, In (i, p) ms -> exists s, nth_error segs i = Some s /\ inside_seg (sx s) (qof p)) ->
    apply layout_new ms segs = Some out ->
    wind (subj_chain out) q = wind (subj_chain segs) q /\ wind (clip_chain out) q = wind (clip_chain segs) q.
  Proof.
    intros S W N R H.
    assert (NE : Forall (fun s : segment cntB => wc_not_empty (sc s) = true) segs).
    { eapply Forall_impl; [|exact N]. intros [x [a b]]; simpl; lia. }
    destruct ms as [|m0 ms0] eqn:EM; [unfold apply in H; destruct segs; discriminate|]. rewrite <- EM in *.
    rewrite (apply_spec layout_new Lay segs ms NE (okB segs) W S) in H.
    - injection H as <-. unfold subj_chain, clip_chain.
      split; rewrite sort_merge_wind by (reflexivity || (intros [? ?]; simpl; lia)); apply pieces_wind; auto;
        intros i p s Im Hs; destruct (R i p Im) as (s' & Hs' & In); rewrite Hs in Hs'; injection Hs' as <-;
        (split; [apply inside_cross, In|apply inside_not_end; auto]).
    - intros [i p] Im. destruct (R i p Im) as (s & Hs & _). simpl. apply nth_error_Some. congruence.
    - intros [i p] s0 Im H0. simpl. destruct (R i p Im) as (s & Hs & [In _]).
      apply nth_error_In in Hs. rewrite Forall_forall in W. apply on_seg_range in In as [In _]; [|apply W; auto].
      apply pt_of_qle in In. apply pt_leb_alt2 in In.
      assert (px (sa (sx s0)) <= px (sa (sx s))).
      { destruct segs as [|s1 rest]; [discriminate|]. injection H0 as <-. destruct Hs as [<-|Hs]; [lia|].
        inversion S as [|? ? _ F]; subst. rewrite Forall_forall in F. apply sorted_a_le. auto. }
      destruct In as [In|In]; [unfold pt_lt in In; lia|rewrite <- In; lia].
    - rewrite EM. discriminate.
  Qed.

  (** ** C14: the arrangement is planar when splitting is done. *)
  Theorem C14_planar_partial fuel solver adds out : bounded_input adds -> no_grid solver (length (merged adds)) ->
    split_input fuel solver adds = Done out ->
    planar (map sx out) /\ arrangement out.
  Proof.
    intros B N H. destruct (merged_balanced adds) as [BS BC].
    destruct (split_done layout_new Lay query Qry tree_new (input_segments adds) (input_inv adds B) BS BC fuel solver out N H) as (A & _ & _).
    split; auto. apply A.
  Qed.

  (** ** C15: termination.  Proved: inputs whose crossings have integer coordinates need one
      round, and allowing more rounds never changes an answer.  Not proved: a bound on the
      number of rounds when crossing points have to be rounded. *)
  Theorem C15_exact_terminates_partial fuel solver adds : bounded_input adds -> no_grid solver (length (merged adds)) ->
    exact_crossings (map sx (merged adds)) -> merged adds <> [] ->
    exists out, split_input (S fuel) solver adds = Done out.
  Proof.
    intros B N Ex NE. destruct (merged_balanced adds) as [BS BC].
    destruct (split_exact layout_new Lay query Qry tree_new (input_segments adds) (input_inv adds B) BS BC solver fuel N Ex (or_introl NE)) as (out & H & _).
    eauto.
  Qed.
  Theorem C15_fuel_monotone fuel fuel' solver adds out : no_grid solver (length (merged adds)) -> (fuel <= fuel')%nat ->
    split_input fuel solver adds = Done out -> split_input fuel' solver adds = Done out.
  Proof.
    intros N L H.
    assert (K : forall tree r, split_loop layout_new query tree_new fuel solver tree r (merged adds) = Done out ->
      split_loop layout_new query tree_new fuel' solver tree r (merged adds) = Done out).
    { intros tree r H'. rewrite (loop_mono layout_new query tree_new solver fuel fuel' tree r (merged adds) L); auto. rewrite H'. discriminate. }
    unfold split_segments, solver_split in *. destruct (is_list_split _ _) eqn:EL; auto.
    destruct N as [N|N]; [congruence|]. rewrite N in *. unfold tree_split in *.
    destruct (merged adds); auto.
  Qed.

  (** ** C20: regions.  [result_edges_region]: even-odd region of the result links. *)
  Definition edge_region (ls : list link) (q : qpt) : bool := Z.odd (zsum (fun l => bz (under (l_seg l) q)) ls).

  Theorem C20_region_split fuel solver adds r fr ls : bounded_input adds -> no_grid solver (length (merged adds)) ->
    overlay_links layout_new query tree_new fuel solver r fr (input_segments adds) = ROk ls ->
    exists segs, (input_segments adds <> [] -> split_input fuel solver adds = Done segs) /\
      forall q, edge_region ls q = bool_op r (inside fr (wind (subj_chain segs) q)) (inside fr (wind (clip_chain segs) q)).
  Proof.
    intros B N H. unfold overlay_links, build_boolean in H.
    assert (Z : forall q, edge_region [] q = bool_op r (inside fr (wind (subj_chain []) q)) (inside fr (wind (clip_chain []) q))).
    { intro q. destruct r, fr; reflexivity. }
    destruct (input_segments adds) as [|s0 l0] eqn:E0.
    { injection H as <-. exists []. split; [tauto|]. auto. }
    rewrite <- E0 in *. destruct (split_input fuel solver adds) as [segs| |] eqn:ES; try discriminate.
    destruct (C14_planar_partial _ _ _ _ B N ES) as [_ A].
    exists segs. split; auto. destruct segs as [|s1 l1].
    - injection H as <-. auto.
    - injection H as <-. intro q. apply (result_region (s1 :: l1) A fr r q).
  Qed.

  Theorem C20_region_exact fuel solver adds r fr : bounded_input adds -> no_grid solver (length (merged adds)) ->
    Forall (fun a => open_contour (fst a)) adds -> merged adds <> [] ->
    exact_crossings (map sx (merged adds)) ->
    exists ls, overlay_links layout_new query tree_new (S fuel) solver r fr (input_segments adds) = ROk ls /\
      forall q, edge_region ls q =
        bool_op r (inside fr (contours_wind (operand Subject adds) q)) (inside fr (contours_wind (operand Clip adds) q)).
  Proof.
    intros B N O NE Ex. destruct (merged_balanced adds) as [BS BC].
    destruct (split_exact layout_new Lay query Qry tree_new (input_segments adds) (input_inv adds B) BS BC solver fuel N Ex (or_introl NE)) as (out & H & W1 & W2).
    assert (WS : forall q, wind (subj_chain out) q = contours_wind (operand Subject adds) q).
    { intro q. rewrite W1. unfold subj_chain at 1. rewrite sort_merge_wind by (reflexivity || (intros [? ?]; simpl; lia)). apply input_wind_subj; auto. }
    assert (WC : forall q, wind (clip_chain out) q = contours_wind (operand Clip adds) q).
    { intro q. rewrite W2. unfold clip_chain at 1. rewrite sort_merge_wind by (reflexivity || (intros [? ?]; simpl; lia)). apply input_wind_clip; auto. }
    destruct (C14_planar_partial _ _ _ _ B N H) as [_ A].
    unfold overlay_links, build_boolean. rewrite H.
    destruct (input_segments adds) as [|s0 l0] eqn:E0; [exfalso; apply NE; reflexivity|].
    destruct out as [|s1 l1].
    - exists []. split; auto. intro q. rewrite <- WS, <- WC. destruct r, fr; reflexivity.
    - eexists. split; [reflexivity|]. intro q. rewrite <- WS, <- WC. apply (result_region (s1 :: l1) A fr r q).
  Qed.

  (** the result edges, directed so that the filled side is on the left, wind exactly once
      around every point of the region and not at all around the others *)
  Theorem C20_winding_one fuel solver adds r fr ls segs : bounded_input adds -> no_grid solver (length (merged adds)) ->
    split_input fuel solver adds = Done segs -> input_segments adds <> [] ->
    overlay_links layout_new query tree_new fuel solver r fr (input_segments adds) = ROk ls ->
    forall q, wind (map (fun l => (l_seg l, if is_fill_top r (l_fill l) then 1 else -1)) ls) q =
      (if bool_op r (inside fr (wind (subj_chain segs) q)) (inside fr (wind (clip_chain segs) q)) then 1 else 0).
  Proof.
    intros B N ES NE H. unfold overlay_links, build_boolean in H. rewrite ES in H.
    destruct (C14_planar_partial _ _ _ _ B N ES) as [_ A].
    destruct (input_segments adds) as [|s0 l0]; [congruence|].
    destruct segs as [|s1 l1]; injection H as <-; intro q.
    - destruct r, fr; reflexivity.
    - exact (region_signed (s1 :: l1) A fr r q).
  Qed.

  (** ** C24: end to end, the graph restricted to a rule has the links of the direct overlay. *)
  Theorem C24_graph_pipeline fuel solver adds r fr ls : bounded_input adds -> no_grid solver (length (merged adds)) ->
    graph_links layout_new query tree_new fuel solver fr (input_segments adds) = ROk ls ->
    overlay_links layout_new query tree_new fuel solver r fr (input_segments adds) =
      ROk (filter (fun l => is_included r (l_fill l)) ls).
  Proof.
    intros B N H. unfold overlay_links, graph_links, build_boolean in *.
    destruct (input_segments adds) as [|s0 l0] eqn:E0; [injection H as <-; auto|]. rewrite <- E0 in *.
    destruct (split_input fuel solver adds) as [segs| |] eqn:ES; try discriminate.
    destruct (C14_planar_partial _ _ _ _ B N ES) as [_ A].
    destruct segs as [|s1 l1]; [injection H as <-; auto|].
    injection H as <-. f_equal. symmetry. apply (graph_reuse (s1 :: l1) A fr r).
  Qed.

  (** ** C31: LIST, TREE and AUTO agree, whenever none of the two runs panics. *)
  Theorem C31_strategies_partial fuel adds s1 s2 : bounded_input adds -> precision s1 = precision s2 ->
    no_grid s1 (length (merged adds)) -> no_grid s2 (length (merged adds)) ->
    split_input fuel s1 adds <> Panic -> split_input fuel s2 adds <> Panic ->
    split_input fuel s1 adds = split_input fuel s2 adds.
  Proof.
    intros B EP N1 N2 P1 P2. destruct (merged_balanced adds) as [BS BC].
    apply split_strategy; auto. apply input_inv; auto.
  Qed.
  Theorem C31_links_partial fuel adds s1 s2 r fr : bounded_input adds -> precision s1 = precision s2 ->
    no_grid s1 (length (merged adds)) -> no_grid s2 (length (merged adds)) ->
    overlay_links layout_new query tree_new fuel s1 r fr (input_segments adds) <> RPanic ->
    overlay_links layout_new query tree_new fuel s2 r fr (input_segments adds) <> RPanic ->
    overlay_links layout_new query tree_new fuel s1 r fr (input_segments adds) =
    overlay_links layout_new query tree_new fuel s2 r fr (input_segments adds).
  Proof.
    intros B EP N1 N2 P1 P2. unfold overlay_links, build_boolean in *.
    destruct (input_segments adds) as [|s0 l0] eqn:E0; auto. rewrite <- E0 in *.
    rewrite (C31_strategies_partial fuel adds s1 s2); auto.
    - intro P. rewrite P in P1. congruence.
    - intro P. rewrite P in P2. congruence.
  Qed.

  (** ** C39: LIST and AUTO never panic (bounded input, any number of rounds). *)
  Theorem C39_no_panic fuel adds solver r fr : bounded_input adds -> strategy solver = StList \/ strategy solver = StAuto ->
    no_grid solver (length (merged adds)) ->
    overlay_links layout_new query tree_new fuel solver r fr (input_segments adds) <> RPanic.
  Proof.
    intros B St N. unfold overlay_links, build_boolean.
    destruct (input_segments adds) as [|s0 l0] eqn:E0; [discriminate|]. rewrite <- E0 in *.
    pose proof (split_no_panic layout_new Lay query Qry tree_new fuel (input_segments adds) solver St N (input_inv adds B)) as P.
    destruct (split_input fuel solver adds) as [[|? ?]| |]; try discriminate. congruence.
  Qed.

  (** ** C38: simplify = the fill-rule region of the contours ([simplify] adds all contours as
      subject and applies the rule Subject, [core/simplify.rs:32-62]). *)
  Definition simplify_links (fuel : nat) (solver : Solver) (fr : FillRule) (paths : list (list pt)) : run (list link) :=
    overlay_links layout_new query tree_new fuel solver RSubject fr (add_contours paths Subject).
  Theorem C38_simplify_region fuel solver fr paths :
    let adds := map (fun p => (p, Subject)) paths in
    bounded_input adds -> no_grid solver (length (merged adds)) ->
    Forall open_contour paths -> merged adds <> [] -> exact_crossings (map sx (merged adds)) ->
    exists ls, simplify_links (S fuel) solver fr paths = ROk ls /\
      forall q, edge_region ls q = inside fr (contours_wind paths q).
  Proof.
    intros adds B N O NE Ex.
    assert (E : add_contours paths Subject = input_segments adds).
    { unfold add_contours, input_segments, adds. rewrite !flat_map_concat_map, map_map. reflexivity. }
    unfold simplify_links. rewrite E.
    destruct (C20_region_exact fuel solver adds RSubject fr B N) as (ls & H & R); auto.
    { unfold adds. apply Forall_map. auto. }
    exists ls. split; auto. intro q. rewrite R. simpl. f_equal. f_equal.
    unfold adds, operand. clear. induction paths as [|p l IH]; simpl; auto. f_equal. auto.
  Qed.
End WithContracts.

(** *** Non-vacuity of C11-C15, C20, C24, C31, C38, C39 *)
Example ex2_split : exists out, split_segments lay4 qry (fun _ => true) 5 (mk_solver StList) (input_segments ex2_adds) = Done out /\
  length out = 23%nat /\ split_segments lay4 qry (fun _ => true) 1 (mk_solver StList) (input_segments ex2_adds) = Fuel.
Proof. eexists. split; [vm_compute; reflexivity|]. split; vm_compute; reflexivity. Qed.
Example ex2_tree : exists out, split_segments lay4 qry (fun _ => true) 5 (mk_solver StTree) (input_segments ex2_adds) = Done out.
Proof. eexists. vm_compute. reflexivity. Qed.

(** a checker for [exact_crossings] on concrete inputs *)
Definition exact_pairb (s t : xseg) : bool :=
  let p := cross_point s t in
  (dirx s t =? 0) || ((cross3 (sa s) (sb s) p =? 0) && (cross3 (sa t) (sb t) p =? 0)) ||
  (0 <=? cross3 (sa t) (sb t) (sa s) * cross3 (sa t) (sb t) (sb s)) ||
  (0 <=? cross3 (sa s) (sb s) (sa t) * cross3 (sa s) (sb s) (sb t)).
Definition exactb (l : list xseg) : bool := forallb (fun s => forallb (exact_pairb s) l) l.
Lemma same_side s t q : 0 <= cross3 (sa t) (sb t) (sa s) * cross3 (sa t) (sb t) (sb s) -> dirx s t <> 0 -> inside_seg s q -> on_seg t q -> False.
Proof.
  intros H D [(v & Hv & Vx & Vy) NE] On.
  pose proof (on_seg_line _ _ On) as L. rewrite (on_seg_mix _ _ s q v Vx Vy) in L.
  assert (V0 : ~ v == 0%Q). { intro E. apply NE. left. split; [rewrite Vx, E|rewrite Vy, E]; ring. }
  assert (V1 : ~ v == 1%Q). { intro E. apply NE. right. split; [rewrite Vx, E|rewrite Vy, E]; ring. }
  rewrite dirx_D in D.
  set (c1 := cross3 (sa t) (sb t) (sa s)) in *. set (c2 := cross3 (sa t) (sb t) (sb s)) in *.
  assert (K : (0 < c1 \/ 0 < c2) /\ 0 <= c1 /\ 0 <= c2 \/ (c1 < 0 \/ c2 < 0) /\ c1 <= 0 /\ c2 <= 0) by nia.
  assert (P0 : (0 < v)%Q) by (destruct Hv; destruct (Qlt_le_dec 0 v); auto; exfalso; apply V0; apply Qle_antisym; auto).
  assert (P1 : (v < 1)%Q) by (destruct Hv; destruct (Qlt_le_dec v 1); auto; exfalso; apply V1; apply Qle_antisym; auto).
  assert (E : forall x, inject_Z x == inject_Z x) by reflexivity.
  destruct K as [[K1 [K2 K3]]|[K1 [K2 K3]]].
  - assert (A : (0 <= inject_Z c1)%Q) by (change 0%Q with (inject_Z 0); rewrite <- Zle_Qle; auto).
    assert (B : (0 <= inject_Z c2)%Q) by (change 0%Q with (inject_Z 0); rewrite <- Zle_Qle; auto).
    destruct K1 as [K1|K1]; rewrite Zlt_Qlt in K1; change (inject_Z 0) with 0%Q in K1; nra.
  - assert (A : (inject_Z c1 <= 0)%Q) by (change 0%Q with (inject_Z 0); rewrite <- Zle_Qle; auto).
    assert (B : (inject_Z c2 <= 0)%Q) by (change 0%Q with (inject_Z 0); rewrite <- Zle_Qle; auto).
    destruct K1 as [K1|K1]; rewrite Zlt_Qlt in K1; change (inject_Z 0) with 0%Q in K1; nra.
Qed.
Lemma exactb_ok l : exactb l = true -> exact_crossings l.
Proof.
  intros H s t q Is It D Qs Qt. unfold exactb in H. rewrite forallb_forall in H. specialize (H s Is).
  rewrite forallb_forall in H. specialize (H t It). unfold exact_pairb in H.
  assert (D' : dirx s t <> 0) by (unfold dirx; lia).
  rewrite !orb_true_iff, andb_true_iff in H. destruct H as [[[H|[H1 H2]]|H]|H].
  - apply Z.eqb_eq in H. congruence.
  - apply Z.eqb_eq in H1, H2. exists (cross_point s t). pose proof (line_meet s t _ D' H1 H2) as M.
    destruct (meet_unique s t q D') as [A B]; [apply Qs|apply Qt|]. destruct M as [M1 M2]. split; [rewrite A|rewrite B]; auto.
  - exfalso. eapply (same_side s t); eauto; [lia|apply Qt].
  - exfalso. eapply (same_side t s); eauto; [lia| |apply Qs]. unfold dirx in *. lia.
Qed.
Example ex3_exact : exact_crossings (map sx (sort_merge (input_segments [(sq 0 0 10, Subject); (sq 5 5 10, Clip); ([Pt (-2) (-2); Pt 12 12; Pt 12 14; Pt (-2) 0], Subject)]))).
Proof. apply exactb_ok. vm_compute. reflexivity. Qed.

(** ** C31, C14: the grid strategy (FRAG; AUTO and TREE above 16000 segments) does not always
    produce a planar arrangement: an edge that comes from the left and ends strictly inside a
    vertical edge lying on a column border does not split it, because
    [split/solver_fragment.rs:161-190] looks for such ends in the column right of the border. *)
Definition frag_adds : input :=
  [([Pt 8 0; Pt 16 0; Pt 16 10; Pt 8 10], Subject); ([Pt 0 0; Pt 8 5; Pt 0 10], Subject)].
Definition has_vertical (o : @outcome cntB) : bool :=
  match o with Done l => existsb (fun s => xseg_eqb (sx s) (XS (Pt 8 0) (Pt 8 10))) l | _ => false end.
Theorem C14_frag_not_planar_refuted :
  exists segs, split_segments lay4 qry (fun _ => true) 5 (mk_solver StFrag) (input_segments frag_adds) = Done segs /\
    ~ planar (map sx segs).
Proof.
  eexists. split; [vm_compute; reflexivity|]. intro P.
  specialize (P (XS (Pt 0 0) (Pt 8 5)) (XS (Pt 8 0) (Pt 8 10)) ltac:(simpl; tauto) ltac:(simpl; tauto) ltac:(discriminate) (8%Q, 5%Q)).
  destruct P as [_ P].
  - exists 1%Q. repeat split; vm_compute; congruence.
  - exists (1#2)%Q. repeat split; vm_compute; congruence.
  - unfold is_end, q_is in P. simpl in P. unfold Qeq in P. simpl in P. lia.
Qed.
Theorem C31_frag_differs_refuted :
  split_segments lay4 qry (fun _ => true) 5 (mk_solver StFrag) (input_segments frag_adds) <>
  split_segments lay4 qry (fun _ => true) 5 (mk_solver StList) (input_segments frag_adds).
Proof.
  intro H. apply (f_equal has_vertical) in H. vm_compute in H. discriminate.
Qed.
(** ** C31: a contour together with its reverse cancels completely; LIST and AUTO return the
    empty answer, TREE and FRAG panic ([split/solver_tree.rs:27] reads the first segment). *)
Theorem C31_tree_panics_refuted lay q tn fuel :
  let adds := [(sq 0 0 10, Subject); (rev (sq 0 0 10), Subject)] in
  split_segments lay q tn (S fuel) (mk_solver StTree) (input_segments adds) = Panic /\
  split_segments lay q tn (S fuel) (mk_solver StFrag) (input_segments adds) = Panic /\
  split_segments lay q tn (S fuel) (mk_solver StList) (input_segments adds) = Done [] /\
  split_segments lay q tn (S fuel) (mk_solver StAuto) (input_segments adds) = Done [].
Proof. intro adds. repeat split. Qed.

(** ** C32: snapping radius.  [Nat.iter k sr_increment]: the state in round k. *)
Lemma sr_iter k r : (current r <= 60)%nat -> Nat.iter k sr_increment r = SR (Nat.min 60 (current r + k * step r)) (step r).
Proof.
  intro H. induction k as [|k IH].
  - replace (Nat.min 60 (current r + 0 * step r)) with (current r) by lia. destruct r; reflexivity.
  - change (Nat.iter (S k) sr_increment r) with (sr_increment (Nat.iter k sr_increment r)). rewrite IH.
    unfold sr_increment. cbn [current step]. f_equal. lia.
Qed.
Theorem C32_radius solver k : (start (precision solver) <= 60)%nat ->
  let radius k := sr_radius (Nat.iter k sr_increment (snap_radius solver)) in
  radius k = 2 ^ Z.of_nat (Nat.min 60 (start (precision solver) + k * progression (precision solver))) /\
  radius k <= radius (S k) /\ 1 <= radius k <= 2 ^ 60 /\ radius k < 2 ^ 63.
Proof.
  intro H. cbv beta zeta. rewrite !sr_iter by auto. unfold sr_radius. unfold snap_radius. cbn [current step].
  set (s := start (precision solver)) in *. set (p := progression (precision solver)).
  split; auto. split.
  - apply Z.pow_le_mono_r; lia.
  - assert (A : 2 ^ 0 <= 2 ^ Z.of_nat (Nat.min 60 (s + k * p)) <= 2 ^ 60) by (split; apply Z.pow_le_mono_r; lia).
    split; [exact A|]. change (2 ^ 60) with 1152921504606846976 in A. change (2 ^ 63) with 9223372036854775808. lia.
Qed.
(** the code does not clamp [start]: from 61 on the radius first exceeds the cap and then decreases *)
Theorem C32_start_61_refuted :
  let s := Slv StAuto (MkPrec 62 1) in
  sr_radius (Nat.iter 1 sr_increment (snap_radius s)) < sr_radius (Nat.iter 0 sr_increment (snap_radius s)).
Proof. vm_compute. reflexivity. Qed.

(** ** C35: the bucketed path returns what the simple path returns ([None]: some slot is
    written twice, out of bounds or never).  Split points must not lie left of all segments. *)
Theorem C35_bins_equal_direct (segs : list (segment cntB)) ms mn mx (index : Z -> nat) :
  Forall (fun s => wc_not_empty (sc s) = true) segs ->
  (forall m, In m ms -> (fst m < length segs)%nat) ->
  (forall x y, mn <= x -> x <= y -> y <= mx -> (index x <= index y)%nat) ->
  (forall e, In e (split_pieces segs ms) -> mn <= px (sa (sx e)) <= mx) ->
  let groups := sort_and_filter_marks (map sx segs) ms in
  bins_merge index (length segs + length (flat_map snd groups)) (S (index mx)) groups segs = Some (one_bin_merge groups segs).
Proof.
  intros NE R M B groups. unfold groups.
  erewrite bins_spec; eauto. f_equal. symmetry. apply one_bin_spec; auto.
Qed.
(** hence applying split points gives the same edges for every layout *)
Theorem C35_layout_irrelevant lay1 lay2 (segs : list (segment cntB)) ms : layout_ok lay1 -> layout_ok lay2 ->
  Forall (fun s => wc_not_empty (sc s) = true) segs -> Forall (fun s => wf_xseg (sx s)) segs ->
  StronglySorted (fun s t => xseg_lt (sx s) (sx t)) segs ->
  (forall i p, In (i, p) ms -> (i < length segs)%nat /\ (forall s0, hd_error segs = Some s0 -> px (sa (sx s0)) <= px p)) ->
  ms <> [] -> exists out, apply lay1 ms segs = Some out /\ apply lay2 ms segs = Some out.
Proof.
  intros L1 L2 NE W S R N. eexists.
  assert (R1 : forall m, In m ms -> (fst m < length segs)%nat) by (intros [i p] I; apply (R i p I)).
  assert (R2 : forall m s0, In m ms -> nth_error segs 0 = Some s0 -> px (sa (sx s0)) <= px (snd m)).
  { intros [i p] s0 I H. apply (R i p I). destruct segs; [discriminate|auto]. }
  split; [apply (apply_spec lay1 L1); auto|apply (apply_spec lay2 L2); auto].
Qed.
Example C35_ex : let segs := sort_merge (input_segments ex2_adds) in
  let ms := fst (list_pass 1 (map sx segs)) in
  (16 < length segs + length ms)%nat /\ Forall (fun s => wc_not_empty (sc s) = true) segs /\
  forallb (fun m => (fst m <? length segs)%nat && (-3 <=? px (snd m))) ms = true.
Proof. vm_compute. repeat split; repeat constructor. Qed.

(** ** C36: the fragments of a segment cover it. *)
Theorem C36_fragments_cover g index s q : 0 <= g_power g -> bounded s -> wf_xseg s -> on_seg s q ->
  exists column f, In (column, f) (add_segment g index s) /\
    (inject_Z (grid_pos g column) <= fst q <= inject_Z (grid_pos g (column + 1)))%Q /\
    (inject_Z (r_min_x (f_rect f)) <= fst q <= inject_Z (r_max_x (f_rect f)))%Q /\
    (inject_Z (r_min_y (f_rect f)) <= snd q <= inject_Z (r_max_y (f_rect f)))%Q.
Proof.
  intros G B W O. destruct (fragments_cover g index s q G B W O) as (j & f & I & R & C).
  exists j, f. unfold rect_has, in_column in *. tauto.
Qed.
Example C36_ex : length (add_segment (Grid 0 100 3) 0 (XS (Pt 3 5) (Pt 60 (-17)))) = 8%nat /\
  wf_xseg (XS (Pt 3 5) (Pt 60 (-17))) /\ on_seg (XS (Pt 3 5) (Pt 60 (-17))) ((63#2)%Q, (-6)%Q).
Proof.
  split; [reflexivity|]. split; [left; reflexivity|]. exists (1#2)%Q. repeat split; vm_compute; congruence.
Qed.

Print Assumptions C20_region_exact.
Print Assumptions C31_strategies_partial.
Print Assumptions C36_fragments_cover.
