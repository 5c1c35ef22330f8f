(** * Property theorems, part 28: the grid strategy (C14, C15, C31, C36), and two more findings. *)
From Verif Require Import Base Spec QLib ModelSegm SegmProofs MergeProofs PlanarGeo PlanarSum ModelFill ModelFilter FillProofs FillCorrect
  ModelCross CrossProofs CrossPoint MarksProofs CoreResults Properties01 ModelSplit SplitProofs SplitPlanar SplitPass BinsProofs SplitApply SplitLoop
  ModelFrag ModelOverlay OverlayProofs FragProofs GridCover Properties02
  ModelGraph GraphProofs ModelExtract ExtractProofs ContourResults Rotation NextLink Properties03
  MoveLemma SectorLemma Sides WalkSides Orient Properties04 ModelBind BindProofs BindSweep Nest Properties05 SplitNear InputCover Properties15 ModelFloat OverlayNear
  Shift ShiftShapes Order Properties25 Relabel Drawn Properties26 Reuse Properties27 GridFind GridLoop.
From Coq Require Import Permutation.
Open Scope Z_scope.

(** ** The two situations the grid cannot handle: edges that overlap along a line, and an edge whose right end lies inside a vertical edge *)
Definition no_overlaps (xs : list xseg) : Prop := forall s t, In s xs -> In t xs -> s <> t ->
  cross3 (sa s) (sb s) (sa t) = 0 -> cross3 (sa s) (sb s) (sb t) = 0 ->
  forall q, on_seg s q -> on_seg t q -> is_end s q /\ is_end t q.
Definition no_end_inside_vertical (xs : list xseg) : Prop := forall s t, In s xs -> In t xs ->
  px (sa t) = px (sb t) -> ~ inside_seg t (qof (sb s)).
Definition clear (xs : list xseg) : Prop := no_overlaps xs /\ no_end_inside_vertical xs.

Lemma colinear_cross s t : colinear s t -> cross3 (sa s) (sb s) (sa t) = 0 /\ cross3 (sa s) (sb s) (sb t) = 0.
Proof. unfold colinear, C1, C2, cross3. intros (A & B & C & D). split; lia. Qed.
Lemma clear_safe g xs : clear xs -> grid_safe g xs.
Proof.
  intros [A B]. constructor.
  - intros s t Is It N CL. apply colinear_cross in CL as [X Y]. intros q. apply A; auto.
  - intros s t c Is It _ V _. apply B; auto.
Qed.

(** ** C36: the grid finds all crossings.  One pass over the columns reports exactly the split points that comparing every two edges reports. *)
Theorem C36_grid_finds xs n g r : StronglySorted xseg_lt xs -> Forall wf_xseg xs -> Forall CrossPoint.bounded xs -> 1 <= r < 2 ^ 31 -> clear xs ->
  grid_new xs n = Some g ->
  (forall i p, In (i, p) (fst (frag_pass g r xs)) <->
     exists a b s t, (a < b)%nat /\ nth_error xs a = Some s /\ nth_error xs b = Some t /\ In (i, p) (fst (cross_marks a b s t r))) /\
  (snd (frag_pass g r xs) = true <->
     exists a b s t, (a < b)%nat /\ nth_error xs a = Some s /\ nth_error xs b = Some t /\ snd (cross_marks a b s t r) = true).
Proof.
  intros S W B Hr Cl G. destruct (grid_new_ok xs n g (conj S W) G) as [Hg Rg].
  destruct (frag_pass_complete g xs r Hg (conj S W) B Hr Rg (clear_safe g xs Cl)) as [P1 P2]. split; [intros i p; rewrite P1|rewrite P2]; reflexivity.
Qed.

Section Grid.
  Variable layout_new : Z -> Z -> nat -> option (Z -> nat).
  Hypothesis Lay : layout_ok layout_new.
  Variable query : list (nat * xseg) -> Z * Z -> Z -> list (nat * xseg).
  Hypothesis Qry : query_ok query.
  Variable tree_new : Z * Z -> bool.
  Notation merged adds := (sort_merge (input_segments adds)).
  Notation split_input fuel solver adds := (split_segments layout_new query tree_new fuel solver (input_segments adds)).

  (** every round of splitting starts with edges that are clear of the two situations; the radius stays below [2^31] (the code converts it to [i32]) *)
  Definition always_clear (solver : Solver) (adds : input) : Prop :=
    forall r segs, rounds layout_new (snap_radius solver) (merged adds) r segs -> clear (map sx segs) /\ sr_radius r < 2 ^ 31.

  (** ** C31: any strategy gives what LIST gives, also FRAG and the grid that is chosen above 16000 edges *)
  Theorem C31_as_list_partial fuel adds solver : bounded_input adds -> always_clear solver adds ->
    split_input fuel solver adds <> Panic ->
    split_input fuel solver adds = split_input fuel (Slv StList (precision solver)) adds.
  Proof.
    intros B Cl NP. destruct (merged_balanced adds) as [BS BC]. pose proof (input_inv adds B) as I.
    assert (EL : split_input fuel (Slv StList (precision solver)) adds = split_loop layout_new query tree_new fuel (list_solver (precision solver)) false (snap_radius solver) (merged adds))
      by reflexivity.
    rewrite EL. unfold split_segments, solver_split in *.
    destruct (is_list_split solver (length (merged adds))); [apply loop_strategy; auto|].
    assert (T : tree_split layout_new query tree_new fuel solver (snap_radius solver) (merged adds) <> Panic ->
      tree_split layout_new query tree_new fuel solver (snap_radius solver) (merged adds) =
      split_loop layout_new query tree_new fuel (list_solver (precision solver)) false (snap_radius solver) (merged adds)).
    { unfold tree_split. destruct (merged adds) as [|s0 l0] eqn:E; [congruence|]. rewrite <- E in *. intro. apply loop_strategy; auto. }
    destruct (is_fragmentation_required solver (length (merged adds))); auto.
    unfold fragment_split in *. destruct (grid_new (map sx (merged adds)) (length (merged adds))) as [g|] eqn:G; auto.
    destruct (grid_new_ok _ _ _ (inv_wf_sorted _ I) G) as [Hg Rg].
    apply frag_loop_list; auto. intros r' segs' H. destruct (Cl _ _ H). split; auto. apply clear_safe; auto.
  Qed.

  (** the same for whole answers: shapes, contours, starting points, order *)
  Theorem C31_answer_as_list_partial sort_ends clean dbg fuel adds solver r fr clockwise simplify min_area : bounded_input adds -> always_clear solver adds ->
    split_input fuel solver adds <> Panic ->
    overlay_custom layout_new query tree_new sort_ends clean fuel dbg adds r fr clockwise simplify min_area solver =
    overlay_custom layout_new query tree_new sort_ends clean fuel dbg adds r fr clockwise simplify min_area (Slv StList (precision solver)).
  Proof.
    intros B Cl NP. unfold overlay_custom, overlay_links, build_boolean. destruct (input_segments adds) as [|s0 l0] eqn:E; auto.
    rewrite <- E. rewrite (C31_as_list_partial fuel adds solver) by (auto; rewrite ?E; auto). reflexivity.
  Qed.

  (** ** C14: planar under every strategy *)
  Theorem C14_any_strategy_partial fuel adds solver out : bounded_input adds -> always_clear solver adds ->
    split_input fuel solver adds = Done out -> planar (map sx out) /\ arrangement out.
  Proof.
    intros B Cl H. rewrite (C31_as_list_partial fuel adds solver) in H by (auto; congruence).
    eapply C14_planar_partial; eauto. left. reflexivity.
  Qed.

  (** ** With crossings at integer points there is one round, so only the input has to be clear *)
  Lemma exact_one_round adds solver r segs : bounded_input adds -> exact_crossings (map sx (merged adds)) ->
    rounds layout_new (snap_radius solver) (merged adds) r segs -> r = snap_radius solver /\ segs = merged adds.
  Proof.
    intros B Ex H. induction H as [|r segs ms segs' H IH P A]; auto. destruct IH as [-> ->]. exfalso.
    pose proof (inv_wf_sorted _ (input_inv adds B)) as W.
    apply (exact_no_pass_round (map sx (merged adds)) (sr_radius (snap_radius solver))); auto.
    - apply Forall_map, input_inv; auto.
    - apply sr_radius_pos.
    - apply (list_pass_spec (sr_radius (snap_radius solver)) (sr_radius_pos _) (map sx (merged adds)) W). rewrite P. auto.
  Qed.
  Lemma exact_clear adds solver : bounded_input adds -> exact_crossings (map sx (merged adds)) -> clear (map sx (merged adds)) -> sr_radius (snap_radius solver) < 2 ^ 31 ->
    always_clear solver adds.
  Proof. intros B Ex Cl Hr r segs H. destruct (exact_one_round adds solver r segs B Ex H) as [-> ->]. auto. Qed.

  (** every strategy finishes, with the same planar result, and the winding numbers of the input *)
  Theorem C31_exact_any_strategy fuel adds p : bounded_input adds -> exact_crossings (map sx (merged adds)) -> clear (map sx (merged adds)) -> merged adds <> [] ->
    (start p < 31)%nat ->
    exists out, planar (map sx out) /\
      (forall q, wind (subj_chain out) q = wind (subj_chain (merged adds)) q /\ wind (clip_chain out) q = wind (clip_chain (merged adds)) q) /\
      forall st, split_input (S fuel) (Slv st p) adds = Done out.
  Proof.
    intros B Ex Cl NE Hp. destruct (merged_balanced adds) as [BS BC]. pose proof (input_inv adds B) as I.
    destruct (split_exact layout_new Lay query Qry tree_new (input_segments adds) I BS BC (Slv StList p) fuel (or_introl eq_refl) Ex (or_introl NE)) as (out & H & W1 & W2).
    exists out. split; [eapply (C14_planar_partial layout_new Lay query Qry tree_new); eauto; left; reflexivity|]. split; [auto|].
    intros st. set (solver := Slv st p). assert (Hr : sr_radius (snap_radius solver) < 2 ^ 31).
    { unfold sr_radius, snap_radius. cbn [precision solver current]. rewrite ?Z.shiftl_mul_pow2, ?Z.mul_1_l by lia. apply Z.pow_lt_mono_r; lia. }
    rewrite (C31_as_list_partial (S fuel) adds solver); auto.
    - apply exact_clear; auto.
    - intro P. unfold split_segments, solver_split in P.
      assert (NR : ~ pass_round (map sx (merged adds)) (sr_radius (snap_radius solver))).
      { apply exact_no_pass_round; auto; [apply inv_wf_sorted; auto|apply Forall_map, I|apply sr_radius_pos]. }
      assert (X : forall tree, split_loop layout_new query tree_new (S fuel) solver tree (snap_radius solver) (merged adds) <> Panic).
      { intros tree E. destruct (loop_exact_gen layout_new Lay query Qry tree_new solver fuel tree (snap_radius solver) _ I NR) as (o & H' & _). congruence. }
      destruct (is_list_split _ _); [apply (X false P)|].
      assert (T : tree_split layout_new query tree_new (S fuel) solver (snap_radius solver) (merged adds) <> Panic).
      { unfold tree_split. destruct (merged adds) as [|s0 l0] eqn:E; [congruence|]. apply X. }
      destruct (is_fragmentation_required _ _); auto. unfold fragment_split in P.
      destruct (grid_new _ _) as [g|]; auto. apply (proj1 (frag_loop_spec layout_new Lay g (S fuel) (snap_radius solver) (merged adds) I)). auto.
  Qed.
End Grid.

(** ** Examples: a checker for [clear] and [always_clear] on concrete inputs *)
Definition clear_pairb (s t : xseg) : bool :=
  (negb ((cross3 (sa s) (sb s) (sa t) =? 0) && (cross3 (sa s) (sb s) (sb t) =? 0)) || Base.xseg_eqb s t || pt_leb (sb s) (sa t) || pt_leb (sb t) (sa s)) &&
  (negb (px (sa t) =? px (sb t)) || negb (px (sb s) =? px (sa t)) || (py (sb s) <=? py (sa t)) || (py (sb t) <=? py (sb s))).
Definition clearb (l : list xseg) : bool := forallb (fun s => pt_ltb (sa s) (sb s) && forallb (clear_pairb s) l) l.
Lemma after_touch s t q : wf_xseg s -> wf_xseg t -> pt_leb (sb s) (sa t) = true -> on_seg s q -> on_seg t q -> is_end s q /\ is_end t q.
Proof.
  intros Ws Wt L A B. apply on_seg_range in A as [_ A]; auto. apply on_seg_range in B as [B _]; auto. apply qle_of_pt in L.
  split; [right|left].
  - destruct (qle_antisym q (qof (sb s)) A (qle_trans _ _ _ L B)). split; auto.
  - destruct (qle_antisym q (qof (sa t)) (qle_trans _ _ _ A L) B). split; auto.
Qed.

Lemma clearb_ok l : clearb l = true -> clear l.
Proof.
  intro H. unfold clearb in H. rewrite forallb_forall in H.
  assert (W : forall s, In s l -> wf_xseg s) by (intros s I; specialize (H s I); rewrite andb_true_iff in H; apply pt_ltb_lt, H).
  assert (K : forall s t, In s l -> In t l -> clear_pairb s t = true).
  { intros s t Is It. specialize (H s Is). rewrite andb_true_iff, forallb_forall in H. apply H; auto. }
  split.
  - intros s t Is It N A B q Qs Qt. specialize (K s t Is It). unfold clear_pairb in K. rewrite andb_true_iff, !orb_true_iff in K.
    destruct K as [[[[K|K]|K]|K] _].
    + rewrite A, B in K. discriminate.
    + apply Base.xseg_eqb_eq in K. congruence.
    + eapply after_touch; eauto.
    + apply and_comm. eapply after_touch; eauto.
  - intros s t Is It V A. destruct (inside_not_end t (sb s) A) as [N1 N2]. destruct A as [A _]. specialize (K s t Is It). unfold clear_pairb in K.
    rewrite andb_true_iff, !orb_true_iff, !negb_true_iff, !Z.leb_le, !Z.eqb_neq in K.
    apply on_seg_range in A as [A1 A2]; auto. apply pt_of_qle in A1, A2. apply pt_leb_alt2 in A1, A2. unfold pt_lt in *.
    destruct A1 as [A1|A1]; [|congruence]. destruct A2 as [A2|A2]; [|congruence]. lia.
Qed.
Fixpoint clear_rounds (fuel : nat) (lay : Z -> Z -> nat -> option (Z -> nat)) (r : SnapRadius) (segs : list (segment cntB)) : bool :=
  match fuel with
  | O => false
  | S fuel' => clearb (map sx segs) && (sr_radius r <? 2 ^ 31) &&
      (let '(ms, rd) := list_pass (sr_radius r) (map sx segs) in
       if rd then match apply lay ms segs with Some segs' => clear_rounds fuel' lay (sr_increment r) segs' | None => true end else true)
  end.
Lemma rounds_left lay r0 s0 r s : rounds lay r0 s0 r s -> (r = r0 /\ s = s0) \/
  exists ms s1, list_pass (sr_radius r0) (map sx s0) = (ms, true) /\ apply lay ms s0 = Some s1 /\ rounds lay (sr_increment r0) s1 r s.
Proof.
  induction 1 as [|r s ms s' H IH P A]; auto. right. destruct IH as [[-> ->]|(ms1 & s1 & P1 & A1 & H1)].
  - exists ms, s'. repeat split; auto. apply rounds_first.
  - exists ms1, s1. repeat split; auto. eapply rounds_next; eauto.
Qed.
Lemma clear_rounds_ok lay : forall fuel r0 s0, clear_rounds fuel lay r0 s0 = true -> forall r s, rounds lay r0 s0 r s -> clear (map sx s) /\ sr_radius r < 2 ^ 31.
Proof.
  induction fuel as [|fuel IH]; intros r0 s0 H; [discriminate|]. cbn [clear_rounds] in H. rewrite !andb_true_iff in H. destruct H as [[H1 H2] H3].
  intros r s R. apply rounds_left in R as [[-> ->]|(ms & s1 & P & A & R)].
  - split; [apply clearb_ok; auto|apply Z.ltb_lt; auto].
  - rewrite P, A in H3. eapply IH; eauto.
Qed.

(** two triangles with rounded crossings and a square; three rounds of the grid strategy *)
Definition grid_adds : input := [([Pt 0 0; Pt 101 7; Pt 40 93], Subject); ([Pt 13 77; Pt 50 (-20); Pt 97 64], Clip); (sq 20 20 30, Clip)].
Example grid_adds_used : bounded_input grid_adds /\
  is_fragmentation_required (mk_solver StFrag) (length (sort_merge (input_segments grid_adds))) = true /\
  grid_new (map sx (sort_merge (input_segments grid_adds))) (length (sort_merge (input_segments grid_adds))) <> None /\
  snd (list_pass 1 (map sx (sort_merge (input_segments grid_adds)))) = true /\
  always_clear lay4 (mk_solver StFrag) grid_adds /\
  exists out, split_segments lay4 qry (fun _ => true) 9 (mk_solver StFrag) (input_segments grid_adds) = Done out /\ (length out > 20)%nat.
Proof.
  split; [repeat constructor|]. split; [vm_compute; reflexivity|]. split; [vm_compute; discriminate|]. split; [vm_compute; reflexivity|]. split.
  - unfold always_clear. apply (clear_rounds_ok lay4 9). vm_compute. reflexivity.
  - eexists. split; [vm_compute; reflexivity|]. vm_compute. lia.
Qed.
(** crossings at integer points: two squares *)
Example grid_squares : let xs := map sx (sort_merge (input_segments [(sq 0 0 10, Subject); (sq 5 5 10, Clip)])) in
  exact_crossings xs /\ clear xs /\ xs <> [] /\ (start (MkPrec 0 1) < 31)%nat.
Proof. split; [apply exactb_ok; vm_compute; reflexivity|]. split; [apply clearb_ok; vm_compute; reflexivity|]. split; [vm_compute; discriminate|cbn; lia]. Qed.

(** ** C31, C14: overlapping edges.  [split/solver_fragment.rs:201-206] reports an overlap only in a column that holds the start of the first edge; here the
    edges (0,10)-(2000,10) and (1000,10)-(3000,10) first meet in a later column.  LIST gives seven shapes, FRAG leaves the overlap and panics in the walk. *)
Definition overlap_adds : input :=
  [([Pt 0 0; Pt 2000 0; Pt 2000 10; Pt 0 10], Subject); ([Pt 1000 10; Pt 3000 10; Pt 3000 20; Pt 1000 20], Subject);
   ([Pt (-1500) 10; Pt 1000 10; Pt 1000 20; Pt (-1500) 20], Subject)] ++
  map (fun k => (sq (Z.of_nat k * 5) (Z.of_nat k * 10 + 100) 5, Subject)) (seq 0 6).
Definition overlap_run (st : Strategy) := overlay_custom lay4 qry (fun _ => true) sorted_ends clean_line 3 false overlap_adds RSubject NonZero false true 0 (mk_solver st).
Theorem C31_frag_overlap_refuted : bounded_input overlap_adds /\
  overlap_run StFrag = RPanic /\ exists shapes, overlap_run StList = ROk shapes /\ length shapes = 7%nat.
Proof. split; [repeat constructor|]. split; [vm_compute; reflexivity|]. eexists. split; vm_compute; reflexivity. Qed.
Theorem C14_frag_overlap_refuted :
  exists segs, split_segments lay4 qry (fun _ => true) 3 (mk_solver StFrag) (input_segments overlap_adds) = Done segs /\ ~ planar (map sx segs).
Proof.
  eexists. split; [vm_compute; reflexivity|]. intro P.
  specialize (P (XS (Pt 0 10) (Pt 1000 10)) (XS (Pt 0 10) (Pt 2000 10)) ltac:(simpl; tauto) ltac:(simpl; tauto) ltac:(discriminate) (1000%Q, 10%Q)).
  destruct P as [_ P].
  - exists 1%Q. repeat split; vm_compute; congruence.
  - exists (1#2)%Q. repeat split; vm_compute; congruence.
  - unfold is_end, q_is in P. simpl in P. unfold Qeq in P. simpl in P. lia.
Qed.

(** ** C24, C55: with a minimal area the answer depends on the order in which the (unstable) sort leaves equal ends *)
Definition area_adds : input :=
  [([Pt 0 0; Pt 1 (-300); Pt 2 (-300)], Subject); ([Pt 0 0; Pt 5 0; Pt 5 1], Subject); ([Pt 0 0; Pt 6 5; Pt 6 6], Subject);
   ([Pt (-1) (-100); Pt 1 (-300); Pt 2 (-600)], Subject); ([Pt (-1) (-100); Pt 2 1000; Pt 2 1001], Subject); ([Pt (-1) (-100); Pt 3 1500; Pt 3 1501], Subject)].
Definition area_run ends area := overlay_custom lay4 qry (fun _ => true) ends clean_line 3 false area_adds RSubject NonZero false false area (mk_solver StAuto).
Theorem C24_min_area_refuted : bounded_input area_adds /\ (forall ls, ends_ok ls (sorted_ends ls)) /\ (forall ls, ends_ok ls (sorted_ends' ls)) /\
  area_run sorted_ends 0 = area_run sorted_ends' 0 /\
  area_run sorted_ends 10 = ROk [] /\ exists shape, area_run sorted_ends' 10 = ROk [shape] /\ (length shape > 1)%nat.
Proof.
  split; [repeat constructor|]. split; [intro; apply C55_contracts|]. split; [apply sorted_ends'_ok|]. split; [vm_compute; reflexivity|]. split; [vm_compute; reflexivity|].
  eexists. split; [vm_compute; reflexivity|]. cbn; lia.
Qed.

Print Assumptions C36_grid_finds.
Print Assumptions C31_as_list_partial.
Print Assumptions C31_answer_as_list_partial.
Print Assumptions C14_any_strategy_partial.
Print Assumptions C31_exact_any_strategy.
Print Assumptions C31_frag_overlap_refuted.
Print Assumptions C14_frag_overlap_refuted.
Print Assumptions C24_min_area_refuted.
