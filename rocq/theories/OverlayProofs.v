(** * The pipeline up to the result links: bounded inputs, exact crossings, strategies. *)
From Verif Require Import Base Spec QLib ModelSegm SegmProofs MergeProofs PlanarGeo PlanarSum ModelFill ModelFilter FillProofs FillCorrect
  ModelCross CrossProofs CrossPoint MarksProofs CoreResults ModelSplit SplitProofs SplitPlanar SplitPass BinsProofs SplitApply SplitLoop ModelFrag ModelOverlay.
Open Scope Z_scope.

(** ** The ends of stored segments are points of the contour *)
Section Ends.
  Context {C : Type} {WC : WindingCount C}.
  Variable P : pt -> Prop.
  Notation okp := (fun s : segment C => P (sa (sx s)) /\ P (sb (sx s))).

  Lemma with_ab_ends p0 p1 (d i : C) : P p0 -> P p1 -> okp (with_ab p0 p1 d i).
  Proof. intros. unfold with_ab. destruct (pt_ltb p0 p1); simpl; auto. Qed.

  Lemma append_skip_ends it : forall p0 p1, P p0 -> P p1 -> Forall P it ->
    let '(e0, e1, rest) := append_skip p0 p1 it in P e0 /\ P e1 /\ Forall P rest.
  Proof.
    induction it as [|p it IH]; intros p0 p1 H0 H1 F; simpl; auto. inversion F; subst.
    destruct (is_not_line_point p0 p1 p); auto.
    apply (IH p0 p); auto.
  Qed.

  Lemma append_loop_ends it (d i : C) : forall p0 p1, P p0 -> P p1 -> Forall P it ->
    let '(out, f0, f1) := append_loop p0 p1 it d i in Forall okp out /\ P f0 /\ P f1.
  Proof.
    induction it as [|p it IH]; intros p0 p1 H0 H1 F; simpl; auto. inversion F as [|? ? Hp Hit]; subst.
    destruct (is_line_point p0 p1 p); [apply (IH p0 p); auto|].
    specialize (IH p1 p H1 Hp Hit). destruct (append_loop p1 p it d i) as [[out f0] f1].
    destruct IH as (A & B & D). repeat split; auto. constructor; auto. apply with_ab_ends; auto.
  Qed.

  Lemma append_path_ends path t : Forall P path -> Forall okp (append_path path t).
  Proof.
    destruct path as [|p0 [|p1 it]]; try constructor. intro F. inversion F as [|? ? H0 F1]; subst. inversion F1 as [|? ? H1 F2]; subst.
    unfold append_path. pose proof (append_skip_ends it p0 p1 H0 H1 F2) as E.
    destruct (append_skip p0 p1 it) as [[e0 e1] rest]. destruct E as (E0 & E1 & ER).
    destruct (wc_with_shape t) as [d i].
    pose proof (append_loop_ends rest d i e0 e1 E0 E1 ER) as L.
    destruct (append_loop e0 e1 rest d i) as [[out f0] f1]. destruct L as (L0 & L1 & L2).
    apply Forall_app. split; auto. unfold append_close.
    destruct (is_line_point f0 f1 p0), (is_line_point p0 e0 f1); repeat (apply Forall_app; split);
      repeat match goal with |- context [if ?b then _ else _] => destruct b end;
      repeat constructor; apply with_ab_ends; auto.
  Qed.
End Ends.

(** all input coordinates below 2^30 in absolute value *)
Definition bounded_input (adds : input) : Prop :=
  Forall (fun a => Forall (fun p => - 2 ^ 30 < px p < 2 ^ 30 /\ - 2 ^ 30 < py p < 2 ^ 30) (fst a)) adds.

Lemma input_bounded adds : bounded_input adds -> Forall (fun s => bounded (sx s)) (input_segments adds).
Proof.
  intro B. unfold input_segments. apply Forall_flat_map. eapply Forall_impl; [|exact B].
  intros [path t] H. cbv beta in H. simpl in *.
  apply (append_path_ends (C := cntB) bounded_pt). eapply Forall_impl; [|exact H].
  intros p Hp. cbv beta in Hp. unfold bounded_pt. lia.
Qed.

Lemma input_inv adds : bounded_input adds -> inv (sort_merge (input_segments adds)).
Proof.
  intro B. constructor.
  - apply sort_merge_sorted.
  - apply (sort_merge_elems wf_xseg), input_wf.
  - apply sort_merge_nonempty, input_nonempty.
  - apply sort_merge_ok, Forall_forall. simpl. auto.
  - apply (sort_merge_elems bounded), input_bounded; auto.
Qed.

Lemma merged_balanced adds : balanced (subj_chain (sort_merge (input_segments adds))) /\ balanced (clip_chain (sort_merge (input_segments adds))).
Proof.
  split; intro v; unfold subj_chain, clip_chain; rewrite sort_merge_boundary by (reflexivity || (intros [? ?]; simpl; lia));
    [apply input_balanced_subj|apply input_balanced_clip].
Qed.

(** ** Crossings with integer coordinates need no rounding *)
Lemma exact_no_round i j s t r p : wf_xseg s -> wf_xseg t -> bounded s -> bounded t -> 1 <= r ->
  (properly s t -> q_is (meet s t) p) -> snd (cross_marks i j s t r) = false.
Proof.
  intros Ws Wt Bs Bt Hr H. destruct (snd (cross_marks i j s t r)) eqn:E; auto. exfalso.
  pose proof (marks_round i j s t r Ws Wt E) as P. specialize (H P).
  pose proof (properly_meet _ _ P) as [[O1 _] [O2 _]].
  destruct (cross_point_near s t Bs Bt P) as (N1 & N2 & _).
  assert (X : cross_point s t = p).
  { destruct H as [E1 E2]. rewrite E1 in N1. rewrite E2 in N2. unfold qx, qy in N1, N2.
    rewrite <- qz_sub in N1, N2. apply Qabs_Qlt_condition in N1, N2.
    destruct N1 as [A1 A2], N2 as [A3 A4].
    change (- (1))%Q with (inject_Z (-1)) in A1, A3. change 1%Q with (inject_Z 1) in A2, A4.
    rewrite <- Zlt_Qlt in A1, A2, A3, A4. apply pt_ext; lia. }
  assert (L1 : is_line_point (sa s) p (sb s) = true).
  { unfold is_line_point. rewrite cross3_swap. rewrite (inside_cross s p); [reflexivity|]. eapply on_q_is; eauto. }
  assert (L2 : is_line_point (sa t) p (sb t) = true).
  { unfold is_line_point. rewrite cross3_swap. rewrite (inside_cross t p); [reflexivity|]. eapply on_q_is; eauto. }
  revert E. unfold cross_marks.
  destruct (cross_cases s t r Ws Wt) as [CL|NC TO|p' Hp D II|p' Hp D II|P']; simpl; try discriminate.
  all: try (unfold middle_cross; rewrite X, L1, L2; simpl; discriminate).
Qed.

(** every common interior point of two non-parallel edges has integer coordinates *)
Definition exact_crossings (xs : list xseg) : Prop :=
  forall s t q, In s xs -> In t xs ->
    (px (sb s) - px (sa s)) * (py (sb t) - py (sa t)) <> (py (sb s) - py (sa s)) * (px (sb t) - px (sa t)) ->
    inside_seg s q -> inside_seg t q -> exists p, q_is q p.

Lemma exact_no_pass_round (xs : list xseg) r : wf_sorted xs -> Forall bounded xs -> 1 <= r -> exact_crossings xs -> ~ pass_round xs r.
Proof.
  intros W B Hr Ex (i & j & s & t & L & Hs & Ht & R).
  pose proof (wf_sorted_wf _ _ _ W Hs) as Ws. pose proof (wf_sorted_wf _ _ _ W Ht) as Wt.
  pose proof (nth_error_In _ _ Hs) as Is. pose proof (nth_error_In _ _ Ht) as It.
  rewrite Forall_forall in B.
  pose proof (marks_round i j s t r Ws Wt R) as P.
  destruct (properly_meet _ _ P) as [M1 M2].
  assert (D : (px (sb s) - px (sa s)) * (py (sb t) - py (sa t)) <> (py (sb s) - py (sa s)) * (px (sb t) - px (sa t))).
  { pose proof (properly_dirx _ _ P) as D. unfold dirx in D. lia. }
  destruct (Ex s t _ Is It D M1 M2) as [p Hp].
  rewrite (exact_no_round i j s t r p) in R; auto. discriminate.
Qed.

(** ** Splitting a closed input with the list or tree solver *)
Section Pipeline.
  Variable layout_new : Z -> Z -> nat -> option (Z -> nat).
  Hypothesis Lay : layout_ok layout_new.
  Variable query : list (nat * xseg) -> Z * Z -> Z -> list (nat * xseg).
  Hypothesis Q : query_ok query.
  Variable tree_new : Z * Z -> bool.
  Notation splitS := (split_segments layout_new query tree_new).
  Notation loop := (split_loop layout_new query tree_new).

  (** the grid strategy is not used *)
  Definition no_grid (solver : Solver) (n : nat) : Prop :=
    is_list_split solver n = true \/ is_fragmentation_required solver n = false.

  Lemma split_is_loop {C} {WC : WindingCount C} fuel solver (segs : list (segment C)) : no_grid solver (length (sort_merge segs)) ->
    (sort_merge segs = [] /\ is_list_split solver 0 = false /\ splitS fuel solver segs = Panic) \/
    exists tree, splitS fuel solver segs = loop fuel solver tree (snap_radius solver) (sort_merge segs) /\
      (strategy solver = StList -> tree = false) /\ (sort_merge segs = [] -> tree = false) /\
      (is_list_split solver (length (sort_merge segs)) = true -> tree = false).
  Proof.
    intro N. unfold split_segments, solver_split.
    destruct (is_list_split solver (length (sort_merge segs))) eqn:L; [right; exists false; auto 6|].
    unfold no_grid in N. rewrite L in N. destruct N as [N|N]; [discriminate|]. rewrite N. unfold tree_split.
    destruct (sort_merge segs) as [|s l] eqn:E; [left; auto|].
    right. eexists. split; [reflexivity|]. split; [|split; [discriminate|discriminate]].
    intro St. unfold is_list_split in L. rewrite St in L. discriminate.
  Qed.

  (** any winding count *)
  Theorem split_done_gen {C} {WC : WindingCount C} {WL : WCLaws C} (segs : list (segment C)) fuel solver out : inv (sort_merge segs) ->
    no_grid solver (length (sort_merge segs)) -> splitS fuel solver segs = Done out ->
    inv out /\ (planar (map sx out) \/ length out = 2%nat /\ strategy solver <> StList) /\ wf_boundary (sort_merge segs) out.
  Proof.
    intros I N H. destruct (split_is_loop fuel solver segs N) as [(_ & _ & E)|(tree & E & TL & _)]; rewrite E in H; [discriminate|].
    destruct (loop_spec_gen layout_new Lay query Q tree_new solver fuel tree _ _ _ I H) as (I' & P & B).
    split; auto. split; auto. destruct P as [P|[L P]]; auto. right. split; auto. destruct P as [->|P]; auto.
    intro St. specialize (TL St). discriminate.
  Qed.

  Theorem split_exact_gen {C} {WC : WindingCount C} {WL : WCLaws C} (segs : list (segment C)) solver fuel : inv (sort_merge segs) ->
    no_grid solver (length (sort_merge segs)) -> exact_crossings (map sx (sort_merge segs)) ->
    (sort_merge segs <> [] \/ is_list_split solver 0 = true) ->
    ~ pass_round (map sx (sort_merge segs)) (sr_radius (snap_radius solver)) /\
    exists out, splitS (S fuel) solver segs = Done out /\
      (out = sort_merge segs /\ (planar (map sx out) \/ is_list_split solver 2 = false /\ length out = 2%nat) \/
       exists ms, (forall m, In m ms <-> pass_mark (map sx (sort_merge segs)) (sr_radius (snap_radius solver)) m) /\
         out = sort_merge (split_pieces (sort_merge segs) ms)).
  Proof.
    intros I N Ex NE. assert (NR : ~ pass_round (map sx (sort_merge segs)) (sr_radius (snap_radius solver))).
    { apply exact_no_pass_round; auto; [apply inv_wf_sorted; auto|apply Forall_map, I|apply sr_radius_pos]. }
    split; auto.
    destruct (split_is_loop (S fuel) solver segs N) as [(E1 & E2 & _)|(tree & E & _ & _ & TL)].
    - destruct NE as [NE|NE]; congruence.
    - rewrite E. destruct (loop_exact_gen layout_new Lay query Q tree_new solver fuel tree (snap_radius solver) _ I NR) as (out & H & D).
      exists out. split; auto. destruct D as [[-> D]|D]; auto. left. split; auto. destruct D as [D|[T D]]; auto.
      right. split; auto. destruct (is_list_split solver 2) eqn:L2; auto. rewrite D in TL. rewrite (TL L2) in T. discriminate.
  Qed.

  Variable segs : list (segment cntB).
  Hypothesis I : inv (sort_merge segs).
  Hypothesis BS : balanced (subj_chain (sort_merge segs)).
  Hypothesis BC : balanced (clip_chain (sort_merge segs)).

  Theorem split_done fuel solver out : no_grid solver (length (sort_merge segs)) ->
    splitS fuel solver segs = Done out ->
    arrangement out /\ inv out /\ wf_boundary (sort_merge segs) out.
  Proof.
    intros N H. destruct (split_is_loop fuel solver segs N) as [(_ & _ & E)|(tree & E & _)]; rewrite E in H; [discriminate|].
    destruct (loop_spec layout_new Lay query Q tree_new solver fuel tree _ _ _ I BS BC H) as (I' & P & B).
    split; auto. destruct (boundary_balanced _ _ B BS BC) as [BS' BC'].
    apply merged_arrangement; auto; apply I'.
  Qed.

  Theorem split_exact solver fuel : no_grid solver (length (sort_merge segs)) -> exact_crossings (map sx (sort_merge segs)) ->
    (sort_merge segs <> [] \/ is_list_split solver 0 = true) ->
    exists out, splitS (S fuel) solver segs = Done out /\
      (forall q, wind (subj_chain out) q = wind (subj_chain (sort_merge segs)) q) /\
      (forall q, wind (clip_chain out) q = wind (clip_chain (sort_merge segs)) q).
  Proof.
    intros N Ex NE. destruct (split_is_loop (S fuel) solver segs N) as [(E1 & E2 & _)|(tree & E & _)].
    - destruct NE as [NE|NE]; congruence.
    - rewrite E. apply loop_exact; auto.
      apply exact_no_pass_round; auto.
      + apply inv_wf_sorted; auto.
      + apply Forall_map, I.
      + apply sr_radius_pos.
  Qed.
End Pipeline.

(** ** Strategies *)
Section Strategies.
  Variable layout_new : Z -> Z -> nat -> option (Z -> nat).
  Hypothesis Lay : layout_ok layout_new.
  Variable query : list (nat * xseg) -> Z * Z -> Z -> list (nat * xseg).
  Hypothesis Q : query_ok query.
  Variable tree_new : Z * Z -> bool.
  Notation loop := (split_loop layout_new query tree_new).
  Definition list_solver (p : Precision) : Solver := Slv StList p.

  Lemma pieces_set {C} {WC : WindingCount C} (segs : list (segment C)) ms ms' : (forall m, In m ms <-> In m ms') -> split_pieces segs ms = split_pieces segs ms'.
  Proof. intro H. unfold split_pieces. rewrite (marks_set_groups (map sx segs) ms ms' H). reflexivity. Qed.

  Lemma loop_list_false fuel p : forall r (segs : list (segment cntB)), loop (S fuel) (list_solver p) false r segs =
    if (length segs <=? 1)%nat then Done segs
    else let '(ms, rd) := list_pass (sr_radius r) (map sx segs) in
         match ms with
         | [] => Done segs
         | _ => match apply layout_new ms segs with
                | None => Panic
                | Some segs' => if negb rd then Done segs' else loop fuel (list_solver p) false (sr_increment r) segs'
                end
         end.
  Proof. reflexivity. Qed.

  Theorem loop_strategy solver p : forall fuel tree r segs, inv segs ->
    balanced (subj_chain segs) -> balanced (clip_chain segs) ->
    loop fuel solver tree r segs <> Panic ->
    loop fuel solver tree r segs = loop fuel (list_solver p) false r segs.
  Proof.
    induction fuel as [|fuel IH]; intros tree r segs I BS BC NP; [reflexivity|].
    rewrite loop_list_false. cbn [split_loop] in *.
    pose proof (inv_wf_sorted _ I) as W. pose proof (sr_radius_pos r) as Hr.
    pose proof (not_two segs I BS BC) as N2.
    replace (length segs <=? (if tree then 2 else 1))%nat with (length segs <=? 1)%nat in *
      by (destruct tree; auto; destruct (Nat.leb_spec (length segs) 1), (Nat.leb_spec (length segs) 2); auto; lia).
    destruct (length segs <=? 1)%nat; auto.
    destruct (pass_spec query Q tree (sr_radius r) (map sx segs) W Hr) as [P1 P2].
    destruct (list_pass_spec (sr_radius r) Hr (map sx segs) W) as [L1 L2].
    destruct ((if tree then tree_pass query else list_pass) (sr_radius r) (map sx segs)) as [ms rd].
    destruct (list_pass (sr_radius r) (map sx segs)) as [ms' rd']. simpl in P1, P2, L1, L2.
    assert (EM : forall m, In m ms <-> In m ms') by (intro m; rewrite P1, L1; reflexivity).
    assert (ER : rd = rd').
    { destruct rd, rd'; auto; exfalso; [assert (false = true) by (apply L2, P2; auto)|assert (false = true) by (apply P2, L2; auto)]; discriminate. }
    subst rd'.
    destruct ms as [|m0 ms0] eqn:M1.
    - destruct ms' as [|m' ms'']; auto. exfalso. apply (EM m'). simpl; auto.
    - rewrite <- M1 in *. destruct ms' as [|m' ms''] eqn:M2.
      { exfalso. assert (In m0 []) by (apply EM; rewrite M1; simpl; auto). auto. }
      rewrite <- M2 in *.
      rewrite (step_apply layout_new Lay segs I (sr_radius r) Hr ms P1) in * by (rewrite M1; discriminate).
      rewrite (step_apply layout_new Lay segs I (sr_radius r) Hr ms' L1) by (rewrite M2; discriminate).
      rewrite (pieces_set segs ms' ms) by (intro; symmetry; auto).
      pose proof (step_inv segs I (sr_radius r) Hr ms P1) as I'.
      destruct (boundary_balanced _ _ (step_boundary segs ms) BS BC) as [BS' BC'].
      destruct rd; simpl in *; auto.
      destruct tree; [apply IH; auto|].
      destruct (is_list_split solver _); [apply IH; auto|].
      destruct (sort_merge (split_pieces segs ms)) as [|s0 rest] eqn:E0; [congruence|]. apply IH; auto.
  Qed.

  Theorem split_strategy fuel (segs : list (segment cntB)) s1 s2 : precision s1 = precision s2 ->
    inv (sort_merge segs) -> balanced (subj_chain (sort_merge segs)) -> balanced (clip_chain (sort_merge segs)) ->
    no_grid s1 (length (sort_merge segs)) -> no_grid s2 (length (sort_merge segs)) ->
    split_segments layout_new query tree_new fuel s1 segs <> Panic ->
    split_segments layout_new query tree_new fuel s2 segs <> Panic ->
    split_segments layout_new query tree_new fuel s1 segs = split_segments layout_new query tree_new fuel s2 segs.
  Proof.
    intros EP I BS BC N1 N2 P1 P2.
    destruct (split_is_loop layout_new query tree_new fuel s1 segs N1) as [(_ & _ & E1)|(t1 & E1 & _)]; [congruence|].
    destruct (split_is_loop layout_new query tree_new fuel s2 segs N2) as [(_ & _ & E2)|(t2 & E2 & _)]; [congruence|].
    rewrite E1, E2 in *.
    rewrite (loop_strategy s1 (precision s1)) by auto. rewrite (loop_strategy s2 (precision s1)) by auto.
    unfold snap_radius. rewrite EP. reflexivity.
  Qed.

  (** LIST and AUTO never panic *)
  Theorem split_no_panic {C} {WC : WindingCount C} {WL : WCLaws C} fuel (segs : list (segment C)) solver :
    strategy solver = StList \/ strategy solver = StAuto -> no_grid solver (length (sort_merge segs)) ->
    inv (sort_merge segs) -> split_segments layout_new query tree_new fuel solver segs <> Panic.
  Proof.
    intros St N I. destruct (split_is_loop layout_new query tree_new fuel solver segs N) as [(E0 & E1 & _)|(t & E & _)].
    - unfold is_list_split in E1. destruct St as [S|S]; rewrite S in E1; discriminate.
    - rewrite E. eapply loop_no_panic; eauto; [tauto|]. right. destruct St as [S|S]; rewrite S; discriminate.
  Qed.
End Strategies.
