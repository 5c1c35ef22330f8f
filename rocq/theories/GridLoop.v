(** * The grid strategy and the list strategy do the same rounds, outside two situations. *)
From Verif Require Import Base Spec QLib SegmProofs MergeProofs PlanarGeo ModelFill ModelCross CrossProofs CrossPoint MarksProofs CoreResults ModelSplit ModelFrag
  SplitProofs SplitPlanar SplitPass BinsProofs SplitApply SplitLoop SplitNear ModelOverlay OverlayProofs FragProofs GridCover GridFind.
Open Scope Z_scope.

(** ** The grid of a list of edges *)
Lemma fold_max_le xs : forall m, m <= fold_left (fun m s => Z.max (px (sb s)) m) xs m /\
  forall s, In s xs -> px (sb s) <= fold_left (fun m s => Z.max (px (sb s)) m) xs m.
Proof.
  induction xs as [|x l IH]; intro m; cbn [fold_left]; [split; [lia|intros s []]|].
  destruct (IH (Z.max (px (sb x)) m)) as [A B]. split; [lia|]. intros s [<-|I]; [lia|auto].
Qed.
Lemma grid_new_ok xs n g : wf_sorted xs -> grid_new xs n = Some g -> 0 <= g_power g /\ in_range g xs.
Proof.
  intros [S _] H. unfold grid_new in H. destruct xs as [|s0 l]; [discriminate|]. unfold with_min_max in H.
  destruct (fold_max_le (s0 :: l) (px (sb s0))) as [_ M]. set (mx := fold_left _ _ _) in *. clearbody mx.
  destruct (_ <? 4); [discriminate|]. injection H as <-. split; cbn [g_power g_min g_max].
  - destruct (_ >? _) eqn:E; [|lia]. rewrite Z.gtb_lt in E. lia.
  - intros s I. split; [|apply M; auto]. destruct I as [<-|I]; [cbn [g_min]; lia|].
    inversion S as [|? ? _ F]; subst. rewrite Forall_forall in F. apply F in I. apply sorted_a_le in I. auto.
Qed.

Lemma pieces_range g (segs : list (segment cntB)) ms r : inv segs -> 1 <= r -> (forall m, In m ms -> pass_mark (map sx segs) r m) ->
  in_range g (map sx segs) -> in_range g (map sx (sort_merge (split_pieces segs ms))).
Proof.
  intros I Hr P R.
  assert (X : Forall (fun s => g_min g <= px (sa (sx s)) <= g_max g /\ g_min g <= px (sb (sx s)) <= g_max g) (sort_merge (split_pieces segs ms))).
  { apply (sort_merge_elems (fun s => g_min g <= px (sa s) <= g_max g /\ g_min g <= px (sb s) <= g_max g)).
    assert (E : forall s, In s segs -> (g_min g <= px (sa (sx s)) <= g_max g) /\ (g_min g <= px (sb (sx s)) <= g_max g)).
    { intros s Is. assert (Ix : In (sx s) (map sx segs)) by (apply in_map; auto). destruct (R _ Ix) as [A B].
      pose proof (inv_wf _ I) as W. rewrite Forall_forall in W. specialize (W s Is). unfold wf_xseg, pt_lt in W. lia. }
    assert (M : forall i p, In (i, p) ms -> g_min g <= px p <= g_max g).
    { intros i p Hm. apply P in Hm. assert (BX : Forall bounded (map sx segs)) by (apply Forall_map, I).
      destruct (pass_origin _ r (inv_wf_sorted _ I) i p BX Hm) as (y & Hy & Bx). apply in_map_iff in Hy as (u & <- & Hu).
      specialize (E u Hu). unfold in_box in Bx. lia. }
    apply Forall_forall. intros e He. apply in_pieces_ends in He as (i & s & Hs & A & B). apply nth_error_In in Hs. destruct (E s Hs) as [E1 E2].
    split; [destruct A as [-> |[-> |A]]|destruct B as [-> |[-> |B]]]; eauto. }
  intros s Is. apply in_map_iff in Is as (u & <- & Iu). rewrite Forall_forall in X. specialize (X u Iu). lia.
Qed.

(** ** The rounds of the list strategy *)
Inductive rounds (layout_new : Z -> Z -> nat -> option (Z -> nat)) (r0 : SnapRadius) (segs0 : list (segment cntB)) : SnapRadius -> list (segment cntB) -> Prop :=
| rounds_first : rounds layout_new r0 segs0 r0 segs0
| rounds_next r segs ms segs' : rounds layout_new r0 segs0 r segs ->
    list_pass (sr_radius r) (map sx segs) = (ms, true) -> apply layout_new ms segs = Some segs' ->
    rounds layout_new r0 segs0 (sr_increment r) segs'.

Lemma rounds_trans lay r0 s0 r1 s1 : rounds lay r0 s0 r1 s1 -> forall r2 s2, rounds lay r1 s1 r2 s2 -> rounds lay r0 s0 r2 s2.
Proof. intros H r2 s2 H2. induction H2; auto. eapply rounds_next; eauto. Qed.

Section Loop.
  Variable layout_new : Z -> Z -> nat -> option (Z -> nat).
  Hypothesis Lay : layout_ok layout_new.
  Variable query : list (nat * xseg) -> Z * Z -> Z -> list (nat * xseg).
  Variable tree_new : Z * Z -> bool.
  Notation loop := (split_loop layout_new query tree_new).
  Variable g : grid.
  Hypothesis Hg : 0 <= g_power g.

  Theorem frag_loop_list p : forall fuel r (segs : list (segment cntB)), inv segs ->
    balanced (subj_chain segs) -> balanced (clip_chain segs) -> in_range g (map sx segs) ->
    (forall r' segs', rounds layout_new r segs r' segs' -> grid_safe g (map sx segs') /\ sr_radius r' < 2 ^ 31) ->
    frag_loop layout_new fuel g r segs = loop fuel (list_solver p) false r segs.
  Proof.
    induction fuel as [|fuel IH]; intros r segs I BS BC Rg Sf; [reflexivity|].
    rewrite loop_list_false. cbn [frag_loop].
    pose proof (inv_wf_sorted _ I) as W. pose proof (sr_radius_pos r) as Hr.
    pose proof (not_two segs I BS BC) as N2.
    replace (length segs <=? 2)%nat with (length segs <=? 1)%nat
      by (destruct (Nat.leb_spec (length segs) 1), (Nat.leb_spec (length segs) 2); auto; lia).
    destruct (length segs <=? 1)%nat; auto.
    destruct (Sf r segs (rounds_first _ _ _)) as [S1 S2].
    assert (BX : Forall CrossPoint.bounded (map sx segs)) by (apply Forall_map, I).
    destruct (frag_pass_complete g (map sx segs) (sr_radius r) Hg W BX (conj Hr S2) Rg S1) as [P1 P2].
    destruct (list_pass_spec (sr_radius r) Hr (map sx segs) W) as [L1 L2].
    destruct (frag_pass g (sr_radius r) (map sx segs)) as [ms rd].
    destruct (list_pass (sr_radius r) (map sx segs)) as [ms' rd'] eqn:EL. cbn [fst snd] in P1, P2, L1, L2.
    assert (EM : forall m, In m ms <-> In m ms') by (intro m; rewrite P1, L1; reflexivity).
    assert (ER : rd = rd').
    { destruct rd, rd'; auto; exfalso; [assert (false = true) by (apply L2, P2; auto)|assert (false = true) by (apply P2, L2; auto)]; discriminate. }
    subst rd'.
    destruct ms as [|m0 ms0] eqn:M1.
    - destruct ms' as [|m' ms'']; auto. exfalso. apply (EM m'). simpl; auto.
    - rewrite <- M1 in *. destruct ms' as [|m' ms''] eqn:M2.
      { exfalso. assert (In m0 []) by (apply EM; rewrite M1; simpl; auto). auto. }
      rewrite <- M2 in *.
      rewrite (step_apply layout_new Lay segs I (sr_radius r) Hr ms P1) in * by (rewrite M1; discriminate).
      pose proof (step_apply layout_new Lay segs I (sr_radius r) Hr ms' L1) as EA. specialize (EA ltac:(rewrite M2; discriminate)).
      rewrite EA. rewrite (pieces_set segs ms' ms) in * by (intro; symmetry; auto).
      pose proof (step_inv segs I (sr_radius r) Hr ms P1) as I'.
      destruct (boundary_balanced _ _ (step_boundary segs ms) BS BC) as [BS' BC'].
      destruct rd; cbn [negb]; auto. apply IH; auto.
      + apply (pieces_range g segs ms (sr_radius r)); auto. intros m H. apply P1; auto.
      + intros r' segs' H. apply Sf. eapply rounds_trans; [|exact H]. eapply rounds_next; [apply rounds_first|exact EL|exact EA].
  Qed.
End Loop.
