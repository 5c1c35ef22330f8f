(** * The grid strategy: soundness of its marks, closedness, coverage of the fragments. *)
From Verif Require Import Base Spec QLib ModelSegm SegmProofs MergeProofs PlanarGeo PlanarSum ModelFill ModelFilter FillProofs FillCorrect
  ModelCross CrossProofs CrossPoint MarksProofs CoreResults ModelSplit SplitProofs SplitPlanar SplitPass BinsProofs SplitApply SplitLoop ModelFrag ModelOverlay OverlayProofs.
Open Scope Z_scope.

Lemma SS_nth {A} (R : A -> A -> Prop) l : StronglySorted R l -> forall i j x y, nth_error l i = Some x -> nth_error l j = Some y ->
  (i < j)%nat -> R x y.
Proof.
  induction 1 as [|a l S IH F]; intros i j x y Hi Hj L; [destruct i; discriminate|].
  destruct j as [|j]; [lia|]. destruct i as [|i]; simpl in *.
  - injection Hi as <-. rewrite Forall_forall in F. apply F. eapply nth_error_In; eauto.
  - apply (IH i j); auto. lia.
Qed.

(** ** Marks that are good enough for [apply] *)
Definition valid_marks (segs : list (segment cntB)) (ms : list mark) : Prop :=
  forall i p, In (i, p) ms -> exists s u, nth_error segs i = Some s /\ p <> sa (sx s) /\ p <> sb (sx s) /\
    In u segs /\ in_box (sx u) p.

Lemma pass_valid (segs : list (segment cntB)) r ms : inv segs -> 1 <= r -> (forall m, In m ms -> pass_mark (map sx segs) r m) -> valid_marks segs ms.
Proof.
  intros I Hr H i p Im. apply H in Im. pose proof (inv_wf_sorted _ I) as W.
  pose proof (pass_not_end _ r W Hr i p Im) as (x & Hx & N1 & N2).
  apply nth_map_sx in Hx as (s & Hs & <-).
  assert (BX : Forall bounded (map sx segs)) by (apply Forall_map, I).
  pose proof (pass_origin _ r W i p BX Im) as (y & Hy & B). apply in_map_iff in Hy as (u & <- & Hu).
  exists s, u. auto.
Qed.

Section Valid.
  Variable layout_new : Z -> Z -> nat -> option (Z -> nat).
  Hypothesis Lay : layout_ok layout_new.
  Variable segs : list (segment cntB).
  Hypothesis I : inv segs.
  Variable ms : list mark.
  Hypothesis V : valid_marks segs ms.

  Lemma valid_not_end i p s : In (i, p) ms -> nth_error segs i = Some s -> p <> sa (sx s) /\ p <> sb (sx s).
  Proof. intros Im Hs. destruct (V i p Im) as (s' & u & Hs' & A & B & _). rewrite Hs in Hs'. injection Hs' as <-. auto. Qed.

  Lemma valid_inv : inv (sort_merge (split_pieces segs ms)).
  Proof.
    constructor.
    - apply sort_merge_sorted.
    - apply (sort_merge_elems wf_xseg). apply pieces_wf; [apply I|]. apply valid_not_end.
    - apply sort_merge_nonempty. apply pieces_nonempty; apply I.
    - apply sort_merge_ok. apply pieces_ok. apply I.
    - apply (sort_merge_elems bounded).
      assert (BS : forall s, In s segs -> bounded (sx s)) by (apply Forall_forall, I).
      assert (BM : forall i p, In (i, p) ms -> bounded_pt p).
      { intros i p Hm. destruct (V i p Hm) as (s & u & _ & _ & _ & Hu & B). eapply box_bound; eauto. }
      apply Forall_forall. intros e He. apply in_pieces_ends in He as (i & s & Hs & A & B).
      apply nth_error_In in Hs. specialize (BS s Hs) as [BS1 BS2]. split.
      + destruct A as [-> |[-> |A]]; eauto.
      + destruct B as [-> |[-> |B]]; eauto.
  Qed.

  Lemma valid_apply : ms <> [] -> apply layout_new ms segs = Some (sort_merge (split_pieces segs ms)).
  Proof.
    intro N. pose proof (inv_wf_sorted _ I) as W. apply apply_spec; auto; try apply I.
    - intros [k p] Im. destruct (V k p Im) as (s & u & Hs & _). simpl. apply nth_error_Some. congruence.
    - intros [k p] s0 Im H0. simpl. destruct (V k p Im) as (_ & u & _ & _ & _ & Hu & [B _]).
      assert (Le : px (sa (sx s0)) <= px (sa (sx u))).
      { destruct segs as [|s1 rest]; [discriminate|]. injection H0 as <-.
        destruct Hu as [<-|Hu]; [lia|]. destruct W as [S _]. simpl in S. inversion S as [|? ? S1 S2]; subst.
        rewrite Forall_forall in S2. apply sorted_a_le. apply S2. apply in_map; auto. }
      pose proof (inv_wf _ I) as F. rewrite Forall_forall in F. specialize (F u Hu). unfold wf_xseg, pt_lt in F. lia.
  Qed.
End Valid.

(** ** The marks of the grid pass *)
Lemma collinear_refl s : collinear s s = (false, false, false, false).
Proof.
  unfold collinear, dot3.
  replace ((px (sa s) - px (sa s)) * (px (sb s) - px (sa s)) + (py (sa s) - py (sa s)) * (py (sb s) - py (sa s))) with 0 by ring.
  replace ((px (sb s) - px (sb s)) * (px (sb s) - px (sa s)) + (py (sb s) - py (sb s)) * (py (sb s) - py (sa s))) with 0 by ring.
  change (Z.sgn 0) with 0.
  set (u := Z.sgn _). set (v := Z.sgn _).
  destruct (0 =? - u) eqn:A, (v =? - 0) eqn:B, (- 0 =? - v) eqn:D, (- u =? - 0) eqn:E; simpl; auto; try (repeat f_equal; lia).
Qed.

Lemma cross_fragments_sub fi fj r :
  (forall m, In m (fst (cross_fragments fi fj r)) -> In m (fst (cross_marks (f_index fi) (f_index fj) (f_seg fi) (f_seg fj) r))) /\
  (snd (cross_fragments fi fj r) = true -> snd (cross_marks (f_index fi) (f_index fj) (f_seg fi) (f_seg fj) r) = true).
Proof.
  unfold cross_fragments, cross_marks. destruct (cross _ _ _) as [c|]; [|simpl; auto].
  destruct (c_type c).
  1-3: destruct (_ || _); simpl; auto; split; [tauto|discriminate].
  destruct (collinear _ _) as [[[ta tb] oa] ob].
  destruct (ta || tb || oa || ob) eqn:E; simpl; [|split; [tauto|discriminate]].
  destruct (negb _); simpl; [split; [tauto|discriminate]|]. rewrite andb_true_r. auto.
Qed.

Lemma frag_cols_ids index s width height p k dw inc n : forall i w prev_x prev_y f,
  In f (frag_cols index s width height p k dw inc n i w prev_x prev_y) -> f_index (snd f) = index /\ f_seg (snd f) = s.
Proof.
  induction n as [|n IH]; intros i w prev_x prev_y f H; simpl in H.
  - destruct H as [<-|[]]. simpl. auto.
  - destruct inc; destruct H as [<-|H]; simpl; eauto.
Qed.
Lemma frag_horizontal_ids index s g n : forall i x0 f,
  In f (frag_horizontal index s g n i x0) -> f_index (snd f) = index /\ f_seg (snd f) = s.
Proof.
  induction n as [|n IH]; intros i x0 f H; simpl in H.
  - destruct H as [<-|[]]. simpl. auto.
  - destruct H as [<-|H]; simpl; eauto.
Qed.
Lemma add_segment_ids g index s f : In f (add_segment g index s) -> f_index (snd f) = index /\ f_seg (snd f) = s.
Proof.
  unfold add_segment. destruct (_ =? _); [apply frag_horizontal_ids|].
  destruct (_ =? _); [intros [<-|[]]; simpl; auto|].
  destruct (_ <=? _); [intros [<-|[]]; simpl; auto|]. apply frag_cols_ids.
Qed.

Definition fragments (g : grid) (xs : list xseg) : list (Z * fragment) :=
  flat_map (fun ix => add_segment g (fst ix) (snd ix)) (enum xs).

Lemma column_ids g xs i f : In f (column (fragments g xs) i) -> nth_error xs (f_index f) = Some (f_seg f).
Proof.
  unfold column, fragments. rewrite in_map_iff. intros ([j f'] & E & H). simpl in E. subst f'.
  apply filter_In in H as [H _]. apply in_flat_map in H as ([k s] & Hk & H).
  apply add_segment_ids in H as [E1 E2]. simpl in E1, E2. rewrite E1, E2. apply SplitProofs.enum_nth; auto.
Qed.

Definition from_pairs (xs : list xseg) (r : Z) (res : list mark * bool) : Prop :=
  (forall m, In m (fst res) -> pass_mark xs r m) /\ (snd res = true -> pass_round xs r).

Lemma from_pairs_app xs r ms rd ms' rd' : from_pairs xs r (ms, rd) -> from_pairs xs r (ms', rd') -> from_pairs xs r (ms ++ ms', rd || rd').
Proof.
  intros [A B] [A' B']. split; simpl in *.
  - intros m H. apply in_app_iff in H as [H|H]; auto.
  - intro H. apply orb_true_iff in H as [H|H]; auto.
Qed.

Section Bin.
  Variable xs : list xseg.
  Hypothesis W : wf_sorted xs.
  Variable r : Z.

  Lemma pair_ok fi fj : nth_error xs (f_index fi) = Some (f_seg fi) -> nth_error xs (f_index fj) = Some (f_seg fj) ->
    from_pairs xs r (if xseg_ltb (f_seg fi) (f_seg fj) then cross_fragments fi fj r else cross_fragments fj fi r).
  Proof.
    assert (K : forall a b, nth_error xs (f_index a) = Some (f_seg a) -> nth_error xs (f_index b) = Some (f_seg b) ->
      (f_index a < f_index b)%nat -> from_pairs xs r (cross_fragments a b r)).
    { intros a b Ha Hb L. destruct (cross_fragments_sub a b r) as [A B]. split.
      - intros m Hm. exists (f_index a), (f_index b), (f_seg a), (f_seg b). auto.
      - intro Hm. exists (f_index a), (f_index b), (f_seg a), (f_seg b). auto. }
    intros Hi Hj.
    assert (Mono : forall a b, nth_error xs (f_index a) = Some (f_seg a) -> nth_error xs (f_index b) = Some (f_seg b) ->
      (f_index a < f_index b)%nat -> xseg_lt (f_seg a) (f_seg b)).
    { intros a b Ha Hb L. eapply SS_nth; eauto. apply W. }
    destruct (lt_eq_lt_dec (f_index fi) (f_index fj)) as [[L|E]|L].
    - pose proof (Mono _ _ Hi Hj L) as Lt. apply xseg_ltb_lt in Lt. rewrite Lt. auto.
    - assert (ES : f_seg fi = f_seg fj) by congruence.
      assert (Z : forall a b, f_seg a = f_seg b -> cross_fragments a b r = ([], false)).
      { intros a b Eab. unfold cross_fragments. rewrite Eab.
        assert (C : cross (f_seg b) (f_seg b) r = Some (CRes (Pt 0 0) Overlay false)).
        { unfold cross, clock_direction.
          assert (Z1 : cross3 (sa (f_seg b)) (sb (f_seg b)) (sa (f_seg b)) = 0) by (unfold cross3; ring).
          assert (Z2 : cross3 (sa (f_seg b)) (sb (f_seg b)) (sb (f_seg b)) = 0) by (unfold cross3; ring).
          rewrite Z1, Z2. reflexivity. }
        rewrite C. cbn [c_type]. rewrite collinear_refl. reflexivity. }
      destruct (xseg_ltb _ _); rewrite Z by auto; split; simpl; tauto || discriminate.
    - pose proof (Mono _ _ Hj Hi L) as Lt.
      replace (xseg_ltb (f_seg fi) (f_seg fj)) with false; auto.
      symmetry. destruct (xseg_ltb (f_seg fi) (f_seg fj)) eqn:E; auto. apply xseg_ltb_lt in E. exfalso.
      eapply xseg_lt_irrefl, xseg_lt_trans; eauto.
  Qed.

  Lemma bin_rows_ok l : (forall f, In f l -> nth_error xs (f_index f) = Some (f_seg f)) -> from_pairs xs r (bin_rows r l).
  Proof.
    assert (Z : from_pairs xs r ([], false)) by (split; simpl; tauto || discriminate).
    induction l as [|fi l IH]; intro H; simpl; auto.
    assert (R : from_pairs xs r (bin_row r fi l)).
    { assert (Hl : forall f, In f l -> nth_error xs (f_index f) = Some (f_seg f)) by (intros; apply H; simpl; auto).
      specialize (H fi (or_introl eq_refl)). clear IH. induction l as [|fj l IH]; simpl; auto.
      destruct (_ <? _); auto. destruct (negb _); [apply IH; intros; apply Hl; simpl; auto|].
      pose proof (pair_ok fi fj H (Hl fj (or_introl eq_refl))) as P.
      destruct (if xseg_ltb _ _ then _ else _) as [ms rd].
      specialize (IH ltac:(intros; apply Hl; simpl; auto)). destruct (bin_row r fi l) as [ms' rd'].
      apply from_pairs_app; auto. }
    destruct (bin_row r fi l) as [ms rd]. specialize (IH ltac:(intros; apply H; simpl; auto)).
    destruct (bin_rows r l) as [ms' rd']. apply from_pairs_app; auto.
  Qed.

  Lemma bin_split_ok g i : from_pairs xs r (bin_split r (column (fragments g xs) i)).
  Proof.
    unfold bin_split. apply bin_rows_ok. intros f Hf. rewrite isort_in in Hf. eapply column_ids; eauto.
  Qed.
End Bin.

Lemma drop_le_in y ps p : In p (drop_le y ps) -> In p ps.
Proof. induction ps as [|q ps IH]; simpl; auto. destruct (_ <=? _); auto. Qed.
Lemma take_lt_in y ps p : In p (take_lt y ps) -> In p ps /\ py p < y.
Proof. induction ps as [|q ps IH]; simpl; [tauto|]. destruct (_ <? _) eqn:E; [|intros []]. intros [<-|H]; [split; auto; lia|]. apply IH in H. tauto. Qed.
Lemma drop_le_gt y ps : StronglySorted (fun p q => (py p <=? py q) = true) ps -> forall p, In p (drop_le y ps) -> y < py p.
Proof.
  induction 1 as [|q ps S IH F]; simpl; [tauto|]. destruct (_ <=? _) eqn:E; auto.
  intros p [<-|H]; [lia|]. rewrite Forall_forall in F. specialize (F p H). cbv beta in F. lia.
Qed.
Lemma drop_le_sorted y ps : StronglySorted (fun p q => (py p <=? py q) = true) ps -> StronglySorted (fun p q => (py p <=? py q) = true) (drop_le y ps).
Proof. induction 1; simpl; [constructor|]. destruct (_ <=? _); auto. constructor; auto. Qed.

Lemma border_marks_ok vs : forall ps k p, StronglySorted (fun p q => (py p <=? py q) = true) ps -> In (k, p) (border_marks ps vs) ->
  In p ps /\ exists v, In v vs /\ f_index v = k /\ y_min (f_seg v) < py p < y_max (f_seg v).
Proof.
  induction vs as [|v vs IH]; intros ps k p S H; simpl in H; [tauto|].
  apply in_app_iff in H as [H|H].
  - apply in_map_iff in H as (q & E & H). injection E as <- <-. apply take_lt_in in H as [H L].
    split; [eapply drop_le_in; eauto|]. exists v. simpl. split; auto. split; auto. split; auto. eapply drop_le_gt; eauto.
  - apply IH in H as [A (v' & B & E & L)]; [|apply drop_le_sorted; auto]. split; [eapply drop_le_in; eauto|]. exists v'. simpl; auto.
Qed.

(** marks on a border: an end of one edge strictly inside a vertical edge *)
Lemma on_border_ok g xs i k p : wf_sorted xs ->
  In (k, p) (on_border_split (grid_pos g i) (column (fragments g xs) i) (on_border g (fragments g xs) i)) ->
  exists s t, nth_error xs k = Some s /\ In t xs /\ p = sb t /\ px (sa s) = px (sb s) /\ px p = px (sa s) /\ y_min s < py p < y_max s.
Proof.
  intros W H. unfold on_border_split in H. apply border_marks_ok in H.
  2:{ apply isort_sorted; intros; rewrite ?Z.leb_le in *; try (rewrite !Z.leb_gt in *); lia. }
  destruct H as [A (v & B & E & L)].
  rewrite isort_in in A. rewrite isort_in in B. apply in_map_iff in A as (f & <- & Hf). apply filter_In in Hf as [Hf Ef].
  unfold on_border in B. apply filter_In in B as [Hv Ev].
  apply column_ids in Hf. apply column_ids in Hv. rewrite E in Hv.
  exists (f_seg v), (f_seg f). apply andb_true_iff in Ev as [Ev1 Ev2]. apply andb_true_iff in Ev1 as [Ev1 Ev3].
  split; auto. split; [eapply nth_error_In; eauto|]. split; auto. lia.
Qed.

Theorem frag_pass_ok g r xs : wf_sorted xs ->
  (forall m, In m (fst (frag_pass g r xs)) -> pass_mark xs r m \/
     exists k p s t, m = (k, p) /\ nth_error xs k = Some s /\ In t xs /\ p = sb t /\ px (sa s) = px (sb s) /\ px p = px (sa s) /\ y_min s < py p < y_max s) /\
  (snd (frag_pass g r xs) = true -> pass_round xs r).
Proof.
  intro W. unfold frag_pass. fold (fragments g xs). cbn [fst snd]. split.
  - intros [k p] H. apply in_app_iff in H as [H|H].
    + left. apply in_flat_map in H as (res & Hr & H). apply in_map_iff in Hr as (i & <- & _).
      apply (bin_split_ok xs W r g i). auto.
    + right. apply in_flat_map in H as (i & _ & H). apply on_border_ok in H; auto.
      destruct H as (s & t & H). exists k, p, s, t. tauto.
  - intro H. apply existsb_exists in H as (res & Hr & H). apply in_map_iff in Hr as (i & <- & _).
    apply (bin_split_ok xs W r g i). auto.
Qed.

Lemma frag_valid g r (segs : list (segment cntB)) : inv segs -> 1 <= r -> valid_marks segs (fst (frag_pass g r (map sx segs))).
Proof.
  intros I Hr i p H. pose proof (inv_wf_sorted _ I) as W.
  apply (proj1 (frag_pass_ok g r (map sx segs) W)) in H as [H|(k & q & s & t & E & Hs & Ht & Ep & V & X & Y)].
  - apply (pass_valid segs r [(i, p)] I Hr); simpl; auto. intros m [<-|[]]. auto.
  - injection E as <- <-. apply nth_map_sx in Hs as (s' & Hs & <-). apply in_map_iff in Ht as (u & <- & Hu).
    exists s', u. split; auto. unfold y_min, y_max in Y.
    split; [intros Z; rewrite Z in Y; destruct (_ <? _); lia|].
    split; [intros Z; rewrite Z in Y; destruct (_ <? _); lia|].
    split; auto. subst p. unfold in_box. lia.
Qed.

(** ** The loop of the grid strategy *)
Section Loop.
  Variable layout_new : Z -> Z -> nat -> option (Z -> nat).
  Hypothesis Lay : layout_ok layout_new.

  (** the contours stay closed and edges non-degenerate, and nothing panics *)
  Theorem frag_loop_spec g : forall fuel r (segs : list (segment cntB)), inv segs ->
    frag_loop layout_new fuel g r segs <> Panic /\
    forall out, frag_loop layout_new fuel g r segs = Done out -> inv out /\ wf_boundary segs out.
  Proof.
    induction fuel as [|fuel IH]; intros r segs I; [simpl; split; [discriminate|intros; discriminate]|].
    assert (Refl : wf_boundary segs segs) by (intros f _ _ _ v; auto).
    cbn [frag_loop]. destruct (length segs <=? 2)%nat.
    { split; [discriminate|]. intros out E. injection E as <-. auto. }
    pose proof (frag_valid g (sr_radius r) segs I (sr_radius_pos r)) as V.
    destruct (frag_pass g (sr_radius r) (map sx segs)) as [ms rd]. cbn [fst] in V.
    destruct ms as [|m0 ms0] eqn:EM.
    { split; [discriminate|]. intros out E. injection E as <-. auto. }
    rewrite <- EM in *. rewrite (valid_apply layout_new Lay segs I ms V) by (rewrite EM; discriminate).
    pose proof (valid_inv segs I ms V) as I'.
    pose proof (step_boundary segs ms) as B'.
    destruct rd; simpl.
    - destruct (IH (sr_increment r) _ I') as [A B]. split; auto. intros out E. apply B in E as [Io Bo]. split; auto.
      intros f F1 F2 F3 v. rewrite Bo by auto. apply B'; auto.
    - split; [discriminate|]. intros out E. injection E as <-. auto.
  Qed.

  (** without rounding the winding numbers are unchanged *)
  Theorem frag_loop_exact g fuel r (segs : list (segment cntB)) : inv segs -> ~ pass_round (map sx segs) (sr_radius r) ->
    exists out, frag_loop layout_new (S fuel) g r segs = Done out /\
      (forall q, wind (subj_chain out) q = wind (subj_chain segs) q) /\ (forall q, wind (clip_chain out) q = wind (clip_chain segs) q).
  Proof.
    intros I NR. cbn [frag_loop]. destruct (length segs <=? 2)%nat; [eauto|].
    pose proof (inv_wf_sorted _ I) as W. pose proof (sr_radius_pos r) as Hr.
    pose proof (frag_valid g (sr_radius r) segs I Hr) as V.
    destruct (frag_pass_ok g (sr_radius r) (map sx segs) W) as [P1 P2].
    destruct (frag_pass g (sr_radius r) (map sx segs)) as [ms rd]. cbn [fst snd] in *.
    destruct ms as [|m0 ms0] eqn:EM; [eauto|]. rewrite <- EM in *.
    rewrite (valid_apply layout_new Lay segs I ms V) by (rewrite EM; discriminate).
    assert (rd = false) as -> by (destruct rd; auto; exfalso; apply NR, P2; auto).
    simpl. eexists. split; [reflexivity|].
    assert (H : forall i p s, In (i, p) ms -> nth_error segs i = Some s -> cross3 (sa (sx s)) (sb (sx s)) p = 0 /\ p <> sa (sx s) /\ p <> sb (sx s)).
    { intros i p s Im Hs. split; [|eapply valid_not_end; eauto].
      destruct (P1 _ Im) as [Pm|(k & q & s' & t & E & Hs' & Ht & Ep & Vt & X & Y)].
      - apply inside_cross. apply (pass_sound _ (sr_radius r) W Hr i (sx s) p NR); auto. apply nth_map_sx; eauto.
      - injection E as <- <-. apply nth_map_sx in Hs' as (s2 & Hs2 & <-). rewrite Hs in Hs2. injection Hs2 as <-.
        unfold cross3. rewrite X, Vt. ring. }
    split; intro q; unfold subj_chain, clip_chain; rewrite sort_merge_wind by (simpl; auto; intros [? ?]; simpl; lia);
      apply pieces_wind; auto; apply I.
  Qed.
End Loop.
