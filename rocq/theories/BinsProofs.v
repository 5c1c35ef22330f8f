(** * The bucketed path of [apply]: a counting sort. *)
From Verif Require Import Base Spec ModelSegm SegmProofs MergeProofs ModelFill FillProofs ModelCross ModelSplit CoreResults SplitProofs.
Open Scope nat_scope.

Section Counting.
  Context {A : Type}.
  Variable key : A -> nat.
  Notation F l k := (filter (fun x => key x =? k) l).

  Definition blocks {B} (g : nat -> list B) (n : nat) : list B := concat (map g (seq 0 n)).

  Lemma blocks_split {B} (g : nat -> list B) n k : k < n ->
    blocks g n = blocks g k ++ g k ++ concat (map g (seq (S k) (n - S k))).
  Proof.
    intro L. unfold blocks. replace n with (k + S (n - S k)) at 1 by lia.
    rewrite seq_app, map_app, concat_app. simpl. reflexivity.
  Qed.
  Lemma blocks_ext {B} (g h : nat -> list B) n : (forall k, k < n -> g k = h k) -> blocks g n = blocks h n.
  Proof.
    intro H. unfold blocks. f_equal. apply map_ext_in. intros k I. apply in_seq in I. apply H. lia.
  Qed.
  Lemma tail_ext {B} (g h : nat -> list B) a n : (forall k, a <= k -> g k = h k) -> concat (map g (seq a n)) = concat (map h (seq a n)).
  Proof.
    intro H. f_equal. apply map_ext_in. intros k I. apply in_seq in I. apply H. lia.
  Qed.

  Lemma F_perm l n : (forall x, In x l -> key x < n) -> Permutation (blocks (fun k => F l k) n) l.
  Proof.
    induction l as [|x l IH]; intro H.
    - unfold blocks. simpl. replace (concat _) with (@nil A); auto. symmetry.
      induction (seq 0 n); simpl; auto.
    - pose proof (H x (or_introl eq_refl)) as Lx.
      rewrite (blocks_split _ n (key x)) by auto.
      simpl (filter _ (x :: l)). rewrite Nat.eqb_refl.
      rewrite (blocks_ext _ (fun k => F l k)).
      2:{ intros k L. simpl. replace (key x =? k) with false; auto. symmetry. apply Nat.eqb_neq. lia. }
      rewrite (tail_ext _ (fun k => F l k)).
      2:{ intros k L. simpl. replace (key x =? k) with false; auto. symmetry. apply Nat.eqb_neq. lia. }
      rewrite <- (IH (fun y I => H y (or_intror I))) at 2.
      rewrite (blocks_split (fun k => F l k) n (key x)) by auto.
      simpl. symmetry. apply Permutation_middle.
  Qed.
End Counting.

Lemma nth_error_map_seq {B} (g : nat -> B) n k : k < n -> nth_error (map g (seq 0 n)) k = Some (g k).
Proof.
  intro L. rewrite nth_error_map. rewrite (nth_error_nth' _ 0) by (rewrite seq_length; auto). rewrite seq_nth by auto. reflexivity.
Qed.
Lemma set_nth_map_seq {B} (g : nat -> B) n k v : k < n ->
  set_nth k v (map g (seq 0 n)) = map (fun j => if j =? k then v else g j) (seq 0 n).
Proof.
  intro L. replace n with (k + S (n - S k)) by lia. rewrite seq_app, !map_app. simpl seq. simpl map.
  rewrite Nat.eqb_refl.
  replace k with (length (map g (seq 0 k))) at 1 by (rewrite map_length, seq_length; auto).
  rewrite set_nth_mid. f_equal; [|f_equal].
  - apply map_ext_in. intros j I. apply in_seq in I. replace (j =? k) with false; auto. symmetry. apply Nat.eqb_neq. lia.
  - apply map_ext_in. intros j I. apply in_seq in I. replace (j =? k) with false; auto. symmetry. apply Nat.eqb_neq. lia.
Qed.
Lemma nth_map_seq {B} (g : nat -> B) n k d : k < n -> nth k (map g (seq 0 n)) d = g k.
Proof. intro L. apply nth_error_nth. apply nth_error_map_seq. auto. Qed.

Section Bins.
  Context {C : Type} {WC : WindingCount C}.
  Variable index : Z -> nat.
  Variable n : nat.                     (* number of bins *)
  Let key (s : segment C) : nat := index (px (sa (sx s))).
  Notation F l k := (filter (fun x => key x =? k) l).
  Hint Unfold key : core.

  Lemma bin_counts_from l : forall g : nat -> nat, (forall x, In x l -> key x < n) ->
    fold_left (fun bins s => let k := index (px (sa (sx s))) in set_nth k (S (nth k bins O)) bins) l (map g (seq 0 n)) =
    map (fun k => g k + length (F l k)) (seq 0 n).
  Proof.
    induction l as [|x l IH]; intros g H; simpl fold_left.
    - apply map_ext. intro k. simpl. lia.
    - pose proof (H x (or_introl eq_refl)) as Lx. unfold key in Lx.
      rewrite nth_map_seq, set_nth_map_seq by auto.
      rewrite IH by (intros; apply H; right; auto). apply map_ext. intro k. simpl filter.
      unfold key at 2. rewrite (Nat.eqb_sym _ k). destruct (k =? index (px (sa (sx x)))) eqn:E; simpl; [apply Nat.eqb_eq in E; subst k; lia|lia].
  Qed.
  Lemma bin_counts_spec l : (forall x, In x l -> key x < n) ->
    bin_counts index n l = map (fun k => length (F l k)) (seq 0 n).
  Proof.
    intro H. unfold bin_counts.
    assert (E : repeat 0 n = map (fun _ => 0) (seq 0 n)).
    { assert (R : forall m a, repeat 0 m = map (fun _ => 0) (seq a m)) by (induction m; intro a; simpl; auto; f_equal; auto). apply R. }
    rewrite E, bin_counts_from by auto. apply map_ext. reflexivity.
  Qed.

  Definition off (c : nat -> nat) (k : nat) : nat := length (blocks (fun j => repeat tt (c j)) k).
  Lemma off_S c k : off c (S k) = off c k + c k.
  Proof. unfold off, blocks. rewrite seq_S, map_app, concat_app, app_length. simpl. rewrite app_nil_r, repeat_length. lia. Qed.
  Lemma off_blocks {B} (g : nat -> list B) c k : (forall j, j < k -> length (g j) = c j) -> length (blocks g k) = off c k.
  Proof.
    induction k as [|k IH]; intro H; [reflexivity|]. rewrite off_S, <- IH by (intros; apply H; lia).
    unfold blocks. rewrite seq_S, map_app, concat_app, app_length. simpl. rewrite app_nil_r, (H k) by lia. reflexivity.
  Qed.

  Lemma bin_offsets_from c : forall m a o, bin_offsets o (map c (seq a m)) =
    map (fun k => (o + (off c k - off c a), o + (off c k - off c a))) (seq a m).
  Proof.
    induction m as [|m IH]; intros a o; simpl; auto. f_equal.
    - f_equal; lia.
    - rewrite IH. apply map_ext_in. intros k I. apply in_seq in I.
      assert (M : off c (S a) <= off c k).
      { clear - I. destruct I as [I _]. induction I as [|k I IHk]; auto. rewrite (off_S _ k). lia. }
      rewrite off_S in *. f_equal; lia.
  Qed.
  Lemma bin_offsets_spec c m : bin_offsets 0 (map c (seq 0 m)) = map (fun k => (off c k, off c k)) (seq 0 m).
  Proof.
    rewrite bin_offsets_from. apply map_ext. intro k. replace (off c 0) with 0 by reflexivity. f_equal; lia.
  Qed.

  Definition buf_of (c : nat -> nat) (l : list (segment C)) (k : nat) : list (option (segment C)) :=
    map Some (F l k) ++ repeat None (c k - length (F l k)).
  Definition state_of (c : nat -> nat) (l : list (segment C)) :=
    (blocks (buf_of c l) n, map (fun k => (off c k, off c k + length (F l k))) (seq 0 n)).

  Lemma write_spec c l x : key x < n -> (forall k, length (F l k) <= c k) -> S (length (F l (key x))) <= c (key x) ->
    bin_write index (Some (state_of c l)) x = Some (state_of c (l ++ [x])).
  Proof.
    intros Lx H Hx. unfold bin_write, state_of. fold (key x).
    assert (FA : forall k, F (l ++ [x]) k = if k =? key x then F l k ++ [x] else F l k).
    { intro k. rewrite filter_app. simpl. rewrite (Nat.eqb_sym (key x)). destruct (k =? key x); auto. apply app_nil_r. }
    rewrite nth_error_map_seq by auto.
    assert (LB : forall j, length (buf_of c l j) = c j).
    { intro j. unfold buf_of. rewrite app_length, map_length, repeat_length. specialize (H j). lia. }
    rewrite (blocks_split _ n (key x)) by auto.
    assert (LO : length (blocks (buf_of c l) (key x)) = off c (key x)) by (apply off_blocks; auto).
    assert (E : exists m, buf_of c l (key x) = map Some (F l (key x)) ++ None :: repeat None m /\ c (key x) = length (F l (key x)) + S m).
    { exists (c (key x) - S (length (F l (key x)))). unfold buf_of. split; [|lia].
      replace (c (key x) - length (F l (key x))) with (S (c (key x) - S (length (F l (key x))))) by lia. reflexivity. }
    destruct E as (m & EB & EM). rewrite EB.
    rewrite <- app_assoc. simpl. rewrite app_assoc.
    replace (off c (key x) + length (F l (key x))) with (length (blocks (buf_of c l) (key x) ++ map Some (F l (key x))))
      by (rewrite app_length, map_length, LO; auto).
    rewrite nth_error_app2, Nat.sub_diag by auto. simpl nth_error.
    rewrite set_nth_mid. f_equal. f_equal.
    - rewrite (blocks_split _ n (key x)) by auto.
      unfold buf_of at 4. rewrite FA, Nat.eqb_refl.
      rewrite app_length. simpl length. rewrite EM.
      replace (length (F l (key x)) + S m - (length (F l (key x)) + 1)) with m by lia.
      rewrite map_app, <- !app_assoc. simpl.
      rewrite (blocks_ext (buf_of c (l ++ [x])) (buf_of c l)).
      2:{ intros k L. unfold buf_of. rewrite FA. replace (k =? key x) with false; auto. symmetry; apply Nat.eqb_neq; lia. }
      rewrite (tail_ext (buf_of c (l ++ [x])) (buf_of c l)).
      2:{ intros k L. unfold buf_of. rewrite FA. replace (k =? key x) with false; auto. symmetry; apply Nat.eqb_neq; lia. }
      reflexivity.
    - rewrite set_nth_map_seq by auto. apply map_ext. intro k. rewrite FA.
      destruct (k =? key x) eqn:E; auto. apply Nat.eqb_eq in E. subst k. rewrite !app_length, map_length, LO. simpl. f_equal. lia.
  Qed.

  Lemma writes_spec c l2 : forall l1, (forall x, In x l2 -> key x < n) -> (forall k, length (F (l1 ++ l2) k) <= c k) ->
    fold_left (bin_write index) l2 (Some (state_of c l1)) = Some (state_of c (l1 ++ l2)).
  Proof.
    induction l2 as [|x l2 IH]; intros l1 K H; cbn [fold_left].
    - rewrite app_nil_r. reflexivity.
    - assert (Ll : forall k, length (F l1 k) <= c k).
      { intro k. specialize (H k). rewrite filter_app, app_length in H. lia. }
      rewrite write_spec; auto.
      + rewrite IH.
        * rewrite <- app_assoc. reflexivity.
        * intros; apply K; right; auto.
        * intro k. rewrite <- app_assoc. apply H.
      + apply K. left; auto.
      + specialize (H (key x)). rewrite filter_app, app_length in H. simpl in H. rewrite Nat.eqb_refl in H. simpl in H. lia.
  Qed.

  Lemma all_written_some (l : list (segment C)) : all_written (map Some l) = Some l.
  Proof. induction l as [|x l IH]; simpl; auto. rewrite IH. reflexivity. Qed.

  Lemma sort_range_mid (a b c : list (segment C)) :
    sort_range (a ++ b ++ c) (length a, length a + length b) = a ++ isort seg_leb b ++ c.
  Proof.
    unfold sort_range. rewrite firstn_app, firstn_all, Nat.sub_diag. simpl firstn. rewrite app_nil_r.
    f_equal. rewrite skipn_app, skipn_all, Nat.sub_diag. simpl.
    replace (length a + length b - length a) with (length b) by lia.
    rewrite firstn_app, firstn_all, Nat.sub_diag. simpl. rewrite app_nil_r. f_equal.
    rewrite skipn_app. rewrite (skipn_all2 a) by lia. simpl.
    replace (length a + length b - length a) with (length b) by lia.
    rewrite skipn_app, skipn_all, Nat.sub_diag. reflexivity.
  Qed.

  Lemma sort_ranges_spec (g : nat -> list (segment C)) : forall m a pre,
    fold_left sort_range (map (fun k => (length pre + (off (fun j => length (g j)) k - off (fun j => length (g j)) a),
                                         length pre + (off (fun j => length (g j)) k - off (fun j => length (g j)) a) + length (g k))) (seq a m))
      (pre ++ concat (map g (seq a m))) =
    pre ++ concat (map (fun k => isort seg_leb (g k)) (seq a m)).
  Proof.
    induction m as [|m IH]; intros a pre; cbn [seq map concat fold_left]; auto.
    rewrite Nat.sub_diag, Nat.add_0_r, sort_range_mid.
    rewrite !app_assoc. rewrite <- IH. f_equal.
    apply map_ext_in. intros k I. apply in_seq in I.
    assert (M : off (fun j => length (g j)) (S a) <= off (fun j => length (g j)) k).
    { clear - I. destruct I as [I _]. induction I as [|k I IHk]; auto. rewrite (off_S _ k). lia. }
    rewrite off_S in *. rewrite app_length, isort_length. f_equal; lia.
  Qed.
  Lemma sort_ranges_all (g : nat -> list (segment C)) m :
    fold_left sort_range (map (fun k => (off (fun j => length (g j)) k, off (fun j => length (g j)) k + length (g k))) (seq 0 m)) (blocks g m) =
    blocks (fun k => isort seg_leb (g k)) m.
  Proof.
    pose proof (sort_ranges_spec g m 0 []) as H. simpl in H. unfold blocks. rewrite <- H. f_equal.
    apply map_ext. intro k. replace (off (fun j => length (g j)) 0) with 0 by reflexivity. f_equal; lia.
  Qed.

  Lemma length_blocks_perm l : (forall x, In x l -> key x < n) -> length (blocks (fun k => F l k) n) = length l.
  Proof. intro H. apply Permutation_length, F_perm; auto. Qed.

  (** the buffer after all writes and sorts *)
  Lemma bins_result groups segs new_len :
    let l := emit (enum segs) groups in
    (forall x, In x l -> key x < n) -> new_len = length l ->
    bins_merge index new_len n groups segs = Some (merge_if_needed (blocks (fun k => isort seg_leb (F l k)) n)).
  Proof.
    intros l K E. unfold bins_merge. fold l. rewrite bin_counts_spec, bin_offsets_spec by auto.
    assert (I0 : (repeat None new_len, map (fun k => (off (fun j => length (F l j)) k, off (fun j => length (F l j)) k)) (seq 0 n)) =
                 state_of (fun j => length (F l j)) []).
    { unfold state_of. f_equal.
      - rewrite E. rewrite <- length_blocks_perm by auto. unfold blocks. simpl.
        induction (seq 0 n) as [|k ks IH]; simpl; auto. rewrite app_length, repeat_app, IH. f_equal. unfold buf_of. simpl. rewrite Nat.sub_0_r. auto.
      - apply map_ext. intro k. simpl. f_equal. lia. }
    rewrite I0, writes_spec; auto. simpl app. unfold state_of.
    assert (B : blocks (buf_of (fun j => length (F l j)) l) n = map Some (blocks (fun k => F l k) n)).
    { unfold blocks. rewrite concat_map, map_map. f_equal. apply map_ext. intro k. unfold buf_of. rewrite Nat.sub_diag. simpl. apply app_nil_r. }
    rewrite B, all_written_some. do 2 f_equal. apply sort_ranges_all.
  Qed.

  Lemma bins_sorted l : (forall x, In x l -> key x < n) ->
    (forall x y, In x l -> In y l -> (px (sa (sx x)) <= px (sa (sx y)))%Z -> key x <= key y) ->
    Permutation l (blocks (fun k => isort seg_leb (F l k)) n) /\
    StronglySorted (fun s t : segment C => seg_leb s t = true) (blocks (fun k => isort seg_leb (F l k)) n).
  Proof.
    intros K Mono. split.
    - rewrite <- (F_perm key l n K) at 1. unfold blocks. induction (seq 0 n) as [|k ks IH]; simpl; auto.
      apply Permutation_app; auto. symmetry. apply isort_perm.
    - unfold blocks. assert (G : forall m a, StronglySorted (fun s t : segment C => seg_leb s t = true) (concat (map (fun k => isort seg_leb (F l k)) (seq a m)))); [|apply G].
      induction m as [|m IH]; intro a; simpl; [constructor|].
      assert (S1 : StronglySorted (fun s t : segment C => seg_leb s t = true) (isort seg_leb (F l a))).
      { apply isort_sorted; [intros; apply xseg_leb_total|intros ? ? ?; apply xseg_leb_trans]. }
      specialize (IH (S a)).
      assert (L : forall x y, In x (isort seg_leb (F l a)) -> In y (concat (map (fun k => isort seg_leb (F l k)) (seq (S a) m))) -> seg_leb x y = true).
      { intros x y Hx Hy. apply isort_in, filter_In in Hx as [Hx Ex]. apply in_concat in Hy as (h & Hh & Hy).
        apply in_map_iff in Hh as (k & <- & Ik). apply in_seq in Ik. apply isort_in, filter_In in Hy as [Hy Ey].
        apply Nat.eqb_eq in Ex, Ey.
        assert (Lt : (px (sa (sx x)) < px (sa (sx y)))%Z).
        { destruct (Z_lt_dec (px (sa (sx x))) (px (sa (sx y)))) as [Q|Q]; auto.
          pose proof (Mono y x Hy Hx ltac:(lia)). lia. }
        unfold seg_leb. apply xseg_leb_le. left. left. left. auto. }
      induction S1 as [|z zs S1 IH1 Fz]; simpl; auto. constructor.
      + apply IH1. intros; apply L; simpl; auto.
      + apply Forall_app. split; auto. apply Forall_forall. intros y Hy. apply L; simpl; auto.
  Qed.
End Bins.
