(** * One pass over the pairs: which marks the list and the tree solver produce. *)
From Verif Require Import Base Spec QLib ModelSegm MergeProofs PlanarGeo PlanarSum ModelFill FillProofs ModelCross CrossProofs CrossPoint MarksProofs ModelSplit CoreResults SplitProofs SplitPlanar.
Open Scope Z_scope.

(** ** Pairs that cannot meet *)
Lemma on_box s q : wf_xseg s -> on_seg s q ->
  (qx (sa s) <= fst q <= qx (sb s))%Q /\ (inject_Z (y_min s) <= snd q <= inject_Z (y_max s))%Q.
Proof.
  intros W (t & T & X & Y). unfold wf_xseg, pt_lt in W.
  assert (K : (qx (sa s) <= qx (sb s))%Q) by (unfold qx; rewrite <- Zle_Qle; lia).
  split; [split; nra|].
  unfold y_min, y_max. destruct (py (sa s) <? py (sb s)) eqn:E.
  - assert (L : (qy (sa s) <= qy (sb s))%Q) by (unfold qy; rewrite <- Zle_Qle; lia). fold (qy (sa s)). fold (qy (sb s)). split; nra.
  - assert (L : (qy (sb s) <= qy (sa s))%Q) by (unfold qy; rewrite <- Zle_Qle; lia). fold (qy (sa s)). fold (qy (sb s)). split; nra.
Qed.

Lemma no_meet_marks i j s t r : wf_xseg s -> wf_xseg t -> s <> t -> 1 <= r -> i <> j ->
  (forall q, on_seg s q -> on_seg t q -> False) -> cross_marks i j s t r = ([], false).
Proof.
  intros Ws Wt NE Hr IJ F.
  assert (E1 : fst (cross_marks i j s t r) = []).
  { apply (marks_exact i j s t r); auto. intros q A B. destruct (F q A B). }
  assert (E2 : snd (cross_marks i j s t r) = false).
  { destruct (snd (cross_marks i j s t r)) eqn:E; auto. exfalso.
    pose proof (marks_round i j s t r Ws Wt E) as P.
    destruct (properly_meet s t P) as [[A _] [B _]]. exact (F _ A B). }
  destruct (cross_marks i j s t r); simpl in *; congruence.
Qed.

Lemma x_disjoint s t q : wf_xseg s -> wf_xseg t -> px (sb s) < px (sa t) -> on_seg s q -> on_seg t q -> False.
Proof.
  intros Ws Wt L A B. apply on_box in A as [[_ A] _]; auto. apply on_box in B as [[B _] _]; auto.
  assert (K : (qx (sb s) < qx (sa t))%Q) by (unfold qx; rewrite <- Zlt_Qlt; auto). lra.
Qed.
Lemma y_disjoint s t q : wf_xseg s -> wf_xseg t -> y_max s < y_min t \/ y_max t < y_min s -> on_seg s q -> on_seg t q -> False.
Proof.
  intros Ws Wt L A B. apply on_box in A as [_ [A A']]; auto. apply on_box in B as [_ [B B']]; auto.
  destruct L as [L|L]; rewrite Zlt_Qlt in L; lra.
Qed.
Lemma not_intersect_disjoint s t : is_not_intersect_y_range t s = true -> y_max s < y_min t \/ y_max t < y_min s.
Proof. unfold is_not_intersect_y_range, y_min, y_max. destruct (py (sa s) <? py (sb s)) eqn:E1, (py (sa t) <? py (sb t)) eqn:E2; lia. Qed.

Definition wf_sorted (xs : list xseg) : Prop := StronglySorted xseg_lt xs /\ Forall wf_xseg xs.

(** ** What a pass has to deliver *)
Definition pass_mark (xs : list xseg) (r : Z) (m : mark) : Prop :=
  exists i j s t, (i < j)%nat /\ nth_error xs i = Some s /\ nth_error xs j = Some t /\ In m (fst (cross_marks i j s t r)).
Definition pass_round (xs : list xseg) (r : Z) : Prop :=
  exists i j s t, (i < j)%nat /\ nth_error xs i = Some s /\ nth_error xs j = Some t /\ snd (cross_marks i j s t r) = true.

Section Pass.
  Variable r : Z.
  Hypothesis Hr : 1 <= r.

  Lemma sorted_a_le s t : xseg_lt s t -> px (sa s) <= px (sa t).
  Proof. unfold xseg_lt, pt_lt. intros [H|[-> _]]; lia. Qed.

  Lemma list_row_spec i s : wf_xseg s -> forall (l : list (nat * xseg)),
    StronglySorted xseg_lt (map snd l) -> Forall (fun x => wf_xseg (snd x) /\ s <> snd x /\ i <> fst x) l ->
    (forall m, In m (fst (list_row r i s l)) <-> exists j t, In (j, t) l /\ In m (fst (cross_marks i j s t r))) /\
    (snd (list_row r i s l) = true <-> exists j t, In (j, t) l /\ snd (cross_marks i j s t r) = true).
  Proof.
    intros Ws. induction l as [|[j t] l IH]; intros S F.
    - simpl. split; [intro m; split; [tauto|]|split; [discriminate|]]; intros (? & ? & [] & _).
    - inversion S as [|? ? S1 S2]; subst. inversion F as [|? ? F1 F2]; subst. simpl in F1. destruct F1 as (Wt & NE & NI).
      specialize (IH S1 F2). cbn [list_row].
      destruct (px (sb s) <? px (sa t)) eqn:Ex.
      + assert (Z : forall j' t', In (j', t') ((j, t) :: l) -> cross_marks i j' s t' r = ([], false)).
        { intros j' t' I. rewrite Forall_forall in F. destruct (F _ I) as (Wt' & NE' & NI'). simpl in *.
          apply no_meet_marks; auto. intros q. apply x_disjoint; auto.
          destruct I as [I|I]; [injection I as -> ->; lia|].
          rewrite Forall_forall in S2. apply (in_map snd) in I. specialize (S2 _ I). apply sorted_a_le in S2. simpl in S2. lia. }
        simpl. split; [intro m; split; [tauto|]|split; [discriminate|]]; intros (j' & t' & I & K);
          rewrite (Z j' t') in K by auto; simpl in K; [auto|discriminate].
      + destruct (is_not_intersect_y_range t s) eqn:Ey.
        * assert (Z : cross_marks i j s t r = ([], false)).
          { apply no_meet_marks; auto. intros q. apply y_disjoint; auto. apply not_intersect_disjoint; auto. }
          destruct IH as [I1 I2]. split.
          -- intro m. rewrite I1. split.
             ++ intros (j' & t' & I & K). exists j', t'. simpl; auto.
             ++ intros (j' & t' & [I|I] & K); [injection I as <- <-; rewrite Z in K; destruct K|eauto].
          -- rewrite I2. split.
             ++ intros (j' & t' & I & K). exists j', t'. simpl; auto.
             ++ intros (j' & t' & [I|I] & K); [injection I as <- <-; rewrite Z in K; discriminate K|eauto].
        * destruct (cross_marks i j s t r) as [ms rd] eqn:EC. destruct (list_row r i s l) as [ms' rd'] eqn:ER.
          simpl in IH |- *. destruct IH as [I1 I2]. split.
          -- intro m. rewrite in_app_iff, I1. split.
             ++ intros [K|(j' & t' & I & K)]; [exists j, t|exists j', t']; rewrite ?EC; auto.
             ++ intros (j' & t' & [I|I] & K); [injection I as <- <-; rewrite EC in K; auto|right; eauto].
          -- rewrite orb_true_iff, I2. split.
             ++ intros [K|(j' & t' & I & K)]; [exists j, t|exists j', t']; rewrite ?EC; auto.
             ++ intros (j' & t' & [I|I] & K); [injection I as <- <-; rewrite EC in K; auto|right; eauto].
  Qed.

  Lemma list_rows_spec xs : wf_sorted xs -> forall n,
    (forall m, In m (fst (list_rows r (enum_from n xs))) <->
       exists i j s t, (i < j)%nat /\ In (i, s) (enum_from n xs) /\ In (j, t) (enum_from n xs) /\ In m (fst (cross_marks i j s t r))) /\
    (snd (list_rows r (enum_from n xs)) = true <->
       exists i j s t, (i < j)%nat /\ In (i, s) (enum_from n xs) /\ In (j, t) (enum_from n xs) /\ snd (cross_marks i j s t r) = true).
  Proof.
    intros [S F]. induction S as [|s xs S IH G]; intro n.
    - simpl. split; [intro m; split; [tauto|]|split; [discriminate|]]; intros (? & ? & ? & ? & _ & [] & _).
    - inversion F as [|? ? Ws F2]; subst. specialize (IH F2 (Datatypes.S n)). simpl enum_from. cbn [list_rows].
      assert (MS : map snd (enum_from (Datatypes.S n) xs) = xs).
      { clear. generalize (Datatypes.S n). induction xs as [|x xs IH]; intro k; simpl; auto. rewrite IH. auto. }
      assert (GE : forall i t, In (i, t) (enum_from (Datatypes.S n) xs) -> (n < i)%nat /\ In t xs).
      { intros i t I. split; [apply enum_from_nth in I as [I _]; lia|]. rewrite <- MS. apply (in_map snd) in I. exact I. }
      destruct (list_row_spec n s Ws (enum_from (Datatypes.S n) xs)) as [R1 R2].
      { rewrite MS. auto. }
      { rewrite Forall_forall in *. intros [i t] I. apply GE in I as [I It]. simpl. split; auto. split; [|lia].
        intros ->. eapply xseg_lt_irrefl; eauto. }
      destruct (list_row r n s (enum_from (Datatypes.S n) xs)) as [ms rd]. destruct (list_rows r (enum_from (Datatypes.S n) xs)) as [ms' rd'].
      simpl in *. destruct IH as [I1 I2]. split.
      + intro m. rewrite in_app_iff, R1, I1. split.
        * intros [(j & t & I & K)|(i & j & s' & t & L & A & B & K)].
          -- exists n, j, s, t. split; [apply GE in I; lia|]. auto.
          -- exists i, j, s', t. auto.
        * intros (i & j & s' & t & L & A & B & K). destruct A as [A|A].
          -- injection A as <- <-. left. destruct B as [B|B]; [injection B as <- <-; lia|]. eauto.
          -- right. destruct B as [B|B]; [injection B as <- <-; apply GE in A; lia|]. exists i, j, s', t; auto.
      + rewrite orb_true_iff, R2, I2. split.
        * intros [(j & t & I & K)|(i & j & s' & t & L & A & B & K)].
          -- exists n, j, s, t. split; [apply GE in I; lia|]. auto.
          -- exists i, j, s', t. auto.
        * intros (i & j & s' & t & L & A & B & K). destruct A as [A|A].
          -- injection A as <- <-. left. destruct B as [B|B]; [injection B as <- <-; lia|]. eauto.
          -- right. destruct B as [B|B]; [injection B as <- <-; apply GE in A; lia|]. exists i, j, s', t; auto.
  Qed.

  Theorem list_pass_spec xs : wf_sorted xs ->
    (forall m, In m (fst (list_pass r xs)) <-> pass_mark xs r m) /\
    (snd (list_pass r xs) = true <-> pass_round xs r).
  Proof.
    intro W. unfold list_pass. rewrite enum_from_enum. destruct (list_rows_spec xs W 0) as [A B]. rewrite <- enum_from_enum in *.
    split.
    - intro m. rewrite A. unfold pass_mark. split; intros (i & j & s & t & L & X & Y & K); exists i, j, s, t;
        [apply enum_nth in X; apply enum_nth in Y|apply enum_nth in X; apply enum_nth in Y]; auto.
    - rewrite B. unfold pass_round. split; intros (i & j & s & t & L & X & Y & K); exists i, j, s, t;
        [apply enum_nth in X; apply enum_nth in Y|apply enum_nth in X; apply enum_nth in Y]; auto.
  Qed.

  (** ** The tree solver.  Contract of the collection ([i_tree], [SegExpTree]): a query
      returns only inserted segments, and all that are not expired and whose y range
      meets the given one. *)
  Definition query_ok (query : list (nat * xseg) -> Z * Z -> Z -> list (nat * xseg)) : Prop :=
    forall inserted lo hi time,
      (forall x, In x (query inserted (lo, hi) time) -> In x inserted) /\
      (forall j t, In (j, t) inserted -> time <= px (sb t) -> y_min t <= hi -> lo <= y_max t ->
         In (j, t) (query inserted (lo, hi) time)).

  Variable query : list (nat * xseg) -> Z * Z -> Z -> list (nat * xseg).
  Hypothesis Q : query_ok query.

  Lemma tree_row_spec i s : forall l, (forall j t, In (j, t) l -> xseg_lt t s) ->
    (forall m, In m (fst (tree_row r i s l)) <-> exists j t, In (j, t) l /\ In m (fst (cross_marks j i t s r))) /\
    (snd (tree_row r i s l) = true <-> exists j t, In (j, t) l /\ snd (cross_marks j i t s r) = true).
  Proof.
    induction l as [|[j t] l IH]; intro L.
    - simpl. split; [intro m; split; [tauto|]|split; [discriminate|]]; intros (? & ? & [] & _).
    - cbn [tree_row]. destruct (xseg_ltb s t) eqn:E.
      { exfalso. apply xseg_ltb_lt in E. apply (xseg_lt_irrefl s). eapply xseg_lt_trans; [exact E|]. apply (L j t); simpl; auto. }
      destruct (cross_marks j i t s r) as [ms rd] eqn:EC. destruct IH as [I1 I2]. { intros; eapply L; right; eauto. }
      destruct (tree_row r i s l) as [ms' rd'] eqn:ER.
      simpl in I1, I2 |- *. split.
      + intro m. rewrite in_app_iff, I1. split.
        * intros [K|(j' & t' & I & K)]; [exists j, t|exists j', t']; rewrite ?EC; auto.
        * intros (j' & t' & [I|I] & K); [injection I as <- <-; rewrite EC in K; auto|right; eauto].
      + rewrite orb_true_iff, I2. split.
        * intros [K|(j' & t' & I & K)]; [exists j, t|exists j', t']; rewrite ?EC; auto.
        * intros (j' & t' & [I|I] & K); [injection I as <- <-; rewrite EC in K; auto|right; eauto].
  Qed.

  (** an inserted segment that the query does not return has no common point *)
  Lemma query_all i s inserted : wf_xseg s ->
    (forall j t, In (j, t) inserted -> wf_xseg t /\ xseg_lt t s /\ (j < i)%nat) ->
    let l := query inserted (y_min s, y_max s) (px (sa s)) in
    (forall m, (exists j t, In (j, t) l /\ In m (fst (cross_marks j i t s r))) <->
               (exists j t, In (j, t) inserted /\ In m (fst (cross_marks j i t s r)))) /\
    ((exists j t, In (j, t) l /\ snd (cross_marks j i t s r) = true) <->
     (exists j t, In (j, t) inserted /\ snd (cross_marks j i t s r) = true)).
  Proof.
    intros Ws H l. destruct (Q inserted (y_min s) (y_max s) (px (sa s))) as [Q1 Q2]. fold l in Q1, Q2.
    assert (K : forall j t, In (j, t) inserted -> In (j, t) l \/ cross_marks j i t s r = ([], false)).
    { intros j t I. destruct (H j t I) as (Wt & L & J).
      destruct (Z_le_dec (px (sa s)) (px (sb t))) as [A|A], (Z_le_dec (y_min t) (y_max s)) as [B|B], (Z_le_dec (y_min s) (y_max t)) as [C|C];
        try (left; apply Q2; auto; fail); right;
        (apply no_meet_marks; auto; [intros ->; eapply xseg_lt_irrefl; eauto|lia|]);
        intros q; (apply x_disjoint; auto; lia) || (apply y_disjoint; auto; lia). }
    split; [intro m|]; (split; [intros (j & t & I & M); exists j, t; auto|]);
      intros (j & t & I & M); destruct (K j t I) as [I'|Z]; try (rewrite Z in M; simpl in M; try tauto; discriminate); exists j, t; auto.
  Qed.

  Lemma enum_from_snd (xs : list xseg) : forall n, map snd (enum_from n xs) = xs.
  Proof. induction xs as [|x xs IH]; intro n; simpl; auto. rewrite IH. auto. Qed.

  Lemma tree_rows_spec xs : wf_sorted xs -> forall n inserted,
    (forall j t, In (j, t) inserted -> wf_xseg t /\ (j < n)%nat /\ Forall (xseg_lt t) xs) ->
    (forall m, In m (fst (tree_rows query r inserted (enum_from n xs))) <->
       exists i j s t, (i < j)%nat /\ In (i, s) (inserted ++ enum_from n xs) /\ In (j, t) (enum_from n xs) /\ In m (fst (cross_marks i j s t r))) /\
    (snd (tree_rows query r inserted (enum_from n xs)) = true <->
       exists i j s t, (i < j)%nat /\ In (i, s) (inserted ++ enum_from n xs) /\ In (j, t) (enum_from n xs) /\ snd (cross_marks i j s t r) = true).
  Proof.
    intros [S F]. induction S as [|s xs S IH G]; intros n inserted H.
    - simpl. split; [intro m; split; [tauto|]|split; [discriminate|]]; intros (? & ? & ? & ? & _ & _ & [] & _).
    - inversion F as [|? ? Ws F2]; subst. simpl enum_from. cbn [tree_rows].
      assert (GE : forall i t, In (i, t) (enum_from (Datatypes.S n) xs) -> (n < i)%nat).
      { intros i t I. apply enum_from_nth in I as [I _]; lia. }
      assert (HI : forall j t, In (j, t) inserted -> wf_xseg t /\ xseg_lt t s /\ (j < n)%nat).
      { intros j t I. destruct (H j t I) as (A & B & C). split; auto. split; auto. exact (Forall_inv C). }
      destruct (tree_row_spec n s (query inserted (y_min s, y_max s) (px (sa s)))) as [R1 R2].
      { intros j t I. apply (proj1 (Q inserted (y_min s) (y_max s) (px (sa s)))) in I. apply HI in I. tauto. }
      destruct (query_all n s inserted Ws HI) as [A1 A2]. cbv zeta in A1, A2.
      destruct (IH F2 (Datatypes.S n) (inserted ++ [(n, s)])) as [I1 I2].
      { intros j t I. apply in_app_iff in I as [I|[I|[]]].
        - destruct (H j t I) as (A & B & C). split; auto. split; [lia|]. exact (Forall_inv_tail C).
        - injection I as <- <-. split; auto. }
      destruct (tree_row r n s _) as [ms rd]. destruct (tree_rows query r (inserted ++ [(n, s)]) _) as [ms' rd'].
      simpl in R1, R2, I1, I2 |- *.
      assert (E : forall (P : nat -> nat -> xseg -> xseg -> Prop),
        ((exists j t, In (j, t) inserted /\ P j n t s) \/
         (exists i j s0 t, (i < j)%nat /\ In (i, s0) ((inserted ++ [(n, s)]) ++ enum_from (Datatypes.S n) xs) /\ In (j, t) (enum_from (Datatypes.S n) xs) /\ P i j s0 t)) <->
        (exists i j s0 t, (i < j)%nat /\ In (i, s0) (inserted ++ (n, s) :: enum_from (Datatypes.S n) xs) /\ ((n, s) = (j, t) \/ In (j, t) (enum_from (Datatypes.S n) xs)) /\ P i j s0 t)).
      { intro P. rewrite <- app_assoc. simpl. split.
        - intros [(j & t & I & K)|(i & j & s' & t & L & A & B & K)].
          + exists j, n, t, s. split; [apply HI in I; tauto|]. split; [apply in_app_iff; auto|]. auto.
          + exists i, j, s', t. auto.
        - intros (i & j & s' & t & L & A & B & K). destruct B as [B|B].
          + injection B as <- <-. left. apply in_app_iff in A as [A|[A|A]]; [eauto|injection A as <- <-; lia|apply GE in A; lia].
          + right. exists i, j, s', t. auto. }
      split.
      + intro m. rewrite in_app_iff, R1, I1, A1. apply (E (fun i j s t => In m (fst (cross_marks i j s t r)))).
      + rewrite orb_true_iff, R2, I2, A2. apply (E (fun i j s t => snd (cross_marks i j s t r) = true)).
  Qed.

  Theorem tree_pass_spec xs : wf_sorted xs ->
    (forall m, In m (fst (tree_pass query r xs)) <-> pass_mark xs r m) /\
    (snd (tree_pass query r xs) = true <-> pass_round xs r).
  Proof.
    intro W. unfold tree_pass. rewrite enum_from_enum. destruct (tree_rows_spec xs W 0 []) as [A B].
    { intros j t []. }
    rewrite <- enum_from_enum in *. simpl app in *.
    split.
    - intro m. rewrite A. unfold pass_mark. split; intros (i & j & s & t & L & X & Y & K); exists i, j, s, t;
        apply enum_nth in X; apply enum_nth in Y; auto.
    - rewrite B. unfold pass_round. split; intros (i & j & s & t & L & X & Y & K); exists i, j, s, t;
        apply enum_nth in X; apply enum_nth in Y; auto.
  Qed.
End Pass.

(** ** Only the set of marks matters *)
Lemma SS_mark_ext : forall l m : list mark, StronglySorted mark_lt l -> StronglySorted mark_lt m ->
  (forall x, In x l <-> In x m) -> l = m.
Proof.
  induction l as [|s l IH]; intros [|t m] Hl Hm HE; auto.
  - exfalso. apply (HE t). left; auto.
  - exfalso. apply (HE s). left; auto.
  - inversion Hl as [|? ? Hl1 Hl2]; subst. inversion Hm as [|? ? Hm1 Hm2]; subst. rewrite Forall_forall in Hl2, Hm2.
    assert (s = t) as ->.
    { destruct (proj1 (HE s) (or_introl eq_refl)) as [E|I]; auto.
      destruct (proj2 (HE t) (or_introl eq_refl)) as [E|I']; auto.
      exfalso. apply (mark_lt_irrefl s). eapply mark_lt_trans; [apply Hl2; exact I'|apply Hm2; exact I]. }
    f_equal. apply IH; auto. intro x. split; intro I.
    + destruct (proj1 (HE x) (or_intror I)) as [<-|K]; auto. exfalso. eapply mark_lt_irrefl. apply Hl2, I.
    + destruct (proj2 (HE x) (or_intror I)) as [<-|K]; auto. exfalso. eapply mark_lt_irrefl. apply Hm2, I.
Qed.

Lemma marks_set_groups segs ms ms' : (forall m, In m ms <-> In m ms') ->
  sort_and_filter_marks segs ms = sort_and_filter_marks segs ms'.
Proof.
  intro H. unfold sort_and_filter_marks. f_equal. f_equal. apply SS_mark_ext; try apply marks_sorted.
  intro x. rewrite !dedup_in, !isort_in. auto.
Qed.
