(** * What the marks of a pair of segments say. *)
From Verif Require Import Base Spec QLib PlanarGeo ModelCross CrossProofs CrossPoint.
Open Scope Z_scope.

Local Opaque collinear.
Arguments cross_point : simpl never.

Definition touch_only (s t : xseg) : Prop :=
  forall q, on_seg s q -> on_seg t q -> is_end s q /\ is_end t q.

Lemma cross3_swap a p b : cross3 a p b = - cross3 a b p.
Proof. unfold cross3. ring. Qed.

Lemma sqr_dist_pos p q : p <> q -> 1 <= sqr_dist p q.
Proof.
  intro N. unfold sqr_dist.
  pose proof (Z.square_nonneg (px p - px q)). pose proof (Z.square_nonneg (py p - py q)).
  assert (px p - px q <> 0 \/ py p - py q <> 0) as [K|K].
  { destruct (Z.eq_dec (px p) (px q)); [|lia]. destruct (Z.eq_dec (py p) (py q)); [|lia]. exfalso. apply N, pt_ext; auto. }
  - assert (0 < (px p - px q) * (px p - px q)) by (destruct (Z_lt_dec 0 (px p - px q)); [apply Z.mul_pos_pos|apply Z.mul_neg_neg]; lia). lia.
  - assert (0 < (py p - py q) * (py p - py q)) by (destruct (Z_lt_dec 0 (py p - py q)); [apply Z.mul_pos_pos|apply Z.mul_neg_neg]; lia). lia.
Qed.
Lemma sqr_dist_refl p : sqr_dist p p = 0.
Proof. unfold sqr_dist. ring. Qed.

(** a point on both lines is the crossing point *)
Lemma line_meet s t p : dirx s t <> 0 -> cross3 (sa s) (sb s) p = 0 -> cross3 (sa t) (sb t) p = 0 ->
  q_is (meet s t) p.
Proof.
  intros D H1 H2.
  assert (D' : ~ (inject_Z (dirx s t) == 0)%Q) by (intro E; apply D; exact (proj1 (qz_eq _ 0) E)).
  assert (X : dirx s t * (px p - px (sa s)) = C1 t s * (px (sb s) - px (sa s))).
  { assert (dirx s t * (px p - px (sa s)) - C1 t s * (px (sb s) - px (sa s)) =
      (px (sb t) - px (sa t)) * cross3 (sa s) (sb s) p - (px (sb s) - px (sa s)) * cross3 (sa t) (sb t) p)
      by (unfold dirx, cross3; ring). rewrite H1, H2 in H. lia. }
  assert (Y : dirx s t * (py p - py (sa s)) = C1 t s * (py (sb s) - py (sa s))).
  { assert (dirx s t * (py p - py (sa s)) - C1 t s * (py (sb s) - py (sa s)) =
      (py (sb t) - py (sa t)) * cross3 (sa s) (sb s) p - (py (sb s) - py (sa s)) * cross3 (sa t) (sb t) p)
      by (unfold dirx, cross3; ring). rewrite H1, H2 in H. lia. }
  assert (X' : (inject_Z (dirx s t) * (qx p - qx (sa s)) == inject_Z (C1 t s) * (qx (sb s) - qx (sa s)))%Q).
  { unfold qx. rewrite <- !qz_sub, <- !inject_Z_mult, X. reflexivity. }
  assert (Y' : (inject_Z (dirx s t) * (qy p - qy (sa s)) == inject_Z (C1 t s) * (qy (sb s) - qy (sa s)))%Q).
  { unfold qy. rewrite <- !qz_sub, <- !inject_Z_mult, Y. reflexivity. }
  unfold q_is, meet; simpl. split; field_simplify_eq; auto; lra.
Qed.

Lemma inside_comp s q r : (fst q == fst r)%Q -> (snd q == snd r)%Q -> inside_seg s q -> inside_seg s r.
Proof.
  intros E1 E2 [On NE]. split; [eapply on_seg_comp; eauto|].
  intros [[A B]|[A B]]; apply NE; [left|right]; split; [rewrite E1|rewrite E2|rewrite E1|rewrite E2]; auto.
Qed.

Lemma inside_q_is s q p : q_is q p -> inside_seg s q -> inside_seg s (qof p).
Proof. intros [A B]. apply inside_comp; auto. Qed.

Lemma on_q_is s q p : q_is q p -> on_seg s q -> on_seg s (qof p).
Proof. intros [A B]. apply on_seg_comp; auto. Qed.

Lemma inside_not_end s p : inside_seg s (qof p) -> p <> sa s /\ p <> sb s.
Proof.
  intros [_ NE]. split; intro E; apply NE; [left|right]; rewrite <- E; apply q_is_qof.
Qed.

Lemma properly_ends s t : properly s t ->
  C1 s t <> 0 /\ C2 s t <> 0 /\ C1 t s <> 0 /\ C2 t s <> 0.
Proof. intros [A B]. apply Z.lt_mul_0 in A. apply Z.lt_mul_0 in B. lia. Qed.

Lemma end_on_line s p : (p = sa s \/ p = sb s) -> cross3 (sa s) (sb s) p = 0.
Proof. intros [->| ->]; unfold cross3; ring. Qed.

Inductive middle_case (s t : xseg) : CrossResult -> Prop :=
| mc_exact p : q_is (meet s t) p -> middle_case s t (CRes p Pure false)
| mc_target p : (p = sa s \/ p = sb s) -> p <> sa t -> p <> sb t -> middle_case s t (CRes p TargetEnd true)
| mc_other p : (p = sa t \/ p = sb t) -> p <> sa s -> p <> sb s -> middle_case s t (CRes p OtherEnd true)
| mc_pure : (forall p, cross_point s t = p -> p <> sa s /\ p <> sb s /\ p <> sa t /\ p <> sb t) ->
    middle_case s t (CRes (cross_point s t) Pure true).

Lemma middle_cases s t r : properly s t -> 1 <= r -> middle_case s t (middle_cross s t r).
Proof.
  intros P Hr. pose proof (properly_ends s t P) as (N1 & N2 & N3 & N4).
  pose proof (properly_dirx s t P) as D.
  unfold middle_cross. set (p := cross_point s t).
  assert (NT : forall e, (e = sa s \/ e = sb s) -> is_not_line_point (sa t) e (sb t) = true /\ e <> sa t /\ e <> sb t).
  { intros e He. unfold is_not_line_point, is_line_point. rewrite cross3_swap.
    assert (cross3 (sa t) (sb t) e <> 0) by (destruct He as [->| ->]; auto).
    split; [lia|]. split; intro E; subst e; apply H, end_on_line; auto. }
  assert (NO : forall e, (e = sa t \/ e = sb t) -> is_not_line_point (sa s) e (sb s) = true /\ e <> sa s /\ e <> sb s).
  { intros e He. unfold is_not_line_point, is_line_point. rewrite cross3_swap.
    assert (cross3 (sa s) (sb s) e <> 0) by (destruct He as [->| ->]; auto).
    split; [lia|]. split; intro E; subst e; apply H, end_on_line; auto. }
  destruct (is_line_point (sa s) p (sb s) && is_line_point (sa t) p (sb t)) eqn:E.
  { unfold is_line_point in E. rewrite !(cross3_swap _ p) in E. apply mc_exact. apply line_meet; auto; lia. }
  destruct ((sqr_dist (sa s) p <=? r) || (sqr_dist (sa t) p <=? r) || (sqr_dist (sb s) p <=? r) || (sqr_dist (sb t) p <=? r)) eqn:R.
  - destruct (Z.min (sqr_dist (sa s) p) (sqr_dist (sb s) p) <=? Z.min (sqr_dist (sa t) p) (sqr_dist (sb t) p)).
    + assert (He : forall b : bool, (if b then sa s else sb s) = sa s \/ (if b then sa s else sb s) = sb s) by (intros []; auto).
      specialize (He (sqr_dist (sa s) p <? sqr_dist (sb s) p)).
      destruct (NT _ He) as (L & M1 & M2). rewrite L. apply mc_target; auto.
    + assert (He : forall b : bool, (if b then sa t else sb t) = sa t \/ (if b then sa t else sb t) = sb t) by (intros []; auto).
      specialize (He (sqr_dist (sa t) p <? sqr_dist (sb t) p)).
      destruct (NO _ He) as (L & M1 & M2). rewrite L. apply mc_other; auto.
  - apply mc_pure. fold p. intros p' <-.
    repeat split; intro K; rewrite K, !sqr_dist_refl in R; rewrite ?orb_true_r in R; simpl in R;
      repeat rewrite (proj2 (Z.leb_le 0 r)) in R by lia; rewrite ?orb_true_r in R; try discriminate R; lia.
Qed.

(** ** Marks of a pair *)
Section Pair.
  Variables (i j : nat) (s t : xseg) (r : Z).
  Hypothesis IJ : i <> j.
  Hypothesis Ws : wf_xseg s.
  Hypothesis Wt : wf_xseg t.
  Hypothesis NE : s <> t.
  Hypothesis Hr : 1 <= r.

  Notation ms := (fst (cross_marks i j s t r)).
  Notation rnd := (snd (cross_marks i j s t r)).

  (** no mark iff the segments touch in common ends only *)
  Theorem marks_exact : ms = [] <-> touch_only s t.
  Proof.
    unfold cross_marks. destruct (cross_cases s t r Ws Wt) as [CL|NC TO|p Hp D In|p Hp D In|P]; simpl.
    - destruct (collinear s t) as [[[ta tb] oa] ob] eqn:E.
      destruct (collinear_spec s t ta tb oa ob Ws Wt CL E) as (S1 & S2 & S3 & S4). simpl. split.
      + intro K. destruct ta, tb, oa, ob; try discriminate K.
        intros q; apply colinear_none; auto; intro X; [apply S1 in X|apply S2 in X|apply S3 in X|apply S4 in X]; discriminate X.
      + intro TO.
        assert (F : forall p, ~ (inside_seg t (qof p) /\ on_seg s (qof p))).
        { intros p [[O NEn] O']. destruct (TO _ O' O) as [_ ?]. contradiction. }
        assert (F' : forall p, ~ (inside_seg s (qof p) /\ on_seg t (qof p))).
        { intros p [[O NEn] O']. destruct (TO _ O O') as [? _]. contradiction. }
        destruct ta. { exfalso. apply (F (sa s)). split; [apply S1; auto|apply on_seg_end_a]. }
        destruct tb. { exfalso. apply (F (sb s)). split; [apply S2; auto|apply on_seg_end_b]. }
        destruct oa. { exfalso. apply (F' (sa t)). split; [apply S3; auto|apply on_seg_end_a]. }
        destruct ob. { exfalso. apply (F' (sb t)). split; [apply S4; auto|apply on_seg_end_b]. }
        reflexivity.
    - split; auto.
    - split; [discriminate|]. intro TO. exfalso. destruct In as [O NEn].
      destruct (TO (qof p)) as [? _]; auto. destruct Hp as [->| ->]; [apply on_seg_end_a|apply on_seg_end_b].
    - split; [discriminate|]. intro TO. exfalso. destruct In as [O NEn].
      destruct (TO (qof p)) as [_ ?]; auto. destruct Hp as [->| ->]; [apply on_seg_end_a|apply on_seg_end_b].
    - split.
      + destruct (middle_cases s t r P Hr); discriminate.
      + intro TO. exfalso. destruct (properly_meet s t P) as [[O1 N1] [O2 N2]]. destruct (TO _ O1 O2); auto.
  Qed.

  (** a mark never is an end of the segment that is marked *)
  Theorem marks_not_ends k p : In (k, p) ms ->
    (k = i /\ p <> sa s /\ p <> sb s) \/ (k = j /\ p <> sa t /\ p <> sb t).
  Proof.
    unfold cross_marks. destruct (cross_cases s t r Ws Wt) as [CL|NC TO|p' Hp D II|p' Hp D II|P]; simpl.
    - destruct (collinear s t) as [[[ta tb] oa] ob] eqn:E.
      destruct (collinear_spec s t ta tb oa ob Ws Wt CL E) as (S1 & S2 & S3 & S4). simpl.
      rewrite !in_app_iff. intros [I|[I|[I|I]]].
      + destruct ta; [|destruct I]. destruct I as [I|[]]. injection I as <- <-. right. split; auto. apply inside_not_end, S1; auto.
      + destruct tb; [|destruct I]. destruct I as [I|[]]. injection I as <- <-. right. split; auto. apply inside_not_end, S2; auto.
      + destruct oa; [|destruct I]. destruct I as [I|[]]. injection I as <- <-. left. split; auto. apply inside_not_end, S3; auto.
      + destruct ob; [|destruct I]. destruct I as [I|[]]. injection I as <- <-. left. split; auto. apply inside_not_end, S4; auto.
    - intros [].
    - intros [I|[]]. injection I as <- <-. left. split; auto. apply inside_not_end; auto.
    - intros [I|[]]. injection I as <- <-. right. split; auto. apply inside_not_end; auto.
    - destruct (properly_meet s t P) as [IS IT].
      destruct (middle_cases s t r P Hr) as [p' Q|p' H1 H2 H3|p' H1 H2 H3|HP]; simpl.
      + intros [I|[I|[]]]; injection I as <- <-; [left|right]; split; auto; apply inside_not_end; eapply inside_q_is; eauto.
      + intros [I|[]]. injection I as <- <-. auto.
      + intros [I|[]]. injection I as <- <-. auto.
      + destruct (HP _ eq_refl) as (A1 & A2 & A3 & A4). intros [I|[I|[]]]; injection I as <- <-; auto.
  Qed.

  (** without rounding every mark is a common point inside the marked segment *)
  Theorem marks_sound k p : rnd = false -> In (k, p) ms ->
    (k = i /\ inside_seg s (qof p) /\ on_seg t (qof p)) \/ (k = j /\ inside_seg t (qof p) /\ on_seg s (qof p)).
  Proof.
    unfold cross_marks. destruct (cross_cases s t r Ws Wt) as [CL|NC TO|p' Hp D II|p' Hp D II|P]; simpl.
    - intros _. destruct (collinear s t) as [[[ta tb] oa] ob] eqn:E.
      destruct (collinear_spec s t ta tb oa ob Ws Wt CL E) as (S1 & S2 & S3 & S4). simpl.
      rewrite !in_app_iff. intros [I|[I|[I|I]]].
      + destruct ta; [|destruct I]. destruct I as [I|[]]. injection I as <- <-. right. split; auto. split; [apply S1; auto|apply on_seg_end_a].
      + destruct tb; [|destruct I]. destruct I as [I|[]]. injection I as <- <-. right. split; auto. split; [apply S2; auto|apply on_seg_end_b].
      + destruct oa; [|destruct I]. destruct I as [I|[]]. injection I as <- <-. left. split; auto. split; [apply S3; auto|apply on_seg_end_a].
      + destruct ob; [|destruct I]. destruct I as [I|[]]. injection I as <- <-. left. split; auto. split; [apply S4; auto|apply on_seg_end_b].
    - intros _ [].
    - intros _ [I|[]]. injection I as <- <-. left. split; auto. split; auto. destruct Hp as [->| ->]; [apply on_seg_end_a|apply on_seg_end_b].
    - intros _ [I|[]]. injection I as <- <-. right. split; auto. split; auto. destruct Hp as [->| ->]; [apply on_seg_end_a|apply on_seg_end_b].
    - destruct (properly_meet s t P) as [IS IT].
      destruct (middle_cases s t r P Hr) as [p' Q|p' H1 H2 H3|p' H1 H2 H3|HP]; simpl; try discriminate.
      intros _ [I|[I|[]]]; injection I as <- <-; [left|right]; split; auto;
        (split; [eapply inside_q_is; eauto|]).
      + apply (on_q_is t (meet s t)); auto. apply IT.
      + apply (on_q_is s (meet s t)); auto. apply IS.
  Qed.

  (** without rounding every common point inside a segment is marked on it;
      on a common line: every end inside the other segment *)
  Theorem marks_complete q : rnd = false -> on_seg s q -> on_seg t q ->
    (~ colinear s t \/ is_end t q -> inside_seg s q -> exists p, q_is q p /\ In (i, p) ms) /\
    (~ colinear s t \/ is_end s q -> inside_seg t q -> exists p, q_is q p /\ In (j, p) ms).
  Proof.
    unfold cross_marks. destruct (cross_cases s t r Ws Wt) as [CL|NC TO|p' Hp D II|p' Hp D II|P]; simpl.
    - intros _ Os Ot. destruct (collinear s t) as [[[ta tb] oa] ob] eqn:E.
      destruct (collinear_spec s t ta tb oa ob Ws Wt CL E) as (S1 & S2 & S3 & S4). simpl.
      split; intros [C|[En|En]] In; try contradiction.
      + exists (sa t). split; auto. rewrite (proj2 S3) by (eapply inside_q_is; eauto).
        rewrite !in_app_iff; simpl; auto.
      + exists (sb t). split; auto. rewrite (proj2 S4) by (eapply inside_q_is; eauto).
        rewrite !in_app_iff; simpl; auto.
      + exists (sa s). split; auto. rewrite (proj2 S1) by (eapply inside_q_is; eauto).
        rewrite !in_app_iff; simpl; auto.
      + exists (sb s). split; auto. rewrite (proj2 S2) by (eapply inside_q_is; eauto).
        rewrite !in_app_iff; simpl; auto.
    - intros _ Os Ot. destruct (TO q Os Ot) as [Es Et]. split; intros _ [_ K]; contradiction.
    - intros _ Os Ot.
      assert (Q : q_is q p').
      { assert (Op : on_seg t (qof p')) by (destruct Hp as [->| ->]; [apply on_seg_end_a|apply on_seg_end_b]).
        destruct (meet_unique s t q D Os Ot) as [X1 Y1].
        destruct (meet_unique s t (qof p') D (proj1 II) Op) as [X2 Y2]. simpl in X2, Y2.
        split; [rewrite X1, <- X2|rewrite Y1, <- Y2]; reflexivity. }
      split; intros _ [_ K].
      + exists p'; split; auto.
      + exfalso. apply K. destruct Hp as [->| ->]; [left|right]; auto.
    - intros _ Os Ot.
      assert (Q : q_is q p').
      { assert (Op : on_seg s (qof p')) by (destruct Hp as [->| ->]; [apply on_seg_end_a|apply on_seg_end_b]).
        destruct (meet_unique s t q D Os Ot) as [X1 Y1].
        destruct (meet_unique s t (qof p') D Op (proj1 II)) as [X2 Y2]. simpl in X2, Y2.
        split; [rewrite X1, <- X2|rewrite Y1, <- Y2]; reflexivity. }
      split; intros _ [_ K].
      + exfalso. apply K. destruct Hp as [->| ->]; [left|right]; auto.
      + exists p'; split; auto.
    - pose proof (properly_dirx s t P) as D.
      destruct (middle_cases s t r P Hr) as [p' Q|p' H1 H2 H3|p' H1 H2 H3|HP]; simpl; try discriminate.
      intros _ Os Ot. destruct (meet_unique s t q D Os Ot) as [X1 Y1].
      assert (Q' : q_is q p') by (destruct Q; split; [rewrite X1|rewrite Y1]; auto).
      split; intros _ _; exists p'; auto.
  Qed.

  (** marks of a rounded crossing *)
  Theorem marks_round : rnd = true -> properly s t.
  Proof.
    unfold cross_marks. destruct (cross_cases s t r Ws Wt) as [CL|NC TO|p' Hp D II|p' Hp D II|P]; simpl; try discriminate; auto.
  Qed.

  (** every mark is an end of the other segment or the computed crossing point of a
      proper crossing *)
  Theorem marks_origin k p : In (k, p) ms -> (k = i \/ k = j) /\
    (p = sa s \/ p = sb s \/ p = sa t \/ p = sb t \/ (properly s t /\ p = cross_point s t)).
  Proof.
    unfold cross_marks. destruct (cross_cases s t r Ws Wt) as [CL|NC TO|p' Hp D II|p' Hp D II|P]; simpl.
    - destruct (collinear s t) as [[[ta tb] oa] ob] eqn:E. simpl.
      rewrite !in_app_iff. intros [I|[I|[I|I]]].
      + destruct ta; [|destruct I]. destruct I as [I|[]]. injection I as <- <-. auto 6.
      + destruct tb; [|destruct I]. destruct I as [I|[]]. injection I as <- <-. auto 6.
      + destruct oa; [|destruct I]. destruct I as [I|[]]. injection I as <- <-. auto 6.
      + destruct ob; [|destruct I]. destruct I as [I|[]]. injection I as <- <-. auto 6.
    - intros [].
    - intros [I|[]]. injection I as <- <-. destruct Hp; auto 6.
    - intros [I|[]]. injection I as <- <-. destruct Hp; auto 6.
    - unfold middle_cross.
      repeat match goal with |- context[if ?b then _ else _] => destruct b end; simpl;
        intros [I|[I|[]]] || intros [I|[]]; injection I as <- <-; auto 8.
  Qed.
End Pair.
