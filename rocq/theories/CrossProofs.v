(** * The crossing test is exact: geometry of [cross] and [collinear]. *)
From Verif Require Import Base Spec QLib PlanarGeo ModelCross.
Open Scope Z_scope.

Notation C1 s t := (cross3 (sa s) (sb s) (sa t)).
Notation C2 s t := (cross3 (sa s) (sb s) (sb t)).
(** cross product of the directions *)
Definition dirx (s t : xseg) : Z :=
  (px (sb s) - px (sa s)) * (py (sb t) - py (sa t)) - (py (sb s) - py (sa s)) * (px (sb t) - px (sa t)).

Lemma dirx_C s t : dirx s t = C2 s t - C1 s t.
Proof. unfold dirx, cross3. ring. Qed.
Lemma dirx_D s t : dirx s t = C1 t s - C2 t s.
Proof. unfold dirx, cross3. ring. Qed.
Lemma meet_x s t : dirx s t * (px (sa t) - px (sa s)) =
  C1 t s * (px (sb s) - px (sa s)) + C1 s t * (px (sb t) - px (sa t)).
Proof. unfold dirx, cross3. ring. Qed.
Lemma meet_y s t : dirx s t * (py (sa t) - py (sa s)) =
  C1 t s * (py (sb s) - py (sa s)) + C1 s t * (py (sb t) - py (sa t)).
Proof. unfold dirx, cross3. ring. Qed.

Open Scope Q_scope.

#[export] Instance qcross_comp a b : Proper ((fun q r => fst q == fst r /\ snd q == snd r) ==> Qeq) (qcross a b).
Proof. intros q r [E1 E2]. unfold qcross. rewrite E1, E2. reflexivity. Qed.

Lemma qcross_q_is a b q p : q_is q p -> qcross a b q == inject_Z (cross3 a b p).
Proof. intros [E1 E2]. rewrite <- qcross_cross3. unfold qcross. rewrite E1, E2. reflexivity. Qed.

Lemma on_seg_line s q : on_seg s q -> qcross (sa s) (sb s) q == 0.
Proof. intros (u & _ & Ex & Ey). unfold qcross. rewrite Ex, Ey. ring. Qed.

Lemma on_seg_mix a b t q u :
  fst q == qx (sa t) + u * (qx (sb t) - qx (sa t)) -> snd q == qy (sa t) + u * (qy (sb t) - qy (sa t)) ->
  qcross a b q == (1 - u) * inject_Z (cross3 a b (sa t)) + u * inject_Z (cross3 a b (sb t)).
Proof.
  intros Ex Ey. rewrite <- !qcross_cross3. unfold qcross, qof. simpl. rewrite Ex, Ey. ring.
Qed.

Lemma on_seg_end_a s : on_seg s (qof (sa s)).
Proof. exists 0. simpl. split; [lra|]. split; ring. Qed.
Lemma on_seg_end_b s : on_seg s (qof (sb s)).
Proof. exists 1. simpl. split; [lra|]. split; ring. Qed.

Lemma on_seg_comp s q r : fst q == fst r -> snd q == snd r -> on_seg s q -> on_seg s r.
Proof. intros E1 E2 (u & U & Ex & Ey). exists u. rewrite <- E1, <- E2. auto. Qed.

Lemma q_is_qof p : q_is (qof p) p.
Proof. split; reflexivity. Qed.

Lemma q_is_unique q p r : q_is q p -> q_is q r -> p = r.
Proof.
  intros [A B] [C D]. apply pt_ext.
  - apply (proj1 (qz_eq _ _)). unfold qx in *. rewrite <- A, <- C. reflexivity.
  - apply (proj1 (qz_eq _ _)). unfold qy in *. rewrite <- B, <- D. reflexivity.
Qed.

(** sign facts about integers injected in Q *)
Lemma inj_pos z : (0 < z)%Z -> 0 < inject_Z z.
Proof. intro H. apply (proj2 (qz_lt 0 z)), H. Qed.
Lemma inj_neg z : (z < 0)%Z -> inject_Z z < 0.
Proof. intro H. apply (proj2 (qz_lt z 0)), H. Qed.

(** same strict side: no common point *)
Lemma sides_apart s t q : (0 < C1 s t * C2 s t)%Z -> on_seg s q -> on_seg t q -> False.
Proof.
  intros H Hs (u & [U0 U1] & Ex & Ey).
  pose proof (on_seg_line s q Hs) as L. rewrite (on_seg_mix _ _ t q u Ex Ey) in L.
  apply Z.lt_0_mul in H as [[A B]|[B A]].
  - pose proof (inj_pos _ A). pose proof (inj_pos _ B). nra.
  - pose proof (inj_neg _ A). pose proof (inj_neg _ B). nra.
Qed.

(** only the end on the line can be common *)
Lemma side_a s t q : C1 s t = 0%Z -> C2 s t <> 0%Z -> on_seg s q -> on_seg t q -> q_is q (sa t).
Proof.
  intros H1 H2 Hs (u & [U0 U1] & Ex & Ey).
  pose proof (on_seg_line s q Hs) as L. rewrite (on_seg_mix _ _ t q u Ex Ey) in L.
  rewrite H1 in L.
  assert (~ inject_Z (C2 s t) == 0) by (intro E; apply H2; exact (proj1 (qz_eq _ 0) E)).
  assert (Z0 : u == 0).
  { assert (M : u * inject_Z (C2 s t) == 0) by (change (inject_Z 0) with 0 in L; lra).
    destruct (Qmult_integral _ _ M); auto. contradiction. }
  split; [rewrite Ex|rewrite Ey]; rewrite Z0; ring.
Qed.

Lemma side_b s t q : C1 s t <> 0%Z -> C2 s t = 0%Z -> on_seg s q -> on_seg t q -> q_is q (sb t).
Proof.
  intros H1 H2 Hs (u & [U0 U1] & Ex & Ey).
  pose proof (on_seg_line s q Hs) as L. rewrite (on_seg_mix _ _ t q u Ex Ey) in L.
  rewrite H2 in L.
  assert (~ inject_Z (C1 s t) == 0) by (intro E; apply H1; exact (proj1 (qz_eq _ 0) E)).
  assert (Z0 : 1 - u == 0).
  { assert (M : (1 - u) * inject_Z (C1 s t) == 0) by (change (inject_Z 0) with 0 in L; lra).
    destruct (Qmult_integral _ _ M); auto. contradiction. }
  assert (Z1 : u == 1) by lra.
  split; [rewrite Ex|rewrite Ey]; rewrite Z1; ring.
Qed.

(** the crossing point of two non-parallel lines *)
Definition meet (s t : xseg) : qpt :=
  (qx (sa s) + inject_Z (C1 t s) / inject_Z (dirx s t) * (qx (sb s) - qx (sa s)),
   qy (sa s) + inject_Z (C1 t s) / inject_Z (dirx s t) * (qy (sb s) - qy (sa s))).

Lemma meet_other s t : dirx s t <> 0%Z ->
  fst (meet s t) == qx (sa t) + (- inject_Z (C1 s t) / inject_Z (dirx s t)) * (qx (sb t) - qx (sa t)) /\
  snd (meet s t) == qy (sa t) + (- inject_Z (C1 s t) / inject_Z (dirx s t)) * (qy (sb t) - qy (sa t)).
Proof.
  intro D. assert (D' : ~ inject_Z (dirx s t) == 0) by (intro E; apply D; exact (proj1 (qz_eq _ 0) E)).
  unfold meet; simpl.
  assert (X : inject_Z (dirx s t) * (qx (sa t) - qx (sa s)) ==
     inject_Z (C1 t s) * (qx (sb s) - qx (sa s)) + inject_Z (C1 s t) * (qx (sb t) - qx (sa t))).
  { unfold qx. rewrite <- !qz_sub, <- !inject_Z_mult, <- inject_Z_plus. rewrite meet_x. reflexivity. }
  assert (Y : inject_Z (dirx s t) * (qy (sa t) - qy (sa s)) ==
     inject_Z (C1 t s) * (qy (sb s) - qy (sa s)) + inject_Z (C1 s t) * (qy (sb t) - qy (sa t))).
  { unfold qy. rewrite <- !qz_sub, <- !inject_Z_mult, <- inject_Z_plus. rewrite meet_y. reflexivity. }
  set (d := inject_Z (dirx s t)) in *.
  split; field_simplify_eq; auto; lra.
Qed.

Lemma ratio_range a d : (0 < a * d)%Z -> (0 < (d - a) * d)%Z -> 0 < inject_Z a / inject_Z d /\ inject_Z a / inject_Z d < 1.
Proof.
  intros H1 H2. destruct (Z_lt_dec 0 d) as [P|P].
  - pose proof (inj_pos d P). assert (0 < a)%Z by nia. assert (a < d)%Z by nia.
    pose proof (inj_pos a H0). assert (inject_Z a < inject_Z d) by (apply (proj2 (qz_lt _ _)); auto).
    split; [apply Qlt_shift_div_l; lra|apply Qlt_shift_div_r; lra].
  - assert (N : (d < 0)%Z) by nia. assert (A : (a < 0)%Z) by nia. assert (B : (d < a)%Z) by nia.
    assert (E : inject_Z a / inject_Z d == inject_Z (- a) / inject_Z (- d)).
    { rewrite !inject_Z_opp. field. pose proof (inj_neg d N). lra. }
    rewrite E. assert (0 < inject_Z (- d)) by (apply inj_pos; lia).
    assert (0 < inject_Z (- a)) by (apply inj_pos; lia).
    assert (inject_Z (- a) < inject_Z (- d)) by (apply (proj2 (qz_lt _ _)); lia).
    split; [apply Qlt_shift_div_l; lra|apply Qlt_shift_div_r; lra].
Qed.

Definition properly (s t : xseg) : Prop := (C1 s t * C2 s t < 0)%Z /\ (C1 t s * C2 t s < 0)%Z.

Lemma properly_sym s t : properly s t -> properly t s.
Proof. intros [A B]; split; auto. Qed.

Lemma properly_dirx s t : properly s t -> dirx s t <> 0%Z.
Proof. intros [A _] E. rewrite dirx_C in E. nia. Qed.

Lemma not_end_if p s q : cross3 (sa s) (sb s) p <> 0%Z -> on_seg s q -> ~ q_is q p.
Proof.
  intros H On E. apply H. pose proof (on_seg_line _ _ On) as L. rewrite (qcross_q_is _ _ _ _ E) in L.
  exact (proj1 (qz_eq _ 0) L).
Qed.

Lemma properly_meet s t : properly s t -> inside_seg s (meet s t) /\ inside_seg t (meet s t).
Proof.
  intros P. pose proof (properly_dirx _ _ P) as D. destruct P as [PA PB].
  assert (R1 : 0 < inject_Z (C1 t s) / inject_Z (dirx s t) /\ inject_Z (C1 t s) / inject_Z (dirx s t) < 1).
  { apply ratio_range; rewrite dirx_D; nia. }
  assert (R2 : 0 < inject_Z (- C1 s t) / inject_Z (dirx s t) /\ inject_Z (- C1 s t) / inject_Z (dirx s t) < 1).
  { apply ratio_range; rewrite dirx_C; nia. }
  assert (O1 : on_seg s (meet s t)).
  { exists (inject_Z (C1 t s) / inject_Z (dirx s t)). split; [lra|]. split; reflexivity. }
  assert (O2 : on_seg t (meet s t)).
  { exists (inject_Z (- C1 s t) / inject_Z (dirx s t)). split; [lra|].
    rewrite inject_Z_opp. apply meet_other; auto. }
  split; split; auto; intros [E|E].
  - eapply (not_end_if (sa s) t); eauto. nia.
  - eapply (not_end_if (sb s) t); eauto. nia.
  - eapply (not_end_if (sa t) s); eauto. nia.
  - eapply (not_end_if (sb t) s); eauto. nia.
Qed.

(** lines that are not parallel meet in one point only *)
Lemma meet_unique s t q : dirx s t <> 0%Z -> on_seg s q -> on_seg t q ->
  fst q == fst (meet s t) /\ snd q == snd (meet s t).
Proof.
  intros D (v & _ & Vx & Vy) On.
  pose proof (on_seg_line _ _ On) as L. rewrite (on_seg_mix _ _ s q v Vx Vy) in L.
  assert (D' : ~ inject_Z (dirx s t) == 0) by (intro E; apply D; exact (proj1 (qz_eq _ 0) E)).
  assert (Ev : v == inject_Z (C1 t s) / inject_Z (dirx s t)).
  { assert (inject_Z (dirx s t) == inject_Z (C1 t s) - inject_Z (C2 t s)) as E.
    { rewrite <- qz_sub, dirx_D. reflexivity. }
    rewrite E in *. field_simplify_eq; auto. lra. }
  unfold meet; simpl. rewrite <- Ev. auto.
Qed.

(** an end of [t] with the ends of [s] on different sides of [t] lies inside [s] *)
Lemma end_inside s t p : (p = sa t \/ p = sb t) -> cross3 (sa s) (sb s) p = 0%Z ->
  (C1 t s * C2 t s < 0)%Z -> inside_seg s (qof p).
Proof.
  intros Hp Hz H.
  assert (Mix : forall u, u == inject_Z (C1 t s) / inject_Z (C1 t s - C2 t s) ->
     qx p == qx (sa s) + u * (qx (sb s) - qx (sa s)) /\ qy p == qy (sa s) + u * (qy (sb s) - qy (sa s))).
  { intros u Eu.
    assert (D : dirx s t <> 0%Z) by (rewrite dirx_D; nia).
    assert (D' : ~ inject_Z (dirx s t) == 0) by (intro E; apply D; exact (proj1 (qz_eq _ 0) E)).
    destruct (meet_other s t D) as [MX MY].
    assert (EM : inject_Z (C1 t s) / inject_Z (dirx s t) == u) by (rewrite Eu, dirx_D; reflexivity).
    unfold meet in MX, MY; simpl in MX, MY. rewrite EM in MX, MY. rewrite MX, MY.
    destruct Hp as [->| ->].
    - rewrite Hz. split; field; auto.
    - assert (dirx s t = - C1 s t)%Z as E by (rewrite dirx_C, Hz; lia).
      rewrite E, inject_Z_opp in *. split; field; intro F; apply D'; lra. }
  assert (R : 0 < inject_Z (C1 t s) / inject_Z (C1 t s - C2 t s) /\ inject_Z (C1 t s) / inject_Z (C1 t s - C2 t s) < 1)
    by (apply ratio_range; nia).
  destruct (Mix _ (Qeq_refl _)) as [MX MY].
  split.
  - exists (inject_Z (C1 t s) / inject_Z (C1 t s - C2 t s)). simpl. split; [lra|auto].
  - assert (On : on_seg t (qof p)) by (destruct Hp as [->| ->]; [apply on_seg_end_a|apply on_seg_end_b]).
    intros [E|E]; eapply (not_end_if _ t _); try exact On; try exact E; nia.
Qed.

(** ** Segments on one line *)
Definition colinear (s t : xseg) : Prop :=
  C1 s t = 0%Z /\ C2 s t = 0%Z /\ C1 t s = 0%Z /\ C2 t s = 0%Z.

Definition norm2 (t : xseg) : Z :=
  ((px (sb t) - px (sa t)) * (px (sb t) - px (sa t)) + (py (sb t) - py (sa t)) * (py (sb t) - py (sa t)))%Z.

Lemma norm2_pos t : wf_xseg t -> (0 < norm2 t)%Z.
Proof.
  unfold wf_xseg, pt_lt, norm2. intro W.
  pose proof (Z.square_nonneg (px (sb t) - px (sa t))). pose proof (Z.square_nonneg (py (sb t) - py (sa t))).
  destruct W as [W|[_ W]].
  - assert (0 < (px (sb t) - px (sa t)) * (px (sb t) - px (sa t)))%Z by (apply Z.mul_pos_pos; lia). lia.
  - assert (0 < (py (sb t) - py (sa t)) * (py (sb t) - py (sa t)))%Z by (apply Z.mul_pos_pos; lia). lia.
Qed.

(** position of a point along a segment *)
Definition pos (t : xseg) (p : pt) : Q := inject_Z (dot3 p (sa t) (sa t) (sb t)) / inject_Z (norm2 t).

Lemma dot3_x t p : cross3 (sa t) (sb t) p = 0%Z ->
  (norm2 t * (px p - px (sa t)) = dot3 p (sa t) (sa t) (sb t) * (px (sb t) - px (sa t)))%Z.
Proof.
  intro H. assert (norm2 t * (px p - px (sa t)) - dot3 p (sa t) (sa t) (sb t) * (px (sb t) - px (sa t)) =
    - (py (sb t) - py (sa t)) * cross3 (sa t) (sb t) p)%Z by (unfold cross3, norm2, dot3; ring).
  rewrite H in *. lia.
Qed.
Lemma dot3_y t p : cross3 (sa t) (sb t) p = 0%Z ->
  (norm2 t * (py p - py (sa t)) = dot3 p (sa t) (sa t) (sb t) * (py (sb t) - py (sa t)))%Z.
Proof.
  intro H. assert (norm2 t * (py p - py (sa t)) - dot3 p (sa t) (sa t) (sb t) * (py (sb t) - py (sa t)) =
    (px (sb t) - px (sa t)) * cross3 (sa t) (sb t) p)%Z by (unfold cross3, norm2, dot3; ring).
  rewrite H in *. lia.
Qed.

Lemma pos_xy t p : wf_xseg t -> cross3 (sa t) (sb t) p = 0%Z ->
  qx p == qx (sa t) + pos t p * (qx (sb t) - qx (sa t)) /\
  qy p == qy (sa t) + pos t p * (qy (sb t) - qy (sa t)).
Proof.
  intros W H. pose proof (inj_pos _ (norm2_pos t W)) as N.
  pose proof (dot3_x t p H) as X. pose proof (dot3_y t p H) as Y.
  assert (X' : inject_Z (norm2 t) * (qx p - qx (sa t)) == inject_Z (dot3 p (sa t) (sa t) (sb t)) * (qx (sb t) - qx (sa t))).
  { unfold qx. rewrite <- !qz_sub, <- !inject_Z_mult, X. reflexivity. }
  assert (Y' : inject_Z (norm2 t) * (qy p - qy (sa t)) == inject_Z (dot3 p (sa t) (sa t) (sb t)) * (qy (sb t) - qy (sa t))).
  { unfold qy. rewrite <- !qz_sub, <- !inject_Z_mult, Y. reflexivity. }
  unfold pos. split; field_simplify_eq; lra.
Qed.

Lemma seg_nonzero t : wf_xseg t -> ~ (qx (sb t) - qx (sa t) == 0 /\ qy (sb t) - qy (sa t) == 0).
Proof.
  unfold wf_xseg, pt_lt, qx, qy. intros W [A B]. rewrite <- qz_sub in A, B.
  pose proof (proj1 (qz_eq _ 0) A). pose proof (proj1 (qz_eq _ 0) B). lia.
Qed.

Lemma param_inj t u v : wf_xseg t ->
  qx (sa t) + u * (qx (sb t) - qx (sa t)) == qx (sa t) + v * (qx (sb t) - qx (sa t)) ->
  qy (sa t) + u * (qy (sb t) - qy (sa t)) == qy (sa t) + v * (qy (sb t) - qy (sa t)) -> u == v.
Proof.
  intros W X Y.
  assert (X' : (u - v) * (qx (sb t) - qx (sa t)) == 0) by lra.
  assert (Y' : (u - v) * (qy (sb t) - qy (sa t)) == 0) by lra.
  destruct (Qmult_integral _ _ X'); [lra|]. destruct (Qmult_integral _ _ Y'); [lra|].
  exfalso. eapply seg_nonzero; eauto.
Qed.

Lemma pos_inside t p : wf_xseg t -> cross3 (sa t) (sb t) p = 0%Z ->
  (inside_seg t (qof p) <-> 0 < pos t p < 1).
Proof.
  intros W H. destruct (pos_xy t p W H) as [X Y]. split.
  - intros [(u & U & Ux & Uy) NE]. simpl in Ux, Uy.
    assert (E : pos t p == u) by (eapply param_inj; eauto; [rewrite <- X|rewrite <- Y]; auto).
    rewrite E.
    assert (~ u == 0).
    { intro Z0. apply NE. left. split; simpl; [rewrite Ux|rewrite Uy]; rewrite Z0; ring. }
    assert (~ u == 1).
    { intro Z0. apply NE. right. split; simpl; [rewrite Ux|rewrite Uy]; rewrite Z0; ring. }
    split; [destruct (Q_dec 0 u) as [[?|?]|?]|destruct (Q_dec u 1) as [[?|?]|?]]; auto; exfalso; lra.
  - intros [P0 P1]. split.
    + exists (pos t p). simpl. split; [lra|auto].
    + intros [[Ex Ey]|[Ex Ey]]; simpl in Ex, Ey.
      * assert (pos t p == 0) as E; [|lra]. eapply param_inj; eauto; lra.
      * assert (pos t p == 1) as E; [|lra]. eapply param_inj; eauto; lra.
Qed.

Lemma pos_shift t p : wf_xseg t -> inject_Z (dot3 p (sb t) (sa t) (sb t)) / inject_Z (norm2 t) == pos t p - 1.
Proof.
  intro W. pose proof (inj_pos _ (norm2_pos t W)) as N.
  assert (dot3 p (sb t) (sa t) (sb t) = dot3 p (sa t) (sa t) (sb t) - norm2 t)%Z as -> by (unfold dot3, norm2; ring).
  rewrite qz_sub. unfold pos. field. lra.
Qed.

Lemma sgn_div z n : (0 < n)%Z -> ((0 < z)%Z <-> 0 < inject_Z z / inject_Z n) /\ ((z < 0)%Z <-> inject_Z z / inject_Z n < 0).
Proof.
  intro N. pose proof (inj_pos _ N) as N'. split; split; intro H.
  - apply Qlt_shift_div_l; auto. pose proof (inj_pos _ H). lra.
  - apply (proj1 (qz_lt 0 z)). change (inject_Z 0) with 0.
    assert (inject_Z z == inject_Z z / inject_Z n * inject_Z n) as -> by (field; lra). nra.
  - apply Qlt_shift_div_r; auto. pose proof (inj_neg _ H). lra.
  - apply (proj1 (qz_lt z 0)). change (inject_Z 0) with 0.
    assert (inject_Z z == inject_Z z / inject_Z n * inject_Z n) as -> by (field; lra). nra.
Qed.

Lemma mask_target t p : wf_xseg t -> cross3 (sa t) (sb t) p = 0%Z ->
  let z1 := Z.sgn (dot3 p (sa t) (sa t) (sb t)) in
  let z2 := Z.sgn (dot3 p (sb t) (sa t) (sb t)) in
  ((z1 =? - z2) && negb (z1 =? 0))%Z = true <-> inside_seg t (qof p).
Proof.
  intros W H z1 z2. rewrite (pos_inside t p W H).
  pose proof (norm2_pos t W) as N.
  destruct (sgn_div (dot3 p (sa t) (sa t) (sb t)) _ N) as [A1 A2]. fold (pos t p) in A1, A2.
  destruct (sgn_div (dot3 p (sb t) (sa t) (sb t)) _ N) as [B1 B2]. rewrite (pos_shift t p W) in B1, B2.
  subst z1 z2. split; intro E.
  - assert (S : (dot3 p (sa t) (sa t) (sb t) > 0 /\ dot3 p (sb t) (sa t) (sb t) < 0 \/
            dot3 p (sa t) (sa t) (sb t) < 0 /\ dot3 p (sb t) (sa t) (sb t) > 0)%Z) by lia.
    destruct S as [[S1 S2]|[S1 S2]].
    + assert (0 < pos t p) by (apply A1; lia). assert (pos t p - 1 < 0) by (apply B2; lia). lra.
    + assert (pos t p < 0) by (apply A2; lia). assert (0 < pos t p - 1) by (apply B1; lia). lra.
  - assert (0 < dot3 p (sa t) (sa t) (sb t))%Z by (apply A1; lra).
    assert (dot3 p (sb t) (sa t) (sb t) < 0)%Z by (apply B2; lra). lia.
Qed.

(** on one line, dot products along [t] and along [s] have the same sign *)
Lemma dot3_dir s t p r : wf_xseg s -> wf_xseg t -> colinear s t ->
  cross3 (sa t) (sb t) p = 0%Z -> cross3 (sa t) (sb t) r = 0%Z ->
  Z.sgn (dot3 p r (sa t) (sb t)) = Z.sgn (dot3 p r (sa s) (sb s)).
Proof.
  intros Ws Wt (H1 & H2 & H3 & H4) Hp Hr.
  unfold wf_xseg, pt_lt, cross3, dot3 in *.
  remember (px (sb t) - px (sa t))%Z as vx. remember (py (sb t) - py (sa t))%Z as vy.
  remember (px (sb s) - px (sa s))%Z as wx. remember (py (sb s) - py (sa s))%Z as wy.
  assert (P : (vx * wy = vy * wx)%Z) by nia.
  remember (px p - px r)%Z as dx. remember (py p - py r)%Z as dy.
  assert (Q : (vx * dy = vy * dx)%Z) by nia.
  assert (Vp : (0 < vx \/ vx = 0 /\ 0 < vy)%Z) by lia.
  assert (Wp : (0 < wx \/ wx = 0 /\ 0 < wy)%Z) by lia.
  clear - P Q Vp Wp.
  destruct Vp as [V|[V0 V]], Wp as [W|[W0 W]].
  - assert (E : (vx * (dx * wx + dy * wy) = wx * (dx * vx + dy * vy))%Z)
      by (transitivity (vx * wx * dx + dy * (vx * wy))%Z; [ring|rewrite P; ring]).
    assert (Z.sgn (vx * (dx * wx + dy * wy)) = Z.sgn (wx * (dx * vx + dy * vy))) as S by (rewrite E; auto).
    rewrite !Z.sgn_mul, (Z.sgn_pos vx), (Z.sgn_pos wx) in S by auto. lia.
  - exfalso. subst wx. pose proof (Z.mul_pos_pos vx wy V W). lia.
  - exfalso. subst vx. pose proof (Z.mul_pos_pos vy wx V W). lia.
  - subst vx wx. assert (dx = 0)%Z by nia. subst dx.
    replace (0 * 0 + dy * vy)%Z with (dy * vy)%Z by ring. replace (0 * 0 + dy * wy)%Z with (dy * wy)%Z by ring.
    rewrite !Z.sgn_mul, (Z.sgn_pos vy), (Z.sgn_pos wy) by auto. reflexivity.
Qed.

Lemma collinear_spec s t ta tb oa ob : wf_xseg s -> wf_xseg t -> colinear s t ->
  collinear s t = (ta, tb, oa, ob) ->
  (ta = true <-> inside_seg t (qof (sa s))) /\ (tb = true <-> inside_seg t (qof (sb s))) /\
  (oa = true <-> inside_seg s (qof (sa t))) /\ (ob = true <-> inside_seg s (qof (sb t))).
Proof.
  intros Ws Wt CL E. pose proof CL as (H1 & H2 & H3 & H4).
  assert (Ea : cross3 (sa t) (sb t) (sa t) = 0%Z) by (unfold cross3; ring).
  assert (Eb : cross3 (sa t) (sb t) (sb t) = 0%Z) by (unfold cross3; ring).
  unfold collinear in E. injection E as <- <- <- <-.
  split; [|split; [|split]].
  - apply (mask_target t (sa s) Wt H3).
  - apply (mask_target t (sb s) Wt H4).
  - rewrite <- (mask_target s (sa t) Ws H1). cbv zeta.
    assert (N1 : (dot3 (sa t) (sa s) (sa s) (sb s) = - dot3 (sa s) (sa t) (sa s) (sb s))%Z) by (unfold dot3; ring).
    assert (N2 : (dot3 (sa t) (sb s) (sa s) (sb s) = - dot3 (sb s) (sa t) (sa s) (sb s))%Z) by (unfold dot3; ring).
    rewrite N1, N2, !Z.sgn_opp.
    rewrite <- (dot3_dir s t (sa s) (sa t) Ws Wt CL H3 Ea), <- (dot3_dir s t (sb s) (sa t) Ws Wt CL H4 Ea). lia.
  - rewrite <- (mask_target s (sb t) Ws H2). cbv zeta.
    assert (N1 : (dot3 (sb t) (sa s) (sa s) (sb s) = - dot3 (sa s) (sb t) (sa s) (sb s))%Z) by (unfold dot3; ring).
    assert (N2 : (dot3 (sb t) (sb s) (sa s) (sb s) = - dot3 (sb s) (sb t) (sa s) (sb s))%Z) by (unfold dot3; ring).
    rewrite N1, N2, !Z.sgn_opp.
    rewrite <- (dot3_dir s t (sa s) (sb t) Ws Wt CL H3 Eb), <- (dot3_dir s t (sb s) (sb t) Ws Wt CL H4 Eb). lia.
Qed.

Lemma pos_a t : pos t (sa t) == 0.
Proof.
  unfold pos. assert (dot3 (sa t) (sa t) (sa t) (sb t) = 0)%Z as -> by (unfold dot3; ring).
  change (inject_Z 0) with 0. unfold Qdiv. ring.
Qed.
Lemma pos_b t : wf_xseg t -> pos t (sb t) == 1.
Proof.
  intro W. unfold pos. pose proof (inj_pos _ (norm2_pos t W)) as N.
  change (dot3 (sb t) (sa t) (sa t) (sb t)) with (norm2 t). field. lra.
Qed.

Lemma pos_eq t p r : wf_xseg t -> cross3 (sa t) (sb t) p = 0%Z -> cross3 (sa t) (sb t) r = 0%Z ->
  pos t p == pos t r -> p = r.
Proof.
  intros W Hp Hr E. destruct (pos_xy t p W Hp) as [X Y]. destruct (pos_xy t r W Hr) as [X' Y'].
  apply (q_is_unique (qof p)); [apply q_is_qof|]. split; simpl.
  - rewrite X, X', E. reflexivity.
  - rewrite Y, Y', E. reflexivity.
Qed.

(** ends of [s], seen along [t], are in increasing order *)
Lemma pos_mono s t : wf_xseg s -> wf_xseg t -> colinear s t -> pos t (sa s) < pos t (sb s).
Proof.
  intros Ws Wt CL. pose proof CL as (H1 & H2 & H3 & H4).
  pose proof (dot3_dir s t (sb s) (sa s) Ws Wt CL H4 H3) as E.
  pose proof (norm2_pos s Ws) as N. change (norm2 s) with (dot3 (sb s) (sa s) (sa s) (sb s)) in N.
  assert (P : (0 < dot3 (sb s) (sa s) (sa t) (sb t))%Z) by lia.
  assert (dot3 (sb s) (sa t) (sa t) (sb t) = dot3 (sa s) (sa t) (sa t) (sb t) + dot3 (sb s) (sa s) (sa t) (sb t))%Z as D
    by (unfold dot3; ring).
  unfold pos. rewrite D, inject_Z_plus.
  pose proof (inj_pos _ (norm2_pos t Wt)) as N'. pose proof (inj_pos _ P) as P'.
  apply Qlt_shift_div_l; auto.
  assert (inject_Z (dot3 (sa s) (sa t) (sa t) (sb t)) / inject_Z (norm2 t) * inject_Z (norm2 t) ==
          inject_Z (dot3 (sa s) (sa t) (sa t) (sb t))) as -> by (field; lra). lra.
Qed.

(** a common point of two collinear segments, in coordinates along [t] *)
Lemma common_pos s t q : wf_xseg s -> wf_xseg t -> colinear s t -> on_seg s q -> on_seg t q ->
  exists u, 0 <= u <= 1 /\ pos t (sa s) <= u <= pos t (sb s) /\
    fst q == qx (sa t) + u * (qx (sb t) - qx (sa t)) /\ snd q == qy (sa t) + u * (qy (sb t) - qy (sa t)).
Proof.
  intros Ws Wt CL (w & W01 & Wx & Wy) (u & U01 & Ux & Uy). pose proof CL as (H1 & H2 & H3 & H4).
  destruct (pos_xy t (sa s) Wt H3) as [Ax Ay]. destruct (pos_xy t (sb s) Wt H4) as [Bx By].
  pose proof (pos_mono s t Ws Wt CL) as M.
  set (al := pos t (sa s)) in *. set (be := pos t (sb s)) in *.
  assert (E : u == al + w * (be - al)).
  { eapply (param_inj t); auto.
    - rewrite <- Ux, Wx, Bx, Ax. ring.
    - rewrite <- Uy, Wy, By, Ay. ring. }
  exists u. split; auto. split; [split; nra|auto].
Qed.

Lemma q_at_pos t p q u : wf_xseg t -> cross3 (sa t) (sb t) p = 0%Z -> u == pos t p ->
  fst q == qx (sa t) + u * (qx (sb t) - qx (sa t)) -> snd q == qy (sa t) + u * (qy (sb t) - qy (sa t)) -> q_is q p.
Proof.
  intros W H E X Y. destruct (pos_xy t p W H) as [X' Y'].
  split; [rewrite X, X'|rewrite Y, Y']; rewrite E; reflexivity.
Qed.

Lemma colinear_none s t : wf_xseg s -> wf_xseg t -> colinear s t -> s <> t ->
  ~ inside_seg t (qof (sa s)) -> ~ inside_seg t (qof (sb s)) ->
  ~ inside_seg s (qof (sa t)) -> ~ inside_seg s (qof (sb t)) ->
  forall q, on_seg s q -> on_seg t q -> is_end s q /\ is_end t q.
Proof.
  intros Ws Wt CL NE N1 N2 N3 N4 q Os Ot. pose proof CL as (H1 & H2 & H3 & H4).
  assert (Ha : cross3 (sa t) (sb t) (sa t) = 0%Z) by (unfold cross3; ring).
  assert (Hb : cross3 (sa t) (sb t) (sb t) = 0%Z) by (unfold cross3; ring).
  destruct (common_pos s t q Ws Wt CL Os Ot) as (u & [U0 U1] & [UA UB] & Ux & Uy).
  pose proof (pos_mono s t Ws Wt CL) as M.
  rewrite (pos_inside t _ Wt H3) in N1. rewrite (pos_inside t _ Wt H4) in N2.
  (* ends of t inside s in coordinates of t *)
  assert (IN : forall p, cross3 (sa t) (sb t) p = 0%Z -> pos t (sa s) < pos t p < pos t (sb s) -> inside_seg s (qof p)).
  { intros p Hp [P1 P2]. destruct (pos_xy t p Wt Hp) as [X Y].
    destruct (pos_xy t (sa s) Wt H3) as [Ax Ay]. destruct (pos_xy t (sb s) Wt H4) as [Bx By].
    split.
    - exists ((pos t p - pos t (sa s)) / (pos t (sb s) - pos t (sa s))). simpl. split; [split|split].
      + apply Qle_shift_div_l; lra.
      + apply Qle_shift_div_r; lra.
      + rewrite X, Bx, Ax. field. lra.
      + rewrite Y, By, Ay. field. lra.
    - intros [E|E].
      + pose proof (q_is_unique (qof p) p (sa s) (q_is_qof p) E) as E'. rewrite E' in *. lra.
      + pose proof (q_is_unique (qof p) p (sb s) (q_is_qof p) E) as E'. rewrite E' in *. lra. }
  pose proof (pos_a t) as PA. pose proof (pos_b t Wt) as PB.
  assert (N3' : ~ (pos t (sa s) < 0 /\ 0 < pos t (sb s))).
  { intro K. apply N3, IN; auto. lra. }
  assert (N4' : ~ (pos t (sa s) < 1 /\ 1 < pos t (sb s))).
  { intro K. apply N4, IN; auto. lra. }
  set (al := pos t (sa s)) in *. set (be := pos t (sb s)) in *.
  destruct (Q_dec al 0) as [[L|L]|L].
  - (* al < 0 *)
    assert (be <= 0) by (destruct (Qlt_le_dec 0 be); auto; exfalso; apply N3'; lra).
    split.
    + right. apply (q_at_pos t (sb s) q u); auto. fold be. lra.
    + left. apply (q_at_pos t (sa t) q u); auto. lra.
  - (* 0 < al *)
    assert (1 <= al) by (destruct (Qlt_le_dec al 1); auto; exfalso; apply N1; lra).
    split.
    + left. apply (q_at_pos t (sa s) q u); auto. fold al. lra.
    + right. apply (q_at_pos t (sb t) q u); auto. lra.
  - exfalso. apply NE.
    assert (be == 1).
    { destruct (Q_dec be 1) as [[K|K]|K]; auto; exfalso; [apply N2|apply N4']; lra. }
    assert (sa s = sa t) by (apply (pos_eq t); auto; fold al; lra).
    assert (sb s = sb t) by (apply (pos_eq t); auto; fold be; lra).
    destruct s, t; simpl in *; subst; reflexivity.
Qed.

Lemma both_on_line s t : wf_xseg s -> C1 s t = 0%Z -> C2 s t = 0%Z -> C1 t s = 0%Z /\ C2 t s = 0%Z.
Proof.
  intros W H1 H2. pose proof (norm2_pos s W) as N.
  assert (I1 : (norm2 s * C1 t s = dot3 (sb t) (sa s) (sa s) (sb s) * C1 s t - dot3 (sa t) (sa s) (sa s) (sb s) * C2 s t \/
               norm2 s * C1 t s = dot3 (sa t) (sa s) (sa s) (sb s) * C2 s t - dot3 (sb t) (sa s) (sa s) (sb s) * C1 s t)%Z)
    by (right; unfold norm2, dot3, cross3; ring).
  assert (E1 : C1 t s = 0%Z) by (rewrite H1, H2 in I1; nia).
  split; auto.
  pose proof (dirx_C s t). pose proof (dirx_D s t). lia.
Qed.

Lemma land1 c : Z.land 1 (- Z.sgn c + 1) = if (c =? 0)%Z then 1%Z else 0%Z.
Proof. destruct c; reflexivity. Qed.

Lemma sgn_neq_mul a b : a <> 0%Z -> b <> 0%Z -> (- Z.sgn a)%Z <> (- Z.sgn b)%Z -> (a * b < 0)%Z.
Proof. intros. assert (a < 0 /\ 0 < b \/ 0 < a /\ b < 0)%Z as [[? ?]|[? ?]] by lia; nia. Qed.
Lemma sgn_eq_mul a b : a <> 0%Z -> (- Z.sgn a = - Z.sgn b)%Z -> (0 < a * b)%Z.
Proof. intros. assert (a < 0 /\ b < 0 \/ 0 < a /\ 0 < b)%Z as [[? ?]|[? ?]] by lia; nia. Qed.

Inductive cross_case (s t : xseg) (r : Z) : option CrossResult -> Prop :=
| cc_overlay : colinear s t -> cross_case s t r (Some (CRes (Pt 0 0) Overlay false))
| cc_none : ~ colinear s t -> (forall q, on_seg s q -> on_seg t q -> is_end s q /\ is_end t q) ->
    cross_case s t r None
| cc_other p : (p = sa t \/ p = sb t) -> dirx s t <> 0%Z -> inside_seg s (qof p) ->
    cross_case s t r (Some (CRes p OtherEnd false))
| cc_target p : (p = sa s \/ p = sb s) -> dirx s t <> 0%Z -> inside_seg t (qof p) ->
    cross_case s t r (Some (CRes p TargetEnd false))
| cc_middle : properly s t -> cross_case s t r (Some (middle_cross s t r)).

Lemma cross_cases s t r : wf_xseg s -> wf_xseg t -> cross_case s t r (cross s t r).
Proof.
  intros Ws Wt. unfold cross, clock_direction. rewrite !land1.
  pose proof (both_on_line s t Ws) as BL. pose proof (both_on_line t s Wt) as BL'.
  pose proof (side_a s t) as SA. pose proof (side_b s t) as SB.
  pose proof (side_a t s) as SA'. pose proof (side_b t s) as SB'.
  pose proof (sides_apart s t) as AP. pose proof (sides_apart t s) as AP'.
  pose proof (dirx_C s t) as DC. pose proof (dirx_D s t) as DD.
  destruct (Z.eqb_spec (C1 s t) 0) as [E1|E1], (Z.eqb_spec (C2 s t) 0) as [E2|E2],
    (Z.eqb_spec (C1 t s) 0) as [E3|E3], (Z.eqb_spec (C2 t s) 0) as [E4|E4];
    try (exfalso; lia);
    repeat (match goal with |- context[if ?b then _ else _] => destruct b eqn:? end);
    try (exfalso; lia).
  - apply cc_overlay. repeat split; auto.
  - (* C1 s t = 0, C1 t s = 0 *)
    apply cc_none; [intros (? & ? & ? & ?); auto|]. intros q O1 O2. split; [left; auto|left; auto].
  - apply cc_none; [intros (? & ? & ? & ?); auto|]. intros q O1 O2. split; [right; auto|left; auto].
  - apply cc_none; [intros (? & ? & ? & ?); auto|]. intros q O1 O2.
    exfalso. apply (AP' q); auto. apply sgn_eq_mul; auto. lia.
  - apply cc_other; [auto|lia|]. apply (end_inside s t (sa t)); auto. apply sgn_neq_mul; auto; lia.
  - apply cc_none; [intros (? & ? & ? & ?); auto|]. intros q O1 O2. split; [left; auto|right; auto].
  - apply cc_none; [intros (? & ? & ? & ?); auto|]. intros q O1 O2. split; [right; auto|right; auto].
  - apply cc_none; [intros (? & ? & ? & ?); auto|]. intros q O1 O2.
    exfalso. apply (AP' q); auto. apply sgn_eq_mul; auto. lia.
  - apply cc_other; [auto|lia|]. apply (end_inside s t (sb t)); auto. apply sgn_neq_mul; auto; lia.
  - apply cc_none; [intros (? & ? & ? & ?); auto|]. intros q O1 O2.
    exfalso. apply (AP q); auto. apply sgn_eq_mul; auto. lia.
  - apply cc_target; [auto|lia|]. apply (end_inside t s (sa s)); auto. apply sgn_neq_mul; auto; lia.
  - apply cc_none; [intros (? & ? & ? & ?); auto|]. intros q O1 O2.
    exfalso. apply (AP q); auto. apply sgn_eq_mul; auto. lia.
  - apply cc_target; [auto|lia|]. apply (end_inside t s (sb s)); auto. apply sgn_neq_mul; auto; lia.
  - apply cc_none; [intros (? & ? & ? & ?); auto|]. intros q O1 O2. exfalso.
    destruct (Z.eq_dec (- Z.sgn (C1 s t)) (- Z.sgn (C2 s t))) as [E|E].
    + apply (AP q); auto. apply sgn_eq_mul; auto.
    + apply (AP' q); auto. apply sgn_eq_mul; auto. lia.
  - apply cc_middle. split; apply sgn_neq_mul; auto; lia.
Qed.
