(** * Real contours and the grid: moving vertices, changing the scale, rounding to the grid. *)
From Verif Require Import Base Spec QLib SplitNear ModelMesh.
From Coq Require Import Reals Lra Psatz Qreals.
From Verif Require Import RealMesh RealJoin RealWind.
Open Scope R_scope.

(** [q] is at most [d] away, in x and in y, from some point of the segment [a b] *)
Definition rwithin (d : R) (a b q : rpt) : Prop :=
  exists t, 0 <= t <= 1 /\ Rabs (fst q - (fst a + t * (fst b - fst a))) <= d /\ Rabs (snd q - (snd a + t * (snd b - snd a))) <= d.
Definition rclose (d : R) (p q : rpt) : Prop := Rabs (fst p - fst q) <= d /\ Rabs (snd p - snd q) <= d.
Lemma Rabs_iff x d : Rabs x <= d <-> - d <= x <= d.
Proof. unfold Rabs. destruct (Rcase_abs x); split; lra. Qed.
Lemma mix_range k x d : 0 <= k -> - d <= x <= d -> - (k * d) <= k * x <= k * d.
Proof. intros K [A B]. split; nra. Qed.
Lemma rwithin_convex d a b q q' r u : 0 <= u <= 1 -> rwithin d a b q -> rwithin d a b q' ->
  fst r = fst q + u * (fst q' - fst q) -> snd r = snd q + u * (snd q' - snd q) -> rwithin d a b r.
Proof.
  intros U (t & T & A & B) (t' & T' & A' & B') X Y. apply Rabs_iff in A, B, A', B'.
  pose proof (mix_range (1 - u) _ _ ltac:(lra) A). pose proof (mix_range (1 - u) _ _ ltac:(lra) B).
  pose proof (mix_range u _ _ ltac:(lra) A'). pose proof (mix_range u _ _ ltac:(lra) B').
  exists (t + u * (t' - t)). split; [|split].
  - pose proof (Rmult_le_pos u t'). pose proof (Rmult_le_pos (1 - u) t). pose proof (Rmult_le_pos u (1 - t')). pose proof (Rmult_le_pos (1 - u) (1 - t)). split; lra.
  - apply Rabs_iff. rewrite X. split; lra.
  - apply Rabs_iff. rewrite Y. split; lra.
Qed.
Lemma rclose_sym d p q : rclose d p q -> rclose d q p.
Proof. intros [A B]. apply Rabs_iff in A, B. split; apply Rabs_iff; lra. Qed.
Lemma rclose_refl d p : 0 <= d -> rclose d p p.
Proof. intro D. split; apply Rabs_iff; lra. Qed.
Lemma rwithin_a d a b p : rclose d p a -> rwithin d a b p.
Proof. intros [A B]. apply Rabs_iff in A, B. exists 0. split; [lra|]. split; apply Rabs_iff; lra. Qed.
Lemma rwithin_b d a b p : rclose d p b -> rwithin d a b p.
Proof. intros [A B]. apply Rabs_iff in A, B. exists 1. split; [lra|]. split; apply Rabs_iff; lra. Qed.
Lemma rwithin_move d e a b a' b' q : rclose d a' a -> rclose d b' b -> rwithin e a' b' q -> rwithin (d + e) a b q.
Proof.
  intros Wa Wb (t & T & X & Y). apply Rabs_iff in X, Y.
  destruct (rwithin_convex d a b a' b' (fst a' + t * (fst b' - fst a'), snd a' + t * (snd b' - snd a')) t T (rwithin_a d a b a' Wa) (rwithin_b d a b b' Wb)) as (v & V & A & B); cbn [fst snd]; [reflexivity|reflexivity|].
  cbn [fst snd] in A, B. apply Rabs_iff in A, B. exists v. split; auto. split; apply Rabs_iff; split; lra.
Qed.
Lemma rheight_within d a b q x y : rleft q x <> rleft q y -> rwithin d a b x -> rwithin d a b y -> rwithin d a b (fst q, rheight q x y).
Proof.
  intros N Wx Wy.
  assert (M : fst x <> fst y /\ 0 <= (fst q - fst x) / (fst y - fst x) <= 1).
  { destruct (rleft_cases q x) as [[A A']|[A A']], (rleft_cases q y) as [[B B']|[B B']]; try congruence; (split; [lra|]).
    - split; [apply Rmult_le_pos; [lra|left; apply Rinv_0_lt_compat; lra]|]. apply (Rmult_le_reg_r (fst y - fst x)); [lra|]. replace ((fst q - fst x) / (fst y - fst x) * (fst y - fst x)) with (fst q - fst x) by (field; lra). lra.
    - replace ((fst q - fst x) / (fst y - fst x)) with ((fst x - fst q) / (fst x - fst y)) by (field; lra).
      split; [apply Rmult_le_pos; [lra|left; apply Rinv_0_lt_compat; lra]|]. apply (Rmult_le_reg_r (fst x - fst y)); [lra|]. replace ((fst x - fst q) / (fst x - fst y) * (fst x - fst y)) with (fst x - fst q) by (field; lra). lra. }
  destruct M as [M U]. apply (rwithin_convex d a b x y _ _ U Wx Wy); cbn [fst snd]; unfold rheight; field; lra.
Qed.
Lemma rconvex_above d a b q h h' : ~ rwithin d a b q -> rwithin d a b (fst q, h) -> rwithin d a b (fst q, h') -> Rltb h (snd q) = Rltb h' (snd q).
Proof.
  assert (K : forall h h', rwithin d a b (fst q, h) -> rwithin d a b (fst q, h') -> h < snd q -> snd q <= h' -> rwithin d a b q).
  { clear h h'. intros h h' W W' L L'. apply (rwithin_convex d a b (fst q, h) (fst q, h') q ((snd q - h) / (h' - h))); auto; cbn [fst snd].
    - split; [apply Rmult_le_pos; [lra|left; apply Rinv_0_lt_compat; lra]|]. apply (Rmult_le_reg_r (h' - h)); [lra|]. replace ((snd q - h) / (h' - h) * (h' - h)) with (snd q - h) by (field; lra). lra.
    - ring.
    - field. lra. }
  intros N W W'. destruct (Rltb h (snd q)) eqn:E, (Rltb h' (snd q)) eqn:E'; auto; exfalso; apply N.
  - apply Rltb_true in E. apply Rltb_false in E'. apply (K h h'); auto.
  - apply Rltb_true in E'. apply Rltb_false in E. apply (K h' h); auto.
Qed.
Lemma rtriangle d a b q x y z : ~ rwithin d a b q -> rwithin d a b x -> rwithin d a b y -> rwithin d a b z ->
  (rwind q (x, y) + rwind q (y, z) = rwind q (x, z))%Z.
Proof.
  intros N Wx Wy Wz. unfold rwind. cbn [fst snd].
  assert (K : forall p r p' r', rwithin d a b p -> rwithin d a b r -> rwithin d a b p' -> rwithin d a b r' ->
    rleft q p <> rleft q r -> rleft q p' <> rleft q r' -> Rltb (rheight q p r) (snd q) = Rltb (rheight q p' r') (snd q)).
  { intros p r p' r' W1 W2 W3 W4 N1 N2. apply (rconvex_above d a b); auto; apply rheight_within; auto. }
  destruct (rleft q x) eqn:A, (rleft q y) eqn:B, (rleft q z) eqn:D; cbn [bz]; try lia;
    first [ rewrite (K x z y z) by (congruence || auto); lia | rewrite (K y z x y) by (congruence || auto); lia | rewrite (K x z x y) by (congruence || auto); lia ].
Qed.
(** moving the ends of an edge *)
Lemma rquad d q a b a' b' : rclose d a' a -> rclose d b' b -> ~ rwithin d a b q -> 0 <= d ->
  rwind q (a', b') = (rwind q (a, b) + rwind q (a', a) - rwind q (b', b))%Z.
Proof.
  intros A B N D.
  pose proof (rtriangle d a b q a' a b N (rwithin_a _ _ _ _ A) (rwithin_a _ _ _ _ (rclose_refl d a D)) (rwithin_b _ _ _ _ (rclose_refl d b D))).
  pose proof (rtriangle d a b q a' b' b N (rwithin_a _ _ _ _ A) (rwithin_b _ _ _ _ B) (rwithin_b _ _ _ _ (rclose_refl d b D))). lia.
Qed.
(** translation and scale *)
Definition rplace (s : R) (o p : rpt) : rpt := (s * (fst p - fst o), s * (snd p - snd o)).
Lemma rwind_place s o q a b : 0 < s -> rwind (rplace s o q) (rplace s o a, rplace s o b) = rwind q (a, b).
Proof.
  intro S. unfold rwind. cbn [fst snd].
  assert (L : forall p, rleft (rplace s o q) (rplace s o p) = rleft q p).
  { intro p. unfold rleft, rplace. cbn [fst]. destruct (Rleb (s * (fst p - fst o)) (s * (fst q - fst o))) eqn:E, (Rleb (fst p) (fst q)) eqn:F; auto.
    - apply Rleb_true in E. apply Rleb_false in F. nra.
    - apply Rleb_false in E. apply Rleb_true in F. nra. }
  rewrite !L. assert (K : rleft q a <> rleft q b -> Rltb (rheight (rplace s o q) (rplace s o a) (rplace s o b)) (snd (rplace s o q)) = Rltb (rheight q a b) (snd q)).
  { intro N'. assert (N : fst a <> fst b) by (destruct (rleft_cases q a) as [[? ?]|[? ?]], (rleft_cases q b) as [[? ?]|[? ?]]; try congruence; lra).
    assert (H : rheight (rplace s o q) (rplace s o a) (rplace s o b) = s * (rheight q a b - snd o)).
    { unfold rheight, rplace. cbn [fst snd]. field. split; [lra|]. replace (s * (fst b - fst o) - s * (fst a - fst o)) with (s * (fst b - fst a)) by ring. apply Rmult_integral_contrapositive_currified; lra. }
    rewrite H. unfold rplace. cbn [snd]. destruct (Rltb (s * (rheight q a b - snd o)) (s * (snd q - snd o))) eqn:E, (Rltb (rheight q a b) (snd q)) eqn:F; auto.
    - apply Rltb_true in E. apply Rltb_false in F. nra.
    - apply Rltb_false in E. apply Rltb_true in F. nra. }
  destruct (rleft q a) eqn:A, (rleft q b) eqn:B; cbn [bz]; try reflexivity; rewrite K by congruence; reflexivity.
Qed.
(** the integer plane *)
Definition rz (p : pt) : rpt := (IZR (px p), IZR (py p)).
Definition rq (q : qpt) : rpt := (Q2R (fst q), Q2R (snd q)).
Lemma Q2R_z z : Q2R (inject_Z z) = IZR z.
Proof. unfold Q2R, inject_Z. cbn [Qnum Qden]. field. Qed.
Lemma Qltb_real x y : Qltb x y = Rltb (Q2R x) (Q2R y).
Proof.
  destruct (Rltb (Q2R x) (Q2R y)) eqn:E.
  - apply Rltb_true in E. apply Rlt_Qlt in E. apply Qltb_lt. auto.
  - apply Rltb_false in E. apply Rle_Qle in E. unfold Qltb. apply Bool.negb_false_iff. apply Qle_bool_iff. auto.
Qed.
Lemma lef_real q p : lef q p = rleft (rq q) (rz p).
Proof.
  unfold lef, rleft, rq, rz. cbn [fst]. unfold qx. rewrite <- Q2R_z. destruct (Rleb _ _) eqn:E.
  - apply Rleb_true in E. apply Rle_Qle in E. apply Qle_bool_iff. auto.
  - apply Rleb_false in E. destruct (Qle_bool _ _) eqn:F; auto. apply Qle_bool_iff, Qle_Rle in F. lra.
Qed.
Lemma edge_wind_real q a b : edge_wind q (a, b) = rwind (rq q) (rz a, rz b).
Proof.
  rewrite edge_wind_lef. unfold rwind. cbn [fst snd]. rewrite !lef_real. destruct (rleft (rq q) (rz a)) eqn:A, (rleft (rq q) (rz b)) eqn:B; cbn [bz]; try reflexivity;
  (rewrite Qltb_real; f_equal; f_equal; f_equal; unfold hgt, height, rheight, rz, rq; cbn [fst snd sa sb];
   assert (N : px a <> px b) by (intro E; unfold rleft, rz in A, B; cbn [fst] in A, B; rewrite E in A; congruence);
   assert (N' : ~ (qx b - qx a == 0)%Q) by (unfold qx; intro E; apply N; unfold Qeq, Qminus, Qplus, Qopp, inject_Z in E; simpl in E; lia);
   rewrite Q2R_plus, Q2R_mult, Q2R_div, !Q2R_minus by exact N'; unfold qx, qy; rewrite !Q2R_z; reflexivity).
Qed.
Lemma Qabs_real x : Q2R (Qabs x) = Rabs (Q2R x).
Proof.
  apply Qabs_case; intro H; apply Qle_Rle in H; change (Q2R 0) with (Q2R 0) in H; rewrite q_0 in H; [rewrite Rabs_pos_eq; auto|]. rewrite Q2R_opp. rewrite Rabs_left1; auto.
Qed.
