(** * Joins and caps in exact arithmetic *)
From Verif Require Import Base Spec ModelSegm SegmProofs ModelMesh MeshProofs MeshStrip ModelRect.
From Coq Require Import Reals Lra Psatz Qreals.
From Verif Require Import RealMesh.
Open Scope R_scope.

Definition normal_of (d : R * R) : R * R := (- snd d, fst d).
Definition off (p d : R * R) (r : R) : R * R := (fst p + fst d * r, snd p + snd d * r).
Definition dot (u v : R * R) : R := fst u * fst v + snd u * snd v.
Definition cross (u v : R * R) : R := fst u * snd v - snd u * fst v.
Definition neg (u : R * R) : R * R := (- fst u, - snd u).
Lemma section_real r a b : section_new RF r a b = SC RF a b (off a (normal_of (dir a b)) r) (off b (normal_of (dir a b)) r)
  (off a (neg (normal_of (dir a b))) r) (off b (neg (normal_of (dir a b))) r) (dir a b).
Proof.
  unfold section_new, normal, ortho_and_scale, off, normal_of, neg. cbn [RF p_add p_sub p_scale p_norm f_xy f_x f_y n_neg fst snd]. fold (dir a b).
  f_equal; f_equal; ring.
Qed.
Lemma osection_real r a b : osection_new RF r a b = OS RF b (off a (normal_of (dir a b)) r) (off b (normal_of (dir a b)) r) (dir a b).
Proof. reflexivity. Qed.
Lemma unit_normal d : unit d -> unit (normal_of d).
Proof. unfold unit, normal_of. cbn [fst snd]. lra. Qed.
Lemma unit_neg d : unit d -> unit (neg d).
Proof. unfold unit, neg. cbn [fst snd]. lra. Qed.
Lemma dist_off p d r : unit d -> dist (off p d r) p = Rabs r.
Proof.
  intro U. apply dist_eq; [apply Rabs_pos|]. unfold dist2, off. cbn [fst snd]. unfold unit in U.
  replace (Rabs r * Rabs r) with (r * r) by (rewrite <- Rabs_mult; symmetry; apply Rabs_pos_eq; nra). nra.
Qed.
Lemma dist_sym p q : dist p q = dist q p.
Proof. unfold dist, dist2. f_equal. ring. Qed.

(** the ends of a segment *)
Definition ends (s : segment cntO) (e : pt) : Prop := e = sa (sx s) \/ e = sb (sx s).
Lemma ends_bold a b e : ends (bold_ab a b) e -> e = a \/ e = b.
Proof. unfold ends, bold_ab. destruct (pt_ltb a b); cbn; tauto. Qed.
Lemma ends_weak a b e : ends (weak_ab a b) e -> e = a \/ e = b.
Proof. unfold ends, weak_ab. destruct (pt_ltb a b); cbn; tauto. Qed.

(** ** Rotations *)
Definition rotv (th : R) (v : R * R) : R * R := (cos th * fst v - sin th * snd v, sin th * fst v + cos th * snd v).
Lemma rotate_real th v : rotate RF (rot_angle RF th) v = rotv th v.
Proof. unfold rotate, rot_angle, rot_new, rotv. cbn [RF r_ax r_ay r_bx r_by n_add n_mul n_neg f_x f_y f_xy from_f64 d_cos d_sin]. f_equal; ring. Qed.
Lemma rotv_add a b v : rotv a (rotv b v) = rotv (a + b) v.
Proof. unfold rotv. cbn [fst snd]. rewrite cos_plus, sin_plus. f_equal; ring. Qed.
Lemma rotv_0 v : rotv 0 v = v.
Proof. unfold rotv. rewrite cos_0, sin_0. destruct v. cbn [fst snd]. f_equal; ring. Qed.
Lemma sc1 th : cos th * cos th + sin th * sin th = 1.
Proof. pose proof (sin2_cos2 th) as H. unfold Rsqr in H. lra. Qed.
Lemma rotv_unit th v : unit v -> unit (rotv th v).
Proof.
  unfold unit, rotv. cbn [fst snd]. intro U. pose proof (sc1 th) as H.
  replace ((cos th * fst v - sin th * snd v) * (cos th * fst v - sin th * snd v) + (sin th * fst v + cos th * snd v) * (sin th * fst v + cos th * snd v))
    with ((cos th * cos th + sin th * sin th) * (fst v * fst v + snd v * snd v)) by ring. rewrite H, U. ring.
Qed.
Lemma rotv_dot th v : unit v -> dot v (rotv th v) = cos th.
Proof.
  unfold unit, dot, rotv. cbn [fst snd]. intro U.
  replace (fst v * (cos th * fst v - sin th * snd v) + snd v * (sin th * fst v + cos th * snd v)) with (cos th * (fst v * fst v + snd v * snd v)) by ring. rewrite U. ring.
Qed.
Lemma rotv_normal th d : rotv th (normal_of d) = normal_of (rotv th d).
Proof. unfold rotv, normal_of. cbn [fst snd]. f_equal; ring. Qed.
Lemma rotv_neg th d : rotv th (neg d) = neg (rotv th d).
Proof. unfold rotv, neg. cbn [fst snd]. f_equal; ring. Qed.

(** ** The arc of a round join *)
Lemma arc_steps to_int emit th center r last s : forall k v,
  In s (arc_loop RF to_int emit (rot_angle RF th) center r k v (to_int (off center v r)) last) ->
  (exists i, (i < k)%nat /\ s = emit (to_int (off center (rotv (INR i * th) v) r)) (to_int (off center (rotv (INR (S i) * th) v) r))) \/
  s = emit (to_int (off center (rotv (INR k * th) v) r)) last.
Proof.
  induction k as [|k IH]; intros v H; cbn [arc_loop] in H.
  - destruct (pt_eqb _ _); [destruct H|]. destruct H as [<-|[]]. right. rewrite Rmult_0_l, rotv_0. reflexivity.
  - cbv zeta in H. rewrite rotate_real in H. change (p_add RF center (p_scale RF (rotv th v) r)) with (off center (rotv th v) r) in H.
    assert (G : In s (arc_loop RF to_int emit (rot_angle RF th) center r k (rotv th v) (to_int (off center (rotv th v) r)) last) ->
      (exists i, (i < S k)%nat /\ s = emit (to_int (off center (rotv (INR i * th) v) r)) (to_int (off center (rotv (INR (S i) * th) v) r))) \/
      s = emit (to_int (off center (rotv (INR (S k) * th) v) r)) last).
    { intro G. assert (T : forall i, rotv (INR i * th) (rotv th v) = rotv (INR (S i) * th) v) by (intro i; rewrite rotv_add, S_INR; f_equal; ring).
      destruct (IH _ G) as [(i & L & ->)| ->]; rewrite ?T.
      - left. exists (S i). split; [lia|]. reflexivity.
      - right. reflexivity. }
    destruct (pt_eqb _ _) eqn:E.
    + apply pt_eqb_eq in E. rewrite E in H. auto.
    + destruct H as [<-|H]; auto. left. exists 0%nat. split; [lia|]. rewrite Rmult_0_l, rotv_0. simpl (INR 1). rewrite Rmult_1_l. reflexivity.
Qed.

(** ** Chords of a circle *)
(** [p], [p'] on the circle of radius [r] around [y], and everything between them at least [r * cos a] away from [y] *)
Definition hugs (y : R * R) (r a : R) (p p' : R * R) : Prop :=
  dist p y = r /\ dist p' y = r /\
  forall t, 0 <= t <= 1 -> r * cos a <= dist (fst p + t * (fst p' - fst p), snd p + t * (snd p' - snd p)) y <= r.
Lemma hugs_intro y r a v v' : unit v -> unit v' -> 0 <= a <= PI / 2 -> cos (2 * a) <= dot v v' -> hugs y (Rabs r) a (off y v r) (off y v' r).
Proof.
  intros U U' A D. split; [apply dist_off; auto|]. split; [apply dist_off; auto|]. intros t T.
  assert (Ca : 0 <= cos a) by (apply cos_ge_0; lra).
  assert (R2 : Rabs r * Rabs r = r * r) by (rewrite <- Rabs_mult; apply Rabs_pos_eq; nra).
  assert (E : dist2 (fst (off y v r) + t * (fst (off y v' r) - fst (off y v r)), snd (off y v r) + t * (snd (off y v' r) - snd (off y v r))) y = r * r * (1 - 2 * (t * (1 - t)) * (1 - dot v v'))).
  { unfold dist2, off. cbn [fst snd].
    replace ((fst y + fst v * r + t * (fst y + fst v' * r - (fst y + fst v * r)) - fst y) * (fst y + fst v * r + t * (fst y + fst v' * r - (fst y + fst v * r)) - fst y) +
      (snd y + snd v * r + t * (snd y + snd v' * r - (snd y + snd v * r)) - snd y) * (snd y + snd v * r + t * (snd y + snd v' * r - (snd y + snd v * r)) - snd y))
      with (r * r * ((1 - t) * (1 - t) * (fst v * fst v + snd v * snd v) + t * t * (fst v' * fst v' + snd v' * snd v') + 2 * (t * (1 - t)) * dot v v')) by (unfold dot; ring).
    rewrite U, U'. ring. }
  assert (Q : 0 <= t * (1 - t) <= / 4) by (split; [nra|]; pose proof (Rle_0_sqr (t - / 2)) as H; unfold Rsqr in H; lra).
  assert (D1 : dot v v' <= 1). { unfold dot, unit in *. pose proof (Rle_0_sqr (fst v - fst v')) as H1. pose proof (Rle_0_sqr (snd v - snd v')) as H2. unfold Rsqr in *. lra. }
  assert (R0 : 0 <= r * r) by nra. pose proof (Rabs_pos r) as Rp.
  split.
  - unfold dist. rewrite E. rewrite <- (sqrt_square (Rabs r * cos a)) by (apply Rmult_le_pos; auto). apply sqrt_le_1_alt.
    replace (Rabs r * cos a * (Rabs r * cos a)) with (Rabs r * Rabs r * (cos a * cos a)) by ring. rewrite R2. apply Rmult_le_compat_l; auto.
    rewrite cos_2a_cos in D. assert (2 * (t * (1 - t)) * (1 - dot v v') <= / 2 * (1 - dot v v')) by (apply Rmult_le_compat_r; lra). lra.
  - apply dist_le; auto. rewrite E, R2. assert (0 <= 2 * (t * (1 - t)) * (1 - dot v v')) by (apply Rmult_le_pos; lra). nra.
Qed.
Lemma hugs_sym y r a p p' : hugs y r a p p' -> hugs y r a p' p.
Proof.
  intros (A & B & D). split; auto. split; auto. intros t T. specialize (D (1 - t) ltac:(lra)).
  replace (fst p' + t * (fst p - fst p'), snd p' + t * (snd p - snd p')) with (fst p + (1 - t) * (fst p' - fst p), snd p + (1 - t) * (snd p' - snd p)) by (f_equal; ring). exact D.
Qed.
(** the angle between two unit vectors *)
Lemma dot_range u v : unit u -> unit v -> -1 <= dot u v <= 1.
Proof.
  unfold dot, unit. intros U V. pose proof (Rle_0_sqr (fst u - fst v)) as H1. pose proof (Rle_0_sqr (snd u - snd v)) as H2.
  pose proof (Rle_0_sqr (fst u + fst v)) as H3. pose proof (Rle_0_sqr (snd u + snd v)) as H4. unfold Rsqr in *. lra.
Qed.
Lemma lagrange u v : unit u -> unit v -> cross u v * cross u v = 1 - dot u v * dot u v.
Proof.
  unfold unit, cross, dot. intros U V.
  replace ((fst u * snd v - snd u * fst v) * (fst u * snd v - snd u * fst v)) with
    ((fst u * fst u + snd u * snd u) * (fst v * fst v + snd v * snd v) - (fst u * fst v + snd u * snd v) * (fst u * fst v + snd u * snd v)) by ring.
  rewrite U, V. ring.
Qed.
Lemma sin_angle u v : unit u -> unit v -> sin (acos (dot u v)) = Rabs (cross u v).
Proof.
  intros U V. rewrite sin_acos by (apply dot_range; auto). unfold Rsqr. rewrite <- lagrange by auto. rewrite <- (sqrt_Rsqr_abs (cross u v)). reflexivity.
Qed.
(** turning one direction of a corner by the angle of the corner gives the other *)
Lemma rotv_left u v : unit u -> unit v -> 0 <= cross u v -> rotv (- acos (dot u v)) v = u.
Proof.
  intros U V C. unfold rotv. rewrite cos_neg, sin_neg, cos_acos, sin_angle, (Rabs_pos_eq (cross u v)) by (auto using dot_range).
  unfold dot, cross, unit in *. destruct u as [a b], v as [c d]. cbn [fst snd] in *. f_equal.
  - replace ((a * c + b * d) * c - - (a * d - b * c) * d) with (a * (c * c + d * d)) by ring. rewrite V. ring.
  - replace (- (a * d - b * c) * c + (a * c + b * d) * d) with (b * (c * c + d * d)) by ring. rewrite V. ring.
Qed.
Lemma rotv_right u v : unit u -> unit v -> cross u v <= 0 -> rotv (- acos (dot u v)) u = v.
Proof.
  intros U V C. unfold rotv. rewrite cos_neg, sin_neg, cos_acos, sin_angle, (Rabs_left1 (cross u v)) by (auto using dot_range).
  unfold dot, cross, unit in *. destruct u as [a b], v as [c d]. cbn [fst snd] in *. f_equal.
  - replace ((a * c + b * d) * a - - - (a * d - b * c) * b) with (c * (a * a + b * b)) by ring. rewrite U. ring.
  - replace (- - (a * d - b * c) * a + (a * c + b * d) * b) with (d * (a * a + b * b)) by ring. rewrite U. ring.
Qed.
Lemma rotv_left' u v : unit u -> unit v -> 0 <= cross u v -> rotv (acos (dot u v)) u = v.
Proof.
  intros U V C. rewrite <- (rotv_left u v U V C) at 2. rewrite rotv_add. replace (acos (dot u v) + - acos (dot u v)) with 0 by ring. apply rotv_0.
Qed.
(** the number of steps of an arc *)
Lemma steps_of x : 1 <= x -> let n := IZR (Int_part (x + / 2)) in exists k, Z.to_nat (Int_part n) = S k /\ INR (S k) = n /\ x <= 3 / 2 * n.
Proof.
  intros H n. unfold n. rewrite Int_part_IZR. destruct (base_Int_part (x + / 2)) as [L G]. set (z := Int_part (x + / 2)) in *.
  assert (P : (1 <= z)%Z). { assert (IZR 0 < IZR z) by (simpl; lra). apply lt_IZR in H0. lia. }
  exists (Z.to_nat (z - 1)). assert (E : S (Z.to_nat (z - 1)) = Z.to_nat z) by lia. split; [auto|]. rewrite E. split; [apply IZR_to_nat; lia|].
  apply IZR_le in P. simpl in P. destruct (Z.eq_dec z 1) as [->|N]; [simpl in *; lra|]. assert (P2 : (2 <= z)%Z) by (unfold z in *; apply le_IZR in P; lia). apply IZR_le in P2. simpl in P2. lra.
Qed.

(** ** Angles of a style: [style.rs] clamps them *)
Definition round_angle (a : R) : R := Rmax (PI / 100) (Rmin a (PI / 4)).
Definition miter_angle (a : R) : R := Rmax (PI / 100) (Rmin a (99 / 100 * PI)).
Lemma round_range a : 0 < round_angle a <= PI / 4.
Proof. pose proof PI_RGT_0. unfold round_angle. pose proof (Rmax_l (PI / 100) (Rmin a (PI / 4))). split; [lra|]. apply Rmax_lub; [lra|]. apply Rmin_r. Qed.
Lemma miter_range a : PI / 100 <= miter_angle a <= 99 / 100 * PI.
Proof. pose proof PI_RGT_0. unfold miter_angle. split; [apply Rmax_l|]. apply Rmax_lub; [lra|]. apply Rmin_r. Qed.
Lemma q_1_100 : Q2R (1 # 100) = / 100. Proof. unfold Q2R. simpl. lra. Qed.
Lemma q_25_100 : Q2R (25 # 100) = / 4. Proof. unfold Q2R. simpl. lra. Qed.
Lemma q_99_100 : Q2R (99 # 100) = 99 / 100. Proof. unfold Q2R. simpl. lra. Qed.
Lemma q_1_4 : Q2R (1 # 4) = / 4. Proof. unfold Q2R. simpl. lra. Qed.
Lemma q_1_2 : Q2R (1 # 2) = / 2. Proof. unfold Q2R. simpl. lra. Qed.
Lemma q_11_10 : Q2R (11 # 10) = 11 / 10. Proof. unfold Q2R. simpl. lra. Qed.
Lemma q_0 : Q2R 0 = 0. Proof. unfold Q2R. simpl. lra. Qed.
Lemma q_1 : Q2R 1 = 1. Proof. unfold Q2R. simpl. lra. Qed.
Lemma q_m1 : Q2R (-1) = -1. Proof. unfold Q2R. simpl. lra. Qed.
Lemma normalize_real j : join_normalize RF j = match j with MiterJoin _ a => MiterJoin RF (miter_angle a) | RoundJoin _ a => RoundJoin RF (round_angle a) | Bevel _ => Bevel RF end.
Proof.
  destruct j as [|a|a]; [reflexivity| |]; unfold join_normalize, clamp_pi; cbn [RF from_f64 to_f64 d_clamp d_mul d_lit d_pi]; rewrite q_1_100, ?q_99_100, ?q_25_100; unfold miter_angle, round_angle; do 2 f_equal; try lra; f_equal; lra.
Qed.
Lemma fixed_ratio_real a : fixed_ratio RF (round_angle a) = round_angle a.
Proof.
  unfold fixed_ratio. cbn [RF to_f64 d_min d_mul d_lit d_pi]. rewrite q_1_4. apply Rmin_left. pose proof (round_range a). lra.
Qed.

(** ** Round joins *)
Lemma cos_le a b : 0 <= a -> a <= b -> b <= PI -> cos b <= cos a.
Proof. intros A B D. destruct (Req_dec a b) as [->|N]; [lra|]. left. apply cos_decreasing_1; lra. Qed.
Lemma dot_normal u v : dot (normal_of u) (normal_of v) = dot u v.
Proof. unfold dot, normal_of. cbn [fst snd]. ring. Qed.
Lemma dot_neg u v : dot (neg u) (neg v) = dot u v.
Proof. unfold dot, neg. cbn [fst snd]. ring. Qed.
Lemma dot_comm u v : dot u v = dot v u.
Proof. unfold dot. ring. Qed.
Lemma angle_ge c ra : -1 <= c <= 1 -> 0 <= ra <= PI -> c <= cos ra -> ra <= acos c.
Proof.
  intros B A H. destruct (Rle_dec ra (acos c)) as [|N]; auto. exfalso. assert (L : acos c < ra) by lra. pose proof (acos_bound c).
  apply cos_decreasing_1 in L; try lra. rewrite cos_acos in L by auto. lra.
Qed.
Lemma arc_hugs to_int emit center r ang ra th v w s :
  let n := d_round RF (ang * (1 / ra)) in
  unit v -> 0 < ra <= PI / 4 -> ra <= ang <= PI -> Rabs th = ang / n -> rotv (n * th) v = w ->
  In s (arc_loop RF to_int emit (rot_angle RF th) center r (d_usize RF n - 1) v (to_int (off center v r)) (to_int (off center w r))) ->
  exists p p', hugs center (Rabs r) (3 / 4 * ra) p p' /\ s = emit (to_int p) (to_int p').
Proof.
  intros n U A B T W H. pose proof PI_RGT_0 as Pi.
  destruct (steps_of (ang * (1 / ra))) as (k & K & I & L).
  { replace 1 with (ra * (1 / ra)) at 1 by (field; lra). apply Rmult_le_compat_r; [|lra]. left. apply Rdiv_lt_0_compat; lra. }
  change (Z.to_nat (Int_part (IZR (Int_part (ang * (1 / ra) + / 2))))) with (d_usize RF n) in K. change (IZR (Int_part (ang * (1 / ra) + / 2))) with n in I, L.
  rewrite K in H. cbn [Nat.sub] in H. rewrite Nat.sub_0_r in H.
  assert (Pn : 1 <= n) by (rewrite <- I, S_INR; pose proof (pos_INR k); lra).
  assert (D : Rabs th <= 3 / 2 * ra).
  { rewrite T. apply (Rmult_le_reg_r n); [lra|]. replace (ang / n * n) with ang by (field; lra).
    assert (ang = ang * (1 / ra) * ra) by (field; lra). rewrite H0. replace (3 / 2 * ra * n) with (3 / 2 * n * ra) by ring. apply Rmult_le_compat_r; lra. }
  assert (C : cos (2 * (3 / 4 * ra)) <= cos th).
  { replace (cos th) with (cos (Rabs th)) by (unfold Rabs; destruct (Rcase_abs th); auto; apply cos_neg). apply cos_le; [apply Rabs_pos|lra|lra]. }
  assert (Hug : forall i, hugs center (Rabs r) (3 / 4 * ra) (off center (rotv (INR i * th) v) r) (off center (rotv (INR (S i) * th) v) r)).
  { intro i. assert (E : rotv (INR (S i) * th) v = rotv th (rotv (INR i * th) v)) by (rewrite rotv_add, S_INR; f_equal; ring). rewrite E.
    pose proof (rotv_unit (INR i * th) v U) as Ui. apply hugs_intro; auto using rotv_unit; [lra|]. rewrite rotv_dot by auto. exact C. }
  apply arc_steps in H as [(i & _ & ->)| ->].
  - eexists _, _. split; [apply Hug|reflexivity].
  - rewrite <- W, <- I. eexists _, _. split; [apply (Hug k)|reflexivity].
Qed.

Section Corner.
  Variables (to_int : R * R -> pt) (x y z : R * R) (r : R).
  Hypothesis Nxy : x <> y.
  Hypothesis Nyz : y <> z.
  Let u := dir x y.
  Let v := dir y z.
  Let Uu : unit u := dir_unit x y Nxy.
  Let Uv : unit v := dir_unit y z Nyz.

  Lemma sround_drawn a s : In s (stroke_join RF to_int r (RoundJoin RF (round_angle a)) (section_new RF r x y) (section_new RF r y z)) ->
    (exists p p', hugs y (Rabs r) (3 / 4 * round_angle a) p p' /\ s = bold_ab (to_int p) (to_int p')) \/
    (0 < cross u v /\ s = bold_ab (to_int (off y (normal_of v) r)) (to_int (off y (normal_of u) r))) \/
    (cross u v <= 0 /\ s = bold_ab (to_int (off y (neg (normal_of u)) r)) (to_int (off y (neg (normal_of v)) r))).
  Proof.
    rewrite !section_real. fold u v. cbn [stroke_join]. unfold sround_join, sround_new. rewrite fixed_ratio_real. set (ra := round_angle a).
    pose proof (round_range a) as A. fold ra in A. pose proof PI_RGT_0 as Pi.
    cbv zeta. cbn [sr_limit sr_radius sr_inv s_dir s_b s_abot s_bbot s_atop s_btop]. unfold join_top, join_bot, add_segment. cbn [s_btop s_atop s_abot s_bbot]. cbv zeta.
    change (p_dot RF u v) with (dot u v). change (p_cross RF u v) with (cross u v). unfold lit. cbn [RF n_lt to_f64 from_f64 d_cos d_acos d_mul d_div d_lit d_neg f_xy f_x f_y n_neg fst snd]. rewrite q_0, q_1.
    pose proof (dot_range u v Uu Uv) as Dr.
    destruct (Rltb (cos ra) (dot u v)) eqn:Lim.
    - apply Rltb_true in Lim. intro H. left. assert (C : cos (2 * (3 / 4 * ra)) <= dot u v) by (pose proof (cos_le ra (2 * (3 / 4 * ra)) ltac:(lra) ltac:(lra) ltac:(lra)); lra).
      apply in_app_or in H as [H|H]; (destruct (pt_eqb _ _); [destruct H|]); destruct H as [<-|[]]; eexists _, _; (split; [|reflexivity]); apply hugs_intro; auto using unit_normal, unit_neg; try lra.
      + rewrite dot_normal, dot_comm. auto.
      + rewrite dot_neg, dot_normal. auto.
    - apply Rltb_false in Lim. intro H. pose proof (angle_ge (dot u v) ra Dr ltac:(lra) Lim) as Ga. pose proof (acos_bound (dot u v)) as Ba.
      set (n := d_round RF (acos (dot u v) * (1 / ra))) in *.
      assert (Pn : 0 < n).
      { destruct (steps_of (acos (dot u v) * (1 / ra))) as (k & _ & I & L).
        - replace 1 with (ra * (1 / ra)) at 1 by (field; lra). apply Rmult_le_compat_r; [|lra]. left. apply Rdiv_lt_0_compat; lra.
        - change (IZR (Int_part (acos (dot u v) * (1 / ra) + / 2))) with n in I. rewrite <- I, S_INR. pose proof (pos_INR k). lra. }
      assert (Th : Rabs (- (acos (dot u v) / n)) = acos (dot u v) / n).
      { rewrite Rabs_Ropp. apply Rabs_pos_eq. apply Rmult_le_pos; [lra|]. left. apply Rinv_0_lt_compat; auto. }
      assert (Tn : n * - (acos (dot u v) / n) = - acos (dot u v)) by (field; lra).
      destruct (Rltb 0 (cross u v)) eqn:Tu; [apply Rltb_true in Tu|apply Rltb_false in Tu]; apply in_app_or in H as [H|H].
      + (destruct (pt_eqb _ _); [destruct H|]); destruct H as [<-|[]]. right. left. auto.
      + left. replace (snd v, - fst v) with (neg (normal_of v)) in H by (unfold neg, normal_of; cbn [fst snd]; f_equal; ring).
        apply (arc_hugs to_int _ y r (acos (dot u v)) ra _ (neg (normal_of v)) (neg (normal_of u))) in H; auto using unit_normal, unit_neg; [|lra|].
        * destruct H as (p & p' & Hg & ->). exists p', p. split; auto using hugs_sym.
        * fold n. rewrite Tn, rotv_neg, rotv_normal, (rotv_left u v) by (auto; lra). reflexivity.
      + (destruct (pt_eqb _ _); [destruct H|]); destruct H as [<-|[]]. right. right. auto.
      + left. change (- snd u, fst u) with (normal_of u) in H.
        apply (arc_hugs to_int _ y r (acos (dot u v)) ra _ (normal_of u) (normal_of v)) in H; auto using unit_normal; [|lra|].
        * destruct H as (p & p' & Hg & ->). exists p', p. split; auto using hugs_sym.
        * fold n. rewrite Tn, rotv_normal, (rotv_right u v) by (auto; lra). reflexivity.
  Qed.

  Lemma oround_drawn a s : In s (outline_join RF to_int r (RoundJoin RF (round_angle a)) (osection_new RF r x y) (osection_new RF r y z)) ->
    (exists p p', hugs y (Rabs r) (3 / 4 * round_angle a) p p' /\ travel s = (to_int p, to_int p')) \/
    ((0 <= r <-> 0 <= cross u v) /\ travel s = (to_int (off y (normal_of u) r), to_int (off y (normal_of v) r))).
  Proof.
    rewrite !osection_real. fold u v. cbn [outline_join]. unfold oround_join, oround_new. rewrite fixed_ratio_real. set (ra := round_angle a).
    pose proof (round_range a) as A. fold ra in A. pose proof PI_RGT_0 as Pi.
    cbv zeta. cbn [or_limit or_radius or_inv or_expand or_rot os_dir os_b os_btop os_atop]. unfold join_weak. cbn [os_btop os_atop]. cbv zeta.
    change (p_dot RF u v) with (dot u v). change (p_cross RF u v) with (cross u v). unfold lit. cbn [RF n_lt n_le to_f64 from_f64 d_cos d_acos d_mul d_div d_lit d_neg f_xy f_x f_y n_neg fst snd]. rewrite q_0, q_1.
    pose proof (dot_range u v Uu Uv) as Dr.
    destruct (Bool.eqb (Rleb 0 (cross u v)) (Rleb 0 r)) eqn:Turn.
    { apply Bool.eqb_prop in Turn. intro H. (destruct (pt_eqb _ _); [destruct H|]); destruct H as [<-|[]]. right. rewrite travel_weak. split; auto. unfold Rleb in Turn.
      destruct (Rle_dec 0 (cross u v)), (Rle_dec 0 r); try discriminate; tauto. }
    assert (Sg : (0 <= r /\ cross u v < 0) \/ (r < 0 /\ 0 <= cross u v)).
    { unfold Rleb in Turn. destruct (Rle_dec 0 (cross u v)), (Rle_dec 0 r); try discriminate; [right|left]; lra. }
    destruct (Rltb (cos ra) (dot u v)) eqn:Lim.
    - apply Rltb_true in Lim. intro H. left. assert (C : cos (2 * (3 / 4 * ra)) <= dot u v) by (pose proof (cos_le ra (2 * (3 / 4 * ra)) ltac:(lra) ltac:(lra) ltac:(lra)); lra).
      (destruct (pt_eqb _ _); [destruct H|]); destruct H as [<-|[]]. eexists _, _. rewrite travel_weak. split; [|reflexivity]. apply hugs_intro; auto using unit_normal; try lra. rewrite dot_normal. auto.
    - apply Rltb_false in Lim. intro H. left. pose proof (angle_ge (dot u v) ra Dr ltac:(lra) Lim) as Ga. pose proof (acos_bound (dot u v)) as Ba.
      set (n := d_round RF (acos (dot u v) * (1 / ra))) in *.
      assert (Pn : 0 < n).
      { destruct (steps_of (acos (dot u v) * (1 / ra))) as (k & _ & I & L).
        - replace 1 with (ra * (1 / ra)) at 1 by (field; lra). apply Rmult_le_compat_r; [|lra]. left. apply Rdiv_lt_0_compat; lra.
        - change (IZR (Int_part (acos (dot u v) * (1 / ra) + / 2))) with n in I. rewrite <- I, S_INR. pose proof (pos_INR k). lra. }
      assert (Th : Rabs (acos (dot u v) / n) = acos (dot u v) / n).
      { apply Rabs_pos_eq. apply Rmult_le_pos; [lra|]. left. apply Rinv_0_lt_compat; auto. }
      change (- snd u, fst u) with (normal_of u) in H.
      apply (arc_hugs to_int _ y r (acos (dot u v)) ra _ (normal_of u) (normal_of v)) in H; auto using unit_normal.
      + destruct H as (p & p' & Hg & ->). exists p, p'. rewrite travel_bold. auto.
      + lra.
      + fold n. rewrite Rabs_mult, Th. unfold Rleb. destruct (Rle_dec 0 r); [rewrite q_m1|rewrite q_1]; rewrite ?Rabs_R1, ?Rabs_Ropp; try (replace (-1) with (- (1)) by ring; rewrite Rabs_Ropp, Rabs_R1); ring.
      + fold n. rewrite rotv_normal. f_equal. destruct Sg as [[S1 S2]|[S1 S2]]; unfold Rleb; destruct (Rle_dec 0 r); try lra.
        * rewrite q_m1. replace (n * (-1 * (acos (dot u v) / n))) with (- acos (dot u v)) by (field; lra). apply rotv_right; auto; lra.
        * rewrite q_1. replace (n * (1 * (acos (dot u v) / n))) with (acos (dot u v)) by (field; lra). apply rotv_left'; auto.
  Qed.
End Corner.
