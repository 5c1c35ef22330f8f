(** * Strokes with round joins and round caps: the points within half the width of the path. *)
From Verif Require Import Base Spec QLib ModelSegm SegmProofs SplitNear ModelMesh MeshProofs MeshStrip.
From Coq Require Import Reals Lra Psatz Qreals.
From Verif Require Import RealMesh RealJoin RealReach RealMiter RealWind RealMove RealCorner RealStroke RealPieces RealCount RealCover RealPath.
Open Scope R_scope.

(** ** A triangle of a round fan *)
Lemma cauchy (a b : rpt) k l : 0 <= k -> 0 <= l -> fst a * fst a + snd a * snd a <= k * k -> fst b * fst b + snd b * snd b <= l * l -> cross a b <= k * l.
Proof.
  intros K L A B. unfold cross. destruct a as [a1 a2], b as [b1 b2]. cbn [fst snd] in *.
  assert (X : (a1 * b2 - a2 * b1) * (a1 * b2 - a2 * b1) <= (k * l) * (k * l)).
  { apply Rle_trans with ((a1 * a1 + a2 * a2) * (b1 * b1 + b2 * b2)).
    - assert (0 <= (a1 * b1 + a2 * b2) * (a1 * b1 + a2 * b2)) by apply Rle_0_sqr. replace ((a1 * a1 + a2 * a2) * (b1 * b1 + b2 * b2)) with ((a1 * b2 - a2 * b1) * (a1 * b2 - a2 * b1) + (a1 * b1 + a2 * b2) * (a1 * b1 + a2 * b2)) by ring. lra.
    - replace (k * l * (k * l)) with ((k * k) * (l * l)) by ring. apply Rmult_le_compat; auto; apply Rplus_le_le_0_compat; apply Rle_0_sqr. }
  apply Rnot_lt_le. intro C. assert (0 <= k * l) by (apply Rmult_le_pos; auto). assert ((k * l) * (k * l) < (a1 * b2 - a2 * b1) * (a1 * b2 - a2 * b1)); [|lra]. apply Rmult_le_0_lt_compat; auto.
Qed.
Lemma chord_tri y r th w w' v : 0 < r -> 0 < th < PI -> unit w -> w' = rotv th w -> 0 <= cross w v -> cross w' v <= 0 ->
  fst v * fst v + snd v * snd v <= (r * cos (th / 2)) * (r * cos (th / 2)) -> in_tri (off y v 1) y (off y w r) (off y w' r).
Proof.
  intros Pr [T1 T2] U Ew C1 C2 L.
  assert (Cw : cross w w' = sin th). { rewrite Ew. unfold cross, rotv. cbn [fst snd]. unfold unit in U. transitivity (sin th * (fst w * fst w + snd w * snd w)); [ring|rewrite U; ring]. }
  assert (Uw' : unit w') by (rewrite Ew; apply rotv_unit; auto).
  assert (Sh : 0 < sin (th / 2)) by (apply sin_gt_0; lra). assert (Ch : 0 < cos (th / 2)) by (apply cos_gt_0; lra). assert (Es : sin th = 2 * sin (th / 2) * cos (th / 2)) by (rewrite <- sin_2a; f_equal; lra).
  assert (Ps : 0 < sin th) by (apply sin_gt_0; lra). assert (Prr : 0 < r * r) by (apply Rmult_lt_0_compat; auto).
  split; [rewrite turn3_off, Cw; apply Rmult_lt_0_compat; auto|]. split; [|split].
  - rewrite turn3_off. rewrite Rmult_1_r. apply Rmult_le_pos; lra.
  - replace (turn3 (off y w r) (off y w' r) (off y v 1)) with (r * (r * cross w w' - cross (fst w - fst w', snd w - snd w') v)) by (unfold turn3, off, cross; cbn [fst snd]; ring).
    apply Rmult_le_pos; [lra|]. rewrite Cw, Es.
    assert (D : cross (fst w - fst w', snd w - snd w') v <= (2 * sin (th / 2)) * (r * cos (th / 2))).
    { apply cauchy; auto; [lra|apply Rmult_le_pos; lra|]. cbn [fst snd].
      assert (Dw : dot w w' = cos th) by (rewrite Ew; apply rotv_dot; auto). unfold dot in Dw. unfold unit in U, Uw'.
      assert (Ec : cos th = 1 - 2 * sin (th / 2) * sin (th / 2)) by (rewrite <- cos_2a_sin; f_equal; lra).
      right. transitivity ((fst w * fst w + snd w * snd w) + (fst w' * fst w' + snd w' * snd w') - 2 * (fst w * fst w' + snd w * snd w')); [ring|]. rewrite U, Uw', Dw, Ec. ring. }
    lra.
  - replace (turn3 (off y w' r) y (off y v 1)) with (r * - cross w' v) by (unfold turn3, off, cross; cbn [fst snd]; ring). apply Rmult_le_pos; lra.
Qed.
Lemma crossing (f : nat -> R) : forall n, f 0%nat <= 0 -> 0 <= f n -> n <> 0%nat -> exists i, (i < n)%nat /\ f i <= 0 /\ 0 <= f (S i).
Proof.
  induction n as [|n IH]; intros A B N; [congruence|]. destruct (Rle_dec (f n) 0) as [C|C].
  - exists n. split; [lia|auto].
  - destruct n as [|n]; [lra|]. destruct IH as (i & L & X); auto; [lra|]. exists i. split; [lia|auto].
Qed.
Lemma in_steps_seq {A} (P : nat -> A) : forall k i m, (m < k)%nat -> In (P (i + m)%nat, P (S (i + m))) (steps (map P (seq i (S k)))).
Proof.
  induction k as [|k IH]; intros i m L; [lia|]. cbn [seq map]. change (steps (P i :: P (S i) :: map P (seq (S (S i)) k))) with ((P i, P (S i)) :: steps (map P (seq (S i) (S k)))).
  destruct m as [|m]; [left; rewrite Nat.add_0_r; reflexivity|right]. replace (i + S m)%nat with (S i + m)%nat by lia. apply IH. lia.
Qed.
Lemma half_mono r th k h : 0 < r -> 0 <= th / 2 <= h -> h <= PI -> 0 <= k -> k <= r * cos h -> k <= r * cos (th / 2).
Proof. intros Pr [A B] C K L. apply Rle_trans with (r * cos h); auto. apply Rmult_le_compat_l; [lra|]. destruct (Req_dec (th / 2) h) as [->|N]; [lra|]. left. apply cos_decreasing_1; lra. Qed.

(** ** Joins *)
Lemma join_round to_int a r y u v w k : 0 < r -> unit u -> unit v -> cross u v <= 0 -> u <> v -> 0 <= dot u w -> dot v w <= 0 ->
  0 <= k -> fst w * fst w + snd w * snd w <= k * k -> k <= r * cos (3 / 4 * round_angle a) ->
  in_fan (off y w 1) y (off y (normal_of u) r :: mids to_int (RoundJoin RF a) r y u v ++ [off y (normal_of v) r]).
Proof.
  intros Pr Uu Uv C Nuv D1 D2 K Lw Lk. pose proof (round_range a) as Ra. pose proof PI_RGT_0 as Pi. pose proof (dot_range u v Uu Uv) as Dr. pose proof (acos_bound (dot u v)) as Ba.
  pose proof (rotv_right u v Uu Uv C) as Rr. set (th := acos (dot u v)) in *.
  assert (Th : 0 < th). { destruct (Req_dec th 0) as [Z|Z]; [|lra]. exfalso. apply Nuv. rewrite <- Rr, Z, Ropp_0, rotv_0. reflexivity. }
  assert (C1 : cross (normal_of u) w = - dot u w) by (unfold cross, normal_of, dot; cbn [fst snd]; ring). assert (C2 : cross (normal_of v) w = - dot v w) by (unfold cross, normal_of, dot; cbn [fst snd]; ring).
  assert (Sq : forall x, k <= x -> fst w * fst w + snd w * snd w <= x * x) by (intros x X; eapply Rle_trans; [exact Lw|]; apply Rmult_le_compat; auto).
  unfold mids. destruct (Rltb (cos (round_angle a)) (dot u v)) eqn:Lim.
  - apply Rltb_true in Lim. assert (Tl : th < round_angle a).
    { apply Rnot_le_lt. intro X. assert (dot u v <= cos (round_angle a)); [|lra]. replace (dot u v) with (cos th) by (unfold th; rewrite cos_acos; auto). destruct (Req_dec (round_angle a) th) as [->|]; [lra|]. left. apply cos_decreasing_1; lra. }
    exists (off y (normal_of u) r), (off y (normal_of v) r). split; [left; reflexivity|]. right.
    apply (chord_tri y r th (normal_of v) (normal_of u) w); auto using unit_normal; try lra.
    + rewrite <- Rr, rotv_normal, rotv_add. replace (th + - th) with 0 by ring. rewrite rotv_0. reflexivity.
    + apply Sq. apply (half_mono r th k (3 / 4 * round_angle a)); auto; lra.
  - apply Rltb_false in Lim. pose proof (angle_ge (dot u v) (round_angle a) Dr ltac:(lra) Lim) as Ga. fold th in Ga.
    set (n := arc_steps_of (round_angle a) (dot u v)). set (P := fun i : nat => off y (rotv (- (INR i * (th / INR n))) (normal_of u)) r).
    assert (N : exists j, n = S j /\ th * (1 / round_angle a) <= 3 / 2 * INR n).
    { destruct (steps_of (th * (1 / round_angle a))) as (j & J & I & L).
      - replace 1 with (round_angle a * (1 / round_angle a)) at 1 by (field; lra). apply Rmult_le_compat_r; [|lra]. left. apply Rdiv_lt_0_compat; lra.
      - exists j. assert (En : n = S j) by (unfold n, arc_steps_of; rewrite Int_part_IZR in J; exact J). split; auto. rewrite En, I. exact L. }
    destruct N as (j & N & L). assert (Pn : 1 <= INR n) by (rewrite N, S_INR; pose proof (pos_INR j); lra).
    assert (E : off y (normal_of u) r :: map P (seq 1 (n - 1)) ++ [off y (normal_of v) r] = map P (seq 0 (S n))).
    { rewrite N. cbn [Nat.sub]. rewrite Nat.sub_0_r. change (seq 0 (S (S j))) with (0%nat :: seq 1 (S j)). rewrite (seq_S j 1), map_cons, map_app. cbn [map Nat.add]. f_equal; [|f_equal; f_equal].
      - unfold P. simpl (INR 0). replace (- (0 * (th / INR n))) with 0 by ring. rewrite rotv_0. reflexivity.
      - unfold P. rewrite <- N. replace (- (INR n * (th / INR n))) with (- th) by (field; lra). rewrite rotv_normal, Rr. reflexivity. }
    change (in_fan (off y w 1) y (off y (normal_of u) r :: map P (seq 1 (n - 1)) ++ [off y (normal_of v) r])). rewrite E. clear E.
    set (st := th / INR n). assert (Est : st * INR n = th) by (unfold st; field; lra).
    assert (S1 : 0 < st) by (apply Rdiv_lt_0_compat; lra).
    assert (S2 : st <= 3 / 2 * round_angle a).
    { apply (Rmult_le_reg_r (INR n)); [lra|]. rewrite Est. replace th with (th * (1 / round_angle a) * round_angle a) by (field; lra). replace (3 / 2 * round_angle a * INR n) with (3 / 2 * INR n * round_angle a) by ring. apply Rmult_le_compat_r; lra. }
    destruct (crossing (fun i => cross (rotv (- (INR i * st)) (normal_of u)) w) n) as (i & Li & X1 & X2).
    + simpl (INR 0). replace (- (0 * st)) with 0 by ring. rewrite rotv_0. lra.
    + replace (- (INR n * st)) with (- th) by lra. rewrite rotv_normal, Rr. lra.
    + lia.
    + exists (P i), (P (S i)). split; [apply (in_steps_seq P n 0 i Li)|]. right. unfold P. fold st.
      set (w1 := rotv (- (INR i * st)) (normal_of u)) in *. set (w2 := rotv (- (INR (S i) * st)) (normal_of u)) in *.
      apply (chord_tri y r st w2 w1 w); auto; try lra.
      * apply rotv_unit, unit_normal; auto.
      * unfold w1, w2. rewrite rotv_add, S_INR. f_equal. ring.
      * apply Sq. apply (half_mono r st k (3 / 4 * round_angle a)); auto; lra.
Qed.

(** ** Caps *)
Lemma cap_round a r y d w k : 0 < r -> unit d -> 0 <= dot d w -> 0 <= k -> fst w * fst w + snd w * snd w <= k * k -> k <= r * cos (2 / 3 * round_angle a) ->
  in_fan (off y w 1) y (map (cap_pt d y) (cap_frame (RoundCap RF a) r)).
Proof.
  intros Pr U D K Lw Lk. pose proof (round_range a) as Ra. pose proof PI_RGT_0 as Pi. destruct (cap_steps_range a) as [N [_ L]]. set (n := cap_steps a) in *. set (th := PI / INR n) in *.
  assert (Pn : 4 <= INR n) by (change 4 with (INR 4) || replace 4 with (INR 4) by (simpl; ring); apply le_INR; lia). assert (Et : th * INR n = PI) by (unfold th; field; lra). assert (T0 : 0 < th) by (apply Rdiv_lt_0_compat; lra). assert (T4 : th * 4 <= th * INR n) by (apply Rmult_le_compat_l; lra).
  set (P := fun i : nat => off y (rotv (INR i * th) (neg (normal_of d))) r).
  assert (E : map (cap_pt d y) (cap_frame (RoundCap RF a) r) = map P (seq 0 (S n))).
  { unfold cap_frame. rewrite cap_points_real. cbn [cap_shape]. fold n. fold th. cbn [map]. rewrite map_app, !map_map. cbn [map]. destruct n as [|j]; [lia|]. cbn [Nat.sub]. rewrite Nat.sub_0_r.
    change (seq 0 (S (S j))) with (0%nat :: seq 1 (S j)). rewrite (seq_S j 1), map_cons, map_app. cbn [map Nat.add]. f_equal; [|f_equal; [|f_equal]].
    - unfold P. simpl (INR 0). rewrite Rmult_0_l, rotv_0. unfold cap_pt, off, neg, normal_of. cbn [fst snd]. f_equal; ring.
    - apply map_ext. intro i. unfold P, cap_pt, off, rotv, neg, normal_of. cbn [RF p_scale fst snd]. f_equal; ring.
    - unfold P. replace (INR (S j) * th) with PI by lra. unfold cap_pt, off, rotv, neg, normal_of. rewrite cos_PI, sin_PI. cbn [fst snd]. f_equal; ring. }
  rewrite E. clear E.
  assert (C0 : cross (neg (normal_of d)) w = dot d w) by (unfold cross, neg, normal_of, dot; cbn [fst snd]; ring).
  destruct (crossing (fun i => - cross (rotv (INR i * th) (neg (normal_of d))) w) n) as (i & Li & X1 & X2).
  - simpl (INR 0). rewrite Rmult_0_l, rotv_0. lra.
  - replace (INR n * th) with PI by lra. replace (- cross (rotv PI (neg (normal_of d))) w) with (dot d w); auto. unfold rotv. rewrite cos_PI, sin_PI. unfold cross, neg, normal_of, dot. cbn [fst snd]. ring.
  - lia.
  - exists (P i), (P (S i)). split; [apply (in_steps_seq P n 0 i Li)|]. left. unfold P.
    set (w1 := rotv (INR i * th) (neg (normal_of d))) in *. set (w2 := rotv (INR (S i) * th) (neg (normal_of d))) in *.
    apply (chord_tri y r th w1 w2 w); auto; try lra.
    + apply rotv_unit, unit_neg, unit_normal; auto.
    + unfold w1, w2. rewrite rotv_add, S_INR. f_equal. ring.
    + eapply Rle_trans; [exact Lw|]. apply Rmult_le_compat; auto; apply (half_mono r th k (2 / 3 * round_angle a)); auto; lra.
Qed.

(** ** Points near the path *)
Definition between_pts (x y : rpt) (t : R) : rpt := (fst x + t * (fst y - fst x), snd x + t * (snd y - snd x)).
(** the distance from [p] to some point of the path is at most [k] *)
Definition close_to (sides : list rside) (k : R) (p : rpt) : Prop := exists e t, In e sides /\ 0 <= t <= 1 /\ dist p (between_pts (fst e) (snd e) t) <= k.
Lemma dist_sq p y k : 0 <= k -> (dist p y <= k <-> dist2 p y <= k * k).
Proof.
  intro K. unfold dist. pose proof (dist2_nonneg p y) as N. split; intro H.
  - rewrite <- (sqrt_sqrt (dist2 p y)) by auto. pose proof (sqrt_pos (dist2 p y)). apply Rmult_le_compat; auto.
  - rewrite <- (sqrt_square k) by auto. apply sqrt_le_1_alt. exact H.
Qed.
Lemma list_min {A} (f : A -> R) : forall l, l <> [] -> exists x, In x l /\ forall y, In y l -> f x <= f y.
Proof.
  induction l as [|a l IH]; [congruence|]. intros _. destruct l as [|b l]; [exists a; split; [simpl; auto|]; intros y [<-|[]]; lra|].
  destruct IH as (x & I & M); [discriminate|]. destruct (Rle_dec (f a) (f x)) as [C|C].
  - exists a. split; [simpl; auto|]. intros y [<-|J]; [lra|]. specialize (M y J). lra.
  - exists x. split; [right; auto|]. intros y [<-|J]; [lra|]. auto.
Qed.
Lemma in_steps {A} (a b : A) : forall l, In (a, b) (steps l) -> In a l /\ In b l.
Proof.
  induction l as [|x [|y l] IH]; [intros []|intros []|]. change (steps (x :: y :: l)) with ((x, y) :: steps (y :: l)). intros [E|H]; [injection E as <- <-; simpl; auto|]. destruct (IH H). split; right; auto.
Qed.
Lemma fan_dist p y l k : (forall a, In a l -> dist a y <= k) -> 0 <= k -> in_fan p y l -> dist p y <= k.
Proof.
  intros H K (a & b & I & T). apply in_steps in I as [Ia Ib]. apply H in Ia, Ib. apply dist_sq; auto. apply (dist_sq _ _ _ K) in Ia, Ib.
  destruct T as [T|T]; apply (tri_disc _ _ _ _ (k * k)) in T; auto.
Qed.
Lemma in_strip_iff r p e : in_strip r p e <-> (0 <= dot (dir_of e) (vec (fst e) p) <= dist (fst e) (snd e)) /\ Rabs (cross (dir_of e) (vec (fst e) p)) <= r.
Proof. unfold in_strip, dir_of. cbv zeta. tauto. Qed.
Lemma cross_small u w k : unit u -> 0 <= k -> fst w * fst w + snd w * snd w <= k * k -> Rabs (cross u w) <= k.
Proof.
  intros U K L. unfold unit in U. apply Rabs_iff. split.
  - pose proof (cauchy (neg u) w 1 k ltac:(lra) K) as H. assert (cross (neg u) w = - cross u w) by (unfold cross, neg; cbn [fst snd]; ring). assert (cross (neg u) w <= 1 * k); [|lra]. apply H; auto. unfold neg. cbn [fst snd]. lra.
  - pose proof (cauchy u w 1 k ltac:(lra) K) as H. assert (cross u w <= 1 * k); [|lra]. apply H; auto. lra.
Qed.
Section Near.
  Variables (e : rside) (p : rpt).
  Hypothesis N : fst e <> snd e.
  Let u := dir_of e.
  Let D := dist (fst e) (snd e).
  Let Uu : unit u := dir_unit _ _ N.
  Lemma D_pos' : 0 < D.
  Proof. destruct (dir_end _ _ N). auto. Qed.
  Lemma end_eq : snd e = off (fst e) u D.
  Proof. destruct (dir_end _ _ N). auto. Qed.
  Lemma vec_end : vec (fst e) p = (fst (vec (snd e) p) + D * fst u, snd (vec (snd e) p) + D * snd u).
  Proof. rewrite end_eq. unfold vec, off. cbn [fst snd]. f_equal; ring. Qed.
  Lemma dot_end : dot u (vec (fst e) p) = dot u (vec (snd e) p) + D.
  Proof. rewrite vec_end. pose proof Uu as U. unfold unit in U. unfold dot. cbn [fst snd]. transitivity (fst u * fst (vec (snd e) p) + snd u * snd (vec (snd e) p) + D * (fst u * fst u + snd u * snd u)); [ring|rewrite U; ring]. Qed.
  Lemma cross_end : cross u (vec (fst e) p) = cross u (vec (snd e) p).
  Proof. rewrite vec_end. unfold cross. cbn [fst snd]. ring. Qed.
  Lemma dist2_vec x : dist2 p x = fst (vec x p) * fst (vec x p) + snd (vec x p) * snd (vec x p).
  Proof. reflexivity. Qed.
  Lemma dist2_start : dist2 p (fst e) = dist2 p (snd e) + D * (2 * dot u (vec (snd e) p) + D).
  Proof. rewrite !dist2_vec, vec_end. pose proof Uu as U. unfold unit in U. unfold dot. cbn [fst snd]. set (w := vec (snd e) p). transitivity (fst w * fst w + snd w * snd w + D * (2 * (fst u * fst w + snd u * snd w)) + D * D * (fst u * fst u + snd u * snd u)); [ring|rewrite U; ring]. Qed.
  Lemma dist2_between t : dist2 p (between_pts (fst e) (snd e) t) = dist2 p (fst e) - 2 * t * D * dot u (vec (fst e) p) + t * t * D * D.
  Proof.
    rewrite end_eq. unfold dist2, between_pts, off, dot, vec. cbn [fst snd]. pose proof Uu as U. unfold unit in U.
    transitivity ((fst p - fst (fst e)) * (fst p - fst (fst e)) + (snd p - snd (fst e)) * (snd p - snd (fst e)) - 2 * t * D * (fst u * (fst p - fst (fst e)) + snd u * (snd p - snd (fst e))) + t * t * D * D * (fst u * fst u + snd u * snd u)); [ring|rewrite U; ring].
  Qed.
  Lemma pythagoras : dist2 p (fst e) = dot u (vec (fst e) p) * dot u (vec (fst e) p) + cross u (vec (fst e) p) * cross u (vec (fst e) p).
  Proof. rewrite dist2_vec. set (w := vec (fst e) p). pose proof Uu as U. unfold unit in U. unfold dot, cross. transitivity ((fst w * fst w + snd w * snd w) * (fst u * fst u + snd u * snd u)); [rewrite U; ring|ring]. Qed.
  Lemma strip_close r : 0 <= r -> in_strip r p e -> exists t, 0 <= t <= 1 /\ dist p (between_pts (fst e) (snd e) t) <= r.
  Proof.
    intros R0 H. destruct (proj1 (in_strip_iff r p e) H) as [[A B] C]. fold u in A, B, C. fold D in B. pose proof D_pos' as Pd. exists (dot u (vec (fst e) p) / D). assert (Q : dot u (vec (fst e) p) / D * D = dot u (vec (fst e) p)) by (field; lra). set (t := dot u (vec (fst e) p) / D) in *.
    split; [split; apply (Rmult_le_reg_r D); lra|]. apply dist_sq; auto. rewrite dist2_between, pythagoras. replace (2 * t * D * dot u (vec (fst e) p)) with (2 * (t * D) * dot u (vec (fst e) p)) by ring. replace (t * t * D * D) with ((t * D) * (t * D)) by ring. rewrite Q.
    set (c := cross u (vec (fst e) p)) in *. set (d := dot u (vec (fst e) p)). replace (d * d + c * c - 2 * d * d + d * d) with (c * c) by ring. rewrite <- (Rabs_pos_eq (c * c)) by apply Rle_0_sqr. rewrite Rabs_mult. apply Rmult_le_compat; auto using Rabs_pos.
  Qed.
  (** a point within [k] of the side is in its rectangle, or within [k] of one of its ends *)
  Lemma close_cases t k : 0 <= k -> 0 <= t <= 1 -> dist p (between_pts (fst e) (snd e) t) <= k -> in_strip k p e \/ dist2 p (fst e) <= k * k \/ dist2 p (snd e) <= k * k.
  Proof.
    intros K [T0 T1] H. apply (dist_sq _ _ _ K) in H. rewrite dist2_between in H. pose proof D_pos' as Pd. set (d := dot u (vec (fst e) p)) in *.
    assert (M : 0 <= (d - t * D) * (d - t * D)) by apply Rle_0_sqr. assert (Ptd : 0 <= t * D) by (apply Rmult_le_pos; lra).
    destruct (Rlt_dec d 0) as [A|A].
    - right. left. assert (t * D * d <= 0) by nra. assert (0 <= t * D * (t * D)) by (apply Rmult_le_pos; auto). nra.
    - destruct (Rlt_dec D d) as [B|B].
      + right. right. pose proof dist2_start as E. pose proof dot_end as E2. fold d in E2. assert (t * D <= D) by nra. nra.
      + left. apply (proj2 (in_strip_iff k p e)). fold u D d. split; [lra|]. rewrite pythagoras in H. fold d in H. set (c := cross u (vec (fst e) p)) in *.
        assert (Cc : c * c <= k * k) by nra. apply Rabs_iff. split; apply Rnot_lt_le; intro X; nra.
  Qed.
End Near.

(** ** The theorem about the pieces *)
Lemma ring_next (sides : list rside) e : In e sides -> exists f, followed_ring sides e f.
Proof.
  intro H. apply in_split in H as (l & m & ->). destruct m as [|g m]; [|exists g; left; exists l, m; auto].
  destruct l as [|a l]; [exists e; right; exists []; auto|]. exists a. right. exists (l ++ [e]). split; auto. rewrite last_last. reflexivity.
Qed.
Lemma ring_prev (sides : list rside) e : In e sides -> exists f, followed_ring sides f e.
Proof.
  intro H. apply in_split in H as (l & m & ->). destruct l as [|a l]; [exists (last m e); right; exists m; auto|].
  destruct (exists_last (l := a :: l) ltac:(discriminate)) as (l' & g & ->). exists g. left. exists l', m. rewrite <- app_assoc. reflexivity.
Qed.
Lemma open_next (sides : list rside) e : In e sides -> (exists f, followed sides e f) \/ exists l, sides = l ++ [e].
Proof. intro H. apply in_split in H as (l & m & ->). destruct m as [|g m]; [right; eauto|left; exists g, l, m; auto]. Qed.
Lemma open_prev (sides : list rside) e : In e sides -> (exists f, followed sides f e) \/ exists l, sides = e :: l.
Proof.
  intro H. apply in_split in H as (l & m & ->). destruct l as [|a l]; [right; exists m; auto|left].
  destruct (exists_last (l := a :: l) ltac:(discriminate)) as (l' & g & ->). exists g, l', m. rewrite <- app_assoc. reflexivity.
Qed.
Lemma prev_or cl (sd : list rside) e : In e sd -> (exists g, next_of cl sd g e) \/ (cl = false /\ exists l, sd = e :: l).
Proof. intro H. destruct cl; [left; apply ring_prev; auto|]. destruct (open_prev sd e H); auto. Qed.
Lemma next_or cl (sd : list rside) e : In e sd -> (exists g, next_of cl sd e g) \/ (cl = false /\ exists l, sd = l ++ [e]).
Proof. intro H. destruct cl; [left; apply ring_next; auto|]. destruct (open_next sd e H); auto. Qed.
Section Round.
  Variables (to_int : rpt -> pt) (style : stroke_style RF) (closed : bool) (path : list rpt) (p : rpt).
  Notation r := (stroke_radius style).
  Hypothesis Pr : 0 < r.
  Notation sides := (sides_of to_int closed path).
  Notation next := (next_of closed sides).
  Hypothesis N : forall f, In f sides -> fst f <> snd f.
  Hypothesis Ch : forall f g, next f g -> snd f = fst g.
  Lemma next_in f g : next f g -> In f sides /\ In g sides.
  Proof.
    destruct closed; cbn [next_of]; [intros [H|(l & -> & ->)]; [apply followed_in; auto|split; [apply last_in|simpl; auto]]|apply followed_in].
  Qed.
  (** whatever the style: nothing outside of the reach of the style *)
  Theorem covered_close : covered to_int style closed path p -> close_to sides (stroke_reach style) p.
  Proof.
    assert (Rr : r <= stroke_reach style). { eapply Rle_trans; [|apply Rmax_l]. eapply Rle_trans; [apply RRle_abs|apply reach_ge]. }
    assert (V : forall e x, In e sides -> x = fst e \/ x = snd e -> dist p x <= stroke_reach style -> close_to sides (stroke_reach style) p).
    { intros e x I [-> | ->] H; exists e; [exists 0|exists 1]; (split; [auto|split; [lra|]]); unfold between_pts; rewrite ?Rmult_0_l, ?Rmult_1_l, ?Rplus_0_r, <- ?surjective_pairing; auto.
      replace (fst (fst e) + (fst (snd e) - fst (fst e))) with (fst (snd e)) by ring. replace (snd (fst e) + (snd (snd e) - snd (fst e))) with (snd (snd e)) by ring. rewrite <- surjective_pairing. auto. }
    intros [[(e & I & H)|(e & f & Fg & H)]|(_ & [(e & l & El & H)|(e & l & El & H)])].
    - destruct (strip_close e p (N e I) r ltac:(lra) H) as (t & T & Dt). exists e, t. split; auto. split; auto. lra.
    - destruct (next_in e f Fg) as [Ie If]. apply (V e (snd e)); auto. apply (fan_dist p (snd e) (outer to_int (st_join RF style) r e f)); auto; [|lra].
      intros a Ia. eapply Rle_trans; [|apply Rmax_l]. apply (corner_reach to_int (st_join RF style) r e f); auto. unfold outer in Ia. destruct (Rltb _ _); auto.
    - assert (Ie : In e sides) by (rewrite El; simpl; auto). apply (V e (fst e)); auto. apply (fan_dist p (fst e) (cap_start (st_start RF style) r e)); auto; [|lra].
      intros a Ia. unfold cap_start in Ia. apply in_map_iff in Ia as (x & <- & Ix). rewrite cap_pt_dist by (apply unit_neg, dir_unit, N; auto).
      eapply Rle_trans; [apply (frame_size r Pr _ _ Ix)|]. unfold stroke_reach. eapply Rle_trans; [|apply Rmax_r]. apply Rmax_l.
    - assert (Ie : In e sides) by (rewrite El; apply in_or_app; simpl; auto). apply (V e (snd e)); auto. apply (fan_dist p (snd e) (cap_end (st_end RF style) r e)); auto; [|lra].
      intros a Ia. unfold cap_end in Ia. apply in_map_iff in Ia as (x & <- & Ix). rewrite cap_pt_dist by (apply dir_unit, N; auto).
      eapply Rle_trans; [apply (frame_size r Pr _ _ Ix)|]. unfold stroke_reach. eapply Rle_trans; [|apply Rmax_r]. apply Rmax_r.
  Qed.
  Variables (a b c k : R).
  Hypothesis Hj : st_join RF style = RoundJoin RF a.
  Hypothesis Kj : 0 <= k <= r * cos (3 / 4 * round_angle a).
  Hypothesis Hc : closed = false -> st_start RF style = RoundCap RF b /\ st_end RF style = RoundCap RF c /\ k <= r * cos (2 / 3 * round_angle b) /\ k <= r * cos (2 / 3 * round_angle c).
  Lemma kr : k <= r.
  Proof. destruct Kj as [K L]. eapply Rle_trans; [exact L|]. pose proof (COS_bound (3 / 4 * round_angle a)). rewrite <- (Rmult_1_r r) at 2. apply Rmult_le_compat_l; lra. Qed.
  Lemma off_vec y : off y (vec y p) 1 = p.
  Proof. unfold off, vec. cbn [fst snd]. destruct p. cbn [fst snd]. f_equal; ring. Qed.
  Lemma strip_weaken e : in_strip k p e -> in_strip r p e.
  Proof. intros [A B]. split; auto. pose proof kr. lra. Qed.
  Lemma strip_of e x : In e sides -> x = fst e \/ x = snd e -> dist2 p x <= k * k -> 0 <= dot (dir_of e) (vec (fst e) p) <= dist (fst e) (snd e) -> in_strip r p e.
  Proof.
    intros I X L H. apply (proj2 (in_strip_iff r p e)). split; auto. pose proof kr. apply Rle_trans with k; auto.
    destruct X as [-> | ->]; [|rewrite (cross_end e p (N e I))]; (apply cross_small; [apply dir_unit, N; auto|lra|exact L]).
  Qed.
  Theorem round_covered : close_to sides k p -> covered to_int style closed path p.
  Proof.
    intros (e0 & t0 & I0 & T0 & H0). destruct Kj as [K0 K1]. unfold covered.
    destruct (close_cases e0 p (N e0 I0) t0 k K0 T0 H0) as [S0|V0]; [left; left; exists e0; split; auto; apply strip_weaken; auto|].
    set (V := map fst sides ++ map snd sides).
    assert (In0 : exists v, In v V /\ dist2 p v <= k * k).
    { destruct V0 as [V0|V0]; [exists (fst e0)|exists (snd e0)]; (split; [|auto]); apply in_or_app; [left|right]; apply in_map; auto. }
    destruct (list_min (dist2 p) V) as (v & Iv & Mv); [destruct In0 as (v & I & _); intro E; rewrite E in I; destruct I|].
    assert (Lv : dist2 p v <= k * k) by (destruct In0 as (v' & I' & L'); specialize (Mv v' I'); lra).
    assert (Mf : forall e, In e sides -> dist2 p v <= dist2 p (fst e)) by (intros e I; apply Mv, in_or_app; left; apply in_map; auto).
    assert (Ms : forall e, In e sides -> dist2 p v <= dist2 p (snd e)) by (intros e I; apply Mv, in_or_app; right; apply in_map; auto).
    assert (Before : forall e, In e sides -> snd e = v -> in_strip r p e \/ 0 <= dot (dir_of e) (vec v p)).
    { intros e I <-. destruct (Rle_dec 0 (dot (dir_of e) (vec (snd e) p))) as [C|C]; auto. left. apply (strip_of e (snd e)); auto.
      pose proof (dot_end e p (N e I)) as E1. pose proof (dist2_start e p (N e I)) as E2. pose proof (D_pos' e (N e I)) as Pd. pose proof (Mf e I) as M. rewrite E1. split; [|lra].
      apply Rnot_lt_le. intro X. set (D := dist (fst e) (snd e)) in *. set (d := dot (dir_of e) (vec (snd e) p)) in *. assert (D * (2 * d + D) < 0) by (rewrite <- (Rmult_0_r D); apply Rmult_lt_compat_l; lra). lra. }
    assert (After : forall e, In e sides -> fst e = v -> in_strip r p e \/ dot (dir_of e) (vec v p) <= 0).
    { intros e I <-. destruct (Rle_dec (dot (dir_of e) (vec (fst e) p)) 0) as [C|C]; auto. left. apply (strip_of e (fst e)); auto. split; [lra|].
      pose proof (dot_end e p (N e I)) as E1. pose proof (dist2_start e p (N e I)) as E2. pose proof (D_pos' e (N e I)) as Pd. pose proof (Ms e I) as M.
      apply Rnot_lt_le. intro X. set (D := dist (fst e) (snd e)) in *. set (d := dot (dir_of e) (vec (snd e) p)) in *. assert (0 < D * (2 * d + D)) by (apply Rmult_lt_0_compat; lra). lra. }
    assert (Corner : forall e f, next e f -> snd e = v -> sides_cover to_int style next sides p).
    { intros e f Fe Ev. destruct (next_in e f Fe) as [Ie If]. pose proof (Ch e f Fe) as Ef. rewrite Ev in Ef. symmetry in Ef.
      destruct (Before e Ie Ev) as [S1|B1]; [left; exists e; auto|]. destruct (After f If Ef) as [S2|B2]; [left; exists f; auto|].
      pose proof (dir_unit _ _ (N e Ie)) as Ue. pose proof (dir_unit _ _ (N f If)) as Uf. fold (dir_of e) in Ue. fold (dir_of f) in Uf. set (u := dir_of e) in *. set (u' := dir_of f) in *.
      assert (Dec : u = u' \/ u <> u') by (destruct u as [u1 u2], u' as [v1 v2]; destruct (Req_dec u1 v1), (Req_dec u2 v2); subst; auto; right; intro Q; injection Q; auto). destruct Dec as [Q|Q].
      - left. exists e. split; auto. apply (strip_of e (snd e)); auto; [rewrite Ev; auto|]. pose proof (dot_end e p (N e Ie)) as E1. pose proof (D_pos' e (N e Ie)) as Pd. rewrite E1. rewrite Ev in Pd |- *. fold u. rewrite Q in B1 |- *. lra.
      - right. exists e, f. split; auto. rewrite Ev. rewrite <- (off_vec v) at 1. unfold outer, ltop, lbot, left_mids, right_mids, turning. fold u u'. rewrite Hj, Ev.
        destruct (Rltb 0 (cross u u')) eqn:T; [apply Rltb_true in T|apply Rltb_false in T].
        + pose proof (join_round to_int a r v (neg u') (neg u) (vec v p) k Pr (unit_neg _ Uf) (unit_neg _ Ue)) as J.
          assert (E1 : off v (normal_of (neg u')) r = ra r f) by (unfold ra; rewrite <- Ef; unfold u', dir_of, off, normal_of, neg; cbn [fst snd]; f_equal; ring).
          assert (E2 : off v (normal_of (neg u)) r = rb r e) by (unfold rb; rewrite <- Ev; unfold u, dir_of, off, normal_of, neg; cbn [fst snd]; f_equal; ring).
          rewrite E1, E2 in J. apply J; auto; [unfold cross, neg in *; cbn [fst snd] in *; lra| |unfold dot, neg in *; cbn [fst snd] in *; lra|unfold dot, neg in *; cbn [fst snd] in *; lra].
          intro X. apply Q. unfold neg in X. pose proof (f_equal fst X) as X1. pose proof (f_equal snd X) as X2. cbn [fst snd] in X1, X2. rewrite (surjective_pairing u), (surjective_pairing u'). f_equal; lra.
        + pose proof (join_round to_int a r v u u' (vec v p) k Pr Ue Uf T Q B1 B2 K0 Lv K1) as J.
          assert (E1 : off v (normal_of u) r = lb r e) by (unfold lb; rewrite <- Ev; reflexivity). assert (E2 : off v (normal_of u') r = la r f) by (unfold la; rewrite <- Ef; reflexivity). rewrite E1, E2 in J. exact J. }
    apply in_app_or in Iv as [Iv|Iv]; apply in_map_iff in Iv as (e & Ev & Ie).
    - (* a start of a side *)
      destruct (prev_or closed sides e Ie) as [(g & Fg)|(Cl & l & El)]; [left; apply (Corner g e); auto; rewrite (Ch g e Fg); auto|].
      destruct (After e Ie Ev) as [S1|B1]; [left; left; exists e; auto|]. right. split; auto. left. exists e, l. split; auto. destruct (Hc Cl) as (Hs & _ & Kb & _).
      rewrite Hs. unfold cap_start. rewrite Ev. rewrite <- (off_vec v) at 1. apply (cap_round b r v _ _ k); auto; [apply unit_neg, dir_unit, N; auto|]. unfold dot, neg in *. cbn [fst snd]. lra.
    - destruct (next_or closed sides e Ie) as [(g & Fg)|(Cl & l & El)]; [left; apply (Corner e g); auto|].
      destruct (Before e Ie Ev) as [S1|B1]; [left; left; exists e; auto|]. right. split; auto. right. exists e, l. split; auto. destruct (Hc Cl) as (_ & He & _ & Kc).
      rewrite He. unfold cap_end. rewrite Ev. rewrite <- (off_vec v) at 1. apply (cap_round c r v _ _ k); auto. apply dir_unit, N; auto.
  Qed.
End Round.
