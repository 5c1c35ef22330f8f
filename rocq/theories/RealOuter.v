(** * What an outline draws at a corner: one chain of points. *)
From Verif Require Import Base Spec QLib ModelSegm SegmProofs SplitNear ModelMesh MeshProofs MeshStrip.
From Coq Require Import Reals Lra Psatz Qreals.
From Verif Require Import RealMesh RealJoin RealReach RealMiter RealWind RealMove RealCorner RealStroke RealPieces RealCount RealCover.
Open Scope R_scope.

Lemma forth_one a : forth [] [a].
Proof. split; [reflexivity|]. intros ? ? []. Qed.
Lemma forth_cons_eq js a l : forth js (a :: l) -> forth js (a :: a :: l).
Proof.
  intros [A B]. split.
  - intro q. rewrite A. unfold chain_wind. change (steps (a :: a :: l)) with ((a, a) :: steps (a :: l)). rewrite zsum_cons, edge_wind_self. lia.
  - intros x y I. change (steps (a :: a :: l)) with ((a, a) :: steps (a :: l)) in I. destruct I as [E|I]; auto. injection E as <- <-. auto.
Qed.
Lemma forth_cons s js a b l : travel s = (a, b) -> forth js (b :: l) -> forth (s :: js) (a :: b :: l).
Proof.
  intros T [A B]. split.
  - intro q. unfold segs_wind, chain_wind in *. change (steps (a :: b :: l)) with ((a, b) :: steps (b :: l)). rewrite !zsum_cons, A, T. lia.
  - intros x y I. change (steps (a :: b :: l)) with ((a, b) :: steps (b :: l)) in I. cbn [map]. rewrite T. destruct I as [E|I]; [injection E as <- <-; simpl; auto|]. destruct (B x y I); simpl; auto.
Qed.
Lemma forth_push js a b l : forth js (b :: l) -> forth (push_ne a b ++ js) (a :: b :: l).
Proof. intro H. unfold push_ne. destruct (pt_eqb a b) eqn:E; [apply pt_eqb_eq in E; subst; apply forth_cons_eq; auto|apply forth_cons; auto using travel_bold]. Qed.
Lemma forth_weak a b : forth (if pt_eqb a b then [] else [weak_ab a b]) [a; b].
Proof. destruct (pt_eqb a b) eqn:E; [apply pt_eqb_eq in E; subst; apply forth_cons_eq, forth_one|apply forth_cons; auto using travel_weak, forth_one]. Qed.
Lemma forth_arc to_int th center r last : forall k v,
  forth (arc_loop RF to_int bold_ab (rot_angle RF th) center r k v (to_int (off center v r)) last)
       (to_int (off center v r) :: map (fun i => to_int (off center (rotv (INR i * th) v) r)) (seq 1 k) ++ [last]).
Proof.
  induction k as [|k IH]; intro v.
  - cbn [arc_loop seq map app]. rewrite <- (app_nil_r (if pt_eqb _ _ then _ else _)). apply forth_push, forth_one.
  - cbn [arc_loop]. cbv zeta. rewrite rotate_real. change (p_add RF center (p_scale RF (rotv th v) r)) with (off center (rotv th v) r).
    cbn [seq map app]. rewrite <- seq_shift, map_map.
    assert (E : map (fun i => to_int (off center (rotv (INR (S i) * th) v) r)) (seq 1 k) = map (fun i => to_int (off center (rotv (INR i * th) (rotv th v)) r)) (seq 1 k)).
    { apply map_ext. intro i. rewrite rotv_add, S_INR. do 3 f_equal. ring. }
    rewrite E. change (INR 1) with 1. rewrite Rmult_1_l. specialize (IH (rotv th v)).
    destruct (pt_eqb _ _) eqn:Q; [apply pt_eqb_eq in Q; rewrite Q; apply forth_cons_eq; auto|apply forth_cons; auto using travel_bold].
Qed.

(** ** The points of a corner *)
Definition sg (k : R) : R := if Rleb 0 k then 1 else -1.
Lemma sg_abs k : sg k * Rabs k = k /\ sg k * k = Rabs k /\ sg k * sg k = 1.
Proof. unfold sg, Rleb. destruct (Rle_dec 0 k); [rewrite Rabs_pos_eq by auto|rewrite Rabs_left by lra]; repeat split; ring. Qed.
(** the corner bends towards the side to which the contour is moved: the moved sides overlap (straight on: as a left turn) *)
Definition bends_in (k : R) (u v : rpt) : bool := Bool.eqb (Rleb 0 (cross u v)) (Rleb 0 k).
(** The points between [A] and [B] at a corner [y] from direction [u] to direction [v]
    ([A], [B]: [y] moved to the left of [u], [v] by [k]; to the right if [k] is negative). *)
Definition omids (to_int : rpt -> pt) (j : line_join RF) (k : R) (y u v : rpt) : list rpt :=
  if bends_in k u v then [] else
  let A := off y (normal_of u) k in
  let B := off y (normal_of v) k in
  match j with
  | Bevel _ => []
  | MiterJoin _ a =>
      if (sqr_distance (to_int A) (to_int B) <? 4)%Z then []
      else if Rltb (dot u v) (- cos (miter_angle a)) then [off A u (Rabs k / tan (miter_angle a / 2)); off B (neg v) (Rabs k / tan (miter_angle a / 2))]
      else [off A u (Rabs k * Rabs (cross u v) / (1 + dot u v))]
  | RoundJoin _ a =>
      if Rltb (cos (round_angle a)) (dot u v) then []
      else let n := arc_steps_of (round_angle a) (dot u v) in
           map (fun i => off y (rotv (- sg k * (INR i * (acos (dot u v) / INR n))) (normal_of u)) k) (seq 1 (n - 1))
  end.

Lemma arc_count c ra : -1 <= c <= 1 -> 0 < ra -> ra <= PI / 2 -> c <= cos ra ->
  let n := d_round RF (acos c * (1 / ra)) in d_usize RF n = arc_steps_of ra c /\ INR (arc_steps_of ra c) = n /\ exists k, arc_steps_of ra c = S k.
Proof.
  intros Dr A A' Lim n. pose proof (angle_ge c ra Dr ltac:(lra) Lim) as Ga.
  destruct (steps_of (acos c * (1 / ra))) as (k & K & I & L).
  - replace 1 with (ra * (1 / ra)) at 1 by (field; lra). apply Rmult_le_compat_r; [|lra]. left. apply Rdiv_lt_0_compat; lra.
  - change (IZR (Int_part (acos c * (1 / ra) + / 2))) with n in I, K. unfold arc_steps_of. change (d_usize RF n) with (Z.to_nat (Int_part n)). rewrite K.
    unfold n in K. cbn [RF d_round] in K. rewrite Int_part_IZR in K. rewrite K. eauto.
Qed.

Section Corner.
  Variables (to_int : rpt -> pt) (x y z : rpt) (k : R).
  Hypothesis Nxy : x <> y.
  Hypothesis Nyz : y <> z.
  Let u := dir x y.
  Let v := dir y z.
  Let Uu : unit u := dir_unit x y Nxy.
  Let Uv : unit v := dir_unit y z Nyz.
  Notation A := (off y (normal_of u) k).
  Notation B := (off y (normal_of v) k).
  Lemma oround_joined a : forth (outline_join RF to_int k (RoundJoin RF (round_angle a)) (osection_new RF k x y) (osection_new RF k y z))
    (map to_int (A :: omids to_int (RoundJoin RF a) k y u v ++ [B])).
  Proof.
    rewrite !osection_real. fold u v. cbn [outline_join]. unfold oround_join, oround_new. rewrite fixed_ratio_real. unfold omids, bends_in, sg. set (ra := round_angle a).
    pose proof (round_range a) as Ra. fold ra in Ra. pose proof PI_RGT_0 as Pi.
    cbv zeta. cbn [or_limit or_radius or_inv or_expand or_rot os_dir os_b os_btop os_atop]. unfold join_weak. cbn [os_btop os_atop]. cbv zeta.
    change (p_dot RF u v) with (dot u v). change (p_cross RF u v) with (cross u v). unfold lit. cbn [RF n_lt n_le to_f64 from_f64 d_cos d_acos d_mul d_div d_lit d_neg f_xy f_x f_y n_neg fst snd]. rewrite q_0, q_1.
    destruct (Bool.eqb _ _); [apply forth_weak|].
    pose proof (dot_range u v Uu Uv) as Dr.
    destruct (Rltb (cos ra) (dot u v)) eqn:Lim; [apply forth_weak|]. apply Rltb_false in Lim.
    destruct (arc_count (dot u v) ra Dr ltac:(lra) ltac:(lra) Lim) as (N1 & N2 & _).
    set (n := d_round RF (acos (dot u v) * (1 / ra))) in *. rewrite N1, N2. set (m := (arc_steps_of ra (dot u v) - 1)%nat).
    set (th := Q2R _ * (acos (dot u v) / n)).
    assert (M : forall w i, rotv (- (if Rleb 0 k then 1 else -1) * (INR i * (acos (dot u v) / n))) w = rotv (INR i * th) w).
    { intros w i. f_equal. unfold th. destruct (Rleb 0 k); [rewrite q_m1|rewrite q_1]; ring. }
    cbn [map]. rewrite map_app, map_map. cbn [map]. change (- snd u, fst u) with (normal_of u).
    rewrite (map_ext _ (fun i => to_int (off y (rotv (INR i * th) (normal_of u)) k))); [apply forth_arc|]. intro i. cbv beta. rewrite M. reflexivity.
  Qed.
  Lemma omiter_joined a : forth (outline_join RF to_int k (MiterJoin RF (miter_angle a)) (osection_new RF k x y) (osection_new RF k y z))
    (map to_int (A :: omids to_int (MiterJoin RF a) k y u v ++ [B])).
  Proof.
    rewrite !osection_real. fold u v. cbn [outline_join]. unfold omiter_join. cbv zeta.
    unfold omiter_new. cbv zeta. unfold join_weak, omids, bends_in. cbn [om_limit om_len om_expand os_dir os_b os_btop os_atop].
    change (p_dot RF u v) with (dot u v). change (p_cross RF u v) with (cross u v). unfold lit.
    cbn [RF n_lt n_le n_abs n_neg n_add n_sub n_mul to_f64 from_f64 d_cos d_mul d_max d_abs d_div d_tan d_lit f_xy f_x f_y fst snd]. rewrite q_1_2, q_0, !fixed_real.
    destruct (Bool.eqb _ _) eqn:Turn; [apply forth_weak|].
    assert (Sg : k * cross u v = - (Rabs k * Rabs (cross u v))).
    { unfold Rleb in Turn. destruct (Rle_dec 0 (cross u v)), (Rle_dec 0 k); try discriminate; rewrite ?(Rabs_pos_eq k), ?(Rabs_pos_eq (cross u v)), ?(Rabs_left k), ?(Rabs_left (cross u v)) by lra; ring. }
    destruct (_ <? 4)%Z eqn:Near; [apply forth_weak|].
    replace (/ 2 * miter_angle a) with (miter_angle a / 2) by lra. set (l := Rabs k / tan (miter_angle a / 2)).
    destruct (Rltb (dot u v) (- cos (miter_angle a))) eqn:Lim; [apply Rltb_true in Lim|apply Rltb_false in Lim].
    - cbn [map app].
      replace (off A u l) with (fst A + l * fst u, snd A + l * snd u) by (unfold off; cbn [fst snd]; f_equal; ring).
      replace (off B (neg v) l) with (fst B - l * fst v, snd B - l * snd v) by (unfold off, neg; cbn [fst snd]; f_equal; ring).
      apply forth_push, forth_push. rewrite <- (app_nil_r (push_ne _ _)). apply forth_push, forth_one.
    - pose proof (limit_gt a) as Lg.
      destruct (tip_meets y u v A B k Uu Uv eq_refl eq_refl ltac:(lra)) as (t & T1 & _ & T3).
      assert (Et : off A u (Rabs k * Rabs (cross u v) / (1 + dot u v)) = tip u v A B).
      { rewrite T1. f_equal. apply (Rmult_eq_reg_r (1 + dot u v)); [|lra]. rewrite T3. replace (- k * cross u v) with (- (k * cross u v)) by ring. rewrite Sg. field. lra. }
      rewrite Et. rewrite sharp_tip. destruct (pt_eqb (to_int A) (to_int B)) eqn:E.
      { apply pt_eqb_eq in E. exfalso. apply Z.ltb_ge in Near. revert Near. unfold sqr_distance. rewrite E. lia. }
      destruct (pt_eqb (to_int A) (to_int (tip u v A B)) || pt_eqb (to_int B) (to_int (tip u v A B)))%bool eqn:E'.
      + cbn [map app]. apply orb_true_iff in E' as [E'|E']; apply pt_eqb_eq in E'.
        * rewrite <- E'. apply forth_cons_eq. apply forth_cons; auto using travel_bold, forth_one.
        * rewrite <- E'. apply forth_cons; auto using travel_bold. apply forth_cons_eq, forth_one.
      + cbn [map app]. apply forth_cons; auto using travel_bold. apply forth_cons; auto using travel_bold, forth_one.
  Qed.
  Theorem ocorner_joined j : forth (outline_join RF to_int k (join_normalize RF j) (osection_new RF k x y) (osection_new RF k y z))
    (map to_int (A :: omids to_int j k y u v ++ [B])).
  Proof.
    rewrite normalize_real. destruct j as [|a|a].
    - rewrite !osection_real. fold u v. unfold omids. destruct (bends_in k u v); apply forth_weak.
    - apply omiter_joined.
    - apply oround_joined.
  Qed.
End Corner.

(** ** Away from the bend the chain is a fan around the vertex *)
Definition ofan (k : R) (y : rpt) (l : list rpt) : Prop := forall a b, In (a, b) (steps l) -> 0 <= k * turn3 y b a.
Lemma fan_omids to_int j k y u v : unit u -> unit v -> k <> 0 -> bends_in k u v = false -> ofan k y (off y (normal_of u) k :: omids to_int j k y u v ++ [off y (normal_of v) k]).
Proof.
  intros Uu Uv Nk Bi. set (A := off y (normal_of u) k). set (B := off y (normal_of v) k).
  assert (Sg : k * cross u v = - (Rabs k * Rabs (cross u v)) /\ (0 < k -> cross u v < 0) /\ (k < 0 -> 0 <= cross u v)).
  { unfold bends_in, Rleb in Bi. destruct (Rle_dec 0 (cross u v)), (Rle_dec 0 k); try discriminate; rewrite ?(Rabs_pos_eq k), ?(Rabs_pos_eq (cross u v)), ?(Rabs_left k), ?(Rabs_left (cross u v)) by lra; repeat split; try ring; lra. }
  destruct Sg as (Sg & Sp & Sn). pose proof (Rle_0_sqr k) as K2. unfold Rsqr in K2.
  assert (Pk : 0 < Rabs k) by (apply Rabs_pos_lt; auto). pose proof (Rabs_pos (cross u v)) as Pc. destruct (sg_abs k) as (S1 & S2 & S3).
  assert (D : 0 <= k * turn3 y B A).
  { unfold A, B. rewrite turn3_off. replace (cross (normal_of v) (normal_of u)) with (- cross u v) by (unfold cross, normal_of; cbn [fst snd]; ring).
    replace (k * (k * k * - cross u v)) with (k * k * - (k * cross u v)) by ring. rewrite Sg. apply Rmult_le_pos; auto. nra. }
  assert (D2 : ofan k y (A :: [] ++ [B])) by (intros p q [E|[]]; injection E as <- <-; auto).
  assert (N1 : forall w l, unit w -> turn3 y (off (off y (normal_of w) k) w l) (off y (normal_of w) k) = l * k).
  { intros w l U. unfold unit in U. replace (turn3 y (off (off y (normal_of w) k) w l) (off y (normal_of w) k)) with (l * k * (fst w * fst w + snd w * snd w)) by (unfold turn3, off, normal_of; cbn [fst snd]; ring). rewrite U. ring. }
  assert (N2 : forall w l, unit w -> turn3 y (off y (normal_of w) k) (off (off y (normal_of w) k) (neg w) l) = l * k).
  { intros w l U. unfold unit in U. replace (turn3 y (off y (normal_of w) k) (off (off y (normal_of w) k) (neg w) l)) with (l * k * (fst w * fst w + snd w * snd w)) by (unfold turn3, off, normal_of, neg; cbn [fst snd]; ring). rewrite U. ring. }
  assert (N3 : forall l, 0 <= l -> 0 <= k * (l * k)) by (intros l L; replace (k * (l * k)) with (l * (k * k)) by ring; apply Rmult_le_pos; auto).
  unfold omids. rewrite Bi. cbv zeta. fold A B. destruct j as [|a|a]; auto.
  - destruct (_ <? 4)%Z; auto. pose proof (miter_range a) as Mr. pose proof PI_RGT_0 as Pi.
    pose proof (limit_gt a) as Lg. pose proof (dot_range u v Uu Uv) as Dr.
    destruct (Rltb (dot u v) (- cos (miter_angle a))) eqn:Lim.
    + apply Rltb_true in Lim. set (h := miter_angle a / 2). set (r := Rabs k) in *. set (l := r / tan h).
      assert (Sh : 0 < sin h) by (apply sin_gt_0; unfold h; lra). assert (Ch : 0 < cos h) by (apply cos_gt_0; unfold h; lra).
      assert (El : l * sin h = r * cos h) by (unfold l, tan; field; split; lra).
      assert (Pl : 0 < l) by (unfold l, tan; apply Rdiv_lt_0_compat; [auto|]; apply Rdiv_lt_0_compat; auto).
      cbn [app]. intros p q [E|[E|[E|[]]]]; injection E as <- <-; [unfold A; rewrite N1 by auto; apply N3; lra| |unfold B; rewrite N2 by auto; apply N3; lra].
      replace (k * turn3 y (off B (neg v) l) (off A u l)) with ((k * k - l * l) * - (k * cross u v) - 2 * (k * k) * l * dot u v) by (unfold A, B, turn3, off, normal_of, neg, cross, dot; cbn [fst snd]; ring).
      rewrite Sg. replace (k * k) with (r * r) by (unfold r; rewrite <- Rabs_mult; apply Rabs_pos_eq; auto).
      replace ((r * r - l * l) * - - (r * Rabs (cross u v)) - 2 * (r * r) * l * dot u v) with (r * ((r * r - l * l) * Rabs (cross u v) - 2 * (r * l) * dot u v)) by ring.
      apply Rmult_le_pos; [lra|].
      assert (Sa : Rabs (cross u v) = sin (acos (dot u v))) by (rewrite sin_angle; auto). rewrite Sa. set (th := acos (dot u v)).
      assert (Ca : dot u v = cos th) by (unfold th; rewrite cos_acos; auto). rewrite Ca.
      pose proof (bend_lt (miter_angle a) u v Uu Uv ltac:(lra) Lim) as Bl. unfold bend in Bl. fold th in Bl. pose proof (acos_bound (dot u v)) as Ba. fold th in Ba.
      assert (Ss : sin (miter_angle a + th) <= 0) by (apply sin_le_0; lra).
      assert (Es : sin (miter_angle a + th) = 2 * sin h * cos h * cos th + (cos h * cos h - sin h * sin h) * sin th).
      { rewrite sin_plus. replace (miter_angle a) with (2 * h) by (unfold h; lra). rewrite sin_2a, cos_2a. ring. }
      apply (Rmult_le_reg_r (sin h * sin h)); [apply Rmult_lt_0_compat; auto|]. rewrite Rmult_0_l.
      replace (((r * r - l * l) * sin th - 2 * (r * l) * cos th) * (sin h * sin h)) with (r * r * (sin h * sin h) * sin th - (l * sin h) * (l * sin h) * sin th - 2 * r * (l * sin h) * sin h * cos th) by ring.
      rewrite El. replace (r * r * (sin h * sin h) * sin th - r * cos h * (r * cos h) * sin th - 2 * r * (r * cos h) * sin h * cos th) with (r * r * - (2 * sin h * cos h * cos th + (cos h * cos h - sin h * sin h) * sin th)) by ring.
      rewrite <- Es. assert (0 <= r * r) by nra. nra.
    + apply Rltb_false in Lim. set (t := Rabs k * Rabs (cross u v) / (1 + dot u v)).
      assert (Pt : 0 <= t) by (unfold t; apply Rmult_le_pos; [apply Rmult_le_pos; lra|left; apply Rinv_0_lt_compat; lra]).
      destruct (tip_meets y u v A B k Uu Uv eq_refl eq_refl ltac:(lra)) as (t' & T1 & T2 & T3).
      assert (Et : t' = t) by (apply (Rmult_eq_reg_r (1 + dot u v)); [|lra]; rewrite T3; replace (- k * cross u v) with (- (k * cross u v)) by ring; rewrite Sg; unfold t; field; lra). rewrite Et in *.
      cbn [app]. intros p q [E|[E|[]]]; injection E as <- <-; [unfold A; rewrite N1 by auto; apply N3; auto|]. rewrite <- T1, T2. unfold B. rewrite N2 by auto. apply N3; auto.
  - destruct (Rltb (cos (round_angle a)) (dot u v)) eqn:Lim; auto. apply Rltb_false in Lim. pose proof (round_range a) as Ra. pose proof PI_RGT_0 as Pi. pose proof (dot_range u v Uu Uv) as Dr.
    pose proof (acos_bound (dot u v)) as Ba. destruct (arc_count (dot u v) (round_angle a) Dr ltac:(lra) ltac:(lra) Lim) as (_ & _ & (m & N)).
    set (n := arc_steps_of (round_angle a) (dot u v)) in *. set (th := acos (dot u v)) in *. set (P := fun i : nat => off y (rotv (- sg k * (INR i * (th / INR n))) (normal_of u)) k).
    assert (Pn : 1 <= INR n) by (rewrite N, S_INR; pose proof (pos_INR m); lra).
    assert (E : A :: map P (seq 1 (n - 1)) ++ [B] = map P (seq 0 (S n))).
    { rewrite N. cbn [Nat.sub]. rewrite Nat.sub_0_r. change (seq 0 (S (S m))) with (0%nat :: seq 1 (S m)). rewrite (seq_S m 1), map_cons, map_app. cbn [map Nat.add]. f_equal; [|f_equal; f_equal].
      - unfold P, A. simpl (INR 0). replace (- sg k * (0 * (th / INR n))) with 0 by ring. rewrite rotv_0. reflexivity.
      - unfold P, B. rewrite <- N. replace (- sg k * (INR n * (th / INR n))) with (- sg k * th) by (field; lra). unfold th. rewrite rotv_normal. do 2 f_equal. unfold sg, Rleb in *. destruct (Rle_dec 0 k).
        + replace (- (1) * acos (dot u v)) with (- acos (dot u v)) by ring. rewrite rotv_right; auto. left. apply Sp. lra.
        + replace (- (-1) * acos (dot u v)) with (acos (dot u v)) by ring. rewrite rotv_left'; auto. apply Sn. lra. }
    rewrite E. intros p q H. apply steps_seq in H as (i & -> & ->). unfold P. rewrite turn3_off.
    set (w := rotv (- sg k * (INR i * (th / INR n))) (normal_of u)). assert (Uw : unit w) by (apply rotv_unit, unit_normal; auto).
    replace (rotv (- sg k * (INR (S i) * (th / INR n))) (normal_of u)) with (rotv (- sg k * (th / INR n)) w) by (unfold w; rewrite rotv_add, S_INR; f_equal; ring).
    assert (X : cross (rotv (- sg k * (th / INR n)) w) w = sg k * sin (th / INR n)).
    { unfold cross, rotv. cbn [fst snd]. unfold unit in Uw.
      replace ((cos (- sg k * (th / INR n)) * fst w - sin (- sg k * (th / INR n)) * snd w) * snd w - (sin (- sg k * (th / INR n)) * fst w + cos (- sg k * (th / INR n)) * snd w) * fst w) with (- sin (- sg k * (th / INR n)) * (fst w * fst w + snd w * snd w)) by ring.
      rewrite Uw. unfold sg. destruct (Rleb 0 k).
      - replace (- (1) * (th / INR n)) with (- (th / INR n)) by ring. rewrite sin_neg. ring.
      - replace (- (-1) * (th / INR n)) with (th / INR n) by ring. ring. }
    rewrite X. replace (k * (k * k * (sg k * sin (th / INR n)))) with (k * k * (sg k * k) * sin (th / INR n)) by ring. rewrite S2. apply Rmult_le_pos; [apply Rmult_le_pos; lra|]. apply sin_ge_0; [apply Rmult_le_pos; [lra|left; apply Rinv_0_lt_compat; lra]|].
    apply (Rmult_le_reg_r (INR n)); [lra|]. replace (th / INR n * INR n) with th by (field; lra). nra.
Qed.
Lemma omids_reach to_int j k y u v a : unit u -> unit v -> In a (omids to_int j k y u v) -> dist a y <= join_reach k j.
Proof.
  intros Uu Uv. pose proof (reach_ge k j) as G. pose proof (reach_pos k j) as G0. unfold omids. destruct (bends_in k u v); [intros []|]. cbv zeta. destruct j as [|an|an]; [intros []| |].
  - destruct (_ <? 4)%Z; [intros []|].
    assert (D : forall w l, unit w -> dist2 (off (off y (normal_of w) k) w l) y = k * k + l * l /\ dist2 (off (off y (normal_of w) k) (neg w) l) y = k * k + l * l).
    { intros w l U. unfold unit in U. unfold dist2, off, normal_of, neg. cbn [fst snd]. split; (transitivity ((k * k + l * l) * (fst w * fst w + snd w * snd w)); [ring|rewrite U; ring]). }
    assert (Kk : Rabs k * Rabs k = k * k) by (rewrite <- Rabs_mult; apply Rabs_pos_eq, Rle_0_sqr).
    destruct (Rltb _ (- cos _)) eqn:Lim.
    + assert (L : k * k + Rabs k / tan (miter_angle an / 2) * (Rabs k / tan (miter_angle an / 2)) = join_reach k (MiterJoin RF an) * join_reach k (MiterJoin RF an)).
      { rewrite <- (miter_len an k _ eq_refl). set (it := tan (miter_angle an / 2)). unfold Rdiv.
        transitivity (k * k + Rabs k * Rabs k * (/ it * / it)); [ring|rewrite Kk; ring]. }
      intros [<-|[<-|[]]]; (apply dist_le; auto); rewrite <- L; right; apply D; auto.
    + apply Rltb_false in Lim. pose proof (limit_gt an) as Lg. pose proof (dot_range u v Uu Uv) as Dr. intros [<-|[]]. apply dist_le; auto. apply (miter_sharp an k (dot u v)); auto.
      destruct (D u (Rabs k * Rabs (cross u v) / (1 + dot u v)) Uu) as [-> _].
      assert (Sq : Rabs (cross u v) * Rabs (cross u v) = 1 - dot u v * dot u v).
      { rewrite <- Rabs_mult, Rabs_pos_eq by apply Rle_0_sqr. unfold unit in Uu, Uv. transitivity ((fst u * fst u + snd u * snd u) * (fst v * fst v + snd v * snd v) - dot u v * dot u v); [unfold cross, dot; ring|rewrite Uu, Uv; ring]. }
      transitivity (k * k * (1 + dot u v) + Rabs k * Rabs k * (Rabs (cross u v) * Rabs (cross u v)) / (1 + dot u v)); [field; lra|]. rewrite Sq, Kk. field. lra.
  - destruct (Rltb _ _); [intros []|]. intro I. apply in_map_iff in I as (i & <- & _). rewrite off_dist by (apply rotv_unit, unit_normal; auto). exact G.
Qed.
