(** * The shape of miters and caps, in exact arithmetic *)
From Verif Require Import Base Spec ModelSegm SegmProofs ModelMesh MeshProofs MeshStrip ModelRect.
From Coq Require Import Reals Lra Psatz Qreals.
From Verif Require Import RealMesh RealJoin RealReach.
Open Scope R_scope.

(** the angle between two consecutive sides of directions [u] and [v], at their common vertex *)
Definition bend (u v : R * R) : R := PI - acos (dot u v).
Lemma bend_ge a u v : unit u -> unit v -> 0 <= a <= PI -> - cos a <= dot u v -> a <= bend u v.
Proof.
  intros U V A H. unfold bend. pose proof (dot_range u v U V) as D. pose proof (acos_bound (dot u v)) as B.
  destruct (Rle_dec (acos (dot u v)) (PI - a)) as [|N]; [lra|]. exfalso. assert (L : PI - a < acos (dot u v)) by lra.
  apply cos_decreasing_1 in L; try lra. rewrite cos_acos in L by auto. rewrite cos_minus, cos_PI, sin_PI in L. lra.
Qed.
Lemma bend_lt a u v : unit u -> unit v -> 0 <= a <= PI -> dot u v < - cos a -> bend u v < a.
Proof.
  intros U V A H. unfold bend. pose proof (dot_range u v U V) as D. pose proof (acos_bound (dot u v)) as B.
  destruct (Rlt_dec (PI - a) (acos (dot u v))) as [|N]; [lra|]. exfalso. assert (L : acos (dot u v) <= PI - a) by lra.
  apply cos_le in L; try lra. rewrite cos_acos in L by auto. rewrite cos_minus, cos_PI, sin_PI in L. lra.
Qed.

(** [T] is the point where the side through [A] of direction [u] and the side through [B] of direction [v] meet, ahead of [A] and behind [B] *)
Definition meets (A B u v T : R * R) : Prop := exists t, 0 <= t /\ T = off A u t /\ T = off B (neg v) t.
(** The pieces of a miter from [A] to [B]: up to the point where the sides meet if the sides bend by [a] or more, otherwise both sides are
    cut off after [r / tan (a / 2)]. *)
Definition mitered (to_int : R * R -> pt) (a r : R) (u v A B : R * R) (m : pt * pt) : Prop :=
  (a <= bend u v /\ exists T, meets A B u v T /\ (m = (to_int A, to_int T) \/ m = (to_int T, to_int B))) \/
  (bend u v < a /\ let p := off A u (r / tan (a / 2)) in let p' := off B (neg v) (r / tan (a / 2)) in
     (m = (to_int A, to_int p) \/ m = (to_int p, to_int p') \/ m = (to_int p', to_int B))).

Section Sharp.
  Variables (to_int : R * R -> pt) (y u v pa pb : R * R) (k : R).
  Hypothesis Uu : unit u.
  Hypothesis Uv : unit v.
  Hypothesis Ha : pa = off y (normal_of u) k.
  Hypothesis Hb : pb = off y (normal_of v) k.
  Hypothesis Hc : -1 < dot u v.
  Definition tip : R * R :=
    let xx := fst u + fst v in
    let yy := snd u + snd v in
    let q := if Rltb (Rabs yy) (Rabs xx) then (fst pb - fst pa) / xx else (snd pb - snd pa) / yy in
    (fst pa + q * fst u, snd pa + q * snd u).
  Lemma sharp_tip : sharp RF to_int pa pb u v =
    if pt_eqb (to_int pa) (to_int pb) then Degenerate
    else if pt_eqb (to_int pa) (to_int tip) || pt_eqb (to_int pb) (to_int tip) then AB (to_int pa) (to_int pb) else AcB (to_int pa) (to_int tip) (to_int pb).
  Proof. reflexivity. Qed.
  Lemma tip_meets : exists t, tip = off pa u t /\ tip = off pb (neg v) t /\ t * (1 + dot u v) = - k * cross u v.
  Proof.
    unfold tip. set (xx := fst u + fst v). set (yy := snd u + snd v). cbv zeta. set (q := if Rltb _ _ then _ else _). exists q.
    assert (S : xx * xx + yy * yy = 2 + 2 * dot u v) by (unfold unit in *; unfold xx, yy, dot; lra).
    assert (O : (fst u - fst v) * xx + (snd u - snd v) * yy = 0) by (unfold unit in *; unfold xx, yy; lra).
    assert (E1 : fst pb - fst pa = k * (snd u - snd v)) by (rewrite Ha, Hb; unfold off, normal_of; cbn [fst snd]; ring).
    assert (E2 : snd pb - snd pa = k * (fst v - fst u)) by (rewrite Ha, Hb; unfold off, normal_of; cbn [fst snd]; ring).
    assert (K : q * xx = k * (snd u - snd v) /\ q * yy = k * (fst v - fst u)).
    { unfold q. destruct (Rltb (Rabs yy) (Rabs xx)) eqn:T.
      - apply Rltb_true in T. assert (N : xx <> 0) by (intro Z; rewrite Z, Rabs_R0 in T; pose proof (Rabs_pos yy); lra).
        rewrite E1. split; [field; auto|]. apply (Rmult_eq_reg_r xx); auto. replace (k * (snd u - snd v) / xx * yy * xx) with (k * ((snd u - snd v) * yy)) by (field; auto).
        replace ((snd u - snd v) * yy) with (- ((fst u - fst v) * xx)) by lra. ring.
      - apply Rltb_false in T. assert (N : yy <> 0).
        { intro Z. rewrite Z, Rabs_R0 in T. assert (xx = 0) by (destruct (Req_dec xx 0); auto; pose proof (Rabs_pos_lt xx); lra). nra. }
        rewrite E2. split; [|field; auto]. apply (Rmult_eq_reg_r yy); auto. replace (k * (fst v - fst u) / yy * xx * yy) with (- k * ((fst u - fst v) * xx)) by (field; auto).
        replace ((fst u - fst v) * xx) with (- ((snd u - snd v) * yy)) by lra. ring. }
    clearbody q. destruct K as [K1 K2]. split; [unfold off; f_equal; ring|]. split.
    - unfold off, neg. cbn [fst snd]. f_equal; unfold xx, yy in *; lra.
    - apply (Rmult_eq_reg_r 2); [|lra]. replace (q * (1 + dot u v) * 2) with (q * (2 + 2 * dot u v)) by ring. rewrite <- S.
      replace (q * (xx * xx + yy * yy)) with ((q * xx) * xx + (q * yy) * yy) by ring. rewrite K1, K2. unfold xx, yy, cross. ring.
  Qed.
End Sharp.

Lemma push_in a b m : In m (push_ne a b) -> travel m = (a, b).
Proof. unfold push_ne. destruct (pt_eqb a b); [intros []|]. intros [<-|[]]. apply travel_bold. Qed.

Section Corner.
  Variables (to_int : R * R -> pt) (x y z : R * R) (r : R).
  Hypothesis Nxy : x <> y.
  Hypothesis Nyz : y <> z.
  Let u := dir x y.
  Let v := dir y z.
  Let Uu : unit u := dir_unit x y Nxy.
  Let Uv : unit v := dir_unit y z Nyz.

  Lemma sharp_mitered a A B k : A = off y (normal_of u) k -> B = off y (normal_of v) k -> - cos (miter_angle a) <= dot u v -> k * cross u v <= 0 ->
    match sharp RF to_int A B u v with
    | Degenerate => True
    | AB ia ib => mitered to_int (miter_angle a) r u v A B (ia, ib)
    | AcB ia ic ib => mitered to_int (miter_angle a) r u v A B (ia, ic) /\ mitered to_int (miter_angle a) r u v A B (ic, ib)
    end.
  Proof.
    intros Ha Hb L C. pose proof (limit_gt a) as Lg. pose proof (miter_range a) as Mr. pose proof PI_RGT_0 as Pi.
    assert (Be : miter_angle a <= bend u v) by (apply bend_ge; auto; lra).
    destruct (tip_meets y u v A B k Uu Uv Ha Hb ltac:(lra)) as (t & T1 & T2 & T3).
    assert (M : meets A B u v (tip u v A B)).
    { exists t. split; auto. assert (0 < 1 + dot u v) by lra. destruct (Rle_dec 0 t); auto. exfalso. nra. }
    rewrite sharp_tip. destruct (pt_eqb _ _) eqn:E; [exact I|]. destruct (pt_eqb (to_int A) _ || pt_eqb (to_int B) _)%bool eqn:E'.
    - apply orb_true_iff in E' as [E'|E']; apply pt_eqb_eq in E'; left; (split; [auto|]); exists (tip u v A B); (split; [auto|]).
      + right. rewrite E'. reflexivity.
      + left. rewrite E'. reflexivity.
    - split; left; (split; [auto|]); exists (tip u v A B); auto.
  Qed.
  Lemma sharp_mitered_rev a A B k : A = off y (normal_of u) k -> B = off y (normal_of v) k -> - cos (miter_angle a) <= dot u v -> k * cross u v <= 0 ->
    match sharp RF to_int B A v u with
    | Degenerate => True
    | AB ib ia => mitered to_int (miter_angle a) r u v A B (ia, ib)
    | AcB ib ic ia => mitered to_int (miter_angle a) r u v A B (ia, ic) /\ mitered to_int (miter_angle a) r u v A B (ic, ib)
    end.
  Proof.
    intros Ha Hb L C. pose proof (limit_gt a) as Lg. pose proof (miter_range a) as Mr. pose proof PI_RGT_0 as Pi.
    assert (Be : miter_angle a <= bend u v) by (apply bend_ge; auto; lra).
    destruct (tip_meets y v u B A k Uv Uu Hb Ha ltac:(rewrite dot_comm; lra)) as (t & T1 & T2 & T3).
    assert (M : meets A B u v (tip v u B A)).
    { exists (- t). split; [|split].
      - assert (0 < 1 + dot u v) by lra. rewrite dot_comm in T3. replace (cross v u) with (- cross u v) in T3 by (unfold cross; ring). destruct (Rle_dec 0 (- t)); auto. exfalso. nra.
      - rewrite T2. unfold off, neg. cbn [fst snd]. f_equal; ring.
      - rewrite T1. unfold off, neg. cbn [fst snd]. f_equal; ring. }
    rewrite sharp_tip. destruct (pt_eqb _ _) eqn:E; [exact I|]. destruct (pt_eqb (to_int B) _ || pt_eqb (to_int A) _)%bool eqn:E'.
    - apply orb_true_iff in E' as [E'|E']; apply pt_eqb_eq in E'; left; (split; [auto|]); exists (tip v u B A); (split; [auto|]).
      + left. rewrite E'. reflexivity.
      + right. rewrite E'. reflexivity.
    - split; left; (split; [auto|]); exists (tip v u B A); auto.
  Qed.
  Lemma cut_mitered a A B m : dot u v < - cos (miter_angle a) ->
    (m = (to_int A, to_int (off A u (r / tan (miter_angle a / 2)))) \/ m = (to_int (off A u (r / tan (miter_angle a / 2))), to_int (off B (neg v) (r / tan (miter_angle a / 2)))) \/
     m = (to_int (off B (neg v) (r / tan (miter_angle a / 2))), to_int B)) -> mitered to_int (miter_angle a) r u v A B m.
  Proof.
    intros L H. pose proof (miter_range a) as Mr. pose proof PI_RGT_0 as Pi. right. split; [apply bend_lt; auto; lra|]. exact H.
  Qed.

  Notation swap m := (snd m, fst m).
  Lemma smiter_drawn a s : 0 <= r -> In s (stroke_join RF to_int r (MiterJoin RF (miter_angle a)) (section_new RF r x y) (section_new RF r y z)) ->
    let LA := off y (normal_of u) r in let LB := off y (normal_of v) r in
    let RA := off y (neg (normal_of u)) r in let RB := off y (neg (normal_of v)) r in
    (Rabs (cross u v) < 1 / 10000 /\ (travel s = (to_int LB, to_int LA) \/ travel s = (to_int RA, to_int RB))) \/
    (0 < cross u v /\ (travel s = (to_int LB, to_int LA) \/ mitered to_int (miter_angle a) r u v RA RB (travel s))) \/
    (cross u v <= 0 /\ (travel s = (to_int RA, to_int RB) \/ mitered to_int (miter_angle a) r u v LA LB (swap (travel s)))).
  Proof.
    intros P H LA LB RA RB. revert H. rewrite !section_real. fold u v. cbn [stroke_join]. unfold miter_join. cbv zeta.
    unfold miter_new. cbv zeta. unfold join_top, join_bot. cbn [m_limit m_len s_dir s_abot s_bbot s_btop s_atop].
    change (p_dot RF u v) with (dot u v). change (p_cross RF u v) with (cross u v). unfold lit.
    fold LA LB RA RB.
    cbn [RF n_lt n_abs n_neg n_add n_sub n_mul to_f64 from_f64 d_cos d_mul d_max d_div d_tan d_lit f_xy f_x f_y fst snd]. rewrite q_1_2, q_0, !fixed_real.
    replace (Q2R (1 # 10000)) with (1 / 10000) by (unfold Q2R; simpl; lra).
    assert (Top : In s (add_segment RF to_int LA LB) -> travel s = (to_int LB, to_int LA)).
    { unfold add_segment. destruct (pt_eqb _ _); [intros []|]. intros [<-|[]]. apply travel_bold. }
    assert (Bot : In s (add_segment RF to_int RB RA) -> travel s = (to_int RA, to_int RB)).
    { unfold add_segment. destruct (pt_eqb _ _); [intros []|]. intros [<-|[]]. apply travel_bold. }
    destruct (Rltb (Rabs _) _) eqn:Fl.
    { apply Rltb_true in Fl. intro H. left. split; auto. apply in_app_or in H as [H|H]; auto. }
    intro H. right. revert H. replace (/ 2 * miter_angle a) with (miter_angle a / 2) by lra. set (l := r / tan (miter_angle a / 2)).
    assert (EA : RA = off y (normal_of u) (- r)) by (unfold RA, off, neg, normal_of; cbn [fst snd]; f_equal; ring).
    assert (EB : RB = off y (normal_of v) (- r)) by (unfold RB, off, neg, normal_of; cbn [fst snd]; f_equal; ring).
    assert (Add : forall p d, (fst p + l * fst d, snd p + l * snd d) = off p d l) by (intros; unfold off; f_equal; ring).
    assert (Sub : forall p d, (fst p - l * fst d, snd p - l * snd d) = off p (neg d) l) by (intros; unfold off, neg; cbn [fst snd]; f_equal; ring).
    destruct (Rltb (dot u v) (- cos (miter_angle a))) eqn:Lim; [apply Rltb_true in Lim|apply Rltb_false in Lim];
    (destruct (Rltb 0 (cross u v)) eqn:Tu; [apply Rltb_true in Tu|apply Rltb_false in Tu]; intro H; [left|right]; (split; [auto|])).
    - rewrite Sub, Add in H. destruct (pt_eqb _ _); [left; auto|]. apply in_app_or in H as [H|H]; [left; auto|right].
      apply cut_mitered; auto. fold l. repeat (apply in_app_or in H as [H|H]); apply push_in in H; auto.
    - rewrite Sub, Add in H. destruct (pt_eqb _ _); [left; auto|]. apply in_app_or in H as [H|H]; [left; auto|right].
      apply cut_mitered; auto. fold l. repeat (apply in_app_or in H as [H|H]); apply push_in in H; rewrite H; cbn [fst snd]; auto.
    - apply in_app_or in H as [H|H]; [left; auto|right].
      pose proof (sharp_mitered_rev a RA RB (- r) EA EB Lim ltac:(nra)) as M. destruct (sharp RF to_int RB RA v u); [destruct H|..].
      + destruct H as [<-|[]]. rewrite travel_bold. exact M.
      + destruct M as [M1 M2]. destruct H as [<-|[<-|[]]]; rewrite travel_bold; auto.
    - apply in_app_or in H as [H|H]; [left; auto|right].
      pose proof (sharp_mitered a LA LB r eq_refl eq_refl Lim ltac:(nra)) as M. destruct (sharp RF to_int LA LB u v); [destruct H|..].
      + destruct H as [<-|[]]. rewrite travel_bold. exact M.
      + destruct M as [M1 M2]. destruct H as [<-|[<-|[]]]; rewrite travel_bold; auto.
  Qed.
End Corner.

(** the offset of a contour, radius of any sign *)
Section OCorner.
  Variables (to_int : R * R -> pt) (x y z : R * R) (r : R).
  Hypothesis Nxy : x <> y.
  Hypothesis Nyz : y <> z.
  Let u := dir x y.
  Let v := dir y z.
  Let Uu : unit u := dir_unit x y Nxy.
  Let Uv : unit v := dir_unit y z Nyz.
  Lemma omiter_drawn a s : In s (outline_join RF to_int r (MiterJoin RF (miter_angle a)) (osection_new RF r x y) (osection_new RF r y z)) ->
    let A := off y (normal_of u) r in let B := off y (normal_of v) r in
    (((0 <= r <-> 0 <= cross u v) \/ (sqr_distance (to_int A) (to_int B) < 4)%Z) /\ travel s = (to_int A, to_int B)) \/
    (r * cross u v <= 0 /\ mitered to_int (miter_angle a) (Rabs r) u v A B (travel s)).
  Proof.
    intros H A B. revert H. rewrite !osection_real. fold u v. cbn [outline_join]. unfold omiter_join. cbv zeta.
    unfold omiter_new. cbv zeta. unfold join_weak. cbn [om_limit om_len om_expand os_dir os_b os_btop os_atop].
    change (p_dot RF u v) with (dot u v). change (p_cross RF u v) with (cross u v). unfold lit. fold A B.
    cbn [RF n_lt n_le n_abs n_neg n_add n_sub n_mul to_f64 from_f64 d_cos d_mul d_max d_abs d_div d_tan d_lit f_xy f_x f_y fst snd]. rewrite q_1_2, q_0, !fixed_real.
    assert (Weak : In s (if pt_eqb (to_int A) (to_int B) then [] else [weak_ab (to_int A) (to_int B)]) -> travel s = (to_int A, to_int B)).
    { destruct (pt_eqb _ _); [intros []|]. intros [<-|[]]. apply travel_weak. }
    destruct (Bool.eqb (Rleb 0 (cross u v)) (Rleb 0 r)) eqn:Turn.
    { apply Bool.eqb_prop in Turn. intro H. left. split; auto. left. unfold Rleb in Turn. destruct (Rle_dec 0 (cross u v)), (Rle_dec 0 r); try discriminate; tauto. }
    assert (Sg : r * cross u v <= 0).
    { unfold Rleb in Turn. destruct (Rle_dec 0 (cross u v)), (Rle_dec 0 r); try discriminate; nra. }
    destruct (_ <? 4)%Z eqn:Near.
    { apply Z.ltb_lt in Near. intro H. left. split; auto. }
    intro H. right. split; auto. revert H. replace (/ 2 * miter_angle a) with (miter_angle a / 2) by lra. set (l := Rabs r / tan (miter_angle a / 2)).
    destruct (Rltb (dot u v) (- cos (miter_angle a))) eqn:Lim; [apply Rltb_true in Lim|apply Rltb_false in Lim]; intro H.
    - apply (cut_mitered to_int x y z (Rabs r) Nxy Nyz a A B); auto. fold u v l.
      replace (fst A + l * fst u, snd A + l * snd u) with (off A u l) in H by (unfold off; f_equal; ring).
      replace (fst B - l * fst v, snd B - l * snd v) with (off B (neg v) l) in H by (unfold off, neg; cbn [fst snd]; f_equal; ring).
      repeat (apply in_app_or in H as [H|H]); apply push_in in H; auto.
    - pose proof (sharp_mitered to_int x y z (Rabs r) Nxy Nyz a A B r eq_refl eq_refl Lim Sg) as M. fold u v in M. destruct (sharp RF to_int A B u v); [destruct H|..].
      + destruct H as [<-|[]]. rewrite travel_bold. exact M.
      + destruct M as [M1 M2]. destruct H as [<-|[<-|[]]]; rewrite travel_bold; auto.
  Qed.
End OCorner.

(** ** Caps *)
(** consecutive pairs of a list of points *)
Fixpoint steps (l : list pt) : list (pt * pt) := match l with a :: ((b :: _) as r) => (a, b) :: steps r | _ => [] end.
(** the cap in its own coordinates: the path comes from the left and ends in the origin, its sides end in (0, -1) and (0, 1);
    round: the points of the half circle at the multiples of [PI / n], [n] the largest number with [angle <= PI / n] *)
Definition cap_steps (a : R) : nat := Z.to_nat (Int_part (PI / round_angle a)).
Definition cap_shape (c : line_cap RF) : list (R * R) :=
  match c with
  | Butt _ => []
  | RoundCap _ a => map (fun k => (sin (INR k * (PI / INR (cap_steps a))), - cos (INR k * (PI / INR (cap_steps a))))) (seq 1 (cap_steps a - 1))
  | Square _ => [(1, -1); (1, 1)]
  | Custom _ l => l
  end.
Definition place (c d : R * R) (r : R) (p : R * R) : R * R := off (off c d (fst p * r)) (normal_of d) (snd p * r).
Definition cap_walk (to_int : R * R -> pt) (c d : R * R) (r : R) (shape : list (R * R)) : list (pt * pt) :=
  steps (map (fun p => to_int (place c d r p)) ((0, -1) :: shape ++ [(0, 1)])).

Lemma cap_steps_range a : (4 <= cap_steps a <= 100)%nat /\ round_angle a <= PI / INR (cap_steps a) <= 4 / 3 * round_angle a.
Proof.
  pose proof (round_range a) as [A B]. pose proof PI_RGT_0 as Pi. unfold cap_steps. set (q := PI / round_angle a).
  assert (Lo : PI / 100 <= round_angle a) by (unfold round_angle; apply Rmax_l).
  assert (Q1 : 4 <= q). { unfold q. apply (Rmult_le_reg_r (round_angle a)); auto. replace (PI / round_angle a * round_angle a) with PI by (field; lra). lra. }
  assert (Q2 : q <= 100). { unfold q. apply (Rmult_le_reg_r (round_angle a)); auto. replace (PI / round_angle a * round_angle a) with PI by (field; lra). lra. }
  destruct (base_Int_part q) as [L G]. set (z := Int_part q) in *.
  assert (Z1 : (4 <= z)%Z) by (assert (T : IZR 3 < IZR z) by lra; apply lt_IZR in T; lia).
  assert (Z2 : (z <= 100)%Z) by (assert (T : IZR z < IZR 101) by lra; apply lt_IZR in T; lia).
  split; [lia|]. rewrite IZR_to_nat by lia. assert (Pz : 4 <= IZR z) by (apply (IZR_le 4); auto). assert (Eq : q * round_angle a = PI) by (unfold q; field; lra).
  split; apply (Rmult_le_reg_r (IZR z)); try lra; replace (PI / IZR z * IZR z) with PI by (field; lra); rewrite <- Eq; nra.
Qed.
Lemma round_loop_map th r : forall k i v, round_loop RF k (rot_angle RF th) (rotv (INR i * th) v) r = map (fun j => p_scale RF (rotv (INR j * th) v) r) (seq (S i) k).
Proof.
  induction k as [|k IH]; intros i v; [reflexivity|]. cbn [round_loop seq map]. cbv zeta. rewrite rotate_real, rotv_add.
  replace (th + INR i * th) with (INR (S i) * th) by (rewrite S_INR; ring). f_equal. apply IH.
Qed.
Lemma cap_points_real c r : opt_points RF (cap_points RF (cap_normalize RF c) r) = map (fun p => p_scale RF p r) (cap_shape c).
Proof.
  destruct c as [|a| |l]; try reflexivity.
  - cbn [cap_normalize cap_points opt_points cap_shape]. unfold round_points, clamp_pi, lit. cbn [RF from_f64 to_f64 d_clamp d_mul d_lit d_pi d_div n_lt]. rewrite q_1_100, q_25_100, q_0, q_m1.
    replace (/ 100 * PI) with (PI / 100) by lra. replace (/ 4 * PI) with (PI / 4) by lra. fold (round_angle a).
    pose proof (round_range a) as [A B]. destruct (cap_steps_range a) as [N _].
    assert (E : Rltb 0 (round_angle a) = true) by (unfold Rltb; destruct (Rlt_dec 0 (round_angle a)); auto; lra). 
    cbv zeta. rewrite ?E. change (d_usize RF (PI / round_angle a)) with (cap_steps a).
    replace (Nat.min (Nat.max (cap_steps a) 2) 1024) with (cap_steps a) by lia. change (d_of_nat RF (cap_steps a)) with (INR (cap_steps a)). set (th := PI / INR (cap_steps a)).
    change (f_xy RF 0 (-1)) with ((0, -1) : R * R). pose proof (round_loop_map th r (cap_steps a - 1) 0 (0, -1)) as Rl. replace (INR 0 * th) with 0 in Rl by (simpl; ring). rewrite rotv_0 in Rl. etransitivity; [exact Rl|]. rewrite map_map.
    apply map_ext. intro k. unfold rotv. cbn [fst snd]. cbn [RF p_scale fst snd]. f_equal; ring.
  - cbn [cap_normalize cap_points opt_points cap_shape map square_points]. unfold square_points. cbn [RF p_scale f_xy n_neg fst snd]. assert (E : forall t : R, (t, - t) = (1 * t, -1 * t) /\ (t, t) = (1 * t, 1 * t)) by (intro t; split; f_equal; ring). destruct (E r) as [-> E2]. f_equal. f_equal. exact E2.
Qed.
Lemma cap_loop_steps to_int d c r last : forall shape a, map travel (cap_loop RF to_int (rot_vector RF d) c (map (fun p => p_scale RF p r) shape) a last) =
  steps (a :: map (fun p => to_int (place c d r p)) shape ++ [last]).
Proof.
  induction shape as [|p shape IH]; intro a; cbn [map cap_loop]; cbv zeta; cbn [map app steps]; rewrite travel_bold; [reflexivity|].
  rewrite IH. cbn [app].
  match goal with |- (a, to_int ?x) :: _ = _ => replace x with (place c d r p) end; [reflexivity|].
  unfold place, off, normal_of, rotate, rot_vector, rot_new. cbn [RF r_ax r_ay r_bx r_by n_add n_mul n_neg f_x f_y f_xy p_add p_scale fst snd]. f_equal; ring.
Qed.
Lemma end_cap to_int r x y c : map travel (add_to_end RF to_int (cap_points RF (cap_normalize RF c) r) (section_new RF r x y)) = cap_walk to_int y (dir x y) r (cap_shape c).
Proof.
  rewrite section_real. unfold add_to_end. cbn [s_dir s_b s_btop s_bbot]. rewrite cap_points_real, cap_loop_steps. unfold cap_walk. cbn [map app]. rewrite map_app. cbn [map].
  do 2 f_equal; [f_equal; unfold place, off, neg, normal_of; cbn [fst snd]; f_equal; ring|]. f_equal. f_equal. f_equal. unfold place, off, neg, normal_of; cbn [fst snd]; f_equal; ring.
Qed.
Lemma start_cap to_int r x y c : map travel (add_to_start RF to_int (cap_points RF (cap_normalize RF c) r) (section_new RF r x y)) = cap_walk to_int x (neg (dir x y)) r (cap_shape c).
Proof.
  rewrite section_real. unfold add_to_start. cbn [s_dir s_a s_atop s_abot]. cbn [RF f_xy f_x f_y n_neg]. change (- fst (dir x y), - snd (dir x y)) with (neg (dir x y)).
  rewrite cap_points_real, cap_loop_steps. unfold cap_walk. cbn [map app]. rewrite map_app. cbn [map].
  do 2 f_equal; [f_equal; unfold place, off, neg, normal_of; cbn [fst snd]; f_equal; ring|]. f_equal. f_equal. f_equal. unfold place, off, neg, normal_of; cbn [fst snd]; f_equal; ring.
Qed.
