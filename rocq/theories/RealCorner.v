(** * What a stroke draws at a corner: two chains of points, one on each side. *)
From Verif Require Import Base Spec QLib ModelSegm SegmProofs SplitNear ModelMesh MeshProofs MeshStrip.
From Coq Require Import Reals Lra Psatz Qreals.
From Verif Require Import RealMesh RealJoin RealReach RealMiter RealWind RealMove.
Open Scope R_scope.

Fixpoint steps {A} (l : list A) : list (A * A) :=
  match l with a :: ((b :: _) as r) => (a, b) :: steps r | _ => [] end.
Lemma steps_map {A B} (f : A -> B) : forall l, steps (map f l) = map (fun e => (f (fst e), f (snd e))) (steps l).
Proof. induction l as [|a [|b l] IH]; auto. change (steps (map f (a :: b :: l))) with ((f a, f b) :: steps (map f (b :: l))). rewrite IH. reflexivity. Qed.
Lemma steps_app {A} (b : A) : forall l m, steps (l ++ b :: m) = steps (l ++ [b]) ++ steps (b :: m).
Proof. induction l as [|a [|c l] IH]; intro m; auto. change ((a, c) :: steps ((c :: l) ++ b :: m) = (a, c) :: steps ((c :: l) ++ [b]) ++ steps (b :: m)). rewrite IH. reflexivity. Qed.

(** the sum of the edges of a list of segments, taken in the direction they are drawn; of a chain of points *)
Definition segs_wind (q : qpt) (js : list (segment cntO)) : Z := zsum (fun s => edge_wind q (travel s)) js.
Definition chain_wind (q : qpt) (l : list pt) : Z := zsum (edge_wind q) (steps l).
(** the segments run backwards along the chain; edges of length zero may be left out *)
Definition back (js : list (segment cntO)) (l : list pt) : Prop :=
  (forall q, segs_wind q js = - chain_wind q l)%Z /\ forall a b, In (a, b) (steps l) -> a = b \/ In (b, a) (map travel js).
Definition forth (js : list (segment cntO)) (l : list pt) : Prop :=
  (forall q, segs_wind q js = chain_wind q l)%Z /\ forall a b, In (a, b) (steps l) -> a = b \/ In (a, b) (map travel js).

Lemma edge_wind_self q a : edge_wind q (a, a) = 0%Z.
Proof. pose proof (edge_wind_anti q a a). lia. Qed.
Lemma back_one a : back [] [a].
Proof. split; [reflexivity|]. intros ? ? []. Qed.
Lemma back_cons_eq js a l : back js (a :: l) -> back js (a :: a :: l).
Proof.
  intros [A B]. split.
  - intro q. rewrite A. unfold chain_wind. change (steps (a :: a :: l)) with ((a, a) :: steps (a :: l)). rewrite zsum_cons, edge_wind_self. lia.
  - intros x y I. change (steps (a :: a :: l)) with ((a, a) :: steps (a :: l)) in I. destruct I as [E|I]; auto. injection E as <- <-. auto.
Qed.
Lemma back_cons js a b l : back js (b :: l) -> back (bold_ab b a :: js) (a :: b :: l).
Proof.
  intros [A B]. split.
  - intro q. unfold segs_wind, chain_wind in *. change (steps (a :: b :: l)) with ((a, b) :: steps (b :: l)). rewrite !zsum_cons, A, travel_bold, (edge_wind_anti q a b). lia.
  - intros x y I. change (steps (a :: b :: l)) with ((a, b) :: steps (b :: l)) in I. cbn [map]. rewrite travel_bold. destruct I as [E|I]; [injection E as <- <-; simpl; auto|]. destruct (B x y I); simpl; auto.
Qed.
Lemma back_push js a b l : back js (b :: l) -> back (push_ne b a ++ js) (a :: b :: l).
Proof. intro H. unfold push_ne. destruct (pt_eqb b a) eqn:E; [apply pt_eqb_eq in E; subst; apply back_cons_eq; auto|apply back_cons; auto]. Qed.
Lemma push_sym (a b : pt) : (if pt_eqb a b then [] else [bold_ab b a]) = push_ne b a.
Proof. unfold push_ne. destruct (pt_eqb a b) eqn:E, (pt_eqb b a) eqn:F; auto; [apply pt_eqb_eq in E|apply pt_eqb_eq in F]; subst; rewrite (proj2 (pt_eqb_eq _ _) eq_refl) in *; discriminate. Qed.
Lemma back_edge a b : back (if pt_eqb a b then [] else [bold_ab b a]) [a; b].
Proof. rewrite push_sym. rewrite <- (app_nil_r (push_ne b a)). apply back_push, back_one. Qed.
Lemma back_arc to_int th center r last : forall k v,
  back (arc_loop RF to_int (fun a b => bold_ab b a) (rot_angle RF th) center r k v (to_int (off center v r)) last)
       (to_int (off center v r) :: map (fun i => to_int (off center (rotv (INR i * th) v) r)) (seq 1 k) ++ [last]).
Proof.
  induction k as [|k IH]; intro v.
  - cbn [arc_loop seq map app]. apply back_edge.
  - cbn [arc_loop]. cbv zeta. rewrite rotate_real. change (p_add RF center (p_scale RF (rotv th v) r)) with (off center (rotv th v) r).
    cbn [seq map app]. rewrite <- seq_shift, map_map.
    assert (E : map (fun i => to_int (off center (rotv (INR (S i) * th) v) r)) (seq 1 k) = map (fun i => to_int (off center (rotv (INR i * th) (rotv th v)) r)) (seq 1 k)).
    { apply map_ext. intro i. rewrite rotv_add, S_INR. do 3 f_equal. ring. }
    rewrite E. change (INR 1) with 1. rewrite Rmult_1_l. specialize (IH (rotv th v)).
    destruct (pt_eqb _ _) eqn:Q; [apply pt_eqb_eq in Q; rewrite Q; apply back_cons_eq; auto|apply back_cons; auto].
Qed.
Lemma forth_cap to_int d center last : forall points a,
  forth (cap_loop RF to_int (rot_vector RF d) center points a last)
        (a :: map (fun p => to_int (fst p * fst d - snd p * snd d + fst center, fst p * snd d + snd p * fst d + snd center)) points ++ [last]).
Proof.
  induction points as [|p points IH]; intro a; cbn [cap_loop map app].
  - split; [intro q; unfold segs_wind, chain_wind; cbn [steps]; rewrite !zsum_cons, travel_bold; reflexivity|]. intros x y [E|[]]. injection E as <- <-. right. simpl. rewrite travel_bold. auto.
  - cbv zeta. assert (E : p_add RF (rotate RF (rot_vector RF d) p) center = (fst p * fst d - snd p * snd d + fst center, fst p * snd d + snd p * fst d + snd center)).
    { unfold rotate, rot_vector, rot_new. cbn [RF p_add r_ax r_ay r_bx r_by n_add n_mul n_neg f_x f_y f_xy fst snd]. f_equal; ring. }
    rewrite E. destruct (IH (to_int (fst p * fst d - snd p * snd d + fst center, fst p * snd d + snd p * fst d + snd center))) as [A B]. set (c := to_int _) in *. split.
    + intro q. specialize (A q). unfold segs_wind, chain_wind in *. change (steps (a :: c :: ?l)) with ((a, c) :: steps (c :: l)). rewrite !zsum_cons, A, travel_bold. reflexivity.
    + intros x y I. change (steps (a :: c :: ?l)) with ((a, c) :: steps (c :: l)) in I. cbn [map]. rewrite travel_bold. destruct I as [Q|I]; [injection Q as <- <-; simpl; auto|]. destruct (B x y I); simpl; auto.
Qed.

(** ** The points of a corner *)
(** The points between [A] and [B] on the outer side of a corner that turns to the right at [y], from direction [u] to direction [v]
    ([A], [B]: [y] moved to the left of [u], [v] by [r]).  A corner that turns to the left is one that turns to the right on the way back. *)
Definition arc_steps_of (a c : R) : nat := Z.to_nat (Int_part (acos c * (1 / a) + / 2)).
Definition mids (to_int : rpt -> pt) (j : line_join RF) (r : R) (y u v : rpt) : list rpt :=
  let A := off y (normal_of u) r in
  let B := off y (normal_of v) r in
  match j with
  | Bevel _ => []
  | MiterJoin _ a =>
      if Rltb (Rabs (cross u v)) (1 / 10000) then []
      else if pt_eqb (to_int A) (to_int B) then []
      else if Rltb (dot u v) (- cos (miter_angle a)) then [off A u (r / tan (miter_angle a / 2)); off B (neg v) (r / tan (miter_angle a / 2))]
      else [off A u (r * Rabs (cross u v) / (1 + dot u v))]
  | RoundJoin _ a =>
      if Rltb (cos (round_angle a)) (dot u v) then []
      else let n := arc_steps_of (round_angle a) (dot u v) in
           map (fun i => off y (rotv (- (INR i * (acos (dot u v) / INR n))) (normal_of u)) r) (seq 1 (n - 1))
  end.
Definition left_mids to_int j r y u v : list rpt := if Rltb 0 (cross u v) then [] else mids to_int j r y u v.
Definition right_mids to_int j r y u v : list rpt := if Rltb 0 (cross u v) then mids to_int j r y (neg v) (neg u) else [].

Section Corner.
  Variables (to_int : rpt -> pt) (x y z : rpt) (r : R).
  Hypothesis Nxy : x <> y.
  Hypothesis Nyz : y <> z.
  Let u := dir x y.
  Let v := dir y z.
  Let Uu : unit u := dir_unit x y Nxy.
  Let Uv : unit v := dir_unit y z Nyz.
  Notation LA := (off y (normal_of u) r).
  Notation LB := (off y (normal_of v) r).
  Notation RA := (off y (neg (normal_of u)) r).
  Notation RB := (off y (neg (normal_of v)) r).
  Notation joined js T B := (exists js1 js2, (js = js1 ++ js2 \/ js = js2 ++ js1) /\
    back js1 (map to_int (LA :: T ++ [LB])) /\ back js2 (map to_int (RB :: B ++ [RA]))).

  Lemma bevel_joined : joined (stroke_join RF to_int r (Bevel RF) (section_new RF r x y) (section_new RF r y z)) (@nil rpt) (@nil rpt).
  Proof.
    rewrite !section_real. fold u v. cbn [stroke_join]. unfold bevel_join, join_top, join_bot, add_segment. cbv zeta. cbn [s_btop s_atop s_abot s_bbot app map].
    eexists _, _. split; [left; reflexivity|]. split; apply back_edge.
  Qed.
  Lemma round_joined a : joined (stroke_join RF to_int r (RoundJoin RF (round_angle a)) (section_new RF r x y) (section_new RF r y z))
    (left_mids to_int (RoundJoin RF a) r y u v) (right_mids to_int (RoundJoin RF a) r y u v).
  Proof.
    rewrite !section_real. fold u v. cbn [stroke_join]. unfold sround_join, sround_new. rewrite fixed_ratio_real. unfold left_mids, right_mids, mids. set (ra := round_angle a).
    pose proof (round_range a) as A. fold ra in A. pose proof PI_RGT_0 as Pi.
    cbv zeta. cbn [sr_limit sr_radius sr_inv s_dir s_b s_abot s_bbot s_atop s_btop]. unfold join_top, join_bot, add_segment. cbn [s_btop s_atop s_abot s_bbot]. cbv zeta.
    change (p_dot RF u v) with (dot u v). change (p_cross RF u v) with (cross u v). unfold lit. cbn [RF n_lt to_f64 from_f64 d_cos d_acos d_mul d_div d_lit d_neg f_xy f_x f_y n_neg fst snd]. rewrite q_0, q_1.
    replace (dot (neg v) (neg u)) with (dot u v) by (unfold dot, neg; cbn [fst snd]; ring).
    pose proof (dot_range u v Uu Uv) as Dr.
    destruct (Rltb (cos ra) (dot u v)) eqn:Lim.
    - destruct (Rltb 0 (cross u v)); cbn [app map]; eexists _, _; (split; [left; reflexivity|]); split; apply back_edge.
    - set (n := d_round RF (acos (dot u v) * (1 / ra))) in *. apply Rltb_false in Lim.
      pose proof (angle_ge (dot u v) ra Dr ltac:(lra) Lim) as Ga.
      assert (N : d_usize RF n = arc_steps_of ra (dot u v) /\ INR (arc_steps_of ra (dot u v)) = n).
      { destruct (steps_of (acos (dot u v) * (1 / ra))) as (k & K & I & L).
        - replace 1 with (ra * (1 / ra)) at 1 by (field; lra). apply Rmult_le_compat_r; [|lra]. left. apply Rdiv_lt_0_compat; lra.
        - change (IZR (Int_part (acos (dot u v) * (1 / ra) + / 2))) with n in I, K. unfold arc_steps_of. change (d_usize RF n) with (Z.to_nat (Int_part n)). rewrite K.
          unfold n in K. cbn [RF d_round] in K. rewrite Int_part_IZR in K. rewrite K. auto. }
      destruct N as [N1 N2]. rewrite N1, N2. set (k := (arc_steps_of ra (dot u v) - 1)%nat).
      assert (M : forall w i, rotv (- (INR i * (acos (dot u v) / n))) w = rotv (INR i * - (acos (dot u v) / n)) w) by (intros w i; f_equal; ring).
      destruct (Rltb 0 (cross u v)); eexists _, _; [split; [left; reflexivity|]|split; [right; reflexivity|]]; split.
      + apply back_edge.
      + replace (snd v, - fst v) with (neg (normal_of v)) by (unfold neg, normal_of; cbn [fst snd]; f_equal; ring).
        cbn [map]. rewrite map_app, map_map. cbn [map]. rewrite (map_ext _ (fun i => to_int (off y (rotv (INR i * - (acos (dot u v) / n)) (neg (normal_of v))) r))); [apply back_arc|]. intro i. cbv beta. change (normal_of (neg v)) with (neg (normal_of v)). rewrite M. reflexivity.
      + cbn [map]. rewrite map_app, map_map. cbn [map]. change (- snd u, fst u) with (normal_of u). rewrite (map_ext _ (fun i => to_int (off y (rotv (INR i * - (acos (dot u v) / n)) (normal_of u)) r))); [apply back_arc|]. intro i. cbv beta. rewrite M. reflexivity.
      + apply back_edge.
  Qed.
  Lemma q_10000 : Q2R (1 # 10000) = 1 / 10000. Proof. unfold Q2R. simpl. lra. Qed.
  Lemma miter_joined a : joined (stroke_join RF to_int r (MiterJoin RF (miter_angle a)) (section_new RF r x y) (section_new RF r y z))
    (left_mids to_int (MiterJoin RF a) r y u v) (right_mids to_int (MiterJoin RF a) r y u v).
  Proof.
    rewrite !section_real. fold u v. cbn [stroke_join]. unfold miter_join, miter_new. unfold left_mids, right_mids, mids. set (ra := miter_angle a).
    cbv zeta. cbn [m_limit m_len s_dir s_b s_abot s_bbot s_atop s_btop]. unfold join_top, join_bot, add_segment. cbn [s_btop s_atop s_abot s_bbot]. cbv zeta.
    change (p_dot RF u v) with (dot u v). change (p_cross RF u v) with (cross u v). unfold lit. cbn [RF n_lt n_abs to_f64 from_f64 d_cos d_tan d_max d_mul d_div d_lit d_neg n_neg n_add n_sub n_mul f_xy f_x f_y fst snd].
    assert (Fx : Rmax ra (Q2R (1 # 100)) = ra) by apply fixed_real. rewrite !Fx, q_0, q_1_2, q_10000. replace (/ 2 * ra) with (ra / 2) by lra.
    replace (dot (neg v) (neg u)) with (dot u v) by (unfold dot, neg; cbn [fst snd]; ring).
    replace (Rabs (cross (neg v) (neg u))) with (Rabs (cross u v)) by (rewrite <- (Rabs_Ropp (cross u v)); f_equal; unfold cross, neg; cbn [fst snd]; ring).
    destruct (Rltb (Rabs (cross u v)) (1 / 10000)) eqn:Fl.
    { destruct (Rltb 0 (cross u v)); cbn [app map]; eexists _, _; (split; [left; reflexivity|]); split; apply back_edge. }
    change (normal_of (neg v)) with (neg (normal_of v)). change (normal_of (neg u)) with (neg (normal_of u)).
    pose proof (limit_gt a) as Lg. fold ra in Lg.
    destruct (Rltb (dot u v) (- cos ra)) eqn:Lim.
    - destruct (Rltb 0 (cross u v)) eqn:Tu.
      + destruct (pt_eqb (to_int RB) (to_int RA)) eqn:E.
        * apply pt_eqb_eq in E. eexists _, []. split; [left; symmetry; apply app_nil_r|]. split; [apply back_edge|]. cbn [map app]. rewrite E. apply back_cons_eq, back_one.
        * eexists _, _. split; [left; reflexivity|]. split; [apply back_edge|]. cbn [map app].
          replace (off RB (neg v) (r / tan (ra / 2))) with (fst RB - r / tan (ra / 2) * fst v, snd RB - r / tan (ra / 2) * snd v) by (unfold off, neg; cbn [fst snd]; f_equal; ring).
          replace (off RA (neg (neg u)) (r / tan (ra / 2))) with (fst RA + r / tan (ra / 2) * fst u, snd RA + r / tan (ra / 2) * snd u) by (unfold off, neg; cbn [fst snd]; f_equal; ring).
          apply back_push, back_push. rewrite <- (app_nil_r (push_ne _ _)). apply back_push, back_one.
      + destruct (pt_eqb (to_int LA) (to_int LB)) eqn:E.
        * apply pt_eqb_eq in E. eexists [], _. split; [left; reflexivity|]. split; [|apply back_edge]. cbn [map app]. rewrite E. apply back_cons_eq, back_one.
        * eexists _, _. split; [right; reflexivity|]. split; [|apply back_edge]. cbn [map app].
          replace (off LA u (r / tan (ra / 2))) with (fst LA + r / tan (ra / 2) * fst u, snd LA + r / tan (ra / 2) * snd u) by (unfold off, neg; cbn [fst snd]; f_equal; ring).
          replace (off LB (neg v) (r / tan (ra / 2))) with (fst LB - r / tan (ra / 2) * fst v, snd LB - r / tan (ra / 2) * snd v) by (unfold off, neg; cbn [fst snd]; f_equal; ring).
          apply back_push, back_push. rewrite <- (app_nil_r (push_ne _ _)). apply back_push, back_one.
    - apply Rltb_false in Lim. destruct (Rltb 0 (cross u v)) eqn:Tu.
      + apply Rltb_true in Tu. assert (HB : RB = off y (normal_of v) (- r)) by (unfold off, neg; cbn [fst snd]; f_equal; ring). assert (HA : RA = off y (normal_of u) (- r)) by (unfold off, neg; cbn [fst snd]; f_equal; ring).
        destruct (tip_meets y v u RB RA (- r) Uv Uu HB HA ltac:(rewrite dot_comm; lra)) as (t & T1 & _ & T3).
        assert (Et : off RB (neg v) (r * Rabs (cross u v) / (1 + dot u v)) = tip v u RB RA).
        { rewrite T1. assert (t = - (r * Rabs (cross u v) / (1 + dot u v))).
          { apply (Rmult_eq_reg_r (1 + dot u v)); [|lra]. rewrite (dot_comm u v) at 1. rewrite T3, Rabs_pos_eq by lra. replace (cross v u) with (- cross u v) by (unfold cross; ring). field. lra. }
          rewrite H. unfold off, neg. cbn [fst snd]. f_equal; ring. }
        rewrite Et. rewrite sharp_tip. destruct (pt_eqb (to_int RB) (to_int RA)) eqn:E.
        * apply pt_eqb_eq in E. eexists _, []. split; [left; reflexivity|]. split; [apply back_edge|]. cbn [map app]. rewrite E. apply back_cons_eq, back_one.
        * destruct (pt_eqb (to_int RB) (to_int (tip v u RB RA)) || pt_eqb (to_int RA) (to_int (tip v u RB RA)))%bool eqn:E'.
          -- eexists _, _. split; [left; reflexivity|]. split; [apply back_edge|]. cbn [map app]. apply orb_true_iff in E' as [E'|E']; apply pt_eqb_eq in E'.
             ++ rewrite <- E'. apply back_cons_eq, back_cons, back_one.
             ++ rewrite <- E'. apply back_cons, back_cons_eq, back_one.
          -- eexists _, _. split; [left; reflexivity|]. split; [apply back_edge|]. cbn [map app]. apply back_cons, back_cons, back_one.
      + apply Rltb_false in Tu.
        destruct (tip_meets y u v LA LB r Uu Uv eq_refl eq_refl ltac:(lra)) as (t & T1 & _ & T3).
        assert (Et : off LA u (r * Rabs (cross u v) / (1 + dot u v)) = tip u v LA LB).
        { rewrite T1. f_equal. apply (Rmult_eq_reg_r (1 + dot u v)); [|lra]. rewrite T3, Rabs_left1 by lra. field. lra. }
        rewrite Et. rewrite sharp_tip. destruct (pt_eqb (to_int LA) (to_int LB)) eqn:E.
        * apply pt_eqb_eq in E. eexists [], _. split; [right; reflexivity|]. split; [|apply back_edge]. cbn [map app]. rewrite E. apply back_cons_eq, back_one.
        * destruct (pt_eqb (to_int LA) (to_int (tip u v LA LB)) || pt_eqb (to_int LB) (to_int (tip u v LA LB)))%bool eqn:E'.
          -- eexists _, _. split; [right; reflexivity|]. split; [|apply back_edge]. cbn [map app]. apply orb_true_iff in E' as [E'|E']; apply pt_eqb_eq in E'.
             ++ rewrite <- E'. apply back_cons_eq, back_cons, back_one.
             ++ rewrite <- E'. apply back_cons, back_cons_eq, back_one.
          -- eexists _, _. split; [right; reflexivity|]. split; [|apply back_edge]. cbn [map app]. apply back_cons, back_cons, back_one.
  Qed.
  Theorem corner_joined j : joined (stroke_join RF to_int r (join_normalize RF j) (section_new RF r x y) (section_new RF r y z))
    (left_mids to_int j r y u v) (right_mids to_int j r y u v).
  Proof.
    rewrite normalize_real. destruct j as [|a|a].
    - unfold left_mids, right_mids, mids. destruct (Rltb 0 (cross u v)); apply bevel_joined.
    - apply miter_joined.
    - apply round_joined.
  Qed.
End Corner.

(** ** The outer side of a corner is a fan around the vertex *)
Definition fan (y : rpt) (l : list rpt) : Prop := forall a b, In (a, b) (steps l) -> 0 <= turn3 y b a.
Lemma turn3_off y p q k l : turn3 y (off y p k) (off y q l) = k * l * cross p q.
Proof. unfold turn3, off, cross. cbn [fst snd]. ring. Qed.
Lemma steps_seq {A} (P : nat -> A) a b : forall k i, In (a, b) (steps (map P (seq i (S k)))) -> exists m, a = P m /\ b = P (S m).
Proof.
  induction k as [|k IH]; intros i H; [destruct H|]. cbn [seq map] in H. change (In (a, b) ((P i, P (S i)) :: steps (map P (seq (S i) (S k))))) in H.
  destruct H as [E|H]; [injection E as <- <-; eauto|eauto].
Qed.
Lemma fan_mids to_int j r y u v : unit u -> unit v -> 0 < r -> cross u v <= 0 -> fan y (off y (normal_of u) r :: mids to_int j r y u v ++ [off y (normal_of v) r]).
Proof.
  intros Uu Uv Pr C. set (A := off y (normal_of u) r). set (B := off y (normal_of v) r).
  assert (D : 0 <= turn3 y B A).
  { unfold A, B. rewrite turn3_off. replace (cross (normal_of v) (normal_of u)) with (- cross u v) by (unfold cross, normal_of; cbn [fst snd]; ring). nra. }
  assert (D2 : fan y (A :: [] ++ [B])) by (intros p q [E|[]]; injection E as <- <-; auto).
  assert (N1 : forall w k, unit w -> turn3 y (off (off y (normal_of w) r) w k) (off y (normal_of w) r) = k * r).
  { intros w k U. unfold unit in U. replace (turn3 y (off (off y (normal_of w) r) w k) (off y (normal_of w) r)) with (k * r * (fst w * fst w + snd w * snd w)) by (unfold turn3, off, normal_of; cbn [fst snd]; ring). rewrite U. ring. }
  assert (N2 : forall w k, unit w -> turn3 y (off y (normal_of w) r) (off (off y (normal_of w) r) (neg w) k) = k * r).
  { intros w k U. unfold unit in U. replace (turn3 y (off y (normal_of w) r) (off (off y (normal_of w) r) (neg w) k)) with (k * r * (fst w * fst w + snd w * snd w)) by (unfold turn3, off, normal_of, neg; cbn [fst snd]; ring). rewrite U. ring. }
  unfold mids. fold A B. destruct j as [|a|a]; auto.
  - destruct (Rltb (Rabs (cross u v)) (1 / 10000)); auto. destruct (pt_eqb _ _); auto. pose proof (miter_range a) as Mr. pose proof PI_RGT_0 as Pi.
    pose proof (limit_gt a) as Lg. pose proof (dot_range u v Uu Uv) as Dr.
    destruct (Rltb (dot u v) (- cos (miter_angle a))) eqn:Lim.
    + apply Rltb_true in Lim. set (h := miter_angle a / 2). set (l := r / tan h).
      assert (Sh : 0 < sin h) by (apply sin_gt_0; unfold h; lra). assert (Ch : 0 < cos h) by (apply cos_gt_0; unfold h; lra).
      assert (El : l * sin h = r * cos h) by (unfold l, tan; field; split; lra).
      assert (Pl : 0 < l) by (unfold l, tan; apply Rdiv_lt_0_compat; [auto|]; apply Rdiv_lt_0_compat; auto).
      cbn [app]. intros p q [E|[E|[E|[]]]]; injection E as <- <-; [unfold A; rewrite N1 by auto; nra| |unfold B; rewrite N2 by auto; nra].
      replace (turn3 y (off B (neg v) l) (off A u l)) with ((r * r - l * l) * - cross u v - 2 * (r * l) * dot u v) by (unfold A, B, turn3, off, normal_of, neg, cross, dot; cbn [fst snd]; ring).
      assert (Sa : - cross u v = sin (acos (dot u v))) by (rewrite sin_angle, Rabs_left1 by auto; auto). rewrite Sa. set (th := acos (dot u v)).
      assert (Ca : dot u v = cos th) by (unfold th; rewrite cos_acos; auto). rewrite Ca.
      pose proof (bend_lt (miter_angle a) u v Uu Uv ltac:(lra) Lim) as Bl. unfold bend in Bl. fold th in Bl. pose proof (acos_bound (dot u v)) as Ba. fold th in Ba.
      assert (Ss : sin (miter_angle a + th) <= 0) by (apply sin_le_0; lra).
      assert (Es : sin (miter_angle a + th) = 2 * sin h * cos h * cos th + (cos h * cos h - sin h * sin h) * sin th).
      { rewrite sin_plus. replace (miter_angle a) with (2 * h) by (unfold h; lra). rewrite sin_2a, cos_2a. ring. }
      apply (Rmult_le_reg_r (sin h * sin h)); [apply Rmult_lt_0_compat; auto|]. rewrite Rmult_0_l.
      replace (((r * r - l * l) * sin th - 2 * (r * l) * cos th) * (sin h * sin h)) with (r * r * (sin h * sin h) * sin th - (l * sin h) * (l * sin h) * sin th - 2 * r * (l * sin h) * sin h * cos th) by ring.
      rewrite El. replace (r * r * (sin h * sin h) * sin th - r * cos h * (r * cos h) * sin th - 2 * r * (r * cos h) * sin h * cos th) with (r * r * - (2 * sin h * cos h * cos th + (cos h * cos h - sin h * sin h) * sin th)) by ring.
      rewrite <- Es. assert (0 <= r * r) by nra. nra.
    + apply Rltb_false in Lim. set (t := r * Rabs (cross u v) / (1 + dot u v)).
      assert (Pt : 0 <= t) by (unfold t; apply Rmult_le_pos; [apply Rmult_le_pos; [lra|apply Rabs_pos]|left; apply Rinv_0_lt_compat; lra]).
      destruct (tip_meets y u v A B r Uu Uv eq_refl eq_refl ltac:(lra)) as (t' & T1 & T2 & T3).
      assert (Et : t' = t) by (apply (Rmult_eq_reg_r (1 + dot u v)); [|lra]; rewrite T3; unfold t; rewrite Rabs_left1 by auto; field; lra). rewrite Et in *.
      cbn [app]. intros p q [E|[E|[]]]; injection E as <- <-; [unfold A; rewrite N1 by auto; nra|]. rewrite <- T1, T2. unfold B. rewrite N2 by auto. nra.
  - destruct (Rltb (cos (round_angle a)) (dot u v)) eqn:Lim; auto. apply Rltb_false in Lim. pose proof (round_range a) as Ra. pose proof PI_RGT_0 as Pi. pose proof (dot_range u v Uu Uv) as Dr.
    pose proof (angle_ge (dot u v) (round_angle a) Dr ltac:(lra) Lim) as Ga. pose proof (acos_bound (dot u v)) as Ba.
    set (n := arc_steps_of (round_angle a) (dot u v)). set (th := acos (dot u v)) in *. set (P := fun i : nat => off y (rotv (- (INR i * (th / INR n))) (normal_of u)) r).
    assert (N : exists k, n = S k).
    { destruct (steps_of (th * (1 / round_angle a))) as (k & K & I & L).
      - replace 1 with (round_angle a * (1 / round_angle a)) at 1 by (field; lra). apply Rmult_le_compat_r; [|lra]. left. apply Rdiv_lt_0_compat; lra.
      - exists k. unfold n, arc_steps_of. rewrite Int_part_IZR in K. exact K. }
    destruct N as (k & N). assert (Pn : 1 <= INR n) by (rewrite N, S_INR; pose proof (pos_INR k); lra).
    assert (E : A :: map P (seq 1 (n - 1)) ++ [B] = map P (seq 0 (S n))).
    { rewrite N. cbn [Nat.sub]. rewrite Nat.sub_0_r. change (seq 0 (S (S k))) with (0%nat :: seq 1 (S k)). rewrite (seq_S k 1), map_cons, map_app. cbn [map Nat.add]. f_equal; [|f_equal; f_equal].
      - unfold P, A. simpl (INR 0). replace (- (0 * (th / INR n))) with 0 by ring. rewrite rotv_0. reflexivity.
      - unfold P, B. rewrite <- N. replace (- (INR n * (th / INR n))) with (- th) by (field; lra). unfold th. rewrite rotv_normal, rotv_right by auto. reflexivity. }
    rewrite E. intros p q H. apply steps_seq in H as (m & -> & ->). unfold P. rewrite turn3_off.
    set (w := rotv (- (INR m * (th / INR n))) (normal_of u)). assert (Uw : unit w) by (apply rotv_unit, unit_normal; auto).
    replace (rotv (- (INR (S m) * (th / INR n))) (normal_of u)) with (rotv (- (th / INR n)) w) by (unfold w; rewrite rotv_add, S_INR; f_equal; ring).
    assert (X : cross (rotv (- (th / INR n)) w) w = sin (th / INR n)).
    { unfold cross, rotv. cbn [fst snd]. rewrite sin_neg, cos_neg. unfold unit in Uw. replace ((cos (th / INR n) * fst w - - sin (th / INR n) * snd w) * snd w - (- sin (th / INR n) * fst w + cos (th / INR n) * snd w) * fst w) with (sin (th / INR n) * (fst w * fst w + snd w * snd w)) by ring. rewrite Uw. ring. }
    rewrite X. apply Rmult_le_pos; [nra|]. apply sin_ge_0; [apply Rmult_le_pos; [lra|left; apply Rinv_0_lt_compat; lra]|].
    apply (Rmult_le_reg_r (INR n)); [lra|]. replace (th / INR n * INR n) with th by (field; lra). nra.
Qed.
