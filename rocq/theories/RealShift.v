(** * The pieces of an outline: the rectangle between a side and the moved side, the triangles at a corner. *)
From Verif Require Import Base Spec QLib ModelSegm SegmProofs SplitNear ModelMesh MeshProofs MeshStrip.
From Coq Require Import Reals Lra Psatz Qreals.
From Verif Require Import RealMesh RealJoin RealReach RealMiter RealWind RealMove RealCorner RealStroke RealPieces RealCount RealCover RealOuter.
Open Scope R_scope.

Section Shift.
  Variable k : R.
  Hypothesis Nk : k <> 0.
  Notation r := (Rabs k).
  Let Pr : 0 < r / 2.
  Proof. pose proof (Rabs_pos_lt k Nk). lra. Qed.
  (** the point [p] lies between the side and the side moved to the left by [k] *)
  Definition beside (p : rpt) (e : rside) : Prop :=
    let u := dir_of e in
    let w := vec (fst e) p in
    0 <= dot u w <= dist (fst e) (snd e) /\ 0 <= k * cross u w <= k * k.
  (** the line in the middle between the side and the moved side *)
  Definition shift (e : rside) : rside := (off (fst e) (normal_of (dir_of e)) (k / 2), off (snd e) (normal_of (dir_of e)) (k / 2)).
  Lemma shift_dir e : dir_of (shift e) = dir_of e /\ dist (fst (shift e)) (snd (shift e)) = dist (fst e) (snd e).
  Proof.
    unfold shift, dir_of, dir, dist, dist2. cbn [fst snd]. set (n := normal_of _). split; f_equal; try f_equal; unfold off; cbn [fst snd]; ring.
  Qed.
  Lemma shift_ne e : fst e <> snd e -> fst (shift e) <> snd (shift e).
  Proof. intros N E. apply N. unfold shift, off in E. cbn [fst snd] in E. injection E as E1 E2. destruct e as [[a b] [c d]]. cbn [fst snd] in *. f_equal; lra. Qed.
  Lemma unit_self (u : rpt) : unit u -> cross u (normal_of u) = 1 /\ dot u (normal_of u) = 0.
  Proof. unfold unit, cross, dot, normal_of. cbn [fst snd]. split; [lra|ring]. Qed.
  Lemma kk : r * r = k * k.
  Proof. rewrite <- Rabs_mult. apply Rabs_pos_eq, Rle_0_sqr. Qed.
  Lemma between_iff t : Rabs (t - k / 2) <= r / 2 <-> 0 <= k * t <= k * k.
  Proof.
    rewrite Rabs_iff. destruct (Rtotal_order 0 k) as [K|[K|K]]; [rewrite Rabs_pos_eq by lra|congruence|rewrite Rabs_left by lra].
    - split; intros [A B]; split; try nra; apply (Rmult_le_reg_l k); auto; lra.
    - split; intros [A B]; split; try nra; apply (Rmult_le_reg_l (- k)); lra.
  Qed.
  Lemma shift_strip p e : fst e <> snd e -> in_strip (r / 2) p (shift e) <-> beside p e.
  Proof.
    intro N. pose proof (dir_unit _ _ N) as U. fold (dir_of e) in U. unfold in_strip, beside. cbv zeta. destruct (shift_dir e) as [E1 E2]. unfold dir_of at 1 in E1. rewrite E1, E2.
    set (u := dir_of e) in *. destruct (unit_self u U) as [C D].
    replace (dot u (vec (fst (shift e)) p)) with (dot u (vec (fst e) p)).
    2:{ transitivity (dot u (vec (fst e) p) - k / 2 * dot u (normal_of u)); [rewrite D; ring|]. unfold shift, vec, off, dot. fold u. cbn [fst snd]. ring. }
    replace (cross u (vec (fst (shift e)) p)) with (cross u (vec (fst e) p) - k / 2).
    2:{ transitivity (cross u (vec (fst e) p) - k / 2 * cross u (normal_of u)); [rewrite C; ring|]. unfold shift, vec, off, cross. fold u. cbn [fst snd]. ring. }
    rewrite between_iff. tauto.
  Qed.
  (** how often the rectangle contains the point *)
  Definition slab (p : rpt) (e : rside) : Z := rect_wind (r / 2) p (shift e).
  Definition eps : Z := if Rleb 0 k then (-1)%Z else 1%Z.
  Lemma off_off x w a b : off (off x w a) w b = off x w (a + b).
  Proof. unfold off. cbn [fst snd]. f_equal; ring. Qed.
  Lemma off_neg x w a : off x (neg w) a = off x w (- a).
  Proof. unfold off, neg. cbn [fst snd]. f_equal; ring. Qed.
  Lemma slab_wind p e : wind4 p (la k e) (lb k e) (snd e) (fst e) = (eps * slab p e)%Z.
  Proof.
    unfold slab, rect_wind, eps, la, lb, ra, rb. destruct (shift_dir e) as [E1 _]. unfold dir_of at 1 in E1. rewrite E1. unfold shift. cbn [fst snd]. change (dir (fst e) (snd e)) with (dir_of e). set (n := normal_of (dir_of e)). rewrite !off_neg, !off_off.
    unfold Rleb. destruct (Rle_dec 0 k).
    - rewrite Rabs_pos_eq by auto. replace (k / 2 + k / 2) with k by lra. replace (k / 2 + - (k / 2)) with 0 by lra. rewrite !off_zero. unfold wind4.
      rewrite (rwind_anti p (off (fst e) n k) (off (snd e) n k)), (rwind_anti p (off (snd e) n k)), (rwind_anti p (snd e) (fst e)), (rwind_anti p (fst e) (off _ _ _)).
      pose proof (rwind_anti p (off (fst e) n k) (off (snd e) n k)). pose proof (rwind_anti p (off (snd e) n k) (snd e)). pose proof (rwind_anti p (snd e) (fst e)). pose proof (rwind_anti p (fst e) (off (fst e) n k)). lia.
    - rewrite Rabs_left by lra. replace (k / 2 + - k / 2) with 0 by lra. replace (k / 2 + - (- k / 2)) with k by lra. rewrite !off_zero. unfold wind4. lia.
  Qed.
  Lemma slab_range p e : fst e <> snd e -> (0 <= slab p e <= 1)%Z.
  Proof. intro N. unfold slab. destruct (rect_wind_cases (r / 2) (shift e) Pr (shift_ne e N) p) as [[-> _]|[-> _]]; lia. Qed.
  Lemma slab_in p e : fst e <> snd e -> (0 < slab p e)%Z -> beside p e.
  Proof. intros N H. apply shift_strip; auto. apply rect_in; auto using shift_ne. Qed.
  Lemma slab_open p e : in_strip_open (r / 2) p (shift e) -> fst e <> snd e -> slab p e = 1%Z.
  Proof. intros H N. apply rect_open; auto using shift_ne. Qed.
  Lemma slab_tri p a b c e : fst e <> snd e -> 0 <= turn3 a b c -> beside a e -> beside b e -> beside c e -> (wind3 p a b c <= slab p e)%Z.
  Proof. intros N T A B C. apply rect_tri; auto using shift_ne; apply shift_strip; auto. Qed.

  (** ** The two halves of a side *)
  Definition mid (a b : rpt) : rpt := ((fst a + fst b) / 2, (snd a + snd b) / 2).
  Definition half1 (e : rside) : rside := (fst e, mid (fst e) (snd e)).
  Definition half2 (e : rside) : rside := (mid (fst e) (snd e), snd e).
  Lemma dir_of_off x w d : unit w -> 0 < d -> x <> off x w d /\ dir x (off x w d) = w /\ dist x (off x w d) = d.
  Proof.
    intros U P. assert (E : dist x (off x w d) = d) by (rewrite dist_sym, dist_off by auto; apply Rabs_pos_eq; lra).
    assert (N : x <> off x w d).
    { intro Q. rewrite <- Q in E. rewrite (dist_eq x x 0) in E; [lra|lra|unfold dist2; ring]. }
    split; auto. split; auto. destruct (dir_end _ _ N) as [_ Q]. rewrite E in Q. clear E U N. revert Q. generalize (dir x (off x w d)). intros [v1 v2] Q. destruct w as [w1 w2]. unfold off in Q. cbn [fst snd] in Q. injection Q as Q1 Q2.
    f_equal; apply (Rmult_eq_reg_r d); lra.
  Qed.
  Lemma mid_off x w d : mid x (off x w d) = off x w (d / 2).
  Proof. unfold mid, off. cbn [fst snd]. f_equal; field. Qed.
  Lemma half_facts e : fst e <> snd e ->
    (fst (half1 e) <> snd (half1 e) /\ dir_of (half1 e) = dir_of e /\ dist (fst (half1 e)) (snd (half1 e)) = dist (fst e) (snd e) / 2) /\
    (fst (half2 e) <> snd (half2 e) /\ dir_of (half2 e) = dir_of e /\ dist (fst (half2 e)) (snd (half2 e)) = dist (fst e) (snd e) / 2).
  Proof.
    intro N. destruct (dir_end _ _ N) as [Pd E]. pose proof (dir_unit _ _ N) as U. unfold half1, half2. cbn [fst snd]. unfold dir_of. cbn [fst snd]. set (d := dist (fst e) (snd e)) in *. set (u := dir (fst e) (snd e)) in *.
    assert (M : mid (fst e) (snd e) = off (fst e) u (d / 2)) by (rewrite E at 1; apply mid_off). rewrite M. split.
    - apply dir_of_off; auto; lra.
    - assert (E' : snd e = off (off (fst e) u (d / 2)) u (d / 2)) by (rewrite off_off; replace (d / 2 + d / 2) with d by lra; exact E). rewrite E'. apply dir_of_off; auto; lra.
  Qed.
  Lemma slab_halves p e : fst e <> snd e -> slab p e = (slab p (half1 e) + slab p (half2 e))%Z.
  Proof.
    intro N. destruct (half_facts e N) as [(_ & D1 & _) (_ & D2 & _)].
    assert (H : (eps * slab p e = eps * slab p (half1 e) + eps * slab p (half2 e))%Z).
    { rewrite <- !slab_wind. unfold la, lb. fold (dir_of e) (dir_of (half1 e)) (dir_of (half2 e)). rewrite D1, D2. unfold half1, half2. cbn [fst snd]. set (n := normal_of (dir_of e)). set (m := mid (fst e) (snd e)). unfold wind4.
      rewrite (rwind_split p (off (fst e) n k) (off m n k) (off (snd e) n k)) by (unfold m, mid, turn3, off; cbn [fst snd]; field).
      rewrite (rwind_split p (snd e) m (fst e)) by (unfold m, mid, turn3; cbn [fst snd]; field).
      rewrite (rwind_anti p (off m n k) m). lia. }
    unfold eps in H. destruct (Rleb 0 k); lia.
  Qed.

  (** ** Corners *)
  Section Bend.
    Variables (to_int : rpt -> pt) (j : line_join RF).
    Definition och (e f : rside) : list rpt := lb k e :: omids to_int j k (snd e) (dir_of e) (dir_of f) ++ [la k f].
    Definition bent (e f : rside) : bool := bends_in k (dir_of e) (dir_of f).
    (** the triangles on the outer side of a corner, and the triangle on its inner side *)
    Definition outw (p : rpt) (e f : rside) : Z := if bent e f then 0%Z else if Rleb 0 k then tris p (snd e) (och e f) else ctris p (snd e) (och e f).
    Definition inw (p : rpt) (e f : rside) : Z := if bent e f then (if Rleb 0 k then wind3 p (snd e) (lb k e) (la k f) else wind3 p (snd e) (la k f) (lb k e)) else 0%Z.
    Lemma tris_ctris p y l : tris p y l = (- ctris p y l)%Z.
    Proof. unfold tris, ctris. rewrite <- zsum_opp. induction (steps l) as [|s m IH]; [reflexivity|]. rewrite !zsum_cons, IH, wind3_flip. reflexivity. Qed.
    Lemma corner_split p e f : ctris p (snd e) (och e f) = (eps * (outw p e f - inw p e f))%Z.
    Proof.
      unfold outw, inw, eps. destruct (bent e f) eqn:B.
      - unfold och, omids. unfold bent in B. rewrite B. cbn [app]. unfold ctris. cbn [steps]. rewrite zsum_cons. cbn [fst snd]. change (zsum _ []) with 0%Z. rewrite (wind3_flip p (snd e) (lb k e) (la k f)). destruct (Rleb 0 k); lia.
      - destruct (Rleb 0 k); rewrite ?tris_ctris; lia.
    Qed.
    Section One.
      Variables (e f : rside).
      Hypothesis Ne : fst e <> snd e.
      Hypothesis Nf : fst f <> snd f.
      Hypothesis Ch : snd e = fst f.
      Notation u := (dir_of e).
      Notation v := (dir_of f).
      Let Uu : unit u := dir_unit _ _ Ne.
      Let Uv : unit v := dir_unit _ _ Nf.
      Lemma la_next : la k f = off (snd e) (normal_of v) k.
      Proof. unfold la, dir_of. rewrite Ch. reflexivity. Qed.
      Lemma och_fan : bent e f = false -> ofan k (snd e) (och e f).
      Proof. intro B. unfold och. rewrite la_next. apply fan_omids; auto. Qed.
      Lemma out_fan : bent e f = false -> (0 <= k -> fan (snd e) (och e f)) /\ (k < 0 -> cfan (snd e) (och e f)).
      Proof.
        intro B. pose proof (och_fan B) as H. split; intro K; intros a b I; specialize (H a b I).
        - apply (Rmult_le_reg_l k); [lra|]. lra.
        - rewrite turn3_flip in H. apply (Rmult_le_reg_l (- k)); [lra|]. lra.
      Qed.
      Lemma outw_nonneg p : (0 <= outw p e f)%Z.
      Proof.
        unfold outw. destruct (bent e f) eqn:B; [lia|]. destruct (out_fan B) as [F1 F2]. unfold Rleb. destruct (Rle_dec 0 k); [apply tris_nonneg, F1; auto|apply ctris_nonneg, F2; lra].
      Qed.
      Lemma outw_in p : (0 < outw p e f)%Z -> bent e f = false /\ in_fan p (snd e) (och e f).
      Proof.
        unfold outw. destruct (bent e f) eqn:B; [lia|]. intro H. split; auto. destruct (out_fan B) as [F1 F2]. unfold Rleb in H. destruct (Rle_dec 0 k).
        - apply tris_in in H as (a & b & I & H); auto. exists a, b. auto.
        - apply ctris_in in H as (a & b & I & H); [|apply F2; lra]. exists a, b. auto.
      Qed.
      Lemma outw_open p : bent e f = false -> in_fan_open p (snd e) (och e f) -> (0 < outw p e f)%Z.
      Proof.
        intros B H. unfold outw. rewrite B. destruct (out_fan B) as [F1 F2]. unfold Rleb. destruct (Rle_dec 0 k); [apply fan_strict; auto|apply cfan_strict; auto; apply F2; lra].
      Qed.
      Lemma bent_sign : bent e f = true -> 0 <= k * cross u v /\ k * cross u v = r * Rabs (cross u v).
      Proof.
        unfold bent, bends_in, Rleb. destruct (Rle_dec 0 (cross u v)), (Rle_dec 0 k); try discriminate; intros _; [rewrite (Rabs_pos_eq k), (Rabs_pos_eq (cross u v)) by auto|rewrite (Rabs_left k), (Rabs_left (cross u v)) by lra]; split; try ring; nra.
      Qed.
      Lemma tri_turn : turn3 (snd e) (lb k e) (la k f) = k * k * cross u v.
      Proof. rewrite la_next. unfold lb. fold (dir_of e). rewrite turn3_off. unfold cross, normal_of. cbn [fst snd]. ring. Qed.
      Lemma inw_range p : (0 <= inw p e f <= 1)%Z.
      Proof.
        unfold inw. destruct (bent e f) eqn:B; [|lia]. destruct (bent_sign B) as [S _]. pose proof tri_turn as T. unfold Rleb. pose proof (Rle_0_sqr k) as K2. unfold Rsqr in K2. destruct (Rle_dec 0 k).
        - apply tri_nonneg. rewrite T. apply Rmult_le_pos; auto. apply (Rmult_le_reg_l k); lra.
        - apply tri_nonneg. rewrite turn3_flip, T. replace (- (k * k * cross u v)) with (k * k * - cross u v) by ring. apply Rmult_le_pos; auto. apply (Rmult_le_reg_l (- k)); lra.
      Qed.
      (** points near the corner, against the two sides *)
      Lemma beside_end g w a : fst g <> snd g -> - dist (fst g) (snd g) <= a * dot (dir_of g) w <= 0 -> 0 <= k * (a * cross (dir_of g) w) <= k * k -> beside (off (snd g) w a) g.
      Proof.
        intros N H1 H2. destruct (dir_end _ _ N) as [Pd E]. pose proof (dir_unit _ _ N) as U. fold (dir_of g) in E, U. unfold beside. cbv zeta. set (d := dist (fst g) (snd g)) in *. set (t := dir_of g) in *.
        assert (U' : cross t t = 0 /\ dot t t = 1) by (unfold unit, cross, dot in *; split; [ring|lra]). destruct U' as [U1 U2].
        replace (dot t (vec (fst g) (off (snd g) w a))) with (d * dot t t + a * dot t w) by (rewrite E; unfold dot, vec, off; cbn [fst snd]; ring).
        replace (cross t (vec (fst g) (off (snd g) w a))) with (d * cross t t + a * cross t w) by (rewrite E; unfold cross, vec, off; cbn [fst snd]; ring).
        rewrite U1, U2. lra.
      Qed.
      Lemma beside_start g w a : 0 <= a * dot (dir_of g) w <= dist (fst g) (snd g) -> 0 <= k * (a * cross (dir_of g) w) <= k * k -> beside (off (fst g) w a) g.
      Proof.
        intros H1 H2. unfold beside. cbv zeta. set (t := dir_of g) in *.
        replace (dot t (vec (fst g) (off (fst g) w a))) with (a * dot t w) by (unfold dot, vec, off; cbn [fst snd]; ring).
        replace (cross t (vec (fst g) (off (fst g) w a))) with (a * cross t w) by (unfold cross, vec, off; cbn [fst snd]; ring). lra.
      Qed.
      Definition long1 : Prop := r * Rabs (turning e f) <= dist (fst e) (snd e) /\ r * Rabs (turning e f) <= dist (fst f) (snd f).
      (** the half way point of the chord *)
      Definition chord : rpt := mid (lb k e) (la k f).
      Definition hn : rpt := ((fst (normal_of u) + fst (normal_of v)) / 2, (snd (normal_of u) + snd (normal_of v)) / 2).
      Lemma chord_hn : chord = off (snd e) hn k.
      Proof. unfold chord, hn, mid. rewrite la_next. unfold lb. fold (dir_of e). unfold off. cbn [fst snd]. f_equal; field. Qed.
      Lemma hn_u : dot u hn = - (cross u v / 2) /\ cross u hn = (1 + dot u v) / 2.
      Proof. unfold hn, dot, cross, normal_of. cbn [fst snd]. unfold unit in Uu. split; [field|]. transitivity ((fst u * fst u + snd u * snd u + (fst u * fst v + snd u * snd v)) / 2); [field|rewrite Uu; auto]. Qed.
      Lemma hn_v : dot v hn = cross u v / 2 /\ cross v hn = (1 + dot u v) / 2.
      Proof. unfold hn, dot, cross, normal_of. cbn [fst snd]. unfold unit in Uv. split; [field|]. transitivity ((fst v * fst v + snd v * snd v + (fst u * fst v + snd u * snd v)) / 2); [field|rewrite Uv; auto]. Qed.
      Lemma beside_pts : bent e f = true -> long1 ->
        (beside (snd e) (half2 e) /\ beside (lb k e) (half2 e) /\ beside chord (half2 e)) /\ (beside (snd e) (half1 f) /\ beside (la k f) (half1 f) /\ beside chord (half1 f)).
      Proof.
        intros B [L1 L2]. destruct (bent_sign B) as [S1 S2]. unfold turning in L1, L2. rewrite <- S2 in L1, L2. pose proof (dot_range u v Uu Uv) as Dr. pose proof (Rle_0_sqr k) as K2. unfold Rsqr in K2.
        destruct (half_facts e Ne) as [_ (Ne2 & De & Le)]. destruct (half_facts f Nf) as [(Nf1 & Df & Lf) _].
        destruct (unit_self u Uu) as [U1 U2]. destruct (unit_self v Uv) as [V1 V2]. destruct hn_u as [H1 H2]. destruct hn_v as [H3 H4].
        assert (Pe : 0 < dist (fst e) (snd e)) by (apply dir_end; auto). assert (Pf : 0 < dist (fst f) (snd f)) by (apply dir_end; auto).
        assert (Kd : 0 <= k * (k * ((1 + dot u v) / 2)) <= k * k).
        { replace (k * (k * ((1 + dot u v) / 2))) with (k * k * ((1 + dot u v) / 2)) by ring. split; [apply Rmult_le_pos; lra|]. rewrite <- (Rmult_1_r (k * k)) at 2. apply Rmult_le_compat_l; lra. }
        split; (split; [|split]).
        - rewrite <- (off_zero (snd e) (normal_of u)). apply (beside_end (half2 e)); auto; rewrite De, ?Le; lra.
        - unfold lb. fold (dir_of e). apply (beside_end (half2 e)); auto; rewrite De, ?Le, ?U1, ?U2; lra.
        - rewrite chord_hn. apply (beside_end (half2 e)); auto; rewrite De, ?Le, ?H1, ?H2; [|exact Kd]. lra.
        - rewrite Ch. rewrite <- (off_zero (fst f) (normal_of v)). apply (beside_start (half1 f)); rewrite Df, ?Lf; lra.
        - unfold la. fold (dir_of f). apply (beside_start (half1 f)); rewrite Df, ?Lf, ?V1, ?V2; lra.
        - rewrite chord_hn, Ch. apply (beside_start (half1 f)); rewrite Df, ?Lf, ?H3, ?H4; [|exact Kd]. lra.
      Qed.
      Lemma chord_split p : wind3 p (snd e) (lb k e) (la k f) = (wind3 p (snd e) (lb k e) chord + wind3 p (snd e) chord (la k f))%Z.
      Proof.
        unfold wind3. rewrite (rwind_split p (lb k e) chord (la k f)) by (unfold chord, mid, turn3; cbn [fst snd]; field). rewrite (rwind_anti p (snd e) chord). lia.
      Qed.
      Lemma chord_turn : turn3 (snd e) (lb k e) chord = k * k * cross u v / 2 /\ turn3 (snd e) chord (la k f) = k * k * cross u v / 2.
      Proof. rewrite <- tri_turn. unfold chord, mid, turn3. cbn [fst snd]. split; field. Qed.
      Lemma inw_halves p : long1 -> (inw p e f <= slab p (half2 e) + slab p (half1 f))%Z.
      Proof.
        intro L. destruct (half_facts e Ne) as [_ (Ne2 & _)]. destruct (half_facts f Nf) as [(Nf1 & _) _].
        unfold inw. destruct (bent e f) eqn:B; [|pose proof (slab_range p _ Ne2); pose proof (slab_range p _ Nf1); lia].
        destruct (beside_pts B L) as ((A1 & A2 & A3) & (B1 & B2 & B3)). destruct chord_turn as [T1 T2]. destruct (bent_sign B) as [S _]. pose proof (Rle_0_sqr k) as K2. unfold Rsqr in K2.
        unfold Rleb. destruct (Rle_dec 0 k).
        - assert (C : 0 <= k * k * cross u v / 2) by (apply Rmult_le_pos; [apply Rmult_le_pos; auto; apply (Rmult_le_reg_l k); lra|lra]).
          rewrite chord_split. pose proof (slab_tri p (snd e) (lb k e) chord (half2 e) Ne2 ltac:(lra) A1 A2 A3). pose proof (slab_tri p (snd e) chord (la k f) (half1 f) Nf1 ltac:(lra) B1 B3 B2). lia.
        - assert (C : 0 <= - (k * k * cross u v / 2)) by (replace (- (k * k * cross u v / 2)) with (k * k * - cross u v / 2) by field; apply Rmult_le_pos; [apply Rmult_le_pos; auto; apply (Rmult_le_reg_l (- k)); lra|lra]).
          rewrite wind3_flip, chord_split. pose proof (slab_tri p (snd e) chord (lb k e) (half2 e) Ne2 ltac:(rewrite turn3_flip; lra) A1 A3 A2). pose proof (slab_tri p (snd e) (la k f) chord (half1 f) Nf1 ltac:(rewrite turn3_flip; lra) B1 B2 B3).
          rewrite wind3_flip in H, H0. lia.
      Qed.
      (** a gentle bend: the inner triangle lies in the rectangles of both sides *)
      Lemma inw_gentle p : long1 -> 0 <= dot u v -> (inw p e f <= slab p e /\ inw p e f <= slab p f)%Z.
      Proof.
        intros [L1 L2] G. unfold inw. destruct (bent e f) eqn:B; [|pose proof (slab_range p _ Ne); pose proof (slab_range p _ Nf); lia].
        destruct (bent_sign B) as [S1 S2]. unfold turning in L1, L2. rewrite <- S2 in L1, L2. pose proof (dot_range u v Uu Uv) as Dr. pose proof (Rle_0_sqr k) as K2. unfold Rsqr in K2.
        destruct (unit_self u Uu) as [U1 U2]. destruct (unit_self v Uv) as [V1 V2]. 
        destruct (normal_facts u v) as (F1 & F2 & _). destruct (normal_facts v u) as (F3 & F4 & _).
        assert (F5 : cross v u = - cross u v) by (unfold cross; ring). assert (F6 : dot v u = dot u v) by (unfold dot; ring).
        assert (Pe : 0 < dist (fst e) (snd e)) by (apply dir_end; auto). assert (Pf : 0 < dist (fst f) (snd f)) by (apply dir_end; auto).
        assert (Kd : 0 <= k * (k * dot u v) <= k * k).
        { replace (k * (k * dot u v)) with (k * k * dot u v) by ring. split; [apply Rmult_le_pos; lra|]. rewrite <- (Rmult_1_r (k * k)) at 2. apply Rmult_le_compat_l; lra. }
        assert (E1 : beside (snd e) e) by (rewrite <- (off_zero (snd e) (normal_of u)); apply beside_end; auto; lra).
        assert (E2 : beside (lb k e) e) by (unfold lb; fold (dir_of e); apply beside_end; auto; rewrite ?U1, ?U2; lra).
        assert (E3 : beside (la k f) e) by (rewrite la_next; apply beside_end; auto; rewrite ?F1, ?F2; [lra|exact Kd]).
        assert (G1 : beside (snd e) f) by (rewrite Ch, <- (off_zero (fst f) (normal_of v)); apply beside_start; lra).
        assert (G2 : beside (la k f) f) by (unfold la; fold (dir_of f); apply beside_start; rewrite ?V1, ?V2; lra).
        assert (G3 : beside (lb k e) f) by (unfold lb; fold (dir_of e); rewrite Ch; apply beside_start; rewrite ?F3, ?F4, ?F5, ?F6; [lra|exact Kd]).
        pose proof tri_turn as T. unfold Rleb. destruct (Rle_dec 0 k).
        - assert (C : 0 <= turn3 (snd e) (lb k e) (la k f)) by (rewrite T; apply Rmult_le_pos; auto; apply (Rmult_le_reg_l k); lra). split; apply slab_tri; auto.
        - assert (C : 0 <= turn3 (snd e) (la k f) (lb k e)) by (rewrite turn3_flip, T; replace (- (k * k * cross u v)) with (k * k * - cross u v) by ring; apply Rmult_le_pos; auto; apply (Rmult_le_reg_l (- k)); lra). split; apply slab_tri; auto.
      Qed.
      Lemma och_reach a : In a (och e f) -> dist a (snd e) <= join_reach k j.
      Proof.
        pose proof (reach_ge k j) as G. unfold och. rewrite la_next. unfold lb. fold (dir_of e). intros [<-|I]; [rewrite off_dist; auto using unit_normal|].
        apply in_app_or in I as [I|[<-|[]]]; [eapply omids_reach; [| |exact I]; auto|rewrite off_dist; auto using unit_normal].
      Qed.
    End One.
  End Bend.
End Shift.
