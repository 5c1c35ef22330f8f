(** * Accuracy of the crossing point and absence of overflow. *)
From Verif Require Import Base Spec QLib PlanarGeo ModelCross CrossProofs.
Open Scope Z_scope.

Lemma land_disjoint a b k : 0 <= k -> 0 <= b < 2 ^ k -> Z.land (a * 2 ^ k) b = 0.
Proof.
  intros Hk Hb. apply Z.bits_inj'. intros n Hn. rewrite Z.land_spec, Z.bits_0.
  destruct (Z_lt_dec n k).
  - rewrite Z.mul_pow2_bits_low by lia. reflexivity.
  - assert (B : Z.testbit b n = false); [|rewrite B; apply andb_false_r].
    destruct (Z.eq_dec b 0) as [->|]; [apply Z.bits_0|].
    apply Z.bits_above_log2; [lia|].
    apply Z.log2_lt_pow2; [lia|]. eapply Z.lt_le_trans; [apply Hb|]. apply Z.pow_le_mono_r; lia.
Qed.

Lemma lor_add a b k : 0 <= k -> 0 <= b < 2 ^ k -> Z.lor (a * 2 ^ k) b = a * 2 ^ k + b.
Proof.
  intros Hk Hb. pose proof (land_disjoint a b k Hk Hb) as E.
  rewrite <- Z.lxor_lor by auto. symmetry. apply Z.add_nocarry_lxor; auto.
Qed.

Lemma top_bit hi : 0 <= hi < W64 -> negb (Z.land hi (2 ^ 63) =? 0) = (2 ^ 63 <=? hi).
Proof.
  intros H. unfold W64 in H.
  assert (E : Z.land hi (2 ^ 63) = if Z.testbit hi 63 then 2 ^ 63 else 0).
  { apply Z.bits_inj'. intros n Hn. rewrite Z.land_spec.
    rewrite Z.pow2_bits_eqb by lia. destruct (Z.eqb_spec 63 n) as [<-|N].
    - destruct (Z.testbit hi 63); [rewrite Z.pow2_bits_true by lia; reflexivity|rewrite Z.bits_0; reflexivity].
    - rewrite andb_false_r. destruct (Z.testbit hi 63); [rewrite Z.pow2_bits_false by lia; reflexivity|rewrite Z.bits_0; reflexivity]. }
  rewrite E. rewrite (Z.testbit_eqb hi 63) by lia.
  change (2 ^ 64) with (2 ^ 63 * 2) in H. set (m := 2 ^ 63) in *.
  assert (0 < m) by (unfold m; reflexivity).
  destruct (Z.leb_spec m hi).
  - assert (hi / m = 1) as -> by (symmetry; apply (Z.div_unique hi m 1 (hi - m)); lia).
    simpl. lia.
  - rewrite Z.div_small by lia. reflexivity.
Qed.

Lemma div_step_inv d hi lo quo : 2 ^ 63 <= d < W64 -> 0 <= hi < d -> 0 <= lo < W64 -> 0 <= quo < 2 ^ 63 ->
  exists hi' lo' quo', div_step d (hi, lo, quo) = (hi', lo', quo') /\
    0 <= hi' < d /\ 0 <= lo' < W64 /\ 0 <= quo' < W64 /\ quo' <= 2 * quo + 1 /\
    lo' = (2 * lo) mod W64 /\
    hi' * W64 + lo' + quo' * (d * W64) = 2 * (hi * W64 + lo + quo * (d * W64)).
Proof.
  intros Hd Hhi Hlo Hq. unfold div_step.
  rewrite top_bit by (unfold W64 in *; lia).
  assert (EL : shl64 lo 1 = 2 * lo - (lo / 2 ^ 63) * W64 /\ 0 <= shl64 lo 1 < W64 /\ 0 <= lo / 2 ^ 63 <= 1).
  { unfold shl64, W64 in *. change (2 ^ 1) with 2.
    assert (0 <= lo / 2 ^ 63 < 2) by (split; [apply Z.div_pos; lia|apply Z.div_lt_upper_bound; lia]).
    pose proof (Z.div_mod (lo * 2) (2 ^ 64) ltac:(lia)) as D.
    pose proof (Z.mod_pos_bound (lo * 2) (2 ^ 64) ltac:(lia)).
    assert (lo * 2 / 2 ^ 64 = lo / 2 ^ 63).
    { change (2 ^ 64) with (2 ^ 63 * 2). rewrite Z.div_mul_cancel_r by lia. reflexivity. }
    lia. }
  assert (EH : Z.lor (shl64 hi 1) (shr64 lo 63) =
     2 * hi + lo / 2 ^ 63 - (if 2 ^ 63 <=? hi then W64 else 0)).
  { unfold shl64, shr64, W64 in *. change (2 ^ 1) with 2.
    assert (E : (hi * 2) mod 2 ^ 64 = (hi - (if 2 ^ 63 <=? hi then 2 ^ 63 else 0)) * 2 ^ 1).
    { change (2 ^ 1) with 2.
      destruct (Z.leb_spec (2 ^ 63) hi).
      - symmetry. apply (Z.mod_unique _ _ 1); lia.
      - symmetry. apply (Z.mod_unique _ _ 0); lia. }
    rewrite E, lor_add by lia. change (2 ^ 1) with 2. destruct (2 ^ 63 <=? hi); lia. }
  assert (EQ : Z.lor (shl64 quo 1) 1 = 2 * quo + 1).
  { unfold shl64. rewrite Z.mod_small by (unfold W64; lia). rewrite lor_add by lia. lia. }
  assert (EQ0 : shl64 quo 1 = 2 * quo).
  { unfold shl64. rewrite Z.mod_small by (unfold W64; lia). lia. }
  assert (EM : shl64 lo 1 = (2 * lo) mod W64) by (unfold shl64; f_equal; lia).
  rewrite EH, EQ, EQ0.
  set (H := 2 * hi + lo / 2 ^ 63) in *.
  assert (HB : 0 <= H < 2 * d) by lia.
  destruct (Z.leb_spec (2 ^ 63) hi) as [B|B].
  - rewrite orb_true_r. eexists _, _, _. split; [reflexivity|].
    assert (E : (H - W64 - d) mod W64 = H - d).
    { symmetry. apply (Z.mod_unique _ _ (-1)); unfold W64 in *; lia. }
    rewrite E. repeat split; try lia; unfold W64 in *; lia.
  - rewrite orb_false_r, Z.sub_0_r. destruct (Z.leb_spec d H) as [L|L].
    + eexists _, _, _. split; [reflexivity|].
      assert (E : (H - d) mod W64 = H - d) by (apply Z.mod_small; unfold W64 in *; lia).
      rewrite E. repeat split; try lia; unfold W64 in *; lia.
    + eexists _, _, _. split; [reflexivity|]. repeat split; try lia; unfold W64 in *; lia.
Qed.

Lemma div_loop d hi lo : 2 ^ 63 <= d < W64 -> 0 <= hi < d -> 0 <= lo < W64 ->
  forall k, (k <= 64)%nat -> exists hi' lo' quo', Nat.iter k (div_step d) (hi, lo, 0) = (hi', lo', quo') /\
    0 <= hi' < d /\ 0 <= lo' < W64 /\ 0 <= quo' < 2 ^ Z.of_nat k /\
    lo' = (2 ^ Z.of_nat k * lo) mod W64 /\
    hi' * W64 + lo' + quo' * (d * W64) = 2 ^ Z.of_nat k * (hi * W64 + lo).
Proof.
  intros Hd Hhi Hlo. induction k as [|k IH]; intro Hk.
  - exists hi, lo, 0. change (2 ^ Z.of_nat 0) with 1. repeat split; try lia.
    rewrite Z.mul_1_l, Z.mod_small; lia.
  - destruct IH as (h & l & q & E & Bh & Bl & Bq & El & V); [lia|].
    assert (P : 2 ^ Z.of_nat (S k) = 2 * 2 ^ Z.of_nat k) by (rewrite Nat2Z.inj_succ, Z.pow_succ_r; lia).
    assert (Q63 : 2 ^ Z.of_nat k <= 2 ^ 63) by (apply Z.pow_le_mono_r; lia).
    destruct (div_step_inv d h l q Hd Bh Bl ltac:(lia)) as (h' & l' & q' & E' & Bh' & Bl' & Bq' & Bq2 & El' & V').
    exists h', l', q'. simpl Nat.iter. rewrite E. split; [exact E'|].
    repeat split; try lia.
    + rewrite El', El, P, Z.mul_mod_idemp_r by (unfold W64; lia). f_equal. lia.
Qed.

(** The integer quotient, possibly rounded up. *)
Lemma divide_spec a b d : 0 <= a -> 0 <= b -> 0 < d < 2 ^ 63 -> a * b < d * W64 -> a * b < W64 * W64 ->
  let r := divide_with_rounding (u128_mul a b) d in
  (r = a * b / d \/ (r = a * b / d + 1 /\ (a * b) mod d <> 0)).
Proof.
  intros Ha Hb Hd Hn Hn2 r. assert (Hp : 0 <= a * b) by nia. set (n := a * b) in *.
  unfold r, divide_with_rounding, u128_mul. cbn [u_high u_low]. fold n.
  pose proof (Z.div_mod n d ltac:(lia)) as DM. pose proof (Z.mod_pos_bound n d ltac:(lia)) as MB.
  pose proof (Z.div_mod n W64 ltac:(unfold W64; lia)) as DW.
  pose proof (Z.mod_pos_bound n W64 ltac:(unfold W64; lia)) as MW.
  destruct (Z.eqb_spec (n / W64) 0) as [E0|E0].
  - assert (n mod W64 = n) as -> by (rewrite E0 in DW; lia).
    assert (n - n / d * d = n mod d) as -> by lia.
    destruct (Z.leb_spec ((d + 1) / 2) (n mod d)) as [L|L]; [right|left]; auto.
    split; auto. intro Z0. rewrite Z0 in L.
    assert (1 <= (d + 1) / 2) by (apply Z.div_le_lower_bound; lia). lia.
  - left. unfold leading_zeros.
    pose proof (Z.log2_spec d ltac:(lia)) as [L1 L2].
    assert (LR : 0 <= Z.log2 d < 63).
    { split; [apply Z.log2_nonneg|apply Z.log2_lt_pow2; lia]. }
    set (dn := 63 - Z.log2 d) in *. assert (Hdn : 1 <= dn <= 63) by lia.
    set (P := 2 ^ dn). assert (HP : 0 < P) by (apply Z.pow_pos_nonneg; lia).
    assert (ED : shl64 d dn = d * P /\ 2 ^ 63 <= d * P < W64).
    { assert (B : 2 ^ 63 <= d * P < W64).
      { unfold W64. assert (A1 : 2 ^ Z.log2 d * P = 2 ^ 63) by (unfold P; rewrite <- Z.pow_add_r by lia; f_equal; lia).
        assert (A2 : 2 ^ Z.succ (Z.log2 d) * P = 2 ^ 64) by (unfold P; rewrite <- Z.pow_add_r by lia; f_equal; lia).
        split; [rewrite <- A1; nia|rewrite <- A2; nia]. }
      split; auto. unfold shl64. fold P. apply Z.mod_small. lia. }
    destruct ED as [ED BD]. rewrite ED.
    set (Pc := 2 ^ (64 - dn)). assert (HPc : 0 < Pc) by (apply Z.pow_pos_nonneg; lia).
    assert (PP : P * Pc = W64) by (unfold P, Pc, W64; rewrite <- Z.pow_add_r by lia; f_equal; lia).
    (* normalised dividend *)
    set (V := n * P). assert (HV : 0 <= V) by (unfold V; nia).
    assert (VD : V < d * P * W64) by (unfold V; nia).
    pose proof (Z.div_mod V W64 ltac:(lia)) as DV. pose proof (Z.mod_pos_bound V W64 ltac:(lia)) as MV.
    assert (VQ : 0 <= V / W64 < d * P).
    { split; [apply Z.div_pos; lia|apply Z.div_lt_upper_bound; lia]. }
    set (h := n / W64) in *. set (l := n mod W64) in *.
    assert (Hh : 0 <= h) by (apply Z.div_pos; lia).
    pose proof (Z.div_mod l Pc ltac:(lia)) as DL. pose proof (Z.mod_pos_bound l Pc ltac:(lia)) as ML.
    assert (LQ : 0 <= l / Pc < P).
    { split; [apply Z.div_pos; lia|apply Z.div_lt_upper_bound; lia]. }
    assert (EV : V = (h * P + l / Pc) * W64 + (l mod Pc) * P).
    { unfold V. rewrite DW. fold h l. rewrite DL at 1. rewrite <- PP. ring. }
    assert (LB : 0 <= (l mod Pc) * P < W64) by (rewrite <- PP; nia).
    assert (VH : V / W64 = h * P + l / Pc).
    { symmetry. apply (Z.div_unique V W64 _ ((l mod Pc) * P)); [left; lia|lia]. }
    assert (VL : V mod W64 = (l mod Pc) * P).
    { symmetry. apply (Z.mod_unique V W64 (h * P + l / Pc)); [left; lia|lia]. }
    assert (EHI : Z.lor (shl64 h dn) (shr64 l (64 - dn)) = V / W64).
    { unfold shl64, shr64. fold P Pc. rewrite Z.mod_small by (unfold W64 in *; nia).
      unfold P. rewrite lor_add by (fold P; lia). fold P. lia. }
    assert (ELO : shl64 l dn = V mod W64).
    { unfold shl64. fold P. rewrite VL. symmetry. apply (Z.mod_unique (l * P) W64 (l / Pc)); [left; lia|].
      rewrite DL at 1. rewrite <- PP. ring. }
    rewrite EHI, ELO.
    destruct (div_loop (d * P) (V / W64) (V mod W64) BD VQ ltac:(lia) 64%nat ltac:(lia))
      as (h' & l' & q' & E & Bh & Bl & Bq & El & VV).
    rewrite E. change (2 ^ Z.of_nat 64) with W64 in *.
    assert (l' = 0) as ->.
    { rewrite El, Z.mul_comm. apply Z.mod_mul. unfold W64; lia. }
    assert (VV' : h' + q' * (d * P) = V).
    { assert (W64 * (h' + q' * (d * P)) = W64 * V) as X by lia. apply Z.mul_cancel_l in X; auto. unfold W64; lia. }
    assert (EQ : q' = n / d /\ h' = (n mod d) * P).
    { assert (V / (d * P) = q') by (symmetry; apply (Z.div_unique V (d * P) q' h'); [left; lia|lia]).
      assert (n / d = V / (d * P)) by (unfold V; rewrite Z.div_mul_cancel_r; lia).
      split; [lia|]. unfold V in VV'. nia. }
    destruct EQ as [-> ->].
    assert (shl64 (n mod d * P) (64 - dn) = 0) as ->.
    { unfold shl64. fold Pc. rewrite <- Z.mul_assoc, PP. apply Z.mod_mul. unfold W64; lia. }
    assert (shr64 0 dn = 0) as -> by (unfold shr64; apply Z.div_0_l; fold P; lia).
    simpl Z.lor.
    destruct (Z.leb_spec ((d + 1) / 2) 0) as [L|L]; auto.
    assert (1 <= (d + 1) / 2) by (apply Z.div_le_lower_bound; lia). lia.
Qed.

(** Coordinates below 2^30 in absolute value, as the code requires
    ([split/cross_solver.rs:212-214]). *)
Definition bounded_pt (p : pt) : Prop := Z.abs (px p) < 2 ^ 30 /\ Z.abs (py p) < 2 ^ 30.
Definition bounded (s : xseg) : Prop := bounded_pt (sa s) /\ bounded_pt (sb s).

Definition M31 : Z := 2 ^ 31 - 2.

Lemma abs_mul_le a b m n : Z.abs a <= m -> Z.abs b <= n -> Z.abs (a * b) <= m * n.
Proof. intros. rewrite Z.abs_mul. apply Z.mul_le_mono_nonneg; lia. Qed.

Lemma abs_det_le a b c d : Z.abs a <= M31 -> Z.abs b <= M31 -> Z.abs c <= M31 -> Z.abs d <= M31 ->
  Z.abs (a * b) < 2 ^ 62 /\ Z.abs (c * d) < 2 ^ 62 /\ Z.abs (a * b - c * d) < 2 ^ 63.
Proof.
  intros A B C D. pose proof (abs_mul_le _ _ _ _ A B). pose proof (abs_mul_le _ _ _ _ C D).
  unfold M31 in *. lia.
Qed.

(** [x / d] rounded to a neighbouring integer, exactly if possible. *)
Definition rounds (x num d : Z) : Prop := Z.abs (x * d - num) < Z.abs d.

Lemma rounds_quot n d : d <> 0 -> rounds (Z.quot n d) n d.
Proof.
  intro H. unfold rounds. pose proof (Z.quot_rem' n d). pose proof (Z.rem_bound_abs n d H). lia.
Qed.

Lemma rounds_scale k x n d : k <> 0 -> rounds x n d -> rounds x (k * n) (k * d).
Proof.
  unfold rounds. intros H R. replace (x * (k * d) - k * n) with (k * (x * d - n)) by ring.
  rewrite !Z.abs_mul. apply Z.mul_lt_mono_pos_l; lia.
Qed.

Lemma sgn_sq z : z <> 0 -> Z.sgn z * Z.sgn z = 1.
Proof. intros. destruct z; try reflexivity. lia. Qed.

Lemma rounds_u128 a xy d : Z.abs a <= M31 -> Z.abs xy < Z.abs d -> Z.abs d < 2 ^ 63 -> d <> 0 -> a <> 0 -> xy <> 0 ->
  rounds (Z.sgn a * (Z.sgn d * Z.sgn xy) * divide_with_rounding (u128_mul (Z.abs a) (Z.abs xy)) (Z.abs d)) (a * xy) d.
Proof.
  intros A X D D0 A0 X0.
  assert (N : Z.abs a * Z.abs xy <= M31 * Z.abs d) by (apply Z.mul_le_mono_nonneg; lia).
  pose proof (divide_spec (Z.abs a) (Z.abs xy) (Z.abs d) ltac:(lia) ltac:(lia) ltac:(lia)) as S.
  assert (N1 : Z.abs a * Z.abs xy < Z.abs d * W64) by (unfold M31, W64 in *; lia).
  assert (N2 : Z.abs a * Z.abs xy < W64 * W64) by (unfold M31, W64 in *; lia).
  specialize (S N1 N2). cbv zeta in S.
  set (r := divide_with_rounding _ _) in *.
  set (n := Z.abs a * Z.abs xy) in *.
  pose proof (Z.div_mod n (Z.abs d) ltac:(lia)) as DM. pose proof (Z.mod_pos_bound n (Z.abs d) ltac:(lia)) as MB.
  assert (R : Z.abs (r * Z.abs d - n) < Z.abs d).
  { destruct S as [->|[-> NZ]]; nia. }
  unfold rounds.
  assert (E : Z.sgn a * (Z.sgn d * Z.sgn xy) * r * d - a * xy = Z.sgn a * Z.sgn xy * (r * Z.abs d - n)).
  { assert (Ea : Z.sgn a * Z.abs a = a) by (rewrite Z.mul_comm; apply Z.abs_sgn).
    assert (Ex : Z.sgn xy * Z.abs xy = xy) by (rewrite Z.mul_comm; apply Z.abs_sgn).
    assert (Eax : a * xy = Z.sgn a * Z.sgn xy * n).
    { unfold n. transitivity ((Z.sgn a * Z.abs a) * (Z.sgn xy * Z.abs xy)); [congruence|ring]. }
    rewrite Eax. transitivity (Z.sgn a * Z.sgn xy * (r * (d * Z.sgn d)) - Z.sgn a * Z.sgn xy * n); [ring|].
    rewrite Z.sgn_abs. ring. }
  rewrite E, !Z.abs_mul.
  assert (Z.abs (Z.sgn a) = 1) as -> by (destruct a; simpl; lia).
  assert (Z.abs (Z.sgn xy) = 1) as -> by (destruct xy; simpl; lia). lia.
Qed.

Lemma bounded_diff s t : bounded s -> bounded t ->
  Z.abs (px (sb s) - px (sa s)) <= M31 /\ Z.abs (py (sb s) - py (sa s)) <= M31 /\
  Z.abs (px (sa t) - px (sa s)) <= M31 /\ Z.abs (py (sa t) - py (sa s)) <= M31 /\
  Z.abs (px (sb t) - px (sa s)) <= M31 /\ Z.abs (py (sb t) - py (sa s)) <= M31 /\
  Z.abs (px (sa t) - px (sb t)) <= M31 /\ Z.abs (py (sa t) - py (sb t)) <= M31.
Proof.
  unfold bounded, bounded_pt, M31. change (2 ^ 30) with 1073741824. change (2 ^ 31 - 2) with 2147483646.
  intros [[? ?] [? ?]] [[? ?] [? ?]]. repeat split; lia.
Qed.

Lemma properly_lt s t : properly s t -> Z.abs (C1 t s) < Z.abs (dirx s t) /\ C1 t s <> 0 /\ dirx s t <> 0.
Proof.
  intros P. pose proof (properly_dirx _ _ P). destruct P as [_ P]. rewrite dirx_D in *.
  apply Z.lt_mul_0 in P. lia.
Qed.

Theorem cross_point_rounds s t : bounded s -> bounded t -> properly s t ->
  rounds (px (cross_point s t) - px (sa s)) ((px (sb s) - px (sa s)) * C1 t s) (dirx s t) /\
  rounds (py (cross_point s t) - py (sa s)) ((py (sb s) - py (sa s)) * C1 t s) (dirx s t).
Proof.
  intros Bs Bt P. destruct (properly_lt s t P) as (LT & NZ & DZ).
  destruct (bounded_diff s t Bs Bt) as (A1 & A2 & A3 & A4 & A5 & A6 & A7 & A8).
  unfold cross_point.
  set (a1x := px (sb s) - px (sa s)) in *. set (a1y := py (sb s) - py (sa s)) in *.
  set (b0x := px (sa t) - px (sa s)) in *. set (b0y := py (sa t) - py (sa s)) in *.
  set (b1x := px (sb t) - px (sa s)) in *. set (b1y := py (sb t) - py (sa s)) in *.
  set (xy := b0x * b1y - b0y * b1x) in *.
  assert (EX : xy = C1 t s) by (unfold xy, b0x, b0y, b1x, b1y, cross3; ring).
  assert (ED : a1y * (b0x - b1x) - a1x * (b0y - b1y) = dirx s t)
    by (unfold a1x, a1y, b0x, b0y, b1x, b1y, dirx; ring).
  rewrite EX. set (d1 := C1 t s) in *.
  assert (DB : Z.abs (dirx s t) < 2 ^ 63).
  { rewrite <- ED. apply abs_det_le; auto; unfold b0x, b0y, b1x, b1y;
      replace (px (sa t) - px (sa s) - (px (sb t) - px (sa s))) with (px (sa t) - px (sb t)) by ring;
      replace (py (sa t) - py (sa s) - (py (sb t) - py (sa s))) with (py (sa t) - py (sb t)) by ring; auto. }
  rewrite ED. rewrite <- ED in DZ, LT.
  destruct (Z.eqb_spec a1x 0) as [X0|X0]; [|destruct (Z.eqb_spec a1y 0) as [Y0|Y0]]; cbn [px py]; rewrite !Z.add_simpl_r.
  - rewrite <- ED, X0. split.
    + unfold rounds. rewrite !Z.mul_0_l. rewrite X0 in *. lia.
    + assert (E : a1y * (b0x - b1x) - 0 * (b0y - b1y) = a1y * (b0x - b1x)) by ring. rewrite E.
      rewrite X0, E in DZ. apply rounds_scale; [intro Z0; rewrite Z0 in DZ; lia|].
      apply rounds_quot. intro Z0. rewrite Z0 in DZ. lia.
  - rewrite <- ED, Y0. split.
    + assert (E : 0 * (b0x - b1x) - a1x * (b0y - b1y) = (- a1x) * (b0y - b1y)) by ring. rewrite E.
      rewrite Y0, E in DZ. replace (a1x * d1) with ((- a1x) * (- d1)) by ring.
      apply rounds_scale; [lia|].
      apply rounds_quot. intro Z0. rewrite Z0 in DZ. lia.
    + unfold rounds. rewrite !Z.mul_0_l. rewrite Y0 in *. lia.
  - rewrite ED in DZ, LT. split; apply rounds_u128; auto.
Qed.

Lemma rounds_Q x n d : d <> 0 -> rounds x n d ->
  (Qabs (inject_Z x - inject_Z n / inject_Z d) < 1)%Q.
Proof.
  intros D R. unfold rounds in R.
  assert (D' : ~ (inject_Z d == 0)%Q) by (intro E; apply D; exact (proj1 (qz_eq _ 0) E)).
  assert (E : (inject_Z x - inject_Z n / inject_Z d == inject_Z (x * d - n) / inject_Z d)%Q).
  { rewrite qz_sub, inject_Z_mult. field. auto. }
  rewrite E. apply Qabs_case; intro H.
  - destruct (Z_lt_dec 0 d).
    + apply Qlt_shift_div_r; [apply inj_pos; auto|]. rewrite Qmult_1_l. apply (proj2 (qz_lt _ _)). lia.
    + assert (EE : (inject_Z (x * d - n) / inject_Z d == inject_Z (- (x * d - n)) / inject_Z (- d))%Q).
      { rewrite !inject_Z_opp. field. auto. }
      rewrite EE. apply Qlt_shift_div_r; [apply inj_pos; lia|]. rewrite Qmult_1_l. apply (proj2 (qz_lt _ _)). lia.
  - destruct (Z_lt_dec 0 d).
    + assert (EE : (- (inject_Z (x * d - n) / inject_Z d) == inject_Z (- (x * d - n)) / inject_Z d)%Q).
      { rewrite !inject_Z_opp. field. auto. }
      rewrite EE. apply Qlt_shift_div_r; [apply inj_pos; auto|]. rewrite Qmult_1_l. apply (proj2 (qz_lt _ _)). lia.
    + assert (EE : (- (inject_Z (x * d - n) / inject_Z d) == inject_Z (x * d - n) / inject_Z (- d))%Q).
      { rewrite !inject_Z_opp. field. auto. }
      rewrite EE. apply Qlt_shift_div_r; [apply inj_pos; lia|]. rewrite Qmult_1_l. apply (proj2 (qz_lt _ _)). lia.
Qed.

Lemma Qabs_lt x y : (Qabs x < y <-> - y < x /\ x < y)%Q.
Proof.
  split.
  - intro H. pose proof (Qle_Qabs x). pose proof (Qle_Qabs (- x)). rewrite Qabs_opp in H1. split; lra.
  - intros [A B]. apply Qabs_case; intro; lra.
Qed.

(** an integer less than one away from a rational between two integers is between them *)
Lemma near_between x q m n : (Qabs (inject_Z x - q) < 1)%Q -> (inject_Z m <= q <= inject_Z n)%Q -> m <= x <= n.
Proof.
  intros H [A B]. apply Qabs_lt in H as [H1 H2].
  split.
  - assert (inject_Z m < inject_Z (x + 1))%Q by (rewrite inject_Z_plus; change (inject_Z 1) with 1%Q; lra).
    apply (proj1 (qz_lt _ _)) in H. lia.
  - assert (inject_Z x < inject_Z (n + 1))%Q by (rewrite inject_Z_plus; change (inject_Z 1) with 1%Q; lra).
    apply (proj1 (qz_lt _ _)) in H. lia.
Qed.

(** axis parallel bounding box *)
Definition in_box (s : xseg) (p : pt) : Prop :=
  Z.min (px (sa s)) (px (sb s)) <= px p <= Z.max (px (sa s)) (px (sb s)) /\
  Z.min (py (sa s)) (py (sb s)) <= py p <= Z.max (py (sa s)) (py (sb s)).

Lemma on_seg_box s q : on_seg s q ->
  (inject_Z (Z.min (px (sa s)) (px (sb s))) <= fst q <= inject_Z (Z.max (px (sa s)) (px (sb s))))%Q /\
  (inject_Z (Z.min (py (sa s)) (py (sb s))) <= snd q <= inject_Z (Z.max (py (sa s)) (py (sb s))))%Q.
Proof.
  intros (u & [U0 U1] & Ex & Ey).
  assert (K : forall a b : Z, (inject_Z (Z.min a b) <= inject_Z a + u * (inject_Z b - inject_Z a) <= inject_Z (Z.max a b))%Q).
  { intros a b. destruct (Z.min_spec a b) as [[L ->]|[L ->]], (Z.max_spec a b) as [[L' ->]|[L' ->]]; try lia.
    - assert (inject_Z a < inject_Z b)%Q by (apply (proj2 (qz_lt _ _)); auto). split; nra.
    - assert (inject_Z b <= inject_Z a)%Q by (apply (proj2 (qz_le _ _)); auto). split; nra. }
  rewrite Ex, Ey. split; apply K.
Qed.

Theorem cross_point_near s t : bounded s -> bounded t -> properly s t ->
  (Qabs (qx (cross_point s t) - fst (meet s t)) < 1)%Q /\
  (Qabs (qy (cross_point s t) - snd (meet s t)) < 1)%Q /\
  in_box s (cross_point s t) /\ in_box t (cross_point s t).
Proof.
  intros Bs Bt P. destruct (cross_point_rounds s t Bs Bt P) as [RX RY].
  pose proof (properly_dirx _ _ P) as D.
  assert (D' : ~ (inject_Z (dirx s t) == 0)%Q) by (intro E; apply D; exact (proj1 (qz_eq _ 0) E)).
  apply rounds_Q in RX; auto. apply rounds_Q in RY; auto.
  assert (NX : (Qabs (qx (cross_point s t) - fst (meet s t)) < 1)%Q).
  { assert (E : (qx (cross_point s t) - fst (meet s t) == inject_Z (px (cross_point s t) - px (sa s)) -
        inject_Z ((px (sb s) - px (sa s)) * C1 t s) / inject_Z (dirx s t))%Q).
    { unfold meet; simpl. rewrite qz_sub, inject_Z_mult, qz_sub. unfold qx. field. auto. }
    rewrite E. auto. }
  assert (NY : (Qabs (qy (cross_point s t) - snd (meet s t)) < 1)%Q).
  { assert (E : (qy (cross_point s t) - snd (meet s t) == inject_Z (py (cross_point s t) - py (sa s)) -
        inject_Z ((py (sb s) - py (sa s)) * C1 t s) / inject_Z (dirx s t))%Q).
    { unfold meet; simpl. rewrite qz_sub, inject_Z_mult, qz_sub. unfold qy. field. auto. }
    rewrite E. auto. }
  destruct (properly_meet s t P) as [[Os _] [Ot _]].
  destruct (on_seg_box _ _ Os) as [SX SY]. destruct (on_seg_box _ _ Ot) as [TX TY].
  split; [auto|split; [auto|split; split]].
  - eapply near_between; eauto.
  - eapply near_between; eauto.
  - eapply near_between; eauto.
  - eapply near_between; eauto.
Qed.

Lemma chk_ok lo hi x : lo <= x < hi -> chk lo hi x = Some x.
Proof. intro H. unfold chk. destruct (Z.leb_spec lo x), (Z.ltb_spec x hi); simpl; auto; lia. Qed.
Lemma ci64_ok x : Z.abs x < 2 ^ 63 -> ci64 x = Some x.
Proof. intro H. apply chk_ok. lia. Qed.
Lemma ci32_ok x : Z.abs x < 2 ^ 31 -> ci32 x = Some x.
Proof. intro H. apply chk_ok. lia. Qed.
Lemma cu64_ok x : 0 <= x < W64 -> cu64 x = Some x.
Proof. intro H. apply chk_ok. auto. Qed.

Lemma divide_chk_ok a xy d : Z.abs a <= M31 -> Z.abs xy < Z.abs d -> Z.abs d < 2 ^ 63 ->
  let r := divide_with_rounding (u128_mul (Z.abs a) (Z.abs xy)) (Z.abs d) in
  divide_with_rounding_chk (u128_mul (Z.abs a) (Z.abs xy)) (Z.abs d) = Some r /\ 0 <= r <= M31.
Proof.
  intros A X D r. assert (D0 : 0 < Z.abs d) by lia.
  assert (N : Z.abs a * Z.abs xy <= M31 * Z.abs d) by (apply Z.mul_le_mono_nonneg; lia).
  assert (N1 : Z.abs a * Z.abs xy < Z.abs d * W64) by (unfold M31, W64 in *; lia).
  assert (N2 : Z.abs a * Z.abs xy < W64 * W64) by (unfold M31, W64 in *; lia).
  pose proof (divide_spec (Z.abs a) (Z.abs xy) (Z.abs d) ltac:(lia) ltac:(lia) ltac:(lia) N1 N2) as S.
  cbv zeta in S. fold r in S.
  assert (N0 : 0 <= Z.abs a * Z.abs xy) by (apply Z.mul_nonneg_nonneg; lia).
  set (n := Z.abs a * Z.abs xy) in *. 
  assert (B : 0 <= r <= M31).
  { assert (Q0 : 0 <= n / Z.abs d) by (apply Z.div_pos; lia).
    assert (Q1 : n / Z.abs d <= M31) by (apply Z.div_le_upper_bound; lia).
    destruct S as [->|[-> NZ]]; [lia|].
    assert (n / Z.abs d <> M31); [|lia]. intro E.
    pose proof (Z.div_mod n (Z.abs d) ltac:(lia)) as DM. pose proof (Z.mod_pos_bound n (Z.abs d) ltac:(lia)).
    rewrite E in DM. lia. }
  split; auto. unfold divide_with_rounding_chk.
  destruct (Z.eqb_spec (Z.abs d) 0) as [E|_]; [lia|].
  rewrite cu64_ok by (unfold W64; lia).
  fold r. assert (ER : cu64 r = Some r) by (apply cu64_ok; unfold M31, W64 in *; lia).
  unfold u128_mul in *. cbn [u_high u_low]. fold n. 
  pose proof (Z.mod_pos_bound n W64 ltac:(unfold W64; lia)) as MW.
  destruct (Z.eqb_spec (n / W64) 0).
  - set (l := n mod W64) in *.
    pose proof (Z.div_mod l (Z.abs d) ltac:(lia)) as DM. pose proof (Z.mod_pos_bound l (Z.abs d) ltac:(lia)).
    assert (0 <= l / Z.abs d) by (apply Z.div_pos; lia).
    rewrite (cu64_ok (l / Z.abs d * Z.abs d)) by nia. rewrite cu64_ok by nia. exact ER.
  - unfold leading_zeros. rewrite chk_ok; [exact ER|].
    assert (0 <= Z.log2 (Z.abs d) < 63); [|lia].
    split; [apply Z.log2_nonneg|apply Z.log2_lt_pow2; lia].
Qed.

Lemma box_bound s p : bounded s -> in_box s p -> bounded_pt p.
Proof.
  unfold bounded, bounded_pt, in_box. change (2 ^ 30) with 1073741824.
  intros [[? ?] [? ?]] [? ?]. split; lia.
Qed.
Lemma M31_64 x : Z.abs x <= M31 -> Z.abs x < 2 ^ 63.
Proof. unfold M31. lia. Qed.
Lemma M62_64 x : Z.abs x < 2 ^ 62 -> Z.abs x < 2 ^ 63.
Proof. lia. Qed.
Lemma M30_64 x : Z.abs x < 2 ^ 30 -> Z.abs x < 2 ^ 63.
Proof. lia. Qed.
Lemma M30_31 x : Z.abs x < 2 ^ 30 -> Z.abs x < 2 ^ 31.
Proof. lia. Qed.
Lemma diff_64 x y : Z.abs (x + y) < 2 ^ 30 -> Z.abs y < 2 ^ 30 -> Z.abs x < 2 ^ 63.
Proof. lia. Qed.
Lemma opp_64 x : Z.abs x < 2 ^ 63 -> Z.abs (- x) < 2 ^ 63.
Proof. lia. Qed.
Lemma abs_u64 x : Z.abs x < 2 ^ 63 -> 0 <= Z.abs x < W64.
Proof. unfold W64. lia. Qed.
Lemma r_64 x : 0 <= x <= M31 -> Z.abs x < 2 ^ 63.
Proof. unfold M31. lia. Qed.

Theorem cross_point_no_overflow s t : bounded s -> bounded t -> properly s t ->
  cross_point_chk s t = Some (cross_point s t).
Proof.
  intros Bs Bt P. destruct (properly_lt s t P) as (LT & NZ & DZ).
  destruct (bounded_diff s t Bs Bt) as (A1 & A2 & A3 & A4 & A5 & A6 & A7 & A8).
  destruct (cross_point_near s t Bs Bt P) as (_ & _ & BB & _).
  destruct (box_bound _ _ Bs BB) as [CX CY]. clear BB.
  destruct Bs as [[SX SY] _]. clear Bt P.
  revert CX CY.
  unfold cross_point, cross_point_chk.
  assert (EX : (px (sa t) - px (sa s)) * (py (sb t) - py (sa s)) - (py (sa t) - py (sa s)) * (px (sb t) - px (sa s)) = C1 t s)
    by (unfold cross3; ring).
  assert (ED : (py (sb s) - py (sa s)) * (px (sa t) - px (sa s) - (px (sb t) - px (sa s))) -
               (px (sb s) - px (sa s)) * (py (sa t) - py (sa s) - (py (sb t) - py (sa s))) = dirx s t)
    by (unfold dirx; ring).
  assert (A7' : Z.abs (px (sa t) - px (sa s) - (px (sb t) - px (sa s))) <= M31)
    by (replace (_ - _ - _) with (px (sa t) - px (sb t)) by ring; auto).
  assert (A8' : Z.abs (py (sa t) - py (sa s) - (py (sb t) - py (sa s))) <= M31)
    by (replace (_ - _ - _) with (py (sa t) - py (sb t)) by ring; auto).
  generalize dependent (px (sb s) - px (sa s)). intro a1x. generalize dependent (py (sb s) - py (sa s)). intro a1y.
  generalize dependent (px (sa t) - px (sa s)). intro b0x. generalize dependent (py (sa t) - py (sa s)). intro b0y.
  generalize dependent (px (sb t) - px (sa s)). intro b1x. generalize dependent (py (sb t) - py (sa s)). intro b1y.
  intros.
  rewrite (ci64_ok a1x), (ci64_ok b0x), (ci64_ok b1x), (ci64_ok a1y), (ci64_ok b0y), (ci64_ok b1y) by (apply M31_64; assumption).
  rewrite (ci64_ok (b0y - b1y)), (ci64_ok (b0x - b1x)) by (apply M31_64; assumption).
  destruct (abs_det_le b0x b1y b0y b1x) as (K1 & K2 & K3); auto.
  rewrite (ci64_ok (b0x * b1y)), (ci64_ok (b0y * b1x)) by (apply M62_64; assumption).
  rewrite (ci64_ok (b0x * b1y - b0y * b1x)) by assumption.
  rewrite EX in *.
  destruct (abs_det_le a1y (b0x - b1x) a1x (b0y - b1y)) as (L1 & L2 & L3); auto.
  rewrite ED in *.
  destruct (Z.eqb_spec a1x 0) as [X0|X0]; [|destruct (Z.eqb_spec a1y 0) as [Y0|Y0]].
  - destruct (Z.eqb_spec (b0x - b1x) 0) as [E0|_]; [exfalso; rewrite X0, E0 in ED; rewrite <- ED in DZ; apply DZ; ring|].
    cbn [px py] in CX, CY.
    rewrite (ci64_ok (Z.quot _ _)) by (eapply diff_64; eassumption).
    cbn [fst snd]. rewrite !ci64_ok by (apply M30_64; assumption). rewrite !ci32_ok by (apply M30_31; assumption). reflexivity.
  - rewrite (ci64_ok (- C1 t s)) by (apply opp_64; assumption).
    destruct (Z.eqb_spec (b0y - b1y) 0) as [E0|_]; [exfalso; rewrite Y0, E0 in ED; rewrite <- ED in DZ; apply DZ; ring|].
    cbn [px py] in CX, CY.
    rewrite (ci64_ok (Z.quot _ _)) by (eapply diff_64; eassumption).
    cbn [fst snd]. rewrite !ci64_ok by (apply M30_64; assumption). rewrite !ci32_ok by (apply M30_31; assumption). reflexivity.
  - rewrite (ci64_ok (a1y * (b0x - b1x))), (ci64_ok (a1x * (b0y - b1y))) by (apply M62_64; assumption).
    rewrite ED in *. rewrite (ci64_ok (dirx s t)) by assumption.
    rewrite (cu64_ok (Z.abs (C1 t s))), (cu64_ok (Z.abs (dirx s t))), (cu64_ok (Z.abs a1x)), (cu64_ok (Z.abs a1y))
      by (apply abs_u64; first [assumption | apply M31_64; assumption]).
    destruct (divide_chk_ok a1x (C1 t s) (dirx s t)) as [E1 R1]; auto.
    destruct (divide_chk_ok a1y (C1 t s) (dirx s t)) as [E2 R2]; auto.
    rewrite E1, E2. clear E1 E2.
    set (ux := divide_with_rounding (u128_mul (Z.abs a1x) _) _) in *.
    set (uy := divide_with_rounding (u128_mul (Z.abs a1y) _) _) in *.
    rewrite (ci64_ok ux), (ci64_ok uy) by (apply r_64; assumption).
    cbn [px py] in CX, CY.
    rewrite (ci64_ok (_ * ux)), (ci64_ok (_ * uy)) by (eapply diff_64; eassumption).
    cbn [fst snd]. rewrite !ci64_ok by (apply M30_64; assumption). rewrite !ci32_ok by (apply M30_31; assumption). reflexivity.
Qed.
