(** * The segment generation of [mesh/*] in exact arithmetic: [FloatOps] over the real numbers. *)
From Verif Require Import Base Spec ModelSegm SegmProofs ModelMesh MeshProofs MeshStrip ModelRect.
From Coq Require Import Reals Lra Psatz Qreals.
Open Scope R_scope.

Definition Rltb (a b : R) : bool := if Rlt_dec a b then true else false.
Definition Rleb (a b : R) : bool := if Rle_dec a b then true else false.
Lemma Rltb_true a b : Rltb a b = true -> a < b.
Proof. unfold Rltb. destruct (Rlt_dec a b); [auto|discriminate]. Qed.
Lemma Rltb_false a b : Rltb a b = false -> b <= a.
Proof. unfold Rltb. destruct (Rlt_dec a b); [discriminate|]. intros _. lra. Qed.
Lemma Rleb_true a b : Rleb a b = true -> a <= b.
Proof. unfold Rleb. destruct (Rle_dec a b); [auto|discriminate]. Qed.
Lemma Rleb_false a b : Rleb a b = false -> b < a.
Proof. unfold Rleb. destruct (Rle_dec a b); [discriminate|]. intros _. lra. Qed.

Definition r_norm (p : R * R) : R * R := let l := sqrt (fst p * fst p + snd p * snd p) in (fst p / l, snd p / l).
(** every operation by its mathematical meaning; [round] to the nearest integer, halves up (all its arguments are positive);
    [as usize] rounds down, negative numbers to 0 *)
Definition RF : FloatOps := {|
  ModelMesh.num := R; f64 := R; fp := (R * R)%type;
  n_add a b := a + b; n_sub a b := a - b; n_mul a b := a * b; n_div a b := a / b;
  n_neg a := - a; n_abs a := Rabs a; n_lt a b := Rltb a b; n_le a b := Rleb a b;
  to_f64 x := x; from_f64 x := x; d_lit x := Q2R x; d_pi := PI;
  d_add a b := a + b; d_mul a b := a * b; d_div a b := a / b; d_neg a := - a;
  d_max a b := Rmax a b; d_min a b := Rmin a b; d_clamp a lo hi := Rmax lo (Rmin a hi);
  d_abs a := Rabs a; d_cos a := cos a; d_sin a := sin a; d_tan a := tan a; d_acos a := acos a; d_sqrt a := sqrt a;
  d_round a := IZR (Int_part (a + / 2));
  d_usize a := Z.to_nat (Int_part a); d_of_nat n := INR n;
  f_xy x y := (x, y); f_x := fst; f_y := snd;
  p_add a b := (fst a + fst b, snd a + snd b); p_sub a b := (fst a - fst b, snd a - snd b);
  p_scale a s := (fst a * s, snd a * s); p_norm := r_norm;
  p_cross a b := fst a * snd b - snd a * fst b; p_dot a b := fst a * fst b + snd a * snd b |}.

(** square of the distance, distance *)
Definition dist2 (p q : R * R) : R := (fst p - fst q) * (fst p - fst q) + (snd p - snd q) * (snd p - snd q).
Definition dist (p q : R * R) : R := sqrt (dist2 p q).
Lemma dist2_nonneg p q : 0 <= dist2 p q.
Proof. unfold dist2. pose proof (Rle_0_sqr (fst p - fst q)). pose proof (Rle_0_sqr (snd p - snd q)). unfold Rsqr in *. lra. Qed.
Lemma dist_le p q d : 0 <= d -> dist2 p q <= d * d -> dist p q <= d.
Proof. intros H L. unfold dist. rewrite <- (sqrt_square d) by auto. apply sqrt_le_1_alt. exact L. Qed.
Lemma dist_eq p q d : 0 <= d -> dist2 p q = d * d -> dist p q = d.
Proof. intros H L. unfold dist. rewrite L. apply sqrt_square. auto. Qed.

Definition unit (d : R * R) : Prop := fst d * fst d + snd d * snd d = 1.
Lemma norm_unit (p : R * R) : p <> (0, 0) -> unit (r_norm p).
Proof.
  intro N. unfold unit, r_norm. cbn [fst snd]. set (s := fst p * fst p + snd p * snd p).
  assert (Ps : 0 < s).
  { unfold s. destruct p as [x y]. cbn [fst snd]. destruct (Req_dec x 0) as [->|]; [destruct (Req_dec y 0) as [->|]; [congruence|]|]; nra. }
  assert (Q : sqrt s * sqrt s = s) by (apply sqrt_sqrt; lra). assert (P : 0 < sqrt s) by (apply sqrt_lt_R0; auto).
  replace (fst p / sqrt s * (fst p / sqrt s) + snd p / sqrt s * (snd p / sqrt s)) with (s / (sqrt s * sqrt s)) by (unfold s; field; fold s; lra).
  rewrite Q. field. lra.
Qed.
Definition dir (x y : R * R) : R * R := r_norm (fst y - fst x, snd y - snd x).
Lemma dir_unit x y : x <> y -> unit (dir x y).
Proof.
  intro N. apply norm_unit. intro E. apply N. injection E as E1 E2. destruct x as [a b], y as [c d]. cbn [fst snd] in *. f_equal; lra.
Qed.

Lemma IZR_to_nat z : (0 <= z)%Z -> INR (Z.to_nat z) = IZR z.
Proof. intro H. rewrite INR_IZR_INZ, Z2Nat.id; auto. Qed.
Lemma Int_part_IZR z : Int_part (IZR z) = z.
Proof.
  unfold Int_part. assert (E : (z + 1)%Z = up (IZR z)) by (apply tech_up; rewrite plus_IZR; lra). lia.
Qed.

(** ** Miters *)
Section Miter.
  (** a vertex [y], unit directions [u], [v], [pa = y + r n(u)], [pb = y + r n(v)] *)
  Variables (to_int : R * R -> pt) (y u v pa pb : R * R) (r : R).
  Hypothesis Uu : unit u.
  Hypothesis Uv : unit v.
  Hypothesis Ha : pa = (fst y - r * snd u, snd y + r * fst u).
  Hypothesis Hb : pb = (fst y - r * snd v, snd y + r * fst v).
  Let c := fst u * fst v + snd u * snd v.

  Lemma along k : dist2 (fst pa + k * fst u, snd pa + k * snd u) y = r * r + k * k.
  Proof. rewrite Ha. unfold dist2. cbn [fst snd]. unfold unit in Uu. nra. Qed.
  Lemma along_b k : dist2 (fst pb + k * fst v, snd pb + k * snd v) y = r * r + k * k.
  Proof. rewrite Hb. unfold dist2. cbn [fst snd]. unfold unit in Uv. nra. Qed.
  Lemma miter_k (B : -1 < c) (k : R) :
    k = (if Rltb (Rabs (snd u + snd v)) (Rabs (fst u + fst v)) then (fst pb - fst pa) / (fst u + fst v) else (snd pb - snd pa) / (snd u + snd v)) ->
    (r * r + k * k) * (1 + c) = 2 * (r * r).
  Proof.
    intro E. unfold unit in *. set (xx := fst u + fst v) in *. set (yy := snd u + snd v) in *.
    assert (S : xx * xx + yy * yy = 2 + 2 * c) by (unfold xx, yy, c; lra).
    assert (O : (fst u - fst v) * xx + (snd u - snd v) * yy = 0) by (unfold xx, yy; lra).
    assert (K : k * xx = r * (snd u - snd v) /\ k * yy = r * (fst v - fst u)).
    { destruct (Rltb (Rabs yy) (Rabs xx)) eqn:T.
      - apply Rltb_true in T. assert (N : xx <> 0) by (intro Z; rewrite Z, Rabs_R0 in T; pose proof (Rabs_pos yy); lra).
        assert (K1 : k * xx = r * (snd u - snd v)) by (rewrite E, Ha, Hb; cbn [fst]; field; auto). split; auto.
        apply (Rmult_eq_reg_r xx); auto. replace (k * yy * xx) with (k * xx * yy) by ring. rewrite K1. 
        replace (r * (snd u - snd v) * yy) with (r * ((snd u - snd v) * yy)) by ring. replace ((snd u - snd v) * yy) with (- ((fst u - fst v) * xx)) by lra. ring.
      - apply Rltb_false in T. assert (N : yy <> 0).
        { intro Z. rewrite Z, Rabs_R0 in T. assert (xx = 0) by (destruct (Req_dec xx 0); auto; pose proof (Rabs_pos_lt xx); lra). nra. }
        assert (K1 : k * yy = r * (fst v - fst u)) by (rewrite E, Ha, Hb; cbn [snd]; field; auto). split; auto.
        apply (Rmult_eq_reg_r yy); auto. replace (k * xx * yy) with (k * yy * xx) by ring. rewrite K1.
        replace (r * (snd u - snd v) * yy) with (r * ((snd u - snd v) * yy)) by ring. replace ((snd u - snd v) * yy) with (- ((fst u - fst v) * xx)) by lra. ring. }
    destruct K as [K1 K2].
    assert (K : k * k * (2 + 2 * c) = r * r * (2 - 2 * c)).
    { rewrite <- S. replace (k * k * (xx * xx + yy * yy)) with ((k * xx) * (k * xx) + (k * yy) * (k * yy)) by ring. rewrite K1, K2. unfold c.
      replace (r * (snd u - snd v) * (r * (snd u - snd v)) + r * (fst v - fst u) * (r * (fst v - fst u))) with (r * r * ((fst u * fst u + snd u * snd u) + (fst v * fst v + snd v * snd v) - 2 * (fst u * fst v + snd u * snd v))) by ring.
      rewrite Uu, Uv. ring. }
    lra.
  Qed.
  (** the point of a sharp miter *)
  Lemma sharp_point a cc b : -1 < c -> sharp RF to_int pa pb u v = AcB a cc b ->
    exists p, cc = to_int p /\ dist2 p y * (1 + c) = 2 * (r * r).
  Proof.
    intros B. unfold sharp. cbv zeta. destruct (pt_eqb _ _); [discriminate|]. destruct (_ || _)%bool; [discriminate|]. intro H. injection H as _ H _. subst cc.
    eexists. split; [reflexivity|]. cbn [RF n_add n_sub n_mul n_div n_abs n_lt f_xy f_x f_y ModelMesh.num fp]. rewrite along. apply miter_k; auto.
  Qed.
End Miter.
