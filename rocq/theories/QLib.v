(** * Lemmas about rational heights, spans, and their integer characterisations. *)
From Coq Require Export Lqa.
From Verif Require Export Base Spec.
Open Scope Q_scope.

Lemma Qltb_lt x y : Qltb x y = true <-> x < y.
Proof.
  unfold Qltb. rewrite negb_true_iff. split; intro H.
  - apply Qnot_le_lt. intro L. apply Qle_bool_iff in L. congruence.
  - destruct (Qle_bool y x) eqn:E; auto. apply Qle_bool_iff in E. lra.
Qed.

Lemma Qltb_ge x y : Qltb x y = false <-> y <= x.
Proof.
  unfold Qltb. rewrite negb_false_iff. apply Qle_bool_iff.
Qed.

Lemma Qleb_le x y : Qle_bool x y = true <-> x <= y.
Proof. apply Qle_bool_iff. Qed.

Lemma Qleb_gt x y : Qle_bool x y = false <-> y < x.
Proof.
  rewrite <- Qltb_lt. unfold Qltb. rewrite negb_true_iff. reflexivity.
Qed.

Lemma qz_lt a b : inject_Z a < inject_Z b <-> (a < b)%Z.
Proof. rewrite Zlt_Qlt. reflexivity. Qed.
Lemma qz_le a b : inject_Z a <= inject_Z b <-> (a <= b)%Z.
Proof. rewrite Zle_Qle. reflexivity. Qed.
Lemma qz_eq a b : inject_Z a == inject_Z b <-> (a = b)%Z.
Proof. split; [apply inject_Z_injective|intros ->; reflexivity]. Qed.

Lemma qz_sub a b : inject_Z (a - b) == inject_Z a - inject_Z b.
Proof. unfold Z.sub. rewrite inject_Z_plus, inject_Z_opp. reflexivity. Qed.

Lemma spans_iff s x : spans s x = true <-> qx (sa s) <= x /\ x < qx (sb s).
Proof. unfold spans. rewrite andb_true_iff, Qleb_le, Qltb_lt. reflexivity. Qed.

Lemma spans_false s x : spans s x = false <-> x < qx (sa s) \/ qx (sb s) <= x.
Proof. unfold spans. rewrite andb_false_iff, Qleb_gt, Qltb_ge. reflexivity. Qed.

Lemma under_iff s q : under s q = true <->
  qx (sa s) <= fst q /\ fst q < qx (sb s) /\ height s (fst q) < snd q.
Proof. unfold under. rewrite andb_true_iff, spans_iff, Qltb_lt. tauto. Qed.

Lemma bool_eq_iff (a b : bool) : (a = true <-> b = true) -> a = b.
Proof. destruct a, b; intuition congruence. Qed.

(** slope *)
Definition slope (s : xseg) : Q := (qy (sb s) - qy (sa s)) / (qx (sb s) - qx (sa s)).

Lemma height_slope s x : height s x == qy (sa s) + slope s * (x - qx (sa s)).
Proof. reflexivity. Qed.

Lemma height_at_a s : height s (qx (sa s)) == qy (sa s).
Proof. unfold height. ring. Qed.

Lemma height_at_b s : ~ qx (sa s) == qx (sb s) -> height s (qx (sb s)) == qy (sb s).
Proof. intro H. unfold height. field. intro E. apply H. lra. Qed.

Lemma height_affine s x x' : height s x' == height s x + slope s * (x' - x).
Proof. rewrite !height_slope. ring. Qed.

#[export] Instance height_comp s : Proper (Qeq ==> Qeq) (height s).
Proof. intros x y E. unfold height. rewrite E. reflexivity. Qed.

Lemma qx_neq p q : px p <> px q -> ~ qx p == qx q.
Proof. unfold qx. rewrite qz_eq. auto. Qed.

(** orientation of a rational point w.r.t. a segment *)
Definition qcross (a b : pt) (q : qpt) : Q :=
  (qx b - qx a) * (snd q - qy a) - (qy b - qy a) * (fst q - qx a).

Definition qof (p : pt) : qpt := (qx p, qy p).

Lemma qcross_cross3 a b p : qcross a b (qof p) == inject_Z (cross3 a b p).
Proof.
  unfold qcross, qof, cross3, qx, qy; simpl.
  rewrite qz_sub, !inject_Z_mult, !qz_sub. reflexivity.
Qed.

Lemma Qmult_pos a b : 0 < a -> 0 < b -> 0 < a * b.
Proof. intros. nra. Qed.

(** above / below a segment in terms of the cross product *)
Lemma height_cross s q : qx (sa s) < qx (sb s) ->
  (snd q - height s (fst q)) * (qx (sb s) - qx (sa s)) == qcross (sa s) (sb s) q.
Proof. intro H. unfold height, qcross. field. lra. Qed.

Lemma Qpos_mult_lt a d : 0 < d -> (0 < a * d <-> 0 < a).
Proof. intro Hd. split; intro H; [|nra]. destruct (Qlt_le_dec 0 a); auto. exfalso. nra. Qed.

Lemma Qpos_mult_eq a d : 0 < d -> (a * d == 0 <-> a == 0).
Proof.
  intro Hd. split; intro H; [|rewrite H; ring].
  destruct (Q_dec a 0) as [[L|L]|L]; auto; exfalso; nra.
Qed.

Lemma above_iff s q : qx (sa s) < qx (sb s) ->
  (height s (fst q) < snd q <-> 0 < qcross (sa s) (sb s) q).
Proof.
  intro H. rewrite <- height_cross by auto. rewrite Qpos_mult_lt by lra. split; intro; lra.
Qed.

Lemma below_iff s q : qx (sa s) < qx (sb s) ->
  (snd q < height s (fst q) <-> qcross (sa s) (sb s) q < 0).
Proof.
  intro H. rewrite <- height_cross by auto.
  setoid_replace ((snd q - height s (fst q)) * (qx (sb s) - qx (sa s)))
    with (- ((height s (fst q) - snd q) * (qx (sb s) - qx (sa s)))) by ring.
  pose proof (Qpos_mult_lt (height s (fst q) - snd q) (qx (sb s) - qx (sa s))) as P.
  split; intro L.
  - assert (0 < (height s (fst q) - snd q) * (qx (sb s) - qx (sa s))) by (apply P; lra). lra.
  - assert (0 < height s (fst q) - snd q) by (apply P; lra). lra.
Qed.

Lemma online_iff s q : qx (sa s) < qx (sb s) ->
  (snd q == height s (fst q) <-> qcross (sa s) (sb s) q == 0).
Proof.
  intro H. rewrite <- height_cross by auto. rewrite Qpos_mult_eq by lra. split; intro; lra.
Qed.

Lemma above_pt s p : qx (sa s) < qx (sb s) ->
  (height s (qx p) < qy p <-> (0 < cross3 (sa s) (sb s) p)%Z).
Proof.
  intro H. rewrite <- (qz_lt 0), <- qcross_cross3. apply (above_iff s (qof p) H).
Qed.

Lemma below_pt s p : qx (sa s) < qx (sb s) ->
  (qy p < height s (qx p) <-> (cross3 (sa s) (sb s) p < 0)%Z).
Proof.
  intro H. rewrite <- (qz_lt _ 0), <- qcross_cross3. apply (below_iff s (qof p) H).
Qed.

Lemma online_pt s p : qx (sa s) < qx (sb s) ->
  (qy p == height s (qx p) <-> (cross3 (sa s) (sb s) p = 0)%Z).
Proof.
  intro H. rewrite <- (qz_eq _ 0), <- qcross_cross3. apply (online_iff s (qof p) H).
Qed.

(** two segments on one line have the same heights *)
Lemma height_same_line s t x :
  ~ qx (sa s) == qx (sb s) -> ~ qx (sa t) == qx (sb t) ->
  qy (sa t) == height s (qx (sa t)) -> qy (sb t) == height s (qx (sb t)) ->
  height t x == height s x.
Proof.
  intros Hs Ht Ha Hb.
  unfold height at 1. rewrite Ha, Hb.
  rewrite !height_slope. field. lra.
Qed.

Lemma height_swap s x : ~ qx (sa s) == qx (sb s) -> height (XS (sb s) (sa s)) x == height s x.
Proof. intro H. unfold height; simpl. field. split; lra. Qed.
