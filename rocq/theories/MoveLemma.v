(** * The winding number of a closed chain is constant along a segment that avoids it. *)
From Verif Require Import Base Spec QLib SegmProofs PlanarGeo PlanarSum FillCorrect.
Open Scope Q_scope.

(** point on the segment from [p] to [q] *)
Definition lerp (p q : qpt) (t : Q) : qpt := (fst p + t * (fst q - fst p), snd p + t * (snd q - snd p)).
Definition avoids (e : xseg) (p q : qpt) : Prop := forall t, 0 <= t <= 1 -> ~ on_seg e (lerp p q t).

Lemma on_seg_eq e p q : fst p == fst q -> snd p == snd q -> on_seg e p -> on_seg e q.
Proof. intros A B (t & T & X & Y). exists t. rewrite <- A, <- B. auto. Qed.
Lemma avoids_sym e p q : avoids e p q -> avoids e q p.
Proof.
  intros A t T O. apply (A (1 - t) ltac:(lra)). eapply on_seg_eq; [| |exact O]; simpl; ring.
Qed.
Lemma wind_eq c p q : fst p == fst q -> snd p == snd q -> wind c p = wind c q.
Proof. destruct p, q. simpl. apply wind_comp. Qed.

(** an affine function without a zero keeps its sign *)
Lemma affine_sign (f0 m x0 x1 : Q) : x0 <= x1 -> (forall x, x0 <= x <= x1 -> ~ f0 + m * (x - x0) == 0) ->
  forall x, x0 <= x <= x1 -> (f0 + m * (x - x0) < 0 <-> f0 < 0).
Proof.
  intros L Z x X.
  assert (Z0 : ~ f0 == 0) by (intro E; apply (Z x0 ltac:(lra)); rewrite E; ring).
  pose proof (Z x X) as Zx. set (f1 := f0 + m * (x - x0)) in *.
  destruct (Q_dec f0 0) as [[A|A]|A]; [| |contradiction]; (destruct (Q_dec f1 0) as [[B|B]|B]; [| |contradiction]); split; intro H; try lra; exfalso.
  - set (t := f0 / (f0 - f1)).
    assert (T : 0 <= t <= 1).
    { unfold t. assert (E : f0 / (f0 - f1) == (- f0) / (f1 - f0)) by (field; lra). rewrite E. split; [apply Qle_shift_div_l; lra|apply Qle_shift_div_r; lra]. }
    apply (Z (x0 + t * (x - x0))).
    + split; [assert (0 <= t * (x - x0)) by (apply Qmult_le_0_compat; lra); lra|].
      assert (t * (x - x0) <= 1 * (x - x0)) by (apply Qmult_le_compat_r; lra). lra.
    + assert (E : f0 + m * (x0 + t * (x - x0) - x0) == f0 + t * (f1 - f0)) by (unfold f1; ring). rewrite E. unfold t. field. lra.
  - set (t := f0 / (f0 - f1)).
    assert (T : 0 <= t <= 1).
    { unfold t. split; [apply Qle_shift_div_l; lra|apply Qle_shift_div_r; lra]. }
    apply (Z (x0 + t * (x - x0))).
    + split; [assert (0 <= t * (x - x0)) by (apply Qmult_le_0_compat; lra); lra|].
      assert (t * (x - x0) <= 1 * (x - x0)) by (apply Qmult_le_compat_r; lra). lra.
    + assert (E : f0 + m * (x0 + t * (x - x0) - x0) == f0 + t * (f1 - f0)) by (unfold f1; ring). rewrite E. unfold t. field. lra.
Qed.

Lemma bz_case (b c : bool) : (b = true <-> c = true) -> bz b = bz c.
Proof. intro H. f_equal. apply bool_eq_iff; auto. Qed.

Section Right.
  Variables p q : qpt.
  Hypothesis PQ : fst p < fst q.
  Let m := (snd q - snd p) / (fst q - fst p).
  Let s (x : Q) := snd p + m * (x - fst p).
  Definition phi_under (v : pt) : Z := bz (Qltb (fst p) (qx v) && Qle_bool (qx v) (fst q) && Qltb (qy v) (s (qx v))).

  Lemma line_q : s (fst q) == snd q.
  Proof. unfold s, m. field. lra. Qed.
  Lemma on_line x : fst p <= x <= fst q -> exists t, 0 <= t <= 1 /\ fst (lerp p q t) == x /\ snd (lerp p q t) == s x.
  Proof.
    intro X. exists ((x - fst p) / (fst q - fst p)). split; [split; [apply Qle_shift_div_l; lra|apply Qle_shift_div_r; lra]|].
    simpl. split; unfold s, m; field; lra.
  Qed.

  Lemma cross_under e : wf_xseg e -> avoids e p q ->
    (bz (under e p) - bz (under e q) = phi_under (sb e) - phi_under (sa e))%Z.
  Proof.
    intros W Av.
    assert (Pt : forall x y, fst p <= x <= fst q -> y == s x -> ~ on_seg e (x, y)).
    { intros x y X Y O. destruct (on_line x X) as (t & T & E1 & E2). apply (Av t T). eapply on_seg_eq; [| |exact O]; simpl fst; simpl snd; [symmetry; auto|].
      rewrite E2. auto. }
    destruct (is_not_vertical e) eqn:V.
    - pose proof (wf_nonvert _ W V) as N. unfold nonvert in N.
      destruct (Qlt_le_dec (fst q) (qx (sa e))) as [C1|C1].
      { assert (A1 : under e p = false) by (unfold under; rewrite (proj2 (spans_false e (fst p))); [auto|left; lra]).
        assert (A2 : under e q = false) by (unfold under; rewrite (proj2 (spans_false e (fst q))); [auto|left; lra]).
        unfold phi_under. rewrite A1, A2. assert (B1 : Qle_bool (qx (sb e)) (fst q) = false) by (apply Qleb_gt; lra).
        assert (B2 : Qle_bool (qx (sa e)) (fst q) = false) by (apply Qleb_gt; lra). rewrite B1, B2, !andb_false_r. auto. }
      destruct (Qlt_le_dec (qx (sb e)) (fst p)) as [C2|C2].
      { assert (A1 : under e p = false) by (unfold under; rewrite (proj2 (spans_false e (fst p))); [auto|right; lra]).
        assert (A2 : under e q = false) by (unfold under; rewrite (proj2 (spans_false e (fst q))); [auto|right; lra]).
        unfold phi_under. rewrite A1, A2. assert (B1 : Qltb (fst p) (qx (sb e)) = false) by (apply Qltb_ge; lra).
        assert (B2 : Qltb (fst p) (qx (sa e)) = false) by (apply Qltb_ge; lra). rewrite B1, B2. auto. }
      (* the overlap of the two ranges *)
      assert (Ov : exists x0 x1, x0 <= x1 /\ (forall x, x0 <= x <= x1 <-> (qx (sa e) <= x <= qx (sb e) /\ fst p <= x <= fst q))).
      { exists (if Qlt_le_dec (qx (sa e)) (fst p) then fst p else qx (sa e)), (if Qlt_le_dec (qx (sb e)) (fst q) then qx (sb e) else fst q).
        destruct (Qlt_le_dec (qx (sa e)) (fst p)), (Qlt_le_dec (qx (sb e)) (fst q)); split; try lra; intro x; lra. }
      destruct Ov as (x0 & x1 & Lx & Ov).
      set (f0 := height e x0 - s x0).
      assert (Af : forall x, height e x - s x == f0 + (slope e - m) * (x - x0)).
      { intro x. unfold f0. rewrite (height_affine e x0 x). unfold s. ring. }
      assert (Nz : forall x, x0 <= x <= x1 -> ~ f0 + (slope e - m) * (x - x0) == 0).
      { intros x X. rewrite <- Af. intro E. apply Ov in X as [X1 X2]. apply (Pt x (height e x) X2); [lra|]. apply on_seg_height; [exact N|lra|lra]. }
      pose proof (affine_sign f0 (slope e - m) x0 x1 Lx Nz) as Sg.
      assert (Sgn : forall x, qx (sa e) <= x <= qx (sb e) -> fst p <= x <= fst q -> (height e x < s x <-> f0 < 0)).
      { intros x X1 X2. rewrite <- (Sg x (proj2 (Ov x) (conj X1 X2))), <- Af. split; lra. }
      assert (Ha : height e (qx (sa e)) == qy (sa e)) by apply height_at_a.
      assert (Hb : height e (qx (sb e)) == qy (sb e)) by (apply height_at_b; lra).
      assert (Sp : s (fst p) == snd p) by (unfold s; ring). pose proof line_q as Sq.
      assert (U1 : under e p = true <-> (qx (sa e) <= fst p /\ fst p < qx (sb e)) /\ f0 < 0).
      { rewrite under_iff. split.
        - intros (A & B & C). split; [lra|]. apply (Sgn (fst p)); [lra|lra|]. lra.
        - intros ((A & B) & C). split; [lra|]. split; [lra|]. apply (Sgn (fst p)) in C; lra. }
      assert (U2 : under e q = true <-> (qx (sa e) <= fst q /\ fst q < qx (sb e)) /\ f0 < 0).
      { rewrite under_iff. split.
        - intros (A & B & C). split; [lra|]. apply (Sgn (fst q)); [lra|lra|]. lra.
        - intros ((A & B) & C). split; [lra|]. split; [lra|]. apply (Sgn (fst q)) in C; lra. }
      assert (P1 : Qltb (fst p) (qx (sa e)) && Qle_bool (qx (sa e)) (fst q) && Qltb (qy (sa e)) (s (qx (sa e))) = true <-> (fst p < qx (sa e) /\ qx (sa e) <= fst q) /\ f0 < 0).
      { rewrite !andb_true_iff, Qleb_le, !Qltb_lt. split; intros (A & B); split; auto.
        - apply (Sgn (qx (sa e))); lra.
        - apply (Sgn (qx (sa e))) in B; lra. }
      assert (P2 : Qltb (fst p) (qx (sb e)) && Qle_bool (qx (sb e)) (fst q) && Qltb (qy (sb e)) (s (qx (sb e))) = true <-> (fst p < qx (sb e) /\ qx (sb e) <= fst q) /\ f0 < 0).
      { rewrite !andb_true_iff, Qleb_le, !Qltb_lt. split; intros (A & B); split; auto.
        - apply (Sgn (qx (sb e))); lra.
        - apply (Sgn (qx (sb e))) in B; lra. }
      unfold phi_under.
      destruct (under e p), (under e q), (Qltb (fst p) (qx (sa e)) && _ && _), (Qltb (fst p) (qx (sb e)) && _ && _); simpl; auto; exfalso;
        repeat match goal with H : true = true <-> _ |- _ => apply proj1 in H; specialize (H eq_refl) end;
        repeat match goal with H : false = true <-> _ |- _ => apply proj2 in H end;
        assert (F : f0 < 0) by tauto;
        repeat match goal with H : _ /\ _ -> false = true |- _ => assert (~ (_ /\ _)) by (intro X'; discriminate (H X')); clear H end;
        destruct (Qlt_le_dec (fst p) (qx (sa e))), (Qlt_le_dec (fst p) (qx (sb e))), (Qlt_le_dec (fst q) (qx (sa e))), (Qlt_le_dec (fst q) (qx (sb e))); lra.
    - destruct (wf_vert _ W V) as [Vx Vy].
      assert (S0 : forall x, spans e x = false) by (intro; apply spans_vert; auto).
      unfold under. rewrite !S0. simpl. unfold phi_under.
      assert (EX : qx (sb e) == qx (sa e)) by (unfold qx; rewrite Vx; reflexivity).
      match goal with |- _ = (bz ?b - bz ?c)%Z => assert (H : b = c); [|rewrite H; lia] end.
      apply bool_eq_iff. rewrite !andb_true_iff, !Qleb_le, !Qltb_lt.
      assert (ES : s (qx (sb e)) == s (qx (sa e))) by (unfold s; rewrite EX; reflexivity).
      split; intros ((A & B) & C); (split; [split; lra|]); try lra.
      destruct (Qlt_le_dec (qy (sb e)) (s (qx (sa e)))) as [K|K]; [lra|]. exfalso.
      apply (Pt (qx (sa e)) (s (qx (sa e)))); [lra|reflexivity|]. apply on_seg_vert; auto; try reflexivity; lra.
  Qed.
End Right.

Theorem move c p q : balanced c -> (forall e, In e c -> wf_xseg (fst e)) ->
  (forall e, In e c -> snd e <> 0%Z -> avoids (fst e) p q) -> wind c p = wind c q.
Proof.
  intros B W Av.
  assert (Rt : forall p q, fst p < fst q -> (forall e, In e c -> snd e <> 0%Z -> avoids (fst e) p q) -> wind c p = wind c q).
  { clear p q Av. intros p q L Av. pose proof (balanced_phi c (phi_under p q) B) as Z0.
    assert (E : (wind c p - wind c q = zsum (fun e => snd e * (phi_under p q (sb (fst e)) - phi_under p q (sa (fst e)))) c)%Z).
    { unfold wind. rewrite <- zsum_minus. apply zsum_ext. intros e Ie. destruct (Z.eq_dec (snd e) 0) as [E0|N].
      - rewrite E0. destruct (under _ p), (under _ q); lia.
      - rewrite <- (cross_under p q L (fst e) (W e Ie) (Av e Ie N)). destruct (under _ p), (under _ q); simpl bz; lia. }
    lia. }
  destruct (Q_dec (fst p) (fst q)) as [[L|L]|L].
  - apply Rt; auto.
  - symmetry. apply Rt; auto. intros e Ie N. apply avoids_sym; auto.
  - apply zsum_ext. intros e Ie. destruct (Z.eq_dec (snd e) 0) as [E0|N]; [rewrite E0; destruct (under _ p), (under _ q); auto|].
    specialize (Av e Ie N). assert (under (fst e) p = under (fst e) q) as ->; auto.
    assert (K : forall p q, fst p == fst q -> avoids (fst e) p q -> under (fst e) p = true -> under (fst e) q = true).
    { clear. intros p q E Av. rewrite !under_iff. intros (A & B & C). rewrite <- !E. split; [auto|]. split; [auto|].
      destruct (Qlt_le_dec (height (fst e) (fst p)) (snd q)) as [K|K].
      - auto.
      - exfalso. assert (D : snd q - snd p < 0) by lra.
        apply (Av ((snd p - height (fst e) (fst p)) / (snd p - snd q))); [split; [apply Qle_shift_div_l; lra|apply Qle_shift_div_r; lra]|].
        assert (O : on_seg (fst e) (fst p, height (fst e) (fst p))) by (apply on_seg_height; [unfold nonvert; lra|lra|lra]).
        eapply on_seg_eq; [| |exact O]; simpl; [rewrite <- E; field; lra|field; lra]. }
    apply bool_eq_iff. split; apply K; auto; [symmetry; auto|apply avoids_sym; auto].
Qed.
