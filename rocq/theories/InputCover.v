(** * The segments made of a contour lie on its edges. *)
From Verif Require Import Base Spec QLib ModelSegm SegmProofs MergeProofs PlanarGeo ModelCross CrossProofs CrossPoint MarksProofs
  CoreResults ModelSplit SplitProofs SplitPass BinsProofs SplitApply SplitLoop SplitNear.
From Coq Require Import Lqa Qabs.
Open Scope Z_scope.

Lemma on_seg_swap a b q : on_seg (XS a b) q -> on_seg (XS b a) q.
Proof. intros (t & T & X & Y). exists (1 - t)%Q. cbn [sa sb] in *. split; [lra|]. rewrite X, Y. split; ring. Qed.
Lemma on_seg_point a q : on_seg (XS a a) q -> q_is q a.
Proof. intros (t & T & X & Y). cbn [sa sb] in *. split; [rewrite X|rewrite Y]; ring. Qed.

Lemma collinear_param a b c : a <> c -> cross3 a b c = 0 ->
  exists u, (qx b == qx a + u * (qx c - qx a))%Q /\ (qy b == qy a + u * (qy c - qy a))%Q.
Proof.
  intros N H. unfold cross3 in H.
  assert (E : ((qx b - qx a) * (qy c - qy a) == (qy b - qy a) * (qx c - qx a))%Q).
  { unfold qx, qy. rewrite <- !qz_sub, <- !inject_Z_mult. apply (proj2 (qz_eq _ _)). nia. }
  destruct (Z.eq_dec (px a) (px c)) as [X|X].
  - assert (Y : py a <> py c) by (intro; apply N; apply pt_ext; auto).
    assert (Y' : ~ (qy c - qy a == 0)%Q). { intro Z. apply Y. apply (proj1 (qz_eq _ _)). unfold qy in Z. lra. }
    assert (X' : (qx c == qx a)%Q) by (unfold qx; rewrite X; reflexivity).
    exists ((qy b - qy a) / (qy c - qy a))%Q. split; [|field; auto].
    rewrite X' in *. assert (Z : ((qx b - qx a) * (qy c - qy a) == 0)%Q) by (rewrite E; ring).
    apply Qmult_integral in Z as [Z|Z]; [|contradiction]. lra.
  - assert (X' : ~ (qx c - qx a == 0)%Q). { intro Z. apply X. apply (proj1 (qz_eq _ _)). unfold qx in Z. lra. }
    exists ((qx b - qx a) / (qx c - qx a))%Q. split; [field; auto|].
    assert (K : ((qx b - qx a) / (qx c - qx a) * (qy c - qy a) == qy b - qy a)%Q). { rewrite <- (Qdiv_mult_l (qy b - qy a) (qx c - qx a)) by auto. rewrite <- E. field; auto. }
    rewrite K. ring.
Qed.

Lemma line_trans p0 p1 q0 q1 : p1 <> q0 -> cross3 p0 p1 q0 = 0 -> cross3 q0 q1 p1 = 0 -> cross3 p0 q0 q1 = 0.
Proof.
  intros Ne E1 E2. assert (N : px p1 - px q0 <> 0 \/ py p1 - py q0 <> 0).
  { destruct (Z.eq_dec (px p1) (px q0)), (Z.eq_dec (py p1) (py q0)); try lia. exfalso; apply Ne, pt_ext; auto. }
  unfold cross3 in *.
  assert (A : (px p1 - px q0) * (py p0 - py q0) = (py p1 - py q0) * (px p0 - px q0)) by lia.
  assert (B : (px p1 - px q0) * (py q1 - py q0) = (py p1 - py q0) * (px q1 - px q0)) by lia.
  assert (D : (px p0 - px q0) * (py q1 - py q0) = (py p0 - py q0) * (px q1 - px q0)).
  { clear - A B N. revert A B N. generalize (px p1 - px q0) (py p1 - py q0) (px p0 - px q0) (py p0 - py q0)
      (px q1 - px q0) (py q1 - py q0). intros dx dy a b c d A B [N|N].
    - apply (Z.mul_reg_l _ _ dx N).
      replace (dx * (a * d)) with (a * (dx * d)) by ring. rewrite B.
      replace (a * (dy * c)) with ((dy * a) * c) by ring. rewrite <- A. ring.
    - apply (Z.mul_reg_l _ _ dy N).
      replace (dy * (a * d)) with ((dy * a) * d) by ring. rewrite <- A.
      replace (dx * b * d) with (b * (dx * d)) by ring. rewrite B. ring. }
  lia.
Qed.

Section Cover.
  Variable E : qpt -> Prop.
  Definition cov (a b : pt) : Prop := forall q, on_seg (XS a b) q -> E q.
  Lemma cov_swap a b : cov a b -> cov b a.
  Proof. intros H q O. apply H. apply on_seg_swap. auto. Qed.
  Lemma cov_refl a b : cov a b -> cov a a /\ cov b b.
  Proof.
    intro H. split; intros q O; apply H; apply on_seg_point in O as [X Y].
    - exists 0%Q. cbn [sa sb]. split; [lra|]. rewrite X, Y. split; ring.
    - exists 1%Q. cbn [sa sb]. split; [lra|]. rewrite X, Y. split; ring.
  Qed.
  (** a point of [a c] is on [a b] or on [b c], if the three points are on a line *)
  Lemma cov_col a b c : cross3 a b c = 0 -> cov a b -> cov b c -> cov a c.
  Proof.
    intros H A B q O. destruct (pt_eq_dec a c) as [<-|N].
    { apply (proj1 (cov_refl a b A)). auto. }
    destruct (collinear_param a b c N H) as (u & UX & UY). destruct O as (t & T & X & Y). cbn [sa sb] in *.
    destruct (Qlt_le_dec u t) as [L|L].
    - (* between b and c, or past *)
      destruct (Qlt_le_dec u 1) as [L1|L1]; [|lra].
      apply B. exists ((t - u) / (1 - u))%Q. cbn [sa sb]. split; [split|split].
      + apply Qle_shift_div_l; lra.
      + apply Qle_shift_div_r; lra.
      + rewrite X, UX. field. lra.
      + rewrite Y, UY. field. lra.
    - destruct (Qlt_le_dec 0 u) as [L1|L1].
      + apply A. exists (t / u)%Q. cbn [sa sb]. split; [split|split].
        * apply Qle_shift_div_l; lra.
        * apply Qle_shift_div_r; lra.
        * rewrite X, UX. field. lra.
        * rewrite Y, UY. field. lra.
      + (* t = u = 0 *) assert (T0 : (t == 0)%Q) by lra. apply (proj1 (cov_refl a b A)). exists 0%Q. cbn [sa sb]. split; [lra|]. rewrite X, Y, T0. split; ring.
  Qed.

  (** a path all of whose steps are covered *)
  Fixpoint covp (a : pt) (l : list pt) : Prop := match l with [] => True | b :: r => cov a b /\ covp b r end.

  Lemma skip_cov it : forall p0 p1 e0 e1 rest, append_skip p0 p1 it = (e0, e1, rest) -> cov p0 p1 -> covp p1 it ->
    cov p0 e0 /\ cov e0 e1 /\ covp e1 rest.
  Proof.
    induction it as [|p it IH]; intros p0 p1 e0 e1 rest H C1 C2; cbn [append_skip] in H.
    - injection H as <- <- <-. split; [apply (proj1 (cov_refl p0 p1 C1))|]. split; auto.
    - destruct C2 as [C2 C3]. destruct (is_not_line_point p0 p1 p) eqn:L.
      + injection H as <- <- <-. auto.
      + eapply IH in H; eauto. apply cov_col with (b := p1); auto. unfold is_not_line_point, is_line_point in L. apply negb_false_iff, Z.eqb_eq in L. auto.
  Qed.

  Context {C : Type} {WC : WindingCount C}.
  Variables direct invert : C.
  Notation okc := (fun s : segment C => cov (sa (sx s)) (sb (sx s))).
  Lemma with_ab_cov a b : cov a b -> okc (with_ab a b direct invert).
  Proof. intro H. unfold with_ab. destruct (pt_ltb a b); cbn [sx sa sb]; auto. apply cov_swap; auto. Qed.
  Lemma loop_cov it : forall p0 p1 out f0 f1, append_loop p0 p1 it direct invert = (out, f0, f1) -> cov p0 p1 -> covp p1 it ->
    Forall okc out /\ cov f0 f1.
  Proof.
    induction it as [|p it IH]; intros p0 p1 out f0 f1 H C1 C2; cbn [append_loop] in H.
    - injection H as <- <- <-. auto.
    - destruct C2 as [C2 C3]. destruct (is_line_point p0 p1 p) eqn:L.
      + eapply IH in H; eauto. apply cov_col with (b := p1); auto. apply Z.eqb_eq in L. auto.
      + destruct (append_loop p1 p it direct invert) as [[out' g0] g1] eqn:E'. injection H as <- <- <-.
        destruct (IH p1 p out' g0 g1 E' C2 C3). split; auto. constructor; auto. apply with_ab_cov; auto.
  Qed.
  Lemma close_cov p0 p1 q0 q1 : p1 <> q0 -> cov p0 p1 -> cov p1 q0 -> cov q0 q1 -> Forall okc (append_close p0 p1 q0 q1 direct invert).
  Proof.
    intros Ne A B D. unfold append_close.
    destruct (is_line_point p0 p1 q0) eqn:L1, (is_line_point q0 q1 p1) eqn:L2; unfold is_line_point in L1, L2.
    - apply Z.eqb_eq in L1, L2. destruct (pt_eqb p0 q1); auto. constructor; auto. apply with_ab_cov.
      apply cov_col with (b := q0); [|apply cov_col with (b := p1)|]; auto.
      apply (line_trans p0 p1 q0 q1); auto.
    - apply Z.eqb_eq in L1. apply Forall_app. split; [|constructor; auto; apply with_ab_cov; auto].
      destruct (pt_eqb p0 q0); auto. constructor; auto. apply with_ab_cov. apply cov_col with (b := p1); auto.
    - apply Z.eqb_eq in L2. constructor; [apply with_ab_cov; auto|]. destruct (pt_eqb p1 q1); auto. constructor; auto. apply with_ab_cov.
      apply cov_col with (b := q0); auto. unfold cross3 in *. nia.
    - repeat constructor; apply with_ab_cov; auto.
  Qed.
End Cover.

(** ** The whole contour, the whole input *)
Definition on_edges (path : list pt) (q : qpt) : Prop := exists e, In e (edges path) /\ on_seg (XS (fst e) (snd e)) q.
Lemma last_irr {A} (l : list A) : forall b x y, last (b :: l) x = last (b :: l) y.
Proof. induction l as [|c l IH]; intros b x y; auto. change (last (c :: l) x = last (c :: l) y). auto. Qed.
Lemma covp_chain (E : qpt -> Prop) l : forall a z, (forall e, In e (combine (a :: l) (l ++ [z])) -> cov E (fst e) (snd e)) -> covp E a l /\ cov E (last (a :: l) a) z.
Proof.
  induction l as [|b l IH]; intros a z H.
  - split; [exact I|]. apply (H (a, z)). left; auto.
  - assert (H0 : cov E a b) by (apply (H (a, b)); left; auto).
    destruct (IH b z) as [A B]. { intros e Ie. apply H. right. exact Ie. }
    split; [split; auto|]. replace (last (a :: b :: l) a) with (last (b :: l) b); auto. apply (last_irr l b b a).
Qed.
Lemma append_cov {C} {WC : WindingCount C} path t : open_contour path ->
  Forall (fun s : segment C => forall q, on_seg (sx s) q -> on_edges path q) (append_path path t).
Proof.
  intro O. destruct path as [|p0 [|p1 it]]; try constructor.
  assert (H : forall e, In e (edges (p0 :: p1 :: it)) -> cov (on_edges (p0 :: p1 :: it)) (fst e) (snd e)).
  { intros e Ie q Oq. exists e. auto. }
  unfold edges in H. destruct (covp_chain _ _ _ _ H) as [[C1 C2] C3].
  unfold append_path. destruct (append_skip p0 p1 it) as [[e0 e1] rest] eqn:E1. destruct (wc_with_shape t) as [direct invert].
  destruct (append_loop e0 e1 rest direct invert) as [[out f0] f1] eqn:E2.
  destruct (skip_cov _ _ _ _ _ _ _ E1 C1 C2) as (S1 & S2 & S3).
  destruct (loop_cov _ _ _ _ _ _ _ _ _ E2 S2 S3) as (L1 & L2).
  assert (F : f1 = last (p0 :: p1 :: it) p0).
  { rewrite (append_loop_last _ _ _ _ _ _ _ _ E2). rewrite <- (append_skip_last _ _ _ _ _ _ E1). change (last (p0 :: p1 :: it) p0) with (last (p1 :: it) p0). apply last_irr. }
  assert (K : Forall (fun s : segment C => cov (on_edges (p0 :: p1 :: it)) (sa (sx s)) (sb (sx s))) (out ++ append_close f0 f1 p0 e0 direct invert)).
  { apply Forall_app. split; auto. apply close_cov; auto; [|rewrite F; auto]. rewrite F. destruct O as [O|O]; [|cbn in O; lia].
    cbn [hd] in O. intro X. apply O. rewrite <- X at 2. apply last_irr. }
  eapply Forall_impl; [|exact K]. intros s Hs q Oq. cbv beta in Hs. apply Hs. destruct (sx s); auto.
Qed.
Lemma within_on_seg d s q : within d (sa s) (sb s) q -> exists r, on_seg s r /\ (Qabs (fst q - fst r) <= d)%Q /\ (Qabs (snd q - snd r) <= d)%Q.
Proof. intros (t & T & X & Y). exists (qx (sa s) + t * (qx (sb s) - qx (sa s)), qy (sa s) + t * (qy (sb s) - qy (sa s)))%Q. split; [|auto]. exists t. split; auto. split; reflexivity. Qed.
Lemma on_within d a b q r : on_seg (XS a b) r -> (Qabs (fst q - fst r) <= d)%Q -> (Qabs (snd q - snd r) <= d)%Q -> within d a b q.
Proof. intros (t & T & X & Y) A B. cbn [sa sb] in *. exists t. split; auto. rewrite <- X, <- Y. auto. Qed.
Lemma append_near {C} {WC : WindingCount C} path t d q (s : segment C) : open_contour path -> In s (append_path path t) -> within d (sa (sx s)) (sb (sx s)) q ->
  exists e, In e (edges path) /\ within d (fst e) (snd e) q.
Proof.
  intros O Is W. apply within_on_seg in W as (r & Or & X & Y). pose proof (append_cov (C := C) path t O) as F. rewrite Forall_forall in F.
  destruct (F s Is r Or) as (e & Ie & Oe). exists e. split; auto. eapply on_within; eauto.
Qed.
Lemma away_input d adds q : Forall (fun a => open_contour (fst a)) adds ->
  (forall c t e, In (c, t) adds -> In e (edges c) -> ~ within d (fst e) (snd e) q) -> away d (sort_merge (input_segments adds)) q.
Proof.
  intros O A. assert (F : Forall (fun s : segment cntB => ~ within d (sa (sx s)) (sb (sx s)) q) (sort_merge (input_segments adds))).
  { apply (sort_merge_elems (fun x => ~ within d (sa x) (sb x) q)). apply Forall_forall. intros s Is W.
    unfold input_segments in Is. apply in_flat_map in Is as ([c t] & Ic & Is). rewrite Forall_forall in O. cbn [fst snd] in Is.
    destruct (append_near c t d q s (O _ Ic) Is W) as (e & Ie & We). apply (A c t e); auto. }
  rewrite Forall_forall in F. exact F.
Qed.
