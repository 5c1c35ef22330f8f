(** * Geometry of planar segment sets: no two segments change their vertical order. *)
From Verif Require Import Base Spec QLib.
Open Scope Q_scope.

Definition nonvert (s : xseg) : Prop := qx (sa s) < qx (sb s).

Lemma wf_nonvert s : wf_xseg s -> is_not_vertical s = true -> nonvert s.
Proof.
  unfold wf_xseg, is_not_vertical, nonvert, qx, pt_lt. intros H1 H2.
  apply qz_lt. lia.
Qed.

Lemma wf_vert s : wf_xseg s -> is_not_vertical s = false -> px (sa s) = px (sb s) /\ qy (sa s) < qy (sb s).
Proof.
  unfold wf_xseg, is_not_vertical, pt_lt. intros H1 H2.
  assert (px (sa s) = px (sb s) /\ (py (sa s) < py (sb s))%Z) as [A B] by lia.
  split; auto. apply qz_lt; auto.
Qed.

Lemma spans_nonvert s x : spans s x = true -> nonvert s.
Proof. rewrite spans_iff. unfold nonvert. lra. Qed.

Lemma nonvert_is s : nonvert s -> is_not_vertical s = true.
Proof.
  unfold nonvert, is_not_vertical, qx. intro H. pose proof (proj1 (qz_lt _ _) H). lia.
Qed.

Lemma on_seg_height s t : nonvert s -> qx (sa s) <= t -> t <= qx (sb s) ->
  on_seg s (t, height s t).
Proof.
  intros Hn H1 H2. unfold nonvert in Hn.
  exists ((t - qx (sa s)) / (qx (sb s) - qx (sa s))). simpl.
  assert (D : 0 < qx (sb s) - qx (sa s)) by lra.
  split; [split|split].
  - apply Qle_shift_div_l; lra.
  - apply Qle_shift_div_r; lra.
  - field. lra.
  - unfold height. field. lra.
Qed.

Lemma on_seg_nonvert s q : nonvert s -> on_seg s q ->
  qx (sa s) <= fst q /\ fst q <= qx (sb s) /\ snd q == height s (fst q).
Proof.
  intros Hn (t & [T0 T1] & Ex & Ey). unfold nonvert in Hn.
  assert (D : 0 < qx (sb s) - qx (sa s)) by lra.
  split; [nra|split; [nra|]].
  rewrite Ey, Ex. unfold height. field. lra.
Qed.

Lemma on_seg_vert s x y : px (sa s) = px (sb s) -> x == qx (sa s) ->
  qy (sa s) < qy (sb s) -> qy (sa s) <= y -> y <= qy (sb s) -> on_seg s (x, y).
Proof.
  intros Hv Hx Hlt H1 H2.
  exists ((y - qy (sa s)) / (qy (sb s) - qy (sa s))). simpl.
  assert (D : 0 < qy (sb s) - qy (sa s)) by lra.
  split; [split|split].
  - apply Qle_shift_div_l; lra.
  - apply Qle_shift_div_r; lra.
  - rewrite Hx. unfold qx. rewrite Hv. ring.
  - field. lra.
Qed.

Lemma on_seg_vert_inv s q : px (sa s) = px (sb s) -> qy (sa s) < qy (sb s) -> on_seg s q ->
  fst q == qx (sa s) /\ qy (sa s) <= snd q /\ snd q <= qy (sb s).
Proof.
  intros Hv Hlt (t & [T0 T1] & Ex & Ey).
  assert (D : 0 < qy (sb s) - qy (sa s)) by lra.
  split; [rewrite Ex; unfold qx; rewrite Hv; ring|]. split; nra.
Qed.

(** vertical order immediately to the right of [x] *)
Definition lt_at (x : Q) (g e : xseg) : Prop :=
  height g x < height e x \/ (height g x == height e x /\ slope g < slope e).

Definition lt_atb (x : Q) (g e : xseg) : bool :=
  Qltb (height g x) (height e x) || (Qeq_bool (height g x) (height e x) && Qltb (slope g) (slope e)).

Lemma lt_atb_iff x g e : lt_atb x g e = true <-> lt_at x g e.
Proof.
  unfold lt_atb, lt_at. rewrite orb_true_iff, andb_true_iff, !Qltb_lt, Qeq_bool_iff. reflexivity.
Qed.

Lemma lt_at_irrefl x g : ~ lt_at x g g.
Proof. unfold lt_at. lra. Qed.

Lemma lt_at_trans x g e h : lt_at x g e -> lt_at x e h -> lt_at x g h.
Proof.
  unfold lt_at. intros [A|[A A']] [B|[B B']].
  - left; lra.
  - left; lra.
  - left; lra.
  - right; split; lra.
Qed.

Lemma lt_at_asym x g e : lt_at x g e -> ~ lt_at x e g.
Proof. intros A B. eapply lt_at_irrefl, lt_at_trans; eauto. Qed.

Section Pair.
  Variables g e : xseg.
  Hypothesis HP : forall q, on_seg g q -> on_seg e q -> is_end g q /\ is_end e q.

  Lemma touch_ends t : nonvert g -> nonvert e ->
    qx (sa g) <= t -> t <= qx (sb g) -> qx (sa e) <= t -> t <= qx (sb e) ->
    height g t == height e t ->
    (t == qx (sa g) \/ t == qx (sb g)) /\ (t == qx (sa e) \/ t == qx (sb e)).
  Proof.
    intros Ng Ne A B D E H.
    destruct (HP (t, height g t)) as [Eg Ee].
    - apply on_seg_height; auto.
    - destruct (on_seg_height e t Ne D E) as (u & U & Ux & Uy).
      exists u. simpl in *. rewrite H. auto.
    - unfold is_end, q_is in *; simpl in *. tauto.
  Qed.

  Lemma no_flip t1 t2 : nonvert g -> nonvert e -> t1 < t2 ->
    qx (sa g) <= t1 -> t2 <= qx (sb g) -> qx (sa e) <= t1 -> t2 <= qx (sb e) ->
    ~ (height g t1 < height e t1 /\ height e t2 < height g t2) /\
    ~ (height e t1 < height g t1 /\ height g t2 < height e t2).
  Proof.
    intros Ng Ne Lt A B D E.
    assert (K : forall k : Q, 0 < k < 1 ->
      ~ height g (t1 + k * (t2 - t1)) == height e (t1 + k * (t2 - t1))).
    { intros k Hk H.
      assert (t1 < t1 + k * (t2 - t1)) by nra.
      assert (t1 + k * (t2 - t1) < t2) by nra.
      destruct (touch_ends (t1 + k * (t2 - t1)) Ng Ne) as [[F|F] _]; auto; lra. }
    assert (G : forall k, height g (t1 + k * (t2 - t1)) - height e (t1 + k * (t2 - t1)) ==
                 (1 - k) * (height g t1 - height e t1) + k * (height g t2 - height e t2)).
    { intro k. rewrite !height_slope. ring. }
    set (d1 := height g t1 - height e t1) in *.
    set (d2 := height g t2 - height e t2) in *.
    assert (M : ~ (d1 < 0 /\ 0 < d2) /\ ~ (0 < d1 /\ d2 < 0)).
    { split; intros [M1 M2].
      - apply (K (d1 / (d1 - d2))).
        + setoid_replace (d1 / (d1 - d2)) with ((- d1) / (d2 - d1)) by (field; lra).
          split; [apply Qlt_shift_div_l; lra|apply Qlt_shift_div_r; lra].
        + pose proof (G (d1 / (d1 - d2))) as GG.
          assert (Z0 : (1 - d1 / (d1 - d2)) * d1 + d1 / (d1 - d2) * d2 == 0) by (field; lra).
          rewrite Z0 in GG. lra.
      - apply (K (d1 / (d1 - d2))).
        + split; [apply Qlt_shift_div_l; lra|apply Qlt_shift_div_r; lra].
        + pose proof (G (d1 / (d1 - d2))) as GG.
          assert (Z0 : (1 - d1 / (d1 - d2)) * d1 + d1 / (d1 - d2) * d2 == 0) by (field; lra).
          rewrite Z0 in GG. lra. }
    unfold d1, d2 in M. destruct M as [M1 M2].
    split; intros [X Y]; [apply M1|apply M2]; split; lra.
  Qed.

  Lemma lt_at_total x : spans g x = true -> spans e x = true -> lt_at x g e \/ lt_at x e g.
  Proof.
    intros Sg Se. pose proof (spans_nonvert _ _ Sg) as Ng. pose proof (spans_nonvert _ _ Se) as Ne.
    apply spans_iff in Sg, Se. unfold lt_at.
    destruct (Q_dec (height g x) (height e x)) as [[H|H]|H]; auto.
    destruct (Q_dec (slope g) (slope e)) as [[K|K]|K]; auto.
    - right. right. split; auto. lra.
    - exfalso.
      (* a point a bit to the right on both *)
      assert (exists t, x < t /\ t < qx (sb g) /\ t < qx (sb e)) as (t & T1 & T2 & T3).
      { destruct (Qlt_le_dec (qx (sb g)) (qx (sb e))).
        - exists ((x + qx (sb g)) / 2). 
          assert (Y : (x + qx (sb g)) / 2 == (x + qx (sb g)) * (1#2)) by field. rewrite !Y. lra.
        - exists ((x + qx (sb e)) / 2).
          assert (Y : (x + qx (sb e)) / 2 == (x + qx (sb e)) * (1#2)) by field. rewrite !Y. lra. }
      assert (Ht : height g t == height e t).
      { rewrite (height_affine g x t), (height_affine e x t), H, K. reflexivity. }
      destruct (touch_ends t) as [[F|F] _]; auto; lra.
  Qed.

  Lemma lt_at_stable_r x x' : spans g x = true -> spans e x = true ->
    spans g x' = true -> spans e x' = true -> x < x' -> lt_at x g e -> lt_at x' g e.
  Proof.
    intros Sg Se Sg' Se' Lt H.
    pose proof (spans_nonvert _ _ Sg) as Ng. pose proof (spans_nonvert _ _ Se) as Ne.
    apply spans_iff in Sg, Se, Sg', Se'.
    assert (height g x <= height e x) by (unfold lt_at in H; lra).
    destruct (Q_dec (height g x') (height e x')) as [[K|K]|K]; [left; auto| |].
    - exfalso. destruct H as [H|[H Hs]].
      + destruct (no_flip x x') as [N _]; auto; try lra; try (apply N; split; lra).
      + rewrite (height_affine g x x'), (height_affine e x x') in K. nra.
    - exfalso. destruct (touch_ends x') as [[F|F] _]; auto; lra.
  Qed.

  Lemma lt_at_stable_l x x' : spans g x = true -> spans e x = true ->
    spans g x' = true -> spans e x' = true -> x' < x -> lt_at x g e -> lt_at x' g e.
  Proof.
    intros Sg Se Sg' Se' Lt H.
    pose proof (spans_nonvert _ _ Sg) as Ng. pose proof (spans_nonvert _ _ Se) as Ne.
    apply spans_iff in Sg, Se, Sg', Se'.
    assert (Hx : height g x < height e x).
    { destruct H as [H|[H Hs]]; auto. exfalso.
      destruct (touch_ends x) as [[F|F] _]; auto; lra. }
    destruct (Q_dec (height g x') (height e x')) as [[K|K]|K]; [left; auto| |].
    - exfalso. destruct (no_flip x' x) as [_ N]; auto; try lra; try (apply N; split; lra).
    - right. split; auto.
      rewrite (height_affine g x' x), (height_affine e x' x), K in Hx. nra.
  Qed.

  Lemma lt_at_stable x x' : spans g x = true -> spans e x = true ->
    spans g x' = true -> spans e x' = true -> lt_at x g e -> lt_at x' g e.
  Proof.
    intros. destruct (Q_dec x x') as [[K|K]|K].
    - apply (lt_at_stable_r x x'); auto.
    - apply (lt_at_stable_l x x'); auto.
    - unfold lt_at in *. rewrite <- K. auto.
  Qed.

  (** a vertex of g strictly inside the x-range of e is not on e *)
  Lemma vertex_off p : In p [sa g; sb g] -> nonvert e ->
    qx (sa e) < qx p -> qx p < qx (sb e) -> ~ qy p == height e (qx p).
  Proof.
    intros Ip Ne A B H.
    destruct (HP (qx p, qy p)) as [_ Ee].
    - destruct Ip as [<-|[<-|[]]].
      + exists 0. simpl. split; [lra|split; ring].
      + exists 1. simpl. split; [lra|split; ring].
    - destruct (on_seg_height e (qx p) Ne) as (u & U & Ux & Uy); try lra.
      exists u. simpl in *. rewrite H. auto.
    - unfold is_end, q_is in Ee; simpl in Ee. lra.
  Qed.

  (** the right end of g lies strictly inside the range of e *)
  Lemma order_at_b x : spans g x = true -> spans e x = true -> qx (sb g) < qx (sb e) ->
    (lt_at x g e <-> qy (sb g) < height e (qx (sb g))).
  Proof.
    intros Sg Se Lb.
    pose proof (spans_nonvert _ _ Sg) as Ng. pose proof (spans_nonvert _ _ Se) as Ne.
    pose proof Sg as Sg0. pose proof Se as Se0.
    apply spans_iff in Sg, Se.
    assert (Off : ~ qy (sb g) == height e (qx (sb g))).
    { apply vertex_off; simpl; auto; lra. }
    assert (Hb : height g (qx (sb g)) == qy (sb g)) by (apply height_at_b; unfold nonvert in Ng; lra).
    split; intro H.
    - destruct (Q_dec (qy (sb g)) (height e (qx (sb g)))) as [[K|K]|K]; auto; [|contradiction].
      exfalso. destruct H as [H|[H Hs]].
      + destruct (no_flip x (qx (sb g))) as [N _]; auto; try lra; try (apply N; split; lra).
      + rewrite <- Hb in K. rewrite (height_affine g x), (height_affine e x) in K. nra.
    - destruct (lt_at_total x Sg0 Se0) as [L|L]; auto. exfalso.
      destruct L as [L|[L Ls]].
      + destruct (no_flip x (qx (sb g))) as [_ N]; auto; try lra; try (apply N; split; lra).
      + rewrite <- Hb in H. rewrite (height_affine g x), (height_affine e x) in H. nra.
  Qed.

  (** the left end of g lies strictly inside the range of e *)
  Lemma order_at_a x : spans g x = true -> spans e x = true -> qx (sa e) < qx (sa g) ->
    (lt_at x g e <-> qy (sa g) < height e (qx (sa g))).
  Proof.
    intros Sg Se La.
    pose proof (spans_nonvert _ _ Sg) as Ng. pose proof (spans_nonvert _ _ Se) as Ne.
    pose proof Sg as Sg0. pose proof Se as Se0.
    apply spans_iff in Sg, Se.
    assert (Off : ~ qy (sa g) == height e (qx (sa g))).
    { apply vertex_off; simpl; auto; lra. }
    assert (Sa : spans g (qx (sa g)) = true) by (apply spans_iff; unfold nonvert in Ng; lra).
    assert (Sa' : spans e (qx (sa g)) = true) by (apply spans_iff; lra).
    assert (Ha := height_at_a g).
    split; intro H.
    - apply (lt_at_stable x (qx (sa g))) in H; auto.
      destruct H as [H|[H _]]; [lra|]. exfalso. apply Off. lra.
    - apply (lt_at_stable (qx (sa g)) x); auto. left. lra.
  Qed.

  (** both ends of g strictly inside the range of e: same side *)
  Lemma order_both : nonvert e -> nonvert g ->
    qx (sa e) < qx (sa g) -> qx (sb g) < qx (sb e) ->
    (qy (sa g) < height e (qx (sa g)) <-> qy (sb g) < height e (qx (sb g))).
  Proof.
    intros Ne Ng A B.
    assert (Sg : spans g (qx (sa g)) = true) by (apply spans_iff; unfold nonvert in Ng; lra).
    assert (Se : spans e (qx (sa g)) = true) by (apply spans_iff; unfold nonvert in Ng; lra).
    rewrite <- (order_at_b (qx (sa g))) by auto. symmetry. apply order_at_a; auto.
  Qed.

  (** a vertical g strictly inside the range of e lies on one side *)
  Lemma order_vert : nonvert e -> px (sa g) = px (sb g) -> qy (sa g) < qy (sb g) ->
    qx (sa e) < qx (sa g) -> qx (sa g) < qx (sb e) ->
    (qy (sa g) < height e (qx (sa g)) <-> qy (sb g) < height e (qx (sa g))).
  Proof.
    intros Ne V Lt A B. split; intro H; [|lra].
    destruct (Qlt_le_dec (qy (sb g)) (height e (qx (sa g)))) as [|K]; auto. exfalso.
    destruct (HP (qx (sa g), height e (qx (sa g)))) as [_ Ee].
    - apply on_seg_vert; auto; try lra.
    - apply on_seg_height; auto; lra.
    - unfold is_end, q_is in Ee; simpl in Ee. lra.
  Qed.
End Pair.
