(** * Winding numbers around a vertex. *)
From Verif Require Import Base Spec QLib SegmProofs PlanarGeo PlanarSum FillProofs FillCorrect ModelGraph ModelExtract Rotation NextLink MoveLemma.
Open Scope Q_scope.

(** ** linear functionals *)
Record lin_fun := LF { lf_x : Q; lf_y : Q; lf_1 : Q }.
Definition ev (L : lin_fun) (p : qpt) : Q := lf_x L * fst p + lf_y L * snd p + lf_1 L.
Lemma ev_lerp L p q t : ev L (lerp p q t) == (1 - t) * ev L p + t * ev L q.
Proof. unfold ev, lerp. simpl. ring. Qed.
Lemma ev_lerp_pos L p q t : 0 <= t <= 1 -> 0 < ev L p -> 0 < ev L q -> 0 < ev L (lerp p q t).
Proof.
  intros T P R. rewrite ev_lerp. destruct (Qlt_le_dec 0 t) as [H|H].
  - assert (0 < t * ev L q) by (apply Qmult_pos; auto). assert (0 <= (1 - t) * ev L p) by (apply Qmult_le_0_compat; lra). lra.
  - assert (E : t == 0) by lra. rewrite E. lra.
Qed.
Lemma ev_lerp_nonneg L p q t : 0 <= t <= 1 -> 0 <= ev L p -> 0 <= ev L q -> 0 <= ev L (lerp p q t).
Proof.
  intros T P R. rewrite ev_lerp. assert (0 <= t * ev L q) by (apply Qmult_le_0_compat; lra). assert (0 <= (1 - t) * ev L p) by (apply Qmult_le_0_compat; lra). lra.
Qed.
Lemma ev_eq L p q : fst p == fst q -> snd p == snd q -> ev L p == ev L q.
Proof. intros A B. unfold ev. rewrite A, B. reflexivity. Qed.

Definition sep (L : lin_fun) (e : xseg) (q : qpt) : Prop := 0 < ev L q /\ ev L (qof (sa e)) <= 0 /\ ev L (qof (sb e)) <= 0.
Lemma sep_on L e z : ev L (qof (sa e)) <= 0 -> ev L (qof (sb e)) <= 0 -> on_seg e z -> ev L z <= 0.
Proof.
  intros A B (t & T & X & Y).
  assert (E : ev L z == (1 - t) * ev L (qof (sa e)) + t * ev L (qof (sb e))).
  { unfold ev, qof. simpl. rewrite X, Y. ring. }
  rewrite E. assert (0 <= t * - ev L (qof (sb e))) by (apply Qmult_le_0_compat; lra). assert (0 <= (1 - t) * - ev L (qof (sa e))) by (apply Qmult_le_0_compat; lra). lra.
Qed.
Lemma separate e (v : pt) : wf_xseg e -> ~ on_seg e (qof v) -> exists L, sep L e (qof v).
Proof.
  intros W N. unfold sep, ev, qof.
  set (ax := qx (sa e)) in *. set (ay := qy (sa e)) in *. set (bx := qx (sb e)) in *. set (by_ := qy (sb e)) in *.
  set (K := (bx - ax) * (qy v - ay) - (by_ - ay) * (qx v - ax)).
  destruct (Q_dec K 0) as [[H|H]|H].
  - exists (LF (by_ - ay) (- (bx - ax)) ((bx - ax) * ay - (by_ - ay) * ax)). simpl. unfold K in H. fold ax ay bx by_. repeat split; try lra; ring_simplify; lra.
  - exists (LF (- (by_ - ay)) (bx - ax) (- ((bx - ax) * ay) + (by_ - ay) * ax)). simpl. unfold K in H. fold ax ay bx by_. repeat split; try lra; ring_simplify; lra.
  - destruct (is_not_vertical e) eqn:V.
    + pose proof (wf_nonvert _ W V) as Nv. unfold nonvert in Nv. fold ax bx in Nv.
      destruct (Qlt_le_dec (qx v) ax) as [C|C]; [exists (LF (-1) 0 ax); simpl; fold ax bx; lra|].
      destruct (Qlt_le_dec bx (qx v)) as [D|D]; [exists (LF 1 0 (- bx)); simpl; fold ax bx; lra|].
      exfalso. apply N. eapply on_seg_eq; [| |apply (on_seg_height e (qx v) Nv C D)]; simpl; [reflexivity|].
      unfold height. fold ax ay bx by_. unfold K in H.
      assert (E : (by_ - ay) * (qx v - ax) == (bx - ax) * (qy v - ay)) by lra.
      setoid_replace ((by_ - ay) / (bx - ax) * (qx v - ax)) with (((by_ - ay) * (qx v - ax)) / (bx - ax)) by (field; lra). rewrite E. field. lra.
    + destruct (wf_vert _ W V) as [Vx Vy]. fold ay by_ in Vy.
      assert (EX : bx == ax) by (unfold bx, ax, qx; rewrite Vx; reflexivity).
      destruct (Q_dec (qx v) ax) as [[C|C]|C]; [exists (LF (-1) 0 ax); simpl; fold ax bx; lra|exists (LF 1 0 (- ax)); simpl; fold ax bx; lra|].
      destruct (Qlt_le_dec (qy v) ay) as [D|D]; [exists (LF 0 (-1) ay); simpl; fold ay by_; lra|].
      destruct (Qlt_le_dec by_ (qy v)) as [F|F]; [exists (LF 0 1 (- by_)); simpl; fold ay by_; lra|].
      exfalso. apply N. apply on_seg_vert; auto.
Qed.

(** ** rays *)
Definition zq (z : Z) : Q := inject_Z z.
Definition ray (v : pt) (w : vec) (t : Q) : qpt := (qx v + t * zq (fst w), qy v + t * zq (snd w)).
(** cross product with the vector of a point seen from [v] *)
Definition crossv (v : pt) (w : vec) : lin_fun := LF (- zq (snd w)) (zq (fst w)) (zq (snd w) * qx v - zq (fst w) * qy v).
Lemma crossv_ray v w u t : ev (crossv v w) (ray v u t) == t * zq (vx w u).
Proof. unfold ev, crossv, ray, vx, zq. simpl. unfold Z.sub. rewrite inject_Z_plus, inject_Z_opp, !inject_Z_mult. ring. Qed.
Lemma crossv_v v w : ev (crossv v w) (qof v) == 0.
Proof. unfold ev, crossv, qof. simpl. ring. Qed.
Lemma ev_ray_near L v w : 0 < ev L (qof v) -> near (fun t => 0 < ev L (ray v w t)).
Proof.
  intro H. destruct (near_lin (- ev L (qof v)) 0 (- (lf_x L * zq (fst w) + lf_y L * zq (snd w)))) as (e & He & F); [lra|].
  exists e. split; auto. intros d D. specialize (F d D). unfold ev, ray, qof in *. simpl in *. lra.
Qed.

(** an edge seen from its end [v]: all its points lie on the ray *)
Lemma on_edge_ray e v p z : ends_are e v p -> on_seg e z ->
  exists t, 0 <= t <= 1 /\ fst z == fst (ray v (vsub p v) t) /\ snd z == snd (ray v (vsub p v) t).
Proof.
  intros E (t & T & X & Y). unfold ray, vsub, zq. simpl.
  destruct E as [-> | ->]; simpl in *; [exists t|exists (1 - t)]; (split; [lra|]); rewrite X, Y; unfold qx, qy; rewrite !qz_sub; split; ring.
Qed.

(** ** A planar set of edges with integer multiplicities *)
Section Ambient.
  Variable es : list xseg.
  Record ambient : Prop := {
    am_wf : forall e, In e es -> wf_xseg e;
    am_nodup : NoDup es;
    am_planar : planar es }.
  Hypothesis A : ambient.
  Definition ch (k : xseg -> Z) : chain := map (fun e => (e, k e)) es.
  Lemma ch_good k : good (ch k).
  Proof.
    unfold ch. constructor.
    - intros e I. apply in_map_iff in I as (x & <- & I). simpl. apply am_wf; auto.
    - rewrite map_map. simpl. rewrite map_id. apply am_nodup; auto.
    - rewrite map_map. simpl. rewrite map_id. apply am_planar; auto.
  Qed.
  Lemma in_ch k e : In e es -> In (e, k e) (ch k).
  Proof. intro I. apply (in_map (fun e => (e, k e))). auto. Qed.

  (** winding number just below (right of) and above (left of) an edge *)
  Definition bot (k : xseg -> Z) (e : xseg) : Z :=
    if is_not_vertical e then below (ch k) e (qx (sa e)) else le_sum (ch k) (qx (sa e)) (qy (sa e)).
  Definition top (k : xseg -> Z) (e : xseg) : Z := (bot k e + k e)%Z.

  Lemma sides k e q : balanced (ch k) -> In e es -> inside_seg e q ->
    near (fun d => wind (ch k) (top_side e q d) = top k e) /\ near (fun d => wind (ch k) (bottom_side e q d) = bot k e).
  Proof.
    intros B Ie Hq. pose proof (am_wf A e Ie) as W. pose proof (in_ch k e Ie) as Ic. pose proof (ch_good k) as G.
    unfold top_side, bottom_side, top, bot.
    destruct (inside_seg_coords _ _ W Hq) as [(V & H1 & H2 & H3)|(V & Vx & H1 & H2 & H3)]; rewrite V.
    - unfold is_not_vertical in V. apply negb_true_iff in V. rewrite V.
      assert (Ne : nonvert e) by (unfold nonvert; lra).
      destruct (wind_above _ G (e, k e) (fst q) Ic Ne H1 H2) as [W1 W2]. simpl in W1, W2.
      assert (Bc : below (ch k) e (fst q) = below (ch k) e (qx (sa e))).
      { apply (below_const _ G (e, k e)); auto.
        - simpl. apply spans_iff. lra.
        - simpl. apply spans_own; auto. }
      split; [eapply near_mono; [|exact W1]|eapply near_mono; [|exact W2]]; intros d D E; cbv beta in E; rewrite <- Bc, <- E;
        apply wind_comp; try reflexivity; rewrite H3; reflexivity.
    - rewrite Vx, Z.eqb_refl. split.
      + eapply near_mono; [|apply (wind_left _ G (e, k e) (snd q)); auto].
        intros d D E; simpl in E. rewrite <- E. apply wind_comp; try reflexivity. rewrite H1. reflexivity.
      + eapply near_mono; [|apply (wind_right _ G (e, k e) (snd q)); auto].
        intros d D E; simpl in E. rewrite <- E. apply wind_comp; try reflexivity. rewrite H1. reflexivity.
  Qed.

  (** *** directions at a vertex *)
  (** [v] is an end of [e]; the direction in which [e] leaves [v] *)
  Definition at_v (v : pt) (e : xseg) : Prop := sa e = v \/ sb e = v.
  Definition other (v : pt) (e : xseg) : pt := if pt_eqb (sa e) v then sb e else sa e.
  Definition dir (v : pt) (e : xseg) : vec := vsub (other v e) v.
  Lemma at_ends v e : at_v v e -> ends_are e v (other v e).
  Proof.
    intro H. unfold other, ends_are. destruct e as [a b]; simpl in *. destruct (pt_eqb a v) eqn:E.
    - apply pt_eqb_eq in E. subst. auto.
    - destruct H as [H|H]; [simpl in H; subst; rewrite pt_eqb_refl in E; discriminate|]. simpl in H. subst. auto.
  Qed.
  Lemma not_at v e e0 : In e es -> In e0 es -> at_v v e0 -> ~ at_v v e -> ~ on_seg e (qof v).
  Proof.
    intros Ie I0 H0 N O. assert (NE : e <> e0) by congruence.
    assert (O0 : on_seg e0 (qof v)).
    { destruct H0 as [<-|<-]; [exists 0|exists 1]; simpl; split; try lra; split; ring. }
    destruct (am_planar A e e0 Ie I0 NE (qof v) O O0) as [[H|H] _]; apply qof_eq in H; apply N; [left|right]; congruence.
  Qed.

  (** value on the left ([s = 1]) or right ([s = -1]) of [e] when leaving [v] along [e] *)
  Definition side_at (k : xseg -> Z) (v : pt) (s : Z) (e : xseg) : Z :=
    if Bool.eqb (pt_eqb (sa e) v) (s =? 1)%Z then top k e else bot k e.

  (** [u] is strictly between the ray of [e] and [w] (turning left if [s = 1]), or on [w] *)
  Definition in_cone (s : Z) (u0 u w : vec) : Prop := (0 < s * vx u0 u /\ 0 <= s * vx u w)%Z.

  Lemma near_and_all {T} (P : T -> Q -> Prop) (l : list T) : (forall x, In x l -> near (P x)) -> near (fun d => forall x, In x l -> P x d).
  Proof. apply near_forall. Qed.

  Lemma near_pick (P : Q -> Prop) (b : Q) : 0 < b -> near P -> exists d, 0 < d < b /\ P d.
  Proof.
    intros B (e & He & F). exists (if Qlt_le_dec e b then e / 2 else b / 2).
    destruct (Qlt_le_dec e b).
    - assert (E : e / 2 == e * (1#2)) by (field). split; [rewrite E; lra|]. apply F. rewrite E; lra.
    - assert (E : b / 2 == b * (1#2)) by (field). split; [rewrite E; lra|]. apply F. rewrite E; lra.
  Qed.

  Definition shift (q : qpt) (n : vec) (d : Q) : qpt := (fst q + d * zq (fst n), snd q + d * zq (snd n)).
  Lemma ev_shift L q n d : ev L (shift q n d) == ev L q + d * (lf_x L * zq (fst n) + lf_y L * zq (snd n)).
  Proof. unfold ev, shift. simpl. ring. Qed.
  Lemma ev_shift_near L q n : 0 < ev L q -> near (fun d => 0 < ev L (shift q n d)).
  Proof.
    intro H. destruct (near_lin (- ev L q) 0 (- (lf_x L * zq (fst n) + lf_y L * zq (snd n)))) as (e & He & F); [lra|].
    exists e. split; auto. intros d D. specialize (F d D). rewrite ev_shift. lra.
  Qed.
  Lemma zq_pos z : (0 < z)%Z -> 0 < zq z.
  Proof. intro H. apply (proj2 (qz_lt 0 z)). auto. Qed.
  Lemma zq_nonneg z : (0 <= z)%Z -> 0 <= zq z.
  Proof. intro H. apply (proj2 (qz_le 0 z)). auto. Qed.
  Lemma zq_mult a b : zq (a * b) == zq a * zq b.
  Proof. unfold zq. rewrite inject_Z_mult. reflexivity. Qed.
  Lemma zq_pos_inv z : 0 < zq z -> (0 < z)%Z.
  Proof. intro H. apply (proj1 (qz_lt 0 z)). auto. Qed.
  Lemma zq_nonneg_inv z : 0 <= zq z -> (0 <= z)%Z.
  Proof. intro H. apply (proj1 (qz_le 0 z)). auto. Qed.

  (** *** the side of an edge, seen from its end *)
  Lemma side_ray k v e s w : balanced (ch k) -> In e es -> at_v v e -> (s = 1 \/ s = -1)%Z ->
    (0 < s * vx (dir v e) w)%Z ->
    (forall e', In e' es -> e' <> e -> at_v v e' -> k e' <> 0%Z -> ~ in_cone s (dir v e) (dir v e') w) ->
    near (fun t => wind (ch k) (ray v w t) = side_at k v s e).
  Proof.
    intros B Ie Hv Hs Uw Nc. set (u := dir v e) in *.
    (* functionals separating the vertex from the edges that do not touch it *)
    assert (N1 : near (fun t => forall e', In e' es -> ~ at_v v e' -> exists L, sep L e' (qof v) /\ 0 < ev L (ray v u t) /\ 0 < ev L (ray v w t))).
    { apply near_forall. intros e' I'. destruct (pt_eq_dec (sa e') v) as [E|E]; [apply near_all; intros d _ N; exfalso; apply N; left; auto|].
      destruct (pt_eq_dec (sb e') v) as [E2|E2]; [apply near_all; intros d _ N; exfalso; apply N; right; auto|].
      destruct (separate e' v) as (L & S); [apply am_wf; auto|apply (not_at v e' e I' Ie Hv); intros [X|X]; auto|].
      destruct S as (S1 & S2). eapply near_mono; [|apply near_and; [apply (ev_ray_near L v u S1)|apply (ev_ray_near L v w S1)]].
      intros d _ [X Y] _. exists L. unfold sep. auto. }
    destruct N1 as (eps & Heps & N1). exists (if Qlt_le_dec eps 1 then eps else 1). split; [destruct (Qlt_le_dec eps 1); lra|].
    intros t T. assert (Tb : 0 < t /\ t < eps /\ t < 1) by (destruct (Qlt_le_dec eps 1); lra). clear T. destruct Tb as (T0 & T1 & T2).
    specialize (N1 t (conj T0 T1)). clear eps Heps T1.
    set (q := ray v u t).
    pose proof (at_ends v e Hv) as Eds. pose proof (am_wf A e Ie) as We.
    assert (Hq : inside_seg e q).
    { split.
      - apply (on_seg_ray e v (other v e) q t Eds); [lra| |]; unfold q, u, dir, ray, vsub, zq, qx, qy; simpl; rewrite qz_sub; ring.
      - assert (Nz : u <> (0, 0)%Z). { unfold u, dir. apply vsub_nz. intro X. rewrite X in Eds. destruct Eds as [Y|Y]; rewrite Y in We; eapply pt_lt_irrefl; exact We. }
        pose proof (dot_pos u Nz) as Dp. apply zq_pos in Dp.
        assert (V1 : forall z : pt, (z = v \/ z = other v e) -> ~ q_is q z).
        { intros z Hz [X Y]. set (L := LF (zq (fst u)) (zq (snd u)) (- (zq (fst u) * qx v + zq (snd u) * qy v))).
          assert (E1 : ev L q == t * zq (dot u u)).
          { unfold L, ev, q, ray, dot. simpl. unfold zq. rewrite inject_Z_plus, !inject_Z_mult. ring. }
          assert (E2 : ev L (qof z) == (if pt_eq_dec z v then 0 else 1) * zq (dot u u)).
          { destruct (pt_eq_dec z v) as [->|Nzv]; [unfold L, ev, qof; simpl; ring|]. destruct Hz as [->|Hz]; [congruence|].
            unfold L, ev, qof, dot. simpl. unfold zq. rewrite inject_Z_plus, !inject_Z_mult. rewrite Hz. unfold u, dir, vsub. simpl. rewrite !qz_sub. unfold qx, qy. ring. }
          assert (E3 : ev L q == ev L (qof z)) by (apply ev_eq; auto).
          rewrite E1, E2 in E3. destruct (pt_eq_dec z v).
          - assert (0 < t * zq (dot u u)) by (apply Qmult_pos; auto). lra.
          - assert (0 < (1 - t) * zq (dot u u)) by (apply Qmult_pos; lra). lra. }
        intros [H|H]; revert H; apply V1; destruct Eds as [Y|Y]; apply (f_equal sa) in Y as Y1; apply (f_equal sb) in Y as Y2; cbn [sa sb] in Y1, Y2; auto. }
    (* the displaced point *)
    set (n := (if px (sa e) =? px (sb e) then (-1, 0) else (0, 1))%Z : vec).
    set (sg := (if pt_eqb (sa e) v then s else - s)%Z).
    set (n' := (sg * fst n, sg * snd n)%Z : vec).
    assert (Sg : sg = 1%Z \/ sg = (-1)%Z) by (unfold sg; destruct (pt_eqb (sa e) v); lia).
    assert (Un : (0 < s * vx u n')%Z).
    { assert (P1 : (0 < vx (vsub (sb e) (sa e)) n)%Z).
      { unfold n. pose proof We as We'. unfold wf_xseg, pt_lt in We'. unfold vx, vsub. destruct (Z.eqb_spec (px (sa e)) (px (sb e))); simpl; lia. }
      assert (P2 : vx u n' = (sg * vx u n)%Z) by (unfold n', vx; simpl; ring).
      rewrite P2. unfold u, dir, other, sg. destruct (pt_eqb (sa e) v) eqn:Ea.
      - apply pt_eqb_eq in Ea. rewrite <- Ea. destruct Hs as [-> | ->]; lia.
      - assert (Eb : sb e = v) by (destruct Hv as [X|X]; auto; rewrite X, pt_eqb_refl in Ea; discriminate). rewrite <- Eb.
        assert (P3 : vx (vsub (sa e) (sb e)) n = (- vx (vsub (sb e) (sa e)) n)%Z) by (unfold vx, vsub; simpl; ring).
        rewrite P3. destruct Hs as [-> | ->]; lia. }
    assert (Sd : near (fun d => wind (ch k) (shift q n' d) = side_at k v s e)).
    { destruct (sides k e q B Ie Hq) as [S1 S2]. unfold side_at.
      assert (Pt : forall d, (if (sg =? 1)%Z then top_side e q d else bottom_side e q d) = (if (sg =? 1)%Z then top_side e q d else bottom_side e q d)) by auto.
      assert (Es : Bool.eqb (pt_eqb (sa e) v) (s =? 1)%Z = (sg =? 1)%Z).
      { unfold sg. destruct (pt_eqb (sa e) v), Hs as [-> | ->]; reflexivity. }
      rewrite Es. destruct Sg as [Sg|Sg]; rewrite Sg; simpl.
      - eapply near_mono; [|exact S1]. intros d D E. cbv beta in E. rewrite <- E. apply wind_eq; unfold shift, top_side, n', n, zq; rewrite Sg;
          destruct (px (sa e) =? px (sb e))%Z; cbn [fst snd]; rewrite ?Z.mul_1_l; change (-1 * -1)%Z with 1%Z; change (-1 * 0)%Z with 0%Z; change (-1 * 1)%Z with (-1)%Z; unfold inject_Z; lra.
      - eapply near_mono; [|exact S2]. intros d D E. cbv beta in E. rewrite <- E. apply wind_eq; unfold shift, bottom_side, n', n, zq; rewrite Sg;
          destruct (px (sa e) =? px (sb e))%Z; cbn [fst snd]; rewrite ?Z.mul_1_l; change (-1 * -1)%Z with 1%Z; change (-1 * 0)%Z with 0%Z; change (-1 * 1)%Z with (-1)%Z; unfold inject_Z; lra. }
    (* functionals for the move: u x z > 0, z x w >= 0 *)
    set (Lu := LF (zq s * lf_x (crossv v u)) (zq s * lf_y (crossv v u)) (zq s * lf_1 (crossv v u))).
    set (Lw := LF (- zq s * lf_x (crossv v w)) (- zq s * lf_y (crossv v w)) (- zq s * lf_1 (crossv v w))).
    assert (ELu : forall z, ev Lu z == zq s * ev (crossv v u) z) by (intro; unfold Lu, ev; simpl; ring).
    assert (ELw : forall z, ev Lw z == - zq s * ev (crossv v w) z) by (intro; unfold Lw, ev; simpl; ring).
    assert (Lu_ray : forall x y, ev Lu (ray v x y) == y * zq (s * vx u x)) by (intros; rewrite ELu, crossv_ray, zq_mult; ring).
    assert (Lw_ray : forall x y, ev Lw (ray v x y) == y * zq (s * vx x w)).
    { intros. rewrite ELw, crossv_ray, zq_mult. rewrite (vx_anti w x). unfold zq at 2. rewrite inject_Z_opp. fold (zq (vx x w)). ring. }
    assert (Nl : near (fun d => 0 < ev Lw (shift q n' d))).
    { apply ev_shift_near. unfold q. rewrite Lw_ray. apply Qmult_pos; auto. apply zq_pos; auto. }
    assert (Ns : near (fun d => forall e', In e' es -> ~ at_v v e' -> exists L, sep L e' (qof v) /\ 0 < ev L (shift q n' d) /\ 0 < ev L (ray v w t))).
    { apply near_forall. intros e' I'. destruct (pt_eq_dec (sa e') v) as [E|E]; [apply near_all; intros d _ N; exfalso; apply N; left; auto|].
      destruct (pt_eq_dec (sb e') v) as [E2|E2]; [apply near_all; intros d _ N; exfalso; apply N; right; auto|].
      destruct (N1 e' I') as (L & S & S2 & S3); [intros [X|X]; auto|].
      eapply near_mono; [|apply (ev_shift_near L q n' S2)]. intros d _ X _. exists L. auto. }
    destruct (near_pick _ 1 ltac:(lra) (near_and _ _ Sd (near_and _ _ Nl Ns))) as (d & [D _] & Wd & Ld & Sepd).
    rewrite <- Wd. apply move; auto.
    { intros x I. apply in_map_iff in I as (y & <- & I). simpl. apply am_wf; auto. }
    intros x I Nz. apply in_map_iff in I as (e' & <- & I'). simpl in Nz |- *.
    intros r R O.
    (* every point of the segment is strictly on the w-side of u *)
    assert (Pu : 0 < ev Lu (lerp (ray v w t) (shift q n' d) r)).
    { apply ev_lerp_pos; auto.
      - rewrite Lu_ray. apply Qmult_pos; auto. apply zq_pos; auto.
      - rewrite ev_shift. unfold q. rewrite Lu_ray. replace (s * vx u u)%Z with 0%Z by (unfold vx; ring).
        assert (E : lf_x Lu * zq (fst n') + lf_y Lu * zq (snd n') == zq (s * vx u n')).
        { rewrite zq_mult. unfold Lu, crossv, vx, zq. cbn [lf_x lf_y lf_1]. unfold Z.sub. rewrite inject_Z_plus, inject_Z_opp, !inject_Z_mult. ring. }
        rewrite E. assert (0 < d * zq (s * vx u n')) by (apply Qmult_pos; auto; apply zq_pos; auto). assert (Z0 : t * zq 0 == 0) by (unfold zq; ring). lra. }
    assert (Pw : 0 <= ev Lw (lerp (ray v w t) (shift q n' d) r)).
    { apply ev_lerp_nonneg; auto; [|lra]. rewrite Lw_ray. replace (s * vx w w)%Z with 0%Z by (unfold vx; ring). assert (Z0 : t * zq 0 == 0) by (unfold zq; ring). lra. }
    destruct (pt_eq_dec (sa e') v) as [Ea|Ea]; [|destruct (pt_eq_dec (sb e') v) as [Eb|Eb]].
    3:{ destruct (Sepd e' I') as (L & (S1 & S2 & S3) & S4 & S5); [intros [X|X]; auto|].
        pose proof (sep_on L e' _ S2 S3 O). pose proof (ev_lerp_pos L _ _ r R S5 S4). lra. }
    all: assert (Hv' : at_v v e') by (unfold at_v; auto).
    all: destruct (on_edge_ray e' v (other v e') _ (at_ends v e' Hv') O) as (r' & R' & X & Y).
    all: rewrite (ev_eq Lu _ _ X Y), Lu_ray in Pu; rewrite (ev_eq Lw _ _ X Y), Lw_ray in Pw; fold (dir v e') in Pu, Pw.
    all: assert (R0 : 0 < r') by (destruct (Qlt_le_dec 0 r'); auto; assert (Z0 : r' == 0) by lra; rewrite Z0 in Pu; lra).
    all: assert (C1 : (0 < s * vx u (dir v e'))%Z) by (apply zq_pos_inv; destruct (Qlt_le_dec 0 (zq (s * vx u (dir v e')))) as [?|C]; auto;
       assert (0 <= r' * - zq (s * vx u (dir v e'))) by (apply Qmult_le_0_compat; lra); lra).
    all: assert (C2 : (0 <= s * vx (dir v e') w)%Z) by (apply zq_nonneg_inv; destruct (Qlt_le_dec (zq (s * vx (dir v e') w)) 0) as [C|?]; auto;
       assert (0 < r' * - zq (s * vx (dir v e') w)) by (apply Qmult_pos; lra); lra).
    all: destruct (xseg_eq_dec e' e) as [->|NE]; [unfold u in C1; unfold vx in C1; lia|].
    all: exact (Nc e' I' NE Hv' Nz (conj C1 C2)).
  Qed.

  (** *** moving inside a cone without edges *)
  Lemma cone_ray k v w1 w2 e0 : balanced (ch k) -> In e0 es -> at_v v e0 -> (0 < vx w1 w2)%Z ->
    (forall e', In e' es -> at_v v e' -> k e' <> 0%Z -> ~ (0 <= vx w1 (dir v e') /\ 0 <= vx (dir v e') w2)%Z) ->
    near (fun t => wind (ch k) (ray v w1 t) = wind (ch k) (ray v w2 t)).
  Proof.
    intros B I0 H0 W12 Nc.
    assert (N1 : near (fun t => forall e', In e' es -> ~ at_v v e' -> exists L, sep L e' (qof v) /\ 0 < ev L (ray v w1 t) /\ 0 < ev L (ray v w2 t))).
    { apply near_forall. intros e' I'. destruct (pt_eq_dec (sa e') v) as [E|E]; [apply near_all; intros d _ N; exfalso; apply N; left; auto|].
      destruct (pt_eq_dec (sb e') v) as [E2|E2]; [apply near_all; intros d _ N; exfalso; apply N; right; auto|].
      destruct (separate e' v) as (L & S); [apply am_wf; auto|apply (not_at v e' e0 I' I0 H0); intros [X|X]; auto|].
      destruct S as (S1 & S2). eapply near_mono; [|apply near_and; [apply (ev_ray_near L v w1 S1)|apply (ev_ray_near L v w2 S1)]].
      intros d _ [X Y] _. exists L. unfold sep. auto. }
    eapply near_mono; [|exact N1]. intros t T Sp. cbv beta in Sp. apply move; auto.
    { intros x I. apply in_map_iff in I as (y & <- & I). simpl. apply am_wf; auto. }
    intros x I Nz. apply in_map_iff in I as (e' & <- & I'). simpl in Nz |- *.
    intros r R O.
    set (L1 := crossv v w1). set (L2 := LF (- lf_x (crossv v w2)) (- lf_y (crossv v w2)) (- lf_1 (crossv v w2))).
    assert (E2 : forall x y, ev L2 (ray v x y) == y * zq (vx x w2)).
    { intros a b. assert (E : ev L2 (ray v a b) == - ev (crossv v w2) (ray v a b)) by (unfold L2, ev; simpl; ring).
      rewrite E, crossv_ray, (vx_anti w2 a). unfold zq. rewrite inject_Z_opp. ring. }
    assert (P0 : 0 < t * zq (vx w1 w2)) by (apply Qmult_pos; auto; apply zq_pos; auto).
    assert (Z1 : zq (vx w1 w1) == 0) by (replace (vx w1 w1) with 0%Z by (unfold vx; ring); reflexivity).
    assert (Z2 : zq (vx w2 w2) == 0) by (replace (vx w2 w2) with 0%Z by (unfold vx; ring); reflexivity).
    assert (P1 : 0 <= ev L1 (lerp (ray v w1 t) (ray v w2 t) r)).
    { apply ev_lerp_nonneg; auto; unfold L1; rewrite crossv_ray; [rewrite Z1; lra|lra]. }
    assert (P2 : 0 <= ev L2 (lerp (ray v w1 t) (ray v w2 t) r)).
    { apply ev_lerp_nonneg; auto; rewrite E2; [lra|rewrite Z2; lra]. }
    assert (P3 : 0 < ev L1 (lerp (ray v w1 t) (ray v w2 t) r) + ev L2 (lerp (ray v w1 t) (ray v w2 t) r)).
    { rewrite !ev_lerp. unfold L1. rewrite !crossv_ray, !E2, Z1, Z2. lra. }
    destruct (pt_eq_dec (sa e') v) as [Ea|Ea]; [|destruct (pt_eq_dec (sb e') v) as [Eb|Eb]].
    3:{ destruct (Sp e' I') as (L & (S1 & S2 & S3) & S4 & S5); [intros [X|X]; auto|].
        pose proof (sep_on L e' _ S2 S3 O). pose proof (ev_lerp_pos L _ _ r R S4 S5). lra. }
    all: assert (Hv' : at_v v e') by (unfold at_v; auto).
    all: destruct (on_edge_ray e' v (other v e') _ (at_ends v e' Hv') O) as (r' & R' & X & Y).
    all: pose proof (ev_eq L1 _ _ X Y) as F1; pose proof (ev_eq L2 _ _ X Y) as F2; unfold L1 in F1 at 2; rewrite crossv_ray in F1; rewrite E2 in F2; fold (dir v e') in F1, F2.
    all: rewrite F1, F2 in P3; rewrite F1 in P1; rewrite F2 in P2.
    all: assert (R0 : 0 < r') by (destruct (Qlt_le_dec 0 r'); auto; assert (Z0 : r' == 0) by lra; rewrite Z0 in P3; lra).
    all: apply (Nc e' I' Hv' Nz); split; apply zq_nonneg_inv.
    all: match goal with |- 0 <= ?z => destruct (Qlt_le_dec z 0) as [C|?]; auto; assert (0 < r' * - z) by (apply Qmult_pos; lra); lra end.
  Qed.
End Ambient.
