(** * Winding sums over planar balanced chains. *)
From Verif Require Import Base Spec QLib PlanarGeo.
Open Scope Z_scope.

(** ** [near] (all sufficiently small positive d). *)
Lemma near_and (P R : Q -> Prop) : near P -> near R -> near (fun d => P d /\ R d).
Proof.
  intros (e1 & E1 & H1) (e2 & E2 & H2).
  destruct (Qlt_le_dec e1 e2).
  - exists e1. split; auto. intros d D. split; [apply H1|apply H2]; lra.
  - exists e2. split; auto. intros d D. split; [apply H1|apply H2]; lra.
Qed.

Lemma near_mono (P R : Q -> Prop) : (forall d, (0 < d)%Q -> P d -> R d) -> near P -> near R.
Proof. intros H (e & E & HP). exists e. split; auto. intros d D. apply H; [lra|]. apply HP; auto. Qed.

Lemma near_all (P : Q -> Prop) : (forall d, (0 < d)%Q -> P d) -> near P.
Proof. intro H. exists 1%Q. split; [lra|]. intros d D; apply H; lra. Qed.

Lemma near_forall {A} (P : A -> Q -> Prop) (l : list A) :
  (forall x, In x l -> near (P x)) -> near (fun d => forall x, In x l -> P x d).
Proof.
  induction l as [|x l IH]; intro H.
  - apply near_all. intros d _ y [].
  - apply (near_mono (fun d => P x d /\ (forall y, In y l -> P y d))).
    + intros d _ [H1 H2] y [<-|Hy]; auto.
    + apply near_and; [apply H; left; auto|]. apply IH. intros y Hy. apply H; right; auto.
Qed.

Lemma near_lt (a b : Q) : (a < b)%Q -> near (fun d => (a + d < b)%Q).
Proof. intro H. exists (b - a)%Q. split; [lra|]. intros d D. lra. Qed.

Lemma near_lin (a b m : Q) : (a < b)%Q -> near (fun d => (a + m * d < b)%Q).
Proof.
  intro H. destruct (Qlt_le_dec 0 m) as [Hm|Hm].
  - exists ((b - a) / m)%Q. split; [apply Qlt_shift_div_l; lra|].
    intros d [D1 D2]. 
    assert (d * m < b - a)%Q.
    { apply Qlt_le_trans with ((b - a) / m * m)%Q; [apply Qmult_lt_compat_r; auto|].
      apply Qle_lteq. right. field. lra. }
    lra.
  - apply near_all. intros d D. nra.
Qed.

(** ** Balance against an arbitrary potential. *)
Lemma sum_indicator (phi : pt -> Z) V v : NoDup V -> In v V ->
  zsum (fun u => phi u * bz (pt_eqb v u)) V = phi v.
Proof.
  induction V as [|u V IH]; intros N I; [destruct I|].
  inversion N as [|? ? N1 N2]; subst. rewrite zsum_cons.
  destruct I as [->|I].
  - rewrite pt_eqb_refl. rewrite zsum_zero; [unfold bz; lia|].
    intros u Hu. destruct (pt_eqb v u) eqn:E; [|unfold bz; lia].
    apply pt_eqb_eq in E; subst; contradiction.
  - rewrite IH by auto. destruct (pt_eqb v u) eqn:E; [|unfold bz; lia].
    apply pt_eqb_eq in E; subst; contradiction.
Qed.

Lemma balanced_phi (c : chain) (phi : pt -> Z) : balanced c ->
  zsum (fun e => snd e * (phi (sb (fst e)) - phi (sa (fst e)))) c = 0.
Proof.
  intro B.
  set (V := nodup pt_eq_dec (flat_map (fun e : xseg * Z => [sa (fst e); sb (fst e)]) c)).
  assert (NV : NoDup V) by apply NoDup_nodup.
  assert (IV : forall e, In e c -> In (sa (fst e)) V /\ In (sb (fst e)) V).
  { intros e He. unfold V. split; apply nodup_In, in_flat_map; exists e; simpl; auto. }
  transitivity (zsum (fun e => zsum (fun v => phi v *
     (snd e * (bz (pt_eqb (sb (fst e)) v) - bz (pt_eqb (sa (fst e)) v)))) V) c).
  - apply zsum_ext. intros e He. destruct (IV e He) as [Ia Ib].
    rewrite <- (sum_indicator phi V (sb (fst e)) NV Ib).
    rewrite <- (sum_indicator phi V (sa (fst e)) NV Ia) at 1.
    rewrite <- zsum_minus, <- zsum_mult. apply zsum_ext. intros v _. ring.
  - rewrite zsum_swap. apply zsum_zero. intros v _.
    rewrite zsum_mult. unfold balanced, boundary in B. rewrite B. lia.
Qed.

(** ** Planar chains. *)
Record good (c : chain) : Prop := {
  g_wf : forall e, In e c -> wf_xseg (fst e);
  g_nodup : NoDup (map fst c);
  g_planar : planar (map fst c) }.

Section Chain.
  Variable c : chain.
  Hypothesis G : good c.

  Lemma pair_planar g e : In g c -> In e c -> fst g <> fst e ->
    forall q, on_seg (fst g) q -> on_seg (fst e) q -> is_end (fst g) q /\ is_end (fst e) q.
  Proof. intros Ig Ie N. apply (g_planar _ G); auto using in_map. Qed.

  Lemma same_seg g e : In g c -> In e c -> fst g = fst e -> g = e.
  Proof.
    intros Ig Ie E. pose proof (g_nodup _ G) as N. clear G.
    induction c as [|x l IH]; [destruct Ig|]. simpl in N. inversion N as [|? ? N1 N2]; subst.
    destruct Ig as [->|Ig], Ie as [->|Ie]; auto.
    - exfalso. apply N1. rewrite E. apply in_map; auto.
    - exfalso. apply N1. rewrite <- E. apply in_map; auto.
  Qed.

  Definition below (e : xseg) (x : Q) : Z :=
    zsum (fun g => if spans (fst g) x && lt_atb x (fst g) e then snd g else 0) c.

  (** sum of the segments at or below height y *)
  Definition le_sum (x y : Q) : Z :=
    zsum (fun g => if spans (fst g) x && Qle_bool (height (fst g) x) y then snd g else 0) c.

  Lemma case_bz (b : bool) (k : Z) : (if b then k else 0) = k * bz b.
  Proof. destruct b; unfold bz; lia. Qed.

  Lemma spans_trip g x : wf_xseg g -> spans g x = false -> (x < qx (sa g))%Q \/ (qx (sb g) <= x)%Q.
  Proof. intros _ H. apply spans_false; auto. Qed.

  Lemma below_const_lt e x x' : balanced c -> In e c ->
    spans (fst e) x = true -> spans (fst e) x' = true -> (x < x')%Q ->
    below (fst e) x = below (fst e) x'.
  Proof.
    intros B Ie Sx Sx' Lt.
    pose proof (spans_nonvert _ _ Sx) as Ne.
    set (phi := fun v : pt => bz (Qltb x (qx v) && Qle_bool (qx v) x' && Qltb (qy v) (height (fst e) (qx v)))).
    pose proof (balanced_phi c phi B) as Z0.
    enough (below (fst e) x - below (fst e) x' =
            zsum (fun g => snd g * (phi (sb (fst g)) - phi (sa (fst g)))) c) by lia.
    unfold below. rewrite <- zsum_minus. apply zsum_ext. intros g Ig.
    rewrite !case_bz.
    enough (bz (spans (fst g) x && lt_atb x (fst g) (fst e)) - bz (spans (fst g) x' && lt_atb x' (fst g) (fst e))
            = phi (sb (fst g)) - phi (sa (fst g))) as EQ by (rewrite <- EQ; ring).
    pose proof (proj1 (spans_iff _ _) Sx) as SX. pose proof (proj1 (spans_iff _ _) Sx') as SX'.
    assert (P0 : forall v, (qx v <= x)%Q \/ (x' < qx v)%Q -> phi v = 0).
    { intros v Hv. unfold phi. destruct Hv as [Hv|Hv].
      - assert (Qltb x (qx v) = false) as -> by (apply Qltb_ge; auto). reflexivity.
      - assert (Qle_bool (qx v) x' = false) as -> by (apply Qleb_gt; auto).
        rewrite andb_false_r. reflexivity. }
    assert (P1 : forall v, (x < qx v)%Q -> (qx v <= x')%Q -> phi v = bz (Qltb (qy v) (height (fst e) (qx v)))).
    { intros v H1 H2. unfold phi. apply Qltb_lt in H1. apply Qleb_le in H2. rewrite H1, H2. reflexivity. }
    destruct (xseg_eq_dec (fst g) (fst e)) as [E|N].
    { rewrite E.
      assert (forall y, lt_atb y (fst e) (fst e) = false) as L.
      { intro y. destruct (lt_atb y (fst e) (fst e)) eqn:F; auto.
        apply lt_atb_iff, lt_at_irrefl in F; destruct F. }
      rewrite !L, !andb_false_r, !P0 by lra. reflexivity. }
    pose proof (pair_planar g e Ig Ie N) as HP.
    pose proof (g_wf _ G g Ig) as Wg.
    destruct (is_not_vertical (fst g)) eqn:V.
    - pose proof (wf_nonvert _ Wg V) as Ng. unfold nonvert in Ng.
      destruct (spans (fst g) x) eqn:S1, (spans (fst g) x') eqn:S2.
      + pose proof (proj1 (spans_iff _ _) S1). pose proof (proj1 (spans_iff _ _) S2).
        rewrite !P0 by lra.
        assert (lt_atb x (fst g) (fst e) = lt_atb x' (fst g) (fst e)) as ->.
        { apply bool_eq_iff. rewrite !lt_atb_iff. split; apply lt_at_stable; auto. }
        lia.
      + pose proof (proj1 (spans_iff _ _) S1) as T1. pose proof (proj1 (spans_false _ _) S2) as T2.
        assert (qx (sb (fst g)) <= x')%Q by lra.
        rewrite (P0 (sa (fst g))) by lra. rewrite (P1 (sb (fst g))) by lra.
        assert (lt_atb x (fst g) (fst e) = Qltb (qy (sb (fst g))) (height (fst e) (qx (sb (fst g))))) as ->.
        { apply bool_eq_iff. rewrite lt_atb_iff, Qltb_lt. apply order_at_b; auto; lra. }
        simpl. lia.
      + pose proof (proj1 (spans_false _ _) S1) as T1. pose proof (proj1 (spans_iff _ _) S2) as T2.
        assert (x < qx (sa (fst g)))%Q by lra.
        rewrite (P0 (sb (fst g))) by lra. rewrite (P1 (sa (fst g))) by lra.
        assert (lt_atb x' (fst g) (fst e) = Qltb (qy (sa (fst g))) (height (fst e) (qx (sa (fst g))))) as ->.
        { apply bool_eq_iff. rewrite lt_atb_iff, Qltb_lt. apply order_at_a; auto; lra. }
        simpl. lia.
      + pose proof (proj1 (spans_false _ _) S1) as T1. pose proof (proj1 (spans_false _ _) S2) as T2.
        simpl. destruct T1 as [T1|T1]; destruct T2 as [T2|T2].
        * rewrite !P0 by lra. lia.
        * rewrite !P1 by lra.
          assert (Qltb (qy (sb (fst g))) (height (fst e) (qx (sb (fst g)))) =
                  Qltb (qy (sa (fst g))) (height (fst e) (qx (sa (fst g))))) as ->; [|lia].
          apply bool_eq_iff. rewrite !Qltb_lt. symmetry. apply order_both; auto; lra.
        * exfalso; lra.
        * rewrite !P0 by lra. lia.
    - destruct (wf_vert _ Wg V) as [Vx Vy].
      assert (EX : (qx (sa (fst g)) == qx (sb (fst g)))%Q) by (unfold qx; rewrite Vx; reflexivity).
      assert (forall y, spans (fst g) y = false) as SF.
      { intro y. apply spans_false. destruct (Qlt_le_dec y (qx (sa (fst g)))); [left|right]; lra. }
      rewrite !SF. simpl.
      destruct (Qlt_le_dec x (qx (sa (fst g)))) as [T1|T1]; [|rewrite !P0 by lra; lia].
      destruct (Qlt_le_dec x' (qx (sa (fst g)))) as [T2|T2]; [rewrite !P0 by lra; lia|].
      rewrite !P1 by lra.
      assert (Qltb (qy (sb (fst g))) (height (fst e) (qx (sb (fst g)))) =
              Qltb (qy (sa (fst g))) (height (fst e) (qx (sa (fst g))))) as ->; [|lia].
      apply bool_eq_iff. rewrite !Qltb_lt. rewrite <- EX. symmetry. apply order_vert; auto; lra.
  Qed.

  Lemma below_comp e x x' : (x == x')%Q -> below e x = below e x'.
  Proof.
    intro H. apply zsum_ext. intros g _.
    assert (spans (fst g) x = spans (fst g) x') as ->.
    { apply bool_eq_iff. rewrite !spans_iff. rewrite H. tauto. }
    assert (lt_atb x (fst g) e = lt_atb x' (fst g) e) as ->; auto.
    apply bool_eq_iff. rewrite !lt_atb_iff. unfold lt_at. rewrite H. tauto.
  Qed.

  Lemma below_const e x x' : balanced c -> In e c ->
    spans (fst e) x = true -> spans (fst e) x' = true ->
    below (fst e) x = below (fst e) x'.
  Proof.
    intros B Ie S S'. destruct (Q_dec x x') as [[H|H]|H].
    - apply below_const_lt; auto.
    - symmetry. apply below_const_lt; auto.
    - apply below_comp; auto.
  Qed.

  (** picking one element out of a sum *)
  Lemma zsum_pick (l : chain) e (f : xseg * Z -> Z) : NoDup (map fst l) -> In e l ->
    zsum f l = f e + zsum (fun g => if xseg_eqb (fst g) (fst e) then 0 else f g) l.
  Proof.
    induction l as [|x l IH]; intros N I; [destruct I|].
    simpl in N. inversion N as [|? ? N1 N2]; subst. rewrite !zsum_cons.
    destruct I as [->|I].
    - rewrite xseg_eqb_refl.
      assert (zsum (fun g => if xseg_eqb (fst g) (fst e) then 0 else f g) l = zsum f l) as ->; [|lia].
      apply zsum_ext. intros g Hg. destruct (xseg_eqb (fst g) (fst e)) eqn:E; auto.
      apply xseg_eqb_eq in E. exfalso. apply N1. rewrite <- E. apply in_map; auto.
    - rewrite (IH N2 I). destruct (xseg_eqb (fst x) (fst e)) eqn:E; [|lia].
      apply xseg_eqb_eq in E. exfalso. apply N1. rewrite E. apply in_map; auto.
  Qed.

  (** interior point of a non-vertical edge: nothing else passes there *)
  Lemma interior_height e g x : In e c -> In g c -> fst g <> fst e -> nonvert (fst e) ->
    (qx (sa (fst e)) < x)%Q -> (x < qx (sb (fst e)))%Q -> spans (fst g) x = true ->
    ~ (height (fst g) x == height (fst e) x)%Q.
  Proof.
    intros Ie Ig N Ne A B S H.
    pose proof (pair_planar g e Ig Ie N) as HP.
    pose proof (proj1 (spans_iff _ _) S) as T.
    destruct (touch_ends (fst g) (fst e) HP x) as [_ F]; auto; try lra.
    eapply spans_nonvert; eauto.
  Qed.

  Lemma wind_above e x : In e c -> nonvert (fst e) ->
    (qx (sa (fst e)) < x)%Q -> (x < qx (sb (fst e)))%Q ->
    near (fun d => wind c (x, height (fst e) x + d)%Q = below (fst e) x + snd e) /\
    near (fun d => wind c (x, height (fst e) x - d)%Q = below (fst e) x).
  Proof.
    intros Ie Ne A B.
    assert (Se : spans (fst e) x = true) by (apply spans_iff; lra).
    assert (K : forall g, In g c -> near (fun d =>
       (fst g <> fst e -> spans (fst g) x = true ->
        ((height (fst g) x < height (fst e) x + d)%Q <-> lt_at x (fst g) (fst e)) /\
        ((height (fst g) x < height (fst e) x - d)%Q <-> lt_at x (fst g) (fst e))))).
    { intros g Ig. destruct (xseg_eq_dec (fst g) (fst e)) as [E|N].
      { apply near_all. intros d _ X; contradiction. }
      destruct (spans (fst g) x) eqn:S; [|apply near_all; intros; discriminate].
      pose proof (interior_height e g x Ie Ig N Ne A B S) as NE.
      unfold lt_at.
      destruct (Q_dec (height (fst g) x) (height (fst e) x)) as [[H|H]|H].
      - apply (near_mono (fun d => (height (fst g) x + d < height (fst e) x)%Q)); [|apply near_lt; auto].
        intros d D1 D2 _ _. split; split; intro; (lra || (left; lra)).
      - apply (near_mono (fun d => (height (fst e) x + d < height (fst g) x)%Q)); [|apply near_lt; auto].
        intros d D1 D2 _ _. split; split; intro L; try (destruct L as [L|[L _]]); lra.
      - contradiction. }
    apply near_forall in K.
    split; (eapply near_mono; [|exact K]); intros d D H; cbv beta in H;
      unfold wind, below.
    - rewrite (zsum_pick c e) by (auto; apply (g_nodup _ G)).
      rewrite (zsum_pick c e (fun g => if spans (fst g) x && lt_atb x (fst g) (fst e) then snd g else 0))
        by (auto; apply (g_nodup _ G)).
      assert (under (fst e) (x, (height (fst e) x + d)%Q) = true) as ->.
      { apply under_iff; simpl. lra. }
      assert (lt_atb x (fst e) (fst e) = false) as ->.
      { destruct (lt_atb x (fst e) (fst e)) eqn:F; auto. apply lt_atb_iff, lt_at_irrefl in F; destruct F. }
      rewrite andb_false_r.
      enough (forall g, In g c -> (if xseg_eqb (fst g) (fst e) then 0 else
                 if under (fst g) (x, (height (fst e) x + d)%Q) then snd g else 0) =
              (if xseg_eqb (fst g) (fst e) then 0 else
                 if spans (fst g) x && lt_atb x (fst g) (fst e) then snd g else 0)) as EQ.
      { rewrite (zsum_ext _ _ c EQ). lia. }
      intros g Ig. destruct (xseg_eqb (fst g) (fst e)) eqn:E; auto. apply xseg_eqb_neq in E.
      assert (under (fst g) (x, (height (fst e) x + d)%Q) = spans (fst g) x && lt_atb x (fst g) (fst e)) as ->; auto.
      unfold under; simpl. destruct (spans (fst g) x) eqn:S; auto. simpl.
      apply bool_eq_iff. rewrite Qltb_lt, lt_atb_iff. apply (H g Ig E S).
    - apply zsum_ext. intros g Ig.
      assert (under (fst g) (x, (height (fst e) x - d)%Q) = spans (fst g) x && lt_atb x (fst g) (fst e)) as ->; auto.
      unfold under; simpl. destruct (spans (fst g) x) eqn:S; auto. simpl.
      apply bool_eq_iff. rewrite Qltb_lt, lt_atb_iff.
      destruct (xseg_eq_dec (fst g) (fst e)) as [E|N]; [|apply (H g Ig N S)].
      rewrite E. unfold lt_at. split; intro; lra.
  Qed.

  (** ** vertical edges *)
  Lemma vert_interior e g y : In e c -> In g c -> fst g <> fst e ->
    px (sa (fst e)) = px (sb (fst e)) ->
    (qy (sa (fst e)) < y)%Q -> (y < qy (sb (fst e)))%Q ->
    ~ on_seg (fst g) (qx (sa (fst e)), y).
  Proof.
    intros Ie Ig N V A B H.
    destruct (pair_planar g e Ig Ie N (qx (sa (fst e)), y) H) as [_ F].
    - apply on_seg_vert; auto; lra.
    - unfold is_end, q_is in F; simpl in F. lra.
  Qed.

  Lemma spans_vert g x : px (sa g) = px (sb g) -> spans g x = false.
  Proof.
    intro V. apply spans_false. unfold qx. rewrite V.
    destruct (Qlt_le_dec x (inject_Z (px (sb g)))); auto.
  Qed.

  Lemma wind_right e y : In e c -> px (sa (fst e)) = px (sb (fst e)) ->
    (qy (sa (fst e)) < y)%Q -> (y < qy (sb (fst e)))%Q ->
    near (fun d => wind c (qx (sa (fst e)) + d, y)%Q = le_sum (qx (sa (fst e))) (qy (sa (fst e)))).
  Proof.
    intros Ie V A B. set (x := qx (sa (fst e))).
    assert (K : forall g, In g c -> near (fun d =>
        under (fst g) ((x + d)%Q, y) = spans (fst g) x && Qle_bool (height (fst g) x) (qy (sa (fst e))))).
    { intros g Ig.
      destruct (xseg_eq_dec (fst g) (fst e)) as [E|N].
      { apply near_all. intros d _. unfold under; simpl. rewrite !spans_vert; auto; rewrite E; auto. }
      destruct (spans (fst g) x) eqn:S.
      - pose proof (spans_nonvert _ _ S) as Ng.
        pose proof (proj1 (spans_iff _ _) S) as [T1 T2].
        assert (NY : forall y', (qy (sa (fst e)) < y')%Q -> (y' < qy (sb (fst e)))%Q -> ~ (height (fst g) x == y')%Q).
        { intros y' H1 H2 H3. apply (vert_interior e g y' Ie Ig N V H1 H2).
          destruct (on_seg_height (fst g) x Ng) as (u & U & Ux & Uy); try lra.
          exists u. simpl in *. rewrite <- H3. auto. }
        apply (near_mono (fun d => (x + d < qx (sb (fst g)))%Q /\
           ((height (fst g) (x + d) < y)%Q <-> (height (fst g) x <= qy (sa (fst e)))%Q))).
        { intros d D [H1 H2]. unfold under; simpl.
          assert (spans (fst g) (x + d) = true) as -> by (apply spans_iff; lra). simpl.
          apply bool_eq_iff. rewrite Qltb_lt, Qleb_le. auto. }
        apply near_and; [apply near_lt; auto|].
        destruct (Q_dec (height (fst g) x) y) as [[H|H]|H].
        + assert (height (fst g) x <= qy (sa (fst e)))%Q.
          { destruct (Qlt_le_dec (qy (sa (fst e))) (height (fst g) x)) as [L|L]; auto.
            exfalso. apply (NY (height (fst g) x)); auto; [lra|reflexivity]. }
          apply (near_mono (fun d => (height (fst g) x + slope (fst g) * d < y)%Q)); [|apply near_lin; auto].
          intros d D L. rewrite (height_affine (fst g) x (x + d)).
          setoid_replace (x + d - x)%Q with d by ring. split; auto.
        + apply (near_mono (fun d => (- height (fst g) x + (- slope (fst g)) * d < - y)%Q)); [|apply near_lin; lra].
          intros d D L. rewrite (height_affine (fst g) x (x + d)).
          setoid_replace (x + d - x)%Q with d by ring. split; intro; lra.
        + exfalso. apply (NY y); auto.
      - apply spans_false in S. simpl.
        destruct S as [S|S].
        + apply (near_mono (fun d => (x + d < qx (sa (fst g)))%Q)); [|apply near_lt; auto].
          intros d D L. unfold under; simpl. 
          assert (spans (fst g) (x + d) = false) as -> by (apply spans_false; lra). reflexivity.
        + apply near_all. intros d D. unfold under; simpl.
          assert (spans (fst g) (x + d) = false) as -> by (apply spans_false; lra). reflexivity. }
    apply near_forall in K. eapply near_mono; [|exact K]. intros d D H. cbv beta in H.
    unfold wind, le_sum. apply zsum_ext. intros g Ig. rewrite (H g Ig). reflexivity.
  Qed.

  Lemma wind_left e y : balanced c -> In e c -> px (sa (fst e)) = px (sb (fst e)) ->
    (qy (sa (fst e)) < y)%Q -> (y < qy (sb (fst e)))%Q ->
    near (fun d => wind c (qx (sa (fst e)) - d, y)%Q = le_sum (qx (sa (fst e))) (qy (sa (fst e))) + snd e).
  Proof.
    intros Bal Ie V A B.
    pose proof (wind_right e y Ie V A B) as R.
    set (x := qx (sa (fst e))) in *.
    set (phi := fun v : pt => bz (Qeq_bool (qx v) x && Qltb (qy v) y)).
    pose proof (balanced_phi c phi Bal) as Z0.
    assert (K : forall g, In g c -> near (fun d =>
        bz (under (fst g) ((x - d)%Q, y)) - bz (under (fst g) ((x + d)%Q, y)) =
        (phi (sb (fst g)) - phi (sa (fst g))) + bz (xseg_eqb (fst g) (fst e)))).
    { intros g Ig.
      assert (P1 : forall v, (qx v == x)%Q -> phi v = bz (Qltb (qy v) y)).
      { intros v H. unfold phi. apply Qeq_bool_iff in H. rewrite H. reflexivity. }
      assert (P0 : forall v, ~ (qx v == x)%Q -> phi v = 0).
      { intros v H. unfold phi. destruct (Qeq_bool (qx v) x) eqn:E; auto. apply Qeq_bool_iff in E. contradiction. }
      destruct (xseg_eq_dec (fst g) (fst e)) as [E|N].
      { rewrite E, xseg_eqb_refl. apply near_all. intros d _. unfold under; simpl.
        rewrite !spans_vert by auto. simpl.
        rewrite !P1; try reflexivity; try (unfold qx; rewrite <- V; reflexivity).
        assert (Qltb (qy (sa (fst e))) y = true) as -> by (apply Qltb_lt; auto).
        assert (Qltb (qy (sb (fst e))) y = false) as -> by (apply Qltb_ge; lra). reflexivity. }
      rewrite (proj2 (xseg_eqb_neq _ _) N).
      pose proof (g_wf _ G g Ig) as Wg.
      destruct (is_not_vertical (fst g)) eqn:Vg.
      - pose proof (wf_nonvert _ Wg Vg) as Ng.
        assert (NY : (qx (sa (fst g)) <= x)%Q -> (x <= qx (sb (fst g)))%Q -> ~ (height (fst g) x == y)%Q).
        { intros H1 H2 H3. apply (vert_interior e g y Ie Ig N V A B).
          destruct (on_seg_height (fst g) x Ng) as (u & U & Ux & Uy); auto.
          exists u. simpl in *. rewrite <- H3. auto. }
        assert (S1 : (qx (sa (fst g)) <= x)%Q -> (x <= qx (sb (fst g)))%Q -> near (fun d =>
             ((height (fst g) (x - d) < y)%Q <-> (height (fst g) x < y)%Q) /\
             ((height (fst g) (x + d) < y)%Q <-> (height (fst g) x < y)%Q))).
        { intros H1 H2. specialize (NY H1 H2).
          assert (AF : forall d, (height (fst g) (x + d) == height (fst g) x + slope (fst g) * d)%Q /\
                      (height (fst g) (x - d) == height (fst g) x - slope (fst g) * d)%Q).
          { intro d. split; [rewrite (height_affine (fst g) x (x + d))|rewrite (height_affine (fst g) x (x - d))]; ring. }
          destruct (Q_dec (height (fst g) x) y) as [[H|H]|H]; [| |contradiction].
          - eapply near_mono; [|exact (near_and _ _ (near_lin _ _ (slope (fst g)) H) (near_lin _ _ (- slope (fst g)) H))].
            intros d D [L1 L2]. destruct (AF d) as [E1 E2]. rewrite E1, E2. split; split; intro; lra.
          - assert (H' : (- height (fst g) x < - y)%Q) by lra.
            eapply near_mono; [|exact (near_and _ _ (near_lin _ _ (slope (fst g)) H') (near_lin _ _ (- slope (fst g)) H'))].
            intros d D [L1 L2]. destruct (AF d) as [E1 E2]. rewrite E1, E2. split; split; intro; lra. }
        unfold nonvert in Ng. unfold under; simpl.
        assert (US : forall q b, (b = true <-> (qx (sa (fst g)) <= q /\ q < qx (sb (fst g)))%Q) -> spans (fst g) q = b).
        { intros q b H. apply bool_eq_iff. rewrite spans_iff. symmetry; auto. }
        destruct (Q_dec x (qx (sa (fst g)))) as [[H1|H1]|H1].
        + (* strictly left of g *)
          rewrite !P0 by lra.
          apply (near_mono (fun d => (x + d < qx (sa (fst g)))%Q)); [|apply near_lt; auto].
          intros d D L.
          rewrite (US (x - d)%Q false), (US (x + d)%Q false) by (split; intro; [discriminate|lra]). reflexivity.
        + destruct (Q_dec x (qx (sb (fst g)))) as [[H2|H2]|H2].
          * rewrite !P0 by lra.
            eapply near_mono; [|apply near_and; [exact (near_lt _ _ H2)|apply near_and; [exact (near_lt _ _ H1)|apply S1; lra]]].
            intros d D (L1 & L2 & L3 & L4).
            rewrite (US (x - d)%Q true), (US (x + d)%Q true) by (split; intro; [lra|reflexivity]).
            simpl.
            assert (Qltb (height (fst g) (x - d)) y = Qltb (height (fst g) (x + d)) y) as ->; [|lia].
            apply bool_eq_iff. rewrite !Qltb_lt. tauto.
          * rewrite !P0 by lra.
            apply (near_mono (fun d => (qx (sb (fst g)) + d < x)%Q)); [|apply near_lt; auto].
            intros d D L.
            rewrite (US (x - d)%Q false), (US (x + d)%Q false) by (split; intro; [discriminate|lra]). reflexivity.
          * rewrite (P0 (sa (fst g))), (P1 (sb (fst g))) by lra.
            eapply near_mono; [|apply near_and; [exact (near_lt _ _ H1)|apply S1; lra]].
            intros d D (L1 & L2 & L3).
            rewrite (US (x - d)%Q true) by (split; intro; [lra|reflexivity]).
            rewrite (US (x + d)%Q false) by (split; intro; [discriminate|lra]).
            simpl.
            assert (Hh : (height (fst g) x == qy (sb (fst g)))%Q).
            { rewrite H2. apply height_at_b. lra. }
            assert (Qltb (height (fst g) (x - d)) y = Qltb (qy (sb (fst g))) y) as ->; [|lia].
            apply bool_eq_iff. rewrite !Qltb_lt. rewrite L2, Hh. tauto.
        + rewrite (P1 (sa (fst g))), (P0 (sb (fst g))) by lra.
          assert (Lx : (x < qx (sb (fst g)))%Q) by lra.
          eapply near_mono; [|apply near_and; [exact (near_lt _ _ Lx)|apply S1; lra]].
          intros d D (L1 & L2 & L3).
          rewrite (US (x - d)%Q false) by (split; intro; [discriminate|lra]).
          rewrite (US (x + d)%Q true) by (split; intro; [lra|reflexivity]).
          simpl.
          assert (Hh : (height (fst g) x == qy (sa (fst g)))%Q).
          { rewrite H1. apply height_at_a. }
          assert (Qltb (height (fst g) (x + d)) y = Qltb (qy (sa (fst g))) y) as ->; [|lia].
          apply bool_eq_iff. rewrite !Qltb_lt. rewrite L3, Hh. tauto.
      - destruct (wf_vert _ Wg Vg) as [Vx Vy].
        apply near_all. intros d D. unfold under. rewrite !spans_vert by auto. simpl.
        assert (EX : (qx (sa (fst g)) == qx (sb (fst g)))%Q) by (unfold qx; rewrite Vx; reflexivity).
        destruct (Qeq_dec (qx (sa (fst g))) x) as [H|H].
        + rewrite !P1 by lra.
          assert (Qltb (qy (sb (fst g))) y = Qltb (qy (sa (fst g))) y) as ->; [|lia].
          apply bool_eq_iff. rewrite !Qltb_lt. split; intro L; [lra|].
          destruct (Qlt_le_dec (qy (sb (fst g))) y) as [|L']; auto. exfalso.
          apply (vert_interior e g y Ie Ig N V A B). apply on_seg_vert; auto; fold x; try lra.
        + rewrite (P0 (sa (fst g))) by auto. rewrite (P0 (sb (fst g))) by (rewrite <- EX; auto). lia. }
    apply near_forall in K.
    eapply near_mono; [|exact (near_and _ _ R K)]. intros d D [H1 H2]. cbv beta in H1, H2.
    assert (wind c (x - d, y)%Q - wind c (x + d, y)%Q = snd e); [|lia].
    unfold wind. rewrite <- zsum_minus.
    transitivity (zsum (fun g => snd g * (phi (sb (fst g)) - phi (sa (fst g))) +
                                 snd g * bz (xseg_eqb (fst g) (fst e))) c).
    - apply zsum_ext. intros g Ig. rewrite !case_bz. rewrite <- Z.mul_sub_distr_l, (H2 g Ig). ring.
    - rewrite zsum_plus, Z0.
      rewrite (zsum_pick c e) by (auto; apply (g_nodup _ G)).
      rewrite xseg_eqb_refl, zsum_zero; [unfold bz; lia|].
      intros g _. destruct (xseg_eqb (fst g) (fst e)); unfold bz; lia.
  Qed.
End Chain.
