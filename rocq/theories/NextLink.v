(** * The link taken at a vertex is the first unvisited one in the rotation. *)
From Verif Require Import Base Spec QLib ModelGraph GraphProofs ModelExtract ExtractProofs Rotation.
Open Scope Z_scope.

(** ** edges of a planar set leave a vertex in different directions *)
Definition ends_are (s : xseg) (v p : pt) : Prop := s = XS v p \/ s = XS p v.
Lemma on_seg_ray s v p (q : qpt) (lam : Q) : ends_are s v p -> (0 <= lam <= 1)%Q ->
  (fst q == qx v + lam * (qx p - qx v))%Q -> (snd q == qy v + lam * (qy p - qy v))%Q -> on_seg s q.
Proof.
  intros [-> | ->] L E1 E2; simpl; [exists lam|exists (1 - lam)%Q]; simpl; (split; [lra|]); split; rewrite ?E1, ?E2; ring.
Qed.
Lemma end_on s v p : ends_are s v p -> on_seg s (qof p).
Proof. intro H. apply (on_seg_ray s v p _ 1 H); simpl; try lra; ring. Qed.
Lemma qof_eq p q : q_is (qof p) q -> p = q.
Proof.
  intros [A B]. unfold qof, qx, qy in *. simpl in *. apply (proj1 (qz_eq _ _)) in A. apply (proj1 (qz_eq _ _)) in B. destruct p, q; simpl in *. congruence.
Qed.

Lemma ray_on s t v p q : ends_are s v p -> ends_are t v q -> vx (vsub p v) (vsub q v) = 0 ->
  0 < dot (vsub p v) (vsub q v) <= dot (vsub q v) (vsub q v) -> on_seg t (qof p).
Proof.
  intros Es Et X [D1 D2]. set (u := vsub p v) in *. set (w := vsub q v) in *.
  assert (W0 : (0 < inject_Z (dot w w))%Q) by (apply (proj2 (qz_lt 0 _)); lia).
  apply (on_seg_ray t v q _ (inject_Z (dot u w) / inject_Z (dot w w)) Et).
  - split.
    + apply Qle_shift_div_l; auto. rewrite Qmult_0_l. apply (proj2 (qz_le 0 _)). lia.
    + apply Qle_shift_div_r; auto. rewrite Qmult_1_l. apply qz_le. lia.
  - assert (E : (inject_Z (dot w w) * (qx p - qx v) == inject_Z (dot u w) * (qx q - qx v))%Q).
    { unfold qx. rewrite <- !qz_sub, <- !inject_Z_mult. apply qz_eq. change (px p - px v) with (fst u). change (px q - px v) with (fst w).
      assert (I : dot w w * fst u = dot u w * fst w + snd w * vx u w) by (unfold dot, vx; ring). rewrite X in I. lia. }
    simpl. setoid_replace (inject_Z (dot u w) / inject_Z (dot w w) * (qx q - qx v))%Q with (inject_Z (dot w w) * (qx p - qx v) / inject_Z (dot w w))%Q by (rewrite E; field; lra).
    field. lra.
  - assert (E : (inject_Z (dot w w) * (qy p - qy v) == inject_Z (dot u w) * (qy q - qy v))%Q).
    { unfold qy. rewrite <- !qz_sub, <- !inject_Z_mult. apply qz_eq. change (py p - py v) with (snd u). change (py q - py v) with (snd w).
      assert (I : dot w w * snd u = dot u w * snd w - fst w * vx u w) by (unfold dot, vx; ring). rewrite X in I. lia. }
    simpl. setoid_replace (inject_Z (dot u w) / inject_Z (dot w w) * (qy q - qy v))%Q with (inject_Z (dot w w) * (qy p - qy v) / inject_Z (dot w w))%Q by (rewrite E; field; lra).
    field. lra.
Qed.

Lemma vsub_nz p v : p <> v -> vsub p v <> (0, 0).
Proof.
  unfold vsub. intros N E. apply N. assert (E1 : px p - px v = 0) by congruence. assert (E2 : py p - py v = 0) by congruence.
  destruct p as [p1 p2], v as [v1 v2]. cbn [px py] in *. f_equal; lia.
Qed.
Lemma planar_rays s t v p q : wf_xseg s -> wf_xseg t -> s <> t ->
  (forall z, on_seg s z -> on_seg t z -> is_end s z /\ is_end t z) -> ends_are s v p -> ends_are t v q ->
  ~ same_ray (vsub p v) (vsub q v).
Proof.
  intros Ws Wt N P Es Et [X D].
  assert (Ns : forall s v p, wf_xseg s -> ends_are s v p -> p <> v).
  { clear. intros s v p W [-> | ->] ->; eapply pt_lt_irrefl; exact W. }
  assert (Same : ends_are s v p -> ends_are t v p -> s = t).
  { intros [-> | ->] [-> | ->]; auto; exfalso; unfold wf_xseg in *; simpl in *; eapply pt_lt_irrefl; eapply pt_lt_trans; eauto. }
  assert (Ends : forall s v p z, ends_are s v p -> is_end s (qof z) -> z = v \/ z = p).
  { clear. intros s v p z [-> | ->] [H|H]; simpl in H; apply qof_eq in H; auto. }
  destruct (Z_le_gt_dec (dot (vsub p v) (vsub q v)) (dot (vsub q v) (vsub q v))) as [L|L].
  - pose proof (ray_on s t v p q Es Et X (conj D L)) as On.
    destruct (P _ (end_on _ _ _ Es) On) as [_ E]. destruct (Ends _ _ _ _ Et E) as [E'|E']; [exact (Ns _ _ _ Ws Es E')|]. subst q. auto.
  - assert (X' : vx (vsub q v) (vsub p v) = 0) by (rewrite vx_anti; lia).
    assert (Dc : dot (vsub q v) (vsub p v) = dot (vsub p v) (vsub q v)) by (unfold dot; ring).
    assert (Nq : vsub q v <> (0, 0)).
    { apply vsub_nz. exact (Ns t v q Wt Et). }
    pose proof (dot_pos _ Nq) as Dq.
    assert (L2 : dot (vsub q v) (vsub p v) <= dot (vsub p v) (vsub p v)).
    { rewrite Dc. assert (Id : dot (vsub p v) (vsub p v) * dot (vsub q v) (vsub q v) = dot (vsub p v) (vsub q v) * dot (vsub p v) (vsub q v) + vx (vsub p v) (vsub q v) * vx (vsub p v) (vsub q v)) by (unfold dot, vx; ring).
      rewrite X in Id. nia. }
    assert (D' : 0 < dot (vsub q v) (vsub p v)) by lia.
    pose proof (ray_on t s v q p Et Es X' (conj D' L2)) as On.
    destruct (P _ On (end_on _ _ _ Et)) as [E _]. destruct (Ends _ _ _ _ Es E) as [E'|E']; [exact (Ns _ _ _ Wt Et E')|]. subst q. auto.
Qed.

(** ** on the graph *)
Record links_planar (ls : list link) : Prop := {
  lp_wf : forall i l, nth_error ls i = Some l -> wf_xseg (l_seg l);
  lp_sep : forall i j l m, nth_error ls i = Some l -> nth_error ls j = Some m -> i <> j ->
    l_seg l <> l_seg m /\ forall q, on_seg (l_seg l) q -> on_seg (l_seg m) q -> is_end (l_seg l) q /\ is_end (l_seg m) q }.

Section First.
  Variable g : graph.
  Variable pts : list pt.
  Hypothesis G : graph_wf g pts.
  Hypothesis P : links_planar (g_links g).
  Notation links := (g_links g).
  Notation nodes := (g_nodes g).

  Lemma link_at k c i l : nth_error pts k = Some c -> nth_error links i = Some l -> (l_aid l = k \/ l_bid l = k) ->
    ends_are (l_seg l) c (l_other l k) /\ dirn g k c i = vsub (l_other l k) c.
  Proof.
    intros Hc Hl E. split; [|unfold dirn; rewrite Hl; auto].
    destruct (gw_link _ _ G i l Hl) as (NE & Pa & Pb & _). unfold l_other, ends_are, l_seg.
    destruct (Nat.eqb_spec (l_aid l) k) as [<-|N].
    - left. congruence.
    - right. destruct E as [E|<-]; [congruence|]. congruence.
  Qed.
  Lemma link_rays k c i j l m : nth_error pts k = Some c -> nth_error links i = Some l -> (l_aid l = k \/ l_bid l = k) ->
    nth_error links j = Some m -> (l_aid m = k \/ l_bid m = k) -> i <> j -> ~ same_ray (dirn g k c i) (dirn g k c j).
  Proof.
    intros Hc Hl El Hm Em N. destruct (link_at k c i l Hc Hl El) as [E1 ->]. destruct (link_at k c j m Hc Hm Em) as [E2 ->].
    destruct (lp_sep _ P i j l m Hl Hm N) as [S O].
    apply (planar_rays (l_seg l) (l_seg m)); auto; eapply lp_wf; eauto.
  Qed.
  Lemma dirn_nz k c i l : nth_error pts k = Some c -> nth_error links i = Some l -> (l_aid l = k \/ l_bid l = k) -> dirn g k c i <> (0, 0).
  Proof.
    intros Hc Hl El. destruct (link_at k c i l Hc Hl El) as [E1 ->]. apply vsub_nz. pose proof (lp_wf _ P i l Hl) as W.
    intro X. rewrite X in E1. destruct E1 as [E1|E1]; rewrite E1 in W; eapply pt_lt_irrefl; exact W.
  Qed.

  Lemma next_link_first i k cw n vis c l j : nth_error nodes k = Some n -> nth_error pts k = Some c ->
    nth_error links i = Some l -> (l_aid l = k \/ l_bid l = k) -> not_visited vis i = false ->
    (exists u, In u (node_links n) /\ not_visited vis u = true) ->
    next_link g i k cw n vis = Some j ->
    forall u, In u (node_links n) -> not_visited vis u = true -> u <> j -> before (rf cw) (dirn g k c i) (dirn g k c j) (dirn g k c u).
  Proof.
    intros Hn Hc Hl El Vi Ex Nx u Iu Uu Nuj. destruct (gw_node _ _ G k n Hn) as [ND M].
    assert (Ii : In i (node_links n)) by (apply M; eauto).
    destruct n as [x y|ids]; simpl in *.
    - exfalso. injection Nx as Nx. destruct (Nat.eqb_spec x i) as [->|N].
      + destruct Iu as [<-|[<-|[]]]; congruence.
      + destruct Ii as [->|[->|[]]]; [congruence|]. destruct Iu as [<-|[<-|[]]]; congruence.
    - unfold find_nearest_link_to in Nx.
      assert (F : forall z, In z (filter (not_visited vis) ids) <-> In z ids /\ not_visited vis z = true) by (intro; apply filter_In).
      assert (NDf : NoDup (filter (not_visited vis) ids)) by (apply NoDup_filter; auto).
      pose proof (proj2 (F u) (conj Iu Uu)) as Fu.
      destruct (filter (not_visited vis) ids) as [|f [|s rest]].
      + destruct Fu.
      + injection Nx as <-. destruct Fu as [->|[]]. congruence.
      + rewrite Hl in Nx.
        assert (Lk : forall z, In z (f :: s :: rest) -> exists m, nth_error links z = Some m /\ (l_aid m = k \/ l_bid m = k)).
        { intros z I. apply M. apply F. exact I. }
        destruct (Lk f (or_introl eq_refl)) as (lf & Hf & Ef). rewrite Hf in Nx.
        destruct (link_at k c i l Hc Hl El) as [E1 E2].
        assert (Eca : (if (l_aid l =? k)%nat then (l_a l, l_b l) else (l_b l, l_a l)) = (c, l_other l k)).
        { destruct (gw_link _ _ G i l Hl) as (NE & Pa & Pb & _). unfold l_other. destruct (Nat.eqb_spec (l_aid l) k) as [<-|N].
          - congruence. - destruct El as [El|<-]; [congruence|]. congruence. }
        rewrite Eca in Nx. rewrite nv_new_more in Nx.
        destruct (nearest_loop_first g k c (l_other l k) cw) with (D := fun z => In z (f :: s :: rest)) (ids := s :: rest) (id := f) (b := l_other lf k)
          as (v & E & B & Fi).
        * rewrite <- E2. eapply dirn_nz; eauto.
        * intros z I. destruct (Lk z I) as (m & Hm & Em). split; [eauto|]. split; [eapply dirn_nz; eauto|].
          rewrite <- E2. eapply link_rays; eauto. intros ->. apply F in I. destruct I as [_ I]. congruence.
        * intros z z' I I' N. destruct (Lk z I) as (m & Hm & Em). destruct (Lk z' I') as (m' & Hm' & Em'). eapply link_rays; eauto.
        * apply Forall_forall. intros z I. right. auto.
        * left; auto.
        * inversion NDf; auto.
        * inversion NDf; auto.
        * destruct (link_at k c f lf Hc Hf Ef) as [_ ->]. auto.
        * rewrite E in Nx. simpl in Nx. injection Nx as <-. rewrite E2. apply Fi; auto. destruct Fu as [<-|Fu]; auto.
  Qed.
End First.
