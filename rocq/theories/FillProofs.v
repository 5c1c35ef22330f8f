(** * The fill sweep computes the true winding number below every edge. *)
From Verif Require Import Base Spec QLib PlanarGeo PlanarSum ModelSegm ModelFill.
Open Scope Z_scope.

(** ** sorting on a domain *)
Section SortOn.
  Context {A : Type} (leb : A -> A -> bool) (D : A -> Prop).
  Hypothesis tot : forall x y, D x -> D y -> leb x y = true \/ leb y x = true.
  Hypothesis tr : forall x y z, D x -> D y -> D z -> leb x y = true -> leb y z = true -> leb x z = true.

  Lemma insert_sorted_on x l : D x -> Forall D l ->
    StronglySorted (fun a b => leb a b = true) l ->
    StronglySorted (fun a b => leb a b = true) (insert leb x l).
  Proof.
    intro Dx. induction l as [|y r IH]; intros F H; simpl.
    - repeat constructor.
    - inversion H as [|? ? Hr Hy]; subst. inversion F as [|? ? Dy Dr]; subst.
      destruct (leb x y) eqn:E.
      + constructor; [auto|]. constructor; [exact E|].
        rewrite Forall_forall in *. intros z Hz. apply (tr x y z); auto.
      + constructor; [auto|].
        rewrite insert_perm. constructor; auto.
        destruct (tot x y); auto; congruence.
  Qed.

  Lemma isort_sorted_on l : Forall D l -> StronglySorted (fun a b => leb a b = true) (isort leb l).
  Proof.
    induction l as [|x r IH]; intro F; simpl; [constructor|].
    inversion F as [|? ? Dx Dr]; subst. apply insert_sorted_on; auto.
    rewrite isort_perm. auto.
  Qed.
End SortOn.

(** ** comparisons of the code in terms of heights *)
Lemma cross3_swap23 a b p : cross3 a p b = - cross3 a b p.
Proof. unfold cross3. ring. Qed.

Lemma cross3_rot a b p : cross3 a b p = cross3 b p a.
Proof. unfold cross3. ring. Qed.

Lemma under_point_lt s p : nonvert s ->
  (under_point_order s p = Lt <-> (height s (qx p) < qy p)%Q).
Proof.
  intro N. unfold under_point_order, clock_order. rewrite above_pt by exact N.
  rewrite cross3_swap23, Z.compare_lt_iff. lia.
Qed.

Lemma under_point_gt s p : nonvert s ->
  (under_point_order s p = Gt <-> (qy p < height s (qx p))%Q).
Proof.
  intro N. unfold under_point_order, clock_order. rewrite below_pt by exact N.
  rewrite cross3_swap23, Z.compare_gt_iff. lia.
Qed.

Lemma slope_cross s t : nonvert s -> nonvert t -> sa s = sa t ->
  ((slope s < slope t)%Q <-> 0 < cross3 (sa s) (sb s) (sb t)).
Proof.
  intros Ns Nt E.
  rewrite <- above_pt by exact Ns. 
  assert (Hb : (height t (qx (sb t)) == qy (sb t))%Q) by (apply height_at_b; unfold nonvert in Nt; lra).
  rewrite <- Hb. rewrite !height_slope. rewrite <- E.
  unfold nonvert in Nt. rewrite <- E in Nt. split; intro H; nra.
Qed.

Lemma pt_cmp_lt p q : pt_cmp p q = Lt <-> pt_lt p q.
Proof.
  unfold pt_cmp. destruct (pt_ltb p q) eqn:E.
  - apply pt_ltb_lt in E. tauto.
  - apply pt_ltb_ge in E. destruct (pt_eqb p q); split; intro; try discriminate; contradiction.
Qed.

Lemma pt_cmp_eq p q : pt_cmp p q = Eq <-> p = q.
Proof.
  unfold pt_cmp. destruct (pt_ltb p q) eqn:E.
  - apply pt_ltb_lt in E. split; [discriminate|]. intros ->. destruct (pt_lt_irrefl _ E).
  - destruct (pt_eqb p q) eqn:F; split; intro; try discriminate; auto.
    + apply pt_eqb_eq; auto.
    + apply pt_eqb_neq in F; contradiction.
Qed.

Lemma pt_cmp_gt p q : pt_cmp p q = Gt <-> pt_lt q p.
Proof.
  destruct (pt_cmp p q) eqn:E; split; intro H; try discriminate; auto.
  - apply pt_cmp_eq in E. subst. destruct (pt_lt_irrefl _ H).
  - apply pt_cmp_lt in E. destruct (pt_lt_irrefl p); eapply pt_lt_trans; eauto.
  - destruct (pt_total p q) as [[L|L]|L]; auto; [apply pt_cmp_lt in L|apply pt_cmp_eq in L]; congruence.
Qed.

Lemma qlt_z (a b : Z) : a < b -> (inject_Z a < inject_Z b)%Q.
Proof. apply qz_lt. Qed.

Lemma spans_own g : nonvert g -> spans g (qx (sa g)) = true.
Proof. intro N. apply spans_iff. unfold nonvert in N. lra. Qed.

Lemma lt_at_comp x y g e : (x == y)%Q -> lt_at x g e -> lt_at y g e.
Proof. intro H. unfold lt_at. rewrite H. auto. Qed.

(** the segment starting later decides *)
Lemma later_start g e x :
  (forall q, on_seg g q -> on_seg e q -> is_end g q /\ is_end e q) ->
  spans g x = true -> spans e x = true -> pt_lt (sa e) (sa g) ->
  (lt_at x g e <-> cross3 (sa e) (sb e) (sa g) < 0) /\
  (lt_at x e g <-> 0 < cross3 (sa e) (sb e) (sa g)).
Proof.
  intros HP Sg Se L.
  pose proof (spans_nonvert _ _ Sg) as Ng. pose proof (spans_nonvert _ _ Se) as Ne.
  pose proof (proj1 (spans_iff _ _) Sg) as Tg. pose proof (proj1 (spans_iff _ _) Se) as Te.
  assert (Se' : spans e (qx (sa g)) = true).
  { apply spans_iff. split; [|lra]. unfold pt_lt in L. apply qz_le. lia. }
  pose proof (spans_own g Ng) as Sg'.
  rewrite <- (above_pt e (sa g)), <- (below_pt e (sa g)) by exact Ne.
  assert (Off : ~ (qy (sa g) == height e (qx (sa g)))%Q).
  { unfold pt_lt in L. destruct L as [L|[L1 L2]].
    - apply (vertex_off g e HP); simpl; auto; [apply qlt_z; auto|].
      apply spans_iff in Se'. lra.
    - intro H. assert ((qx (sa g) == qx (sa e))%Q) as E by (unfold qx; rewrite L1; reflexivity).
      rewrite E, height_at_a in H. unfold qy in H. pose proof (proj1 (qz_eq _ _) H). lia. }
  pose proof (height_at_a g) as Ha.
  assert (K1 : lt_at x g e <-> (qy (sa g) < height e (qx (sa g)))%Q).
  { split; intro H.
    - apply (lt_at_stable g e HP x (qx (sa g))) in H; auto. destruct H as [H|[H _]]; [lra|].
      exfalso. apply Off. lra.
    - apply (lt_at_stable g e HP (qx (sa g)) x); auto. left. lra. }
  split; [exact K1|].
  split; intro H.
  - destruct (Q_dec (qy (sa g)) (height e (qx (sa g)))) as [[K|K]|K]; auto; [|contradiction].
    exfalso. apply K1 in K. eapply lt_at_asym; eauto.
  - destruct (lt_at_total g e HP x Sg Se) as [K|K]; auto. apply K1 in K. exfalso; lra.
Qed.

Lemma same_start g e x : spans g x = true -> spans e x = true -> sa g = sa e ->
  (forall q, on_seg g q -> on_seg e q -> is_end g q /\ is_end e q) ->
  (lt_at x g e <-> 0 < cross3 (sa g) (sb g) (sb e)).
Proof.
  intros Sg Se E HP.
  pose proof (spans_nonvert _ _ Sg) as Ng. pose proof (spans_nonvert _ _ Se) as Ne.
  rewrite <- slope_cross by auto.
  pose proof (spans_own g Ng) as Sg'. pose proof (spans_own e Ne) as Se'. rewrite <- E in Se'.
  assert (Heq : (height g (qx (sa g)) == height e (qx (sa g)))%Q).
  { rewrite height_at_a. rewrite E at 2. rewrite height_at_a. rewrite E. reflexivity. }
  split; intro H.
  - apply (lt_at_stable g e HP x (qx (sa g))) in H; auto. unfold lt_at in H. lra.
  - apply (lt_at_stable g e HP (qx (sa g)) x); auto. right. auto.
Qed.

Lemma vseg_cmp_lt k k' x :
  (forall q, on_seg k q -> on_seg k' q -> is_end k q /\ is_end k' q) ->
  spans k x = true -> spans k' x = true ->
  (vseg_cmp k k' = Lt <-> lt_at x k k').
Proof.
  intros HP Sk Sk'. unfold vseg_cmp.
  assert (HP' : forall q, on_seg k' q -> on_seg k q -> is_end k' q /\ is_end k q).
  { intros q A B. destruct (HP q B A); auto. }
  destruct (pt_cmp (sa k) (sa k')) eqn:E; unfold clock_order; rewrite Z.compare_lt_iff.
  - apply pt_cmp_eq in E. rewrite (same_start k k' x) by auto.
    rewrite cross3_swap23. lia.
  - apply pt_cmp_lt in E. destruct (later_start k' k x HP' Sk' Sk E) as [_ K]. rewrite K.
    rewrite cross3_swap23. lia.
  - apply pt_cmp_gt in E. destruct (later_start k k' x HP Sk Sk' E) as [K _]. rewrite K. lia.
Qed.

(** ** grouping *)
Section Groups.
  Context {C : Type}.
  Notation iseg := (nat * segment C)%type.

  Lemma group_concat (l : list iseg) : concat (map snd (group_starts l)) = l.
  Proof.
    induction l as [|s r IH]; [reflexivity|]. simpl.
    destruct (group_starts r) as [|[p g] gs] eqn:E; simpl in *; [rewrite <- IH; reflexivity|].
    destruct (pt_eqb (sa (sx (snd s))) p); simpl; rewrite <- IH; reflexivity.
  Qed.

  Lemma group_sa (l : list iseg) : forall p g, In (p, g) (group_starts l) ->
    g <> [] /\ forall s, In s g -> sa (sx (snd s)) = p.
  Proof.
    induction l as [|s r IH]; intros p g H; simpl in H; [destruct H|].
    destruct (group_starts r) as [|[p' g'] gs] eqn:E.
    - destruct H as [H|[]]. inversion H; subst. split; [discriminate|].
      intros s' [<-|[]]; auto.
    - destruct (pt_eqb (sa (sx (snd s))) p') eqn:F.
      + apply pt_eqb_eq in F. destruct H as [H|H].
        * inversion H; subst. split; [discriminate|]. intros s' [<-|Hs]; auto.
          eapply (IH _ g'); [left; reflexivity|auto].
        * apply IH; right; auto.
      + destruct H as [H|H].
        * inversion H; subst. split; [discriminate|]. intros s' [<-|[]]; auto.
        * apply IH; auto.
  Qed.

  Definition le_sa (s t : iseg) : Prop := pt_leb (sa (sx (snd s))) (sa (sx (snd t))) = true.

  Lemma group_sorted (l : list iseg) : StronglySorted le_sa l ->
    StronglySorted pt_lt (map fst (group_starts l)).
  Proof.
    induction 1 as [|s r Hr IH Hs]; simpl; [constructor|].
    pose proof (group_concat r) as GC. pose proof (group_sa r) as GS.
    destruct (group_starts r) as [|[p g] gs] eqn:E; simpl in *; [repeat constructor|].
    destruct (pt_eqb (sa (sx (snd s))) p) eqn:F; simpl; auto.
    constructor; auto. inversion IH as [|? ? I1 I2]; subst.
    assert (L : pt_lt (sa (sx (snd s))) p).
    { destruct (GS p g (or_introl eq_refl)) as [Ng Ag].
      destruct g as [|t g']; [congruence|].
      rewrite <- (Ag t (or_introl eq_refl)) in *.
      rewrite Forall_forall in Hs. specialize (Hs t (or_introl eq_refl)).
      apply pt_leb_lt; auto. apply pt_eqb_neq; auto. }
    constructor; auto. eapply Forall_impl; [|exact I2]. intros q Hq. eapply pt_lt_trans; eauto.
  Qed.
End Groups.

(** ** the sweep *)
Section SweepProof.
  Context {C : Type} {WC : WindingCount C}.
  Variable aff : C -> C -> C * fill_t.
  Variable I : Type.
  Variable val : I -> C -> Z.
  Hypothesis val_add : forall i this bot, val i (fst (aff this bot)) = val i bot + val i this.
  Hypothesis val_zero : forall i, val i (wc_new 0 0) = 0.

  Variable segs : list (segment C).
  Hypothesis Wf : forall s, In s segs -> wf_xseg (sx s).
  Hypothesis Nd : NoDup (map sx segs).
  Hypothesis Pl : planar (map sx segs).
  Hypothesis Bal : forall i, balanced (chain_of (val i) segs).
  Hypothesis Srt : StronglySorted (fun s t => pt_leb (sa (sx s)) (sa (sx t)) = true) segs.

  Notation ch i := (chain_of (val i) segs).
  Notation iseg := (nat * segment C)%type.

  Lemma ch_good i : good (ch i).
  Proof.
    constructor.
    - intros e He. apply in_map_iff in He as (s & <- & Hs). apply Wf; auto.
    - unfold chain_of. rewrite map_map. simpl. exact Nd.
    - unfold chain_of. rewrite map_map. simpl. exact Pl.
  Qed.

  Lemma in_ch i s : In s segs -> In (sx s, val i (sc s)) (ch i).
  Proof. intro H. unfold chain_of. apply (in_map (fun s => (sx s, val i (sc s)))); auto. Qed.

  Lemma segs_planar s t : In s segs -> In t segs -> sx s <> sx t ->
    forall q, on_seg (sx s) q -> on_seg (sx t) q -> is_end (sx s) q /\ is_end (sx t) q.
  Proof. intros Hs Ht N. apply Pl; auto using in_map. Qed.

  Lemma segs_inj s t : In s segs -> In t segs -> sx s = sx t -> s = t.
  Proof.
    intros Hs Ht E. pose proof Nd as N. clear Wf Pl Bal Srt Nd.
    induction segs as [|x l IH]; [destruct Hs|]. simpl in N. inversion N as [|? ? N1 N2]; subst.
    destruct Hs as [->|Hs], Ht as [->|Ht]; auto.
    - exfalso. apply N1. rewrite E. apply in_map; auto.
    - exfalso. apply N1. rewrite <- E. apply in_map; auto.
  Qed.

  (** winding below / right of a segment *)
  Definition botsum (i : I) (s : segment C) : Z :=
    if is_not_vertical (sx s) then below (ch i) (sx s) (qx (sa (sx s)))
    else le_sum (ch i) (qx (sa (sx s))) (qy (sa (sx s))).

  Definition done_at (p : pt) (s : segment C) : Prop := pt_lt (sa (sx s)) p.

  Record Inv (t : Z) (done : segment C -> Prop) (scan : list (xseg * C)) : Prop := {
    i_sorted : StronglySorted (fun k k' => lt_at (inject_Z t) (fst k) (fst k')) scan;
    i_val : forall k v, In (k, v) scan -> exists s, In s segs /\ done s /\ sx s = k /\
              spans k (inject_Z t) = true /\
              forall i, val i v = below (ch i) k (qx (sa k)) + val i (sc s);
    i_all : forall s, In s segs -> done s -> is_not_vertical (sx s) = true ->
              t < px (sb (sx s)) -> exists v, In (sx s, v) scan }.

  Lemma SS_filter {A} (R : A -> A -> Prop) f l : StronglySorted R l -> StronglySorted R (filter f l).
  Proof.
    induction 1 as [|x l H IH F]; simpl; [constructor|].
    destruct (f x); auto. constructor; auto.
    rewrite Forall_forall in *. intros y Hy. apply filter_In in Hy. apply F; tauto.
  Qed.

  Lemma SS_impl_in {A} (R S : A -> A -> Prop) l :
    (forall x y, In x l -> In y l -> R x y -> S x y) -> StronglySorted R l -> StronglySorted S l.
  Proof.
    intros H SR. induction SR as [|x l SR IH F]; [constructor|].
    constructor.
    - apply IH. intros a b Ha Hb. apply H; right; auto.
    - rewrite Forall_forall in *. intros y Hy. apply H; [left|right|apply F]; auto.
  Qed.

  Lemma expire_inv t t' done scan : t <= t' -> Inv t done scan -> Inv t' done (expire t' scan).
  Proof.
    intros Ht [S V A].
    assert (IV : forall e, In e (expire t' scan) -> In e scan /\ t' < px (sb (fst e))).
    { intros e He. unfold expire in He. apply filter_In in He. split; [tauto|lia]. }
    assert (V' : forall k v, In (k, v) (expire t' scan) -> spans k (inject_Z t') = true).
    { intros k v H. destruct (IV _ H) as [H1 H2]. simpl in H2.
      destruct (V k v H1) as (s & _ & _ & _ & Sp & _). apply spans_iff in Sp. apply spans_iff.
      pose proof (proj2 (qz_lt _ _) H2). pose proof (proj2 (qz_le _ _) Ht). unfold qx in *. lra. }
    constructor.
    - apply SS_impl_in with (R := fun k k' => lt_at (inject_Z t) (fst k) (fst k')); [|apply SS_filter; auto].
      intros [k v] [k' v'] Hk Hk' L. simpl in *.
      destruct (V k v (proj1 (IV _ Hk))) as (s & Is & _ & Es & Sp & _).
      destruct (V k' v' (proj1 (IV _ Hk'))) as (s' & Is' & _ & Es' & Sp' & _).
      assert (N : k <> k') by (intros ->; eapply lt_at_irrefl; eauto).
      subst k k'. apply (lt_at_stable _ _ (segs_planar s s' Is Is' N) (inject_Z t)); eauto.
    - intros k v H. destruct (IV _ H) as [H1 H2].
      destruct (V k v H1) as (s & Is & Ds & Es & Sp & Vv).
      exists s. repeat split; auto. eapply V'; eauto.
    - intros s Is Ds Ns Lt. destruct (A s Is Ds Ns) as [v Hv]; [lia|].
      exists v. unfold expire. apply filter_In. split; auto. simpl. lia.
  Qed.

  (** *** lookup *)
  Lemma last_dflt {A} (v d : A) l : last l v = match l with [] => v | _ => last l d end.
  Proof. induction l as [|x l IH]; auto. destruct l; auto. Qed.

  Lemma find_le_app f d L1 L2 :
    (forall e, In e L1 -> f (fst e) <> Gt) -> (forall e, In e L2 -> f (fst e) = Gt) ->
    find_le f d (L1 ++ L2) = last (map snd L1) d :> C.
  Proof.
    revert d. induction L1 as [|[k v] L1 IH]; intros d H1 H2; simpl.
    - destruct L2 as [|[k v] L2]; auto. simpl. pose proof (H2 (k, v) (or_introl eq_refl)) as E. simpl in E. rewrite E. auto.
    - pose proof (H1 (k, v) (or_introl eq_refl)) as E. simpl in E.
      rewrite IH by (intros; auto; apply H1; right; auto).
      rewrite <- (last_dflt v d (map snd L1)).
      destruct (f k); congruence.
  Qed.

  Lemma mono_split {A} (f : A -> bool) (R : A -> A -> Prop) l :
    StronglySorted R l -> (forall x y, In x l -> In y l -> R x y -> f y = true -> f x = true) ->
    exists l1 l2, l = l1 ++ l2 /\ (forall x, In x l1 -> f x = true) /\ (forall x, In x l2 -> f x = false).
  Proof.
    induction 1 as [|x l S IH F]; intro M.
    - exists [], []. repeat split; intros ? [].
    - destruct (f x) eqn:E.
      + destruct IH as (l1 & l2 & -> & H1 & H2).
        { intros a b Ha Hb. apply M; right; auto. }
        exists (x :: l1), l2. repeat split; auto. intros y [<-|Hy]; auto.
      + exists [], (x :: l). repeat split; [intros ? []|].
        intros y [<-|Hy]; auto. destruct (f y) eqn:Ey; auto.
        rewrite Forall_forall in F. rewrite (M x y) in E; auto with datatypes.
  Qed.

  Lemma last_in {A} (l : list A) x d : last (l ++ [x]) d = x.
  Proof. induction l as [|y l IH]; [reflexivity|]. simpl. destruct (l ++ [x]) eqn:E; [destruct l; discriminate|]. auto. Qed.

  (** vertex p: start of some segment; every other segment spanning p.x misses p unless it starts there *)
  Lemma miss p s0 g : In s0 segs -> sa (sx s0) = p -> In g segs -> spans (sx g) (qx p) = true ->
    (height (sx g) (qx p) == qy p)%Q -> sa (sx g) = p.
  Proof.
    intros I0 E0 Ig Sg H.
    pose proof (spans_nonvert _ _ Sg) as Ng. pose proof (proj1 (spans_iff _ _) Sg) as T.
    destruct (xseg_eq_dec (sx s0) (sx g)) as [E|N]; [rewrite <- E; auto|].
    destruct (Q_dec (qx (sa (sx g))) (qx p)) as [[K|K]|K]; [| lra |].
    - exfalso. apply (vertex_off (sx s0) (sx g) (segs_planar s0 g I0 Ig N) p); auto.
      + left; auto.
      + tauto.
      + symmetry; auto.
    - rewrite <- K, height_at_a in H. apply pt_ext; unfold qx, qy in *; apply qz_eq; auto.
  Qed.

  Lemma find_le_wind p s0 scan : In s0 segs -> sa (sx s0) = p -> Inv (px p) (done_at p) scan ->
    forall i, val i (find_le (fun s => under_point_order s p) (wc_new 0 0) scan) = wind (ch i) (qx p, qy p).
  Proof.
    intros I0 E0 [S V A] i.
    assert (ED : forall k v, In (k, v) scan -> spans k (qx p) = true /\
        ((under_point_order k p = Lt /\ (height k (qx p) < qy p)%Q) \/
         (under_point_order k p = Gt /\ (qy p < height k (qx p))%Q))).
    { intros k v H. destruct (V k v H) as (s & Is & Ds & Es & Sp & _). split; auto.
      pose proof (spans_nonvert _ _ Sp) as Nk.
      destruct (Q_dec (height k (qx p)) (qy p)) as [[K|K]|K].
      - left. split; auto. apply under_point_lt; auto.
      - right. split; auto. apply under_point_gt; auto.
      - exfalso. subst k. unfold done_at in Ds. rewrite (miss p s0 s I0 E0 Is Sp K) in Ds.
        eapply pt_lt_irrefl; eauto. }
    set (f := fun e : xseg * C => match under_point_order (fst e) p with Gt => false | _ => true end).
    destruct (mono_split f _ scan S) as (L1 & L2 & E & H1 & H2).
    { intros [k v] [k' v'] Hk Hk' L Hf. unfold f in *. simpl in *.
      destruct (ED _ _ Hk) as [_ [[U K]|[U K]]]; rewrite U; auto.
      destruct (ED _ _ Hk') as [_ [[U' K']|[U' K']]]; rewrite U' in Hf; [|discriminate].
      exfalso. unfold lt_at in L. unfold qx in *. lra. }
    subst scan. rewrite find_le_app.
    2:{ intros e He. specialize (H1 e He). unfold f in H1. destruct (under_point_order (fst e) p); congruence. }
    2:{ intros e He. specialize (H2 e He). unfold f in H2. destruct (under_point_order (fst e) p); congruence. }
    assert (UN : forall g, In g segs -> under (sx g) (qx p, qy p) = true -> exists v, In (sx g, v) L1).
    { intros g Ig U. apply under_iff in U. simpl in U. destruct U as (U1 & U2 & U3).
      assert (Ng : nonvert (sx g)) by (unfold nonvert; lra).
      assert (Dg : done_at p g).
      { unfold done_at, pt_lt.
        destruct (Z.lt_trichotomy (px (sa (sx g))) (px p)) as [L|[L|L]]; auto.
        - right. split; auto. assert (qx p == qx (sa (sx g)))%Q as EQ by (unfold qx; rewrite L; reflexivity).
          rewrite EQ, height_at_a in U3. exact (proj1 (qz_lt _ _) U3).
        - apply qlt_z in L. unfold qx in *. lra. }
      destruct (A g Ig Dg) as [v Hv].
      { apply nonvert_is; auto. }
      { unfold qx in U2. exact (proj1 (qz_lt _ _) U2). }
      exists v. apply in_app_or in Hv. destruct Hv as [Hv|Hv]; auto.
      specialize (H2 _ Hv). unfold f in H2. simpl in H2.
      rewrite (proj2 (under_point_lt (sx g) p Ng) U3) in H2. discriminate. }
    destruct L1 as [|[t v] L1 _] using rev_ind.
    - simpl. rewrite val_zero. symmetry. unfold wind. apply zsum_zero.
      intros g Hg. apply in_map_iff in Hg as (s & <- & Hs). simpl.
      destruct (under (sx s) (qx p, qy p)) eqn:U; auto. destruct (UN s Hs U) as [v []].
    - rewrite map_app. simpl map. rewrite last_in.
      assert (It : In (t, v) ((L1 ++ [(t, v)]) ++ L2)) by (apply in_or_app; left; apply in_or_app; right; left; auto).
      destruct (V t v It) as (s & Is & Ds & Es & Sp & Vv). rewrite Vv. subst t.
      destruct (ED _ _ It) as [_ [[Ut Kt]|[Ut Kt]]].
      2:{ specialize (H1 (sx s, v)). unfold f in H1. simpl in H1. rewrite Ut in H1.
          discriminate H1. apply in_or_app; right; left; auto. }
      rewrite (below_const (ch i) (ch_good i) (sx s, val i (sc s)) _ (qx p)); auto using in_ch.
      2:{ apply spans_own. eapply spans_nonvert; eauto. }
      simpl fst.
      unfold wind, below.
      rewrite (zsum_pick (ch i) (sx s, val i (sc s)) (fun e => if under (fst e) (qx p, qy p) then snd e else 0))
        by (auto using in_ch; apply (g_nodup _ (ch_good i))).
      rewrite (zsum_pick (ch i) (sx s, val i (sc s)))
        by (auto using in_ch; apply (g_nodup _ (ch_good i))).
      simpl fst. simpl snd.
      assert (under (sx s) (qx p, qy p) = true) as ->.
      { apply under_iff. simpl. apply spans_iff in Sp. unfold qx in *. tauto. }
      assert (lt_atb (qx p) (sx s) (sx s) = false) as ->.
      { destruct (lt_atb (qx p) (sx s) (sx s)) eqn:F; auto. apply lt_atb_iff, lt_at_irrefl in F; destruct F. }
      rewrite andb_false_r.
      match goal with |- 0 + ?a + ?b = ?c + ?d => enough (a = d) by lia end.
      apply zsum_ext. intros g Hg. apply in_map_iff in Hg as (s' & <- & Hs'). simpl.
      destruct (xseg_eqb (sx s') (sx s)) eqn:X; auto. apply xseg_eqb_neq in X.
      assert (spans (sx s') (qx p) && lt_atb (qx p) (sx s') (sx s) = under (sx s') (qx p, qy p)) as ->; auto.
      apply bool_eq_iff. rewrite andb_true_iff, lt_atb_iff. split.
      + intros [S1 S2]. apply under_iff. simpl. apply spans_iff in S1. unfold lt_at in S2. lra.
      + intro U. destruct (UN s' Hs' U) as [v' Hv'].
        pose proof (proj1 (under_iff _ _) U) as (T1 & T2 & T3). simpl in T1, T2, T3.
        assert (S1 : spans (sx s') (qx p) = true) by (apply spans_iff; auto). split; auto.
        destruct (lt_at_total (sx s') (sx s) (segs_planar s' s Hs' Is X) (qx p) S1 Sp) as [K|K]; auto.
        exfalso. 
        apply in_app_or in Hv'. destruct Hv' as [Hv'|[Hv'|[]]]; [|congruence].
        rewrite <- app_assoc in S. apply in_split in Hv' as (M1 & M2 & ->).
        assert (lt_at (inject_Z (px p)) (sx s') (sx s)) as K2.
        { clear - S. induction M1 as [|m M1 IHM].
          - simpl in S. inversion S as [|? ? S1 S2]; subst. rewrite Forall_forall in S2.
            apply (S2 (sx s, v)). rewrite !in_app_iff. simpl. auto.
          - simpl in S. inversion S; subst. auto. }
        eapply lt_at_asym; eauto.
  Qed.

  (** *** segments with a common start *)
  Lemma same_start_cross s t : In s segs -> In t segs -> sx s <> sx t -> sa (sx s) = sa (sx t) ->
    cross3 (sa (sx s)) (sb (sx s)) (sb (sx t)) <> 0.
  Proof.
    intros Is It N E Z0.
    pose proof (Wf s Is) as Ws. pose proof (Wf t It) as Wt.
    pose proof (segs_planar s t Is It N) as HP.
    destruct (is_not_vertical (sx s)) eqn:Vs, (is_not_vertical (sx t)) eqn:Vt.
    - pose proof (wf_nonvert _ Ws Vs) as Ns. pose proof (wf_nonvert _ Wt Vt) as Nt.
      pose proof (spans_own _ Ns) as Ss. pose proof (spans_own _ Nt) as St. rewrite <- E in St.
      destruct (lt_at_total (sx s) (sx t) HP _ Ss St) as [K|K].
      + rewrite (same_start (sx s) (sx t) _ Ss St E HP) in K. lia.
      + rewrite (same_start (sx t) (sx s) _ St Ss (eq_sym E)) in K.
        * rewrite <- E, cross3_swap23 in K. lia.
        * intros q A B. destruct (HP q B A); auto.
    - unfold cross3, wf_xseg, pt_lt, is_not_vertical in *. rewrite <- E in *. nia.
    - unfold cross3, wf_xseg, pt_lt, is_not_vertical in *. rewrite <- E in *. nia.
    - destruct (wf_vert _ Ws Vs) as [Vx Vy]. destruct (wf_vert _ Wt Vt) as [Wx Wy].
      assert (Ex : (qx (sb (sx s)) == qx (sa (sx s)))%Q) by (unfold qx; rewrite Vx; reflexivity).
      assert (Ex' : (qx (sb (sx t)) == qx (sa (sx s)))%Q) by (unfold qx; rewrite E, Wx; reflexivity).
      assert (Ex2 : (qx (sa (sx t)) == qx (sa (sx s)))%Q) by (rewrite E; reflexivity).
      assert (Ey2 : (qy (sa (sx t)) == qy (sa (sx s)))%Q) by (rewrite E; reflexivity).
      assert (Eb : sb (sx s) = sb (sx t)).
      { apply pt_ext; [congruence|].
        destruct (Qlt_le_dec (qy (sb (sx t))) (qy (sb (sx s)))) as [L|L].
        - exfalso. destruct (HP (qx (sb (sx t)), qy (sb (sx t)))) as [Ee _].
          + apply on_seg_vert; auto; lra.
          + apply on_seg_vert; auto; lra.
          + unfold is_end, q_is in Ee. simpl in Ee. destruct Ee as [[_ H]|[_ H]]; lra.
        - destruct (HP (qx (sb (sx s)), qy (sb (sx s)))) as [_ Ee].
          + apply on_seg_vert; auto; lra.
          + apply on_seg_vert; auto; lra.
          + unfold is_end, q_is in Ee. simpl in Ee. destruct Ee as [[_ H]|[_ H]]; [exfalso; lra|].
            exact (proj1 (qz_eq _ _) H). }
      apply N. destruct (sx s), (sx t); simpl in *; congruence.
  Qed.

  Definition angle_lt (p : pt) (s t : iseg) : Prop :=
    0 < cross3 p (sb (sx (snd s))) (sb (sx (snd t))).

  (** *** the sum found in the middle of a group *)
  Lemma group_sum p s0 s doneg rest i :
    In s0 segs -> sa (sx s0) = p ->
    Permutation (map snd (doneg ++ s :: rest)) (filter (fun s => pt_eqb (sa (sx s)) p) segs) ->
    StronglySorted (angle_lt p) (doneg ++ s :: rest) ->
    botsum i (snd s) = wind (ch i) (qx p, qy p) + zsum (fun t => val i (sc (snd t))) doneg.
  Proof.
    intros I0 E0 P S.
    assert (Hs : In (snd s) segs /\ sa (sx (snd s)) = p).
    { assert (In (snd s) (filter (fun s => pt_eqb (sa (sx s)) p) segs)) as H.
      { eapply Permutation_in; [exact P|]. apply in_map. rewrite in_app_iff. simpl; auto. }
      apply filter_In in H. rewrite pt_eqb_eq in H. auto. }
    destruct Hs as [Is Es].
    assert (SUM : zsum (fun t => val i (sc (snd t))) doneg =
       zsum (fun g => if pt_eqb (sa (sx g)) p && (0 <? cross3 p (sb (sx g)) (sb (sx (snd s)))) then val i (sc g) else 0) segs).
    { transitivity (zsum (fun g => if 0 <? cross3 p (sb (sx g)) (sb (sx (snd s))) then val i (sc g) else 0)
                      (filter (fun s => pt_eqb (sa (sx s)) p) segs)).
      - rewrite <- (zsum_perm _ _ _ P), zsum_map, zsum_app, zsum_cons.
        assert (cross3 p (sb (sx (snd s))) (sb (sx (snd s))) = 0) as Z0 by (unfold cross3; ring).
        rewrite Z0. simpl (0 <? 0).
        rewrite (zsum_zero _ rest).
        + rewrite Z.add_0_r. apply zsum_ext. intros t Ht.
          assert (angle_lt p t s) as A.
          { clear - S Ht. induction doneg as [|d doneg IH]; [destruct Ht|].
            simpl in S. inversion S as [|? ? S1 S2]; subst. destruct Ht as [->|Ht]; auto.
            rewrite Forall_forall in S2. apply S2. rewrite in_app_iff. simpl; auto. }
          unfold angle_lt in A. rewrite (proj2 (Z.ltb_lt _ _) A). reflexivity.
        + intros t Ht.
          assert (angle_lt p s t) as A.
          { clear - S Ht. induction doneg as [|d doneg IH].
            - simpl in S. inversion S as [|? ? S1 S2]; subst. rewrite Forall_forall in S2. auto.
            - simpl in S. inversion S; auto. }
          unfold angle_lt in A. rewrite cross3_swap23 in A.
          destruct (0 <? cross3 p (sb (sx (snd t))) (sb (sx (snd s)))) eqn:L; auto. lia.
      - rewrite zsum_filter. apply zsum_ext. intros g _. destruct (pt_eqb (sa (sx g)) p); reflexivity. }
    rewrite SUM. unfold botsum, below, le_sum, wind. rewrite Es.
    unfold chain_of. rewrite !zsum_map. simpl. rewrite <- zsum_plus.
    destruct (is_not_vertical (sx (snd s))) eqn:Vs.
    - pose proof (wf_nonvert _ (Wf _ Is) Vs) as Ns.
      apply zsum_ext. intros g Ig.
      pose proof (spans_own _ Ns) as Ss. rewrite Es in Ss.
      assert (Hs : (height (sx (snd s)) (qx p) == qy p)%Q) by (rewrite <- Es; apply height_at_a).
      unfold under. simpl.
      destruct (spans (sx g) (qx p)) eqn:Sg; simpl.
      + destruct (pt_eqb (sa (sx g)) p) eqn:Eg; simpl.
        * apply pt_eqb_eq in Eg.
          assert (Hg : (height (sx g) (qx p) == qy p)%Q) by (rewrite <- Eg; apply height_at_a).
          assert (Qltb (height (sx g) (qx p)) (qy p) = false) as -> by (apply Qltb_ge; lra).
          rewrite Z.add_0_l.
          assert (lt_atb (qx p) (sx g) (sx (snd s)) = (0 <? cross3 p (sb (sx g)) (sb (sx (snd s))))) as ->; auto.
          apply bool_eq_iff. rewrite lt_atb_iff, Z.ltb_lt.
          pose proof (spans_nonvert _ _ Sg) as Ng.
          rewrite <- Eg. rewrite <- slope_cross by congruence. rewrite Eg. unfold lt_at. lra.
        * rewrite Z.add_0_r. apply pt_eqb_neq in Eg.
          assert (lt_atb (qx p) (sx g) (sx (snd s)) = Qltb (height (sx g) (qx p)) (qy p)) as ->; auto.
          apply bool_eq_iff. rewrite lt_atb_iff, Qltb_lt. unfold lt_at.
          split; intro H; [|left; lra]. destruct H as [H|[H _]]; [lra|].
          exfalso. apply Eg. apply (miss p s0 g); auto. lra.
      + destruct (pt_eqb (sa (sx g)) p) eqn:Eg; auto. simpl. apply pt_eqb_eq in Eg.
        assert (V : is_not_vertical (sx g) = false).
        { destruct (is_not_vertical (sx g)) eqn:V; auto.
          pose proof (spans_own _ (wf_nonvert _ (Wf g Ig) V)) as F. rewrite Eg in F. congruence. }
        assert ((0 <? cross3 p (sb (sx g)) (sb (sx (snd s)))) = false) as ->; auto.
        pose proof (Wf g Ig) as Wg. pose proof (Wf _ Is) as Ws.
        rewrite <- Eg in *. unfold cross3, wf_xseg, pt_lt, is_not_vertical in *. rewrite Es in *. nia.
    - apply zsum_ext. intros g Ig. unfold under. simpl.
      destruct (spans (sx g) (qx p)) eqn:Sg; simpl.
      + destruct (pt_eqb (sa (sx g)) p) eqn:Eg; simpl.
        * apply pt_eqb_eq in Eg.
          assert (Hg : (height (sx g) (qx p) == qy p)%Q) by (rewrite <- Eg; apply height_at_a).
          assert (Qltb (height (sx g) (qx p)) (qy p) = false) as -> by (apply Qltb_ge; lra).
          assert (Qle_bool (height (sx g) (qx p)) (qy p) = true) as -> by (apply Qleb_le; lra).
          assert ((0 <? cross3 p (sb (sx g)) (sb (sx (snd s)))) = true) as ->; [|lia].
          pose proof (spans_nonvert _ _ Sg) as Ng. apply nonvert_is in Ng.
          pose proof (Wf g Ig) as Wg. pose proof (Wf _ Is) as Ws.
          rewrite <- Eg in *. unfold cross3, wf_xseg, pt_lt, is_not_vertical in *. rewrite Es in *. nia.
        * rewrite Z.add_0_r. apply pt_eqb_neq in Eg.
          assert (Qle_bool (height (sx g) (qx p)) (qy p) = Qltb (height (sx g) (qx p)) (qy p)) as ->; auto.
          apply bool_eq_iff. rewrite Qleb_le, Qltb_lt. split; intro H; [|lra].
          destruct (Q_dec (height (sx g) (qx p)) (qy p)) as [[K|K]|K]; auto; [lra|].
          exfalso. apply Eg. apply (miss p s0 g); auto.
      + destruct (pt_eqb (sa (sx g)) p) eqn:Eg; auto. simpl. apply pt_eqb_eq in Eg.
        assert (V : is_not_vertical (sx g) = false).
        { destruct (is_not_vertical (sx g)) eqn:V; auto.
          pose proof (spans_own _ (wf_nonvert _ (Wf g Ig) V)) as F. rewrite Eg in F. congruence. }
        assert ((0 <? cross3 p (sb (sx g)) (sb (sx (snd s)))) = false) as ->; auto.
        pose proof (Wf g Ig) as Wg. pose proof (Wf _ Is) as Ws.
        rewrite <- Eg in *. unfold cross3, wf_xseg, pt_lt, is_not_vertical in *. rewrite Es in *. nia.
  Qed.

  (** *** insertion *)
  Lemma scan_insert_in (k : xseg) (v : C) s e : In e (scan_insert k v s) <-> e = (k, v) \/ In e s.
  Proof.
    induction s as [|[k' v'] r IH]; simpl; [intuition|].
    destruct (vseg_cmp k k'); simpl; rewrite ?IH; intuition.
  Qed.

  Lemma scan_insert_sorted t (k : xseg) (v : C) scan :
    StronglySorted (fun a b => lt_at t (fst a) (fst b)) scan ->
    (forall k' v', In (k', v') scan -> (vseg_cmp k k' = Lt <-> lt_at t k k') /\ (lt_at t k k' \/ lt_at t k' k)) ->
    StronglySorted (fun a b => lt_at t (fst a) (fst b)) (scan_insert k v scan).
  Proof.
    induction 1 as [|[k' v'] r S IH F]; intro H; simpl.
    - repeat constructor.
    - destruct (H k' v' (or_introl eq_refl)) as [H1 H2].
      assert (H' : forall k'0 v'0, In (k'0, v'0) r ->
        (vseg_cmp k k'0 = Lt <-> lt_at t k k'0) /\ (lt_at t k k'0 \/ lt_at t k'0 k))
        by (intros ? ? ?; eapply H; right; eauto).
      specialize (IH H').
      assert (CASE : vseg_cmp k k' <> Lt -> StronglySorted (fun a b => lt_at t (fst a) (fst b)) ((k', v') :: scan_insert k v r)).
      { intro NL. constructor; auto. rewrite Forall_forall in *. intros e He.
        apply scan_insert_in in He as [->|He]; auto. simpl. tauto. }
      destruct (vseg_cmp k k') eqn:E; try (apply CASE; discriminate).
      constructor; [constructor; auto|].
      assert (L : lt_at t k k') by tauto.
      constructor; auto. rewrite Forall_forall in *. intros e He. simpl.
      eapply lt_at_trans; [exact L|]. apply (F e He).
  Qed.

  Lemma insert_inv t (done : segment C -> Prop) scan s v : In s segs -> ~ done s ->
    spans (sx s) (inject_Z t) = true ->
    (forall i, val i v = below (ch i) (sx s) (qx (sa (sx s))) + val i (sc s)) ->
    Inv t done scan -> Inv t (fun x => done x \/ x = s) (scan_insert (sx s) v scan).
  Proof.
    intros Is Nd' Sp Vv [S V A]. constructor.
    - apply scan_insert_sorted; auto. intros k' v' H.
      destruct (V k' v' H) as (s' & Is' & Ds' & Es' & Sp' & _). subst k'.
      assert (N : sx s <> sx s').
      { intro E. apply segs_inj in E; auto. subst. contradiction. }
      split.
      + apply vseg_cmp_lt; auto. apply segs_planar; auto.
      + apply (lt_at_total _ _ (segs_planar s s' Is Is' N)); auto.
    - intros k v' H. apply scan_insert_in in H as [H|H].
      + inversion H; subst. exists s. repeat split; auto.
      + destruct (V k v' H) as (s' & Is' & Ds' & Es' & Sp' & Vv'). exists s'. repeat split; auto.
    - intros s' Is' Ds' Ns' Lt. destruct Ds' as [Ds'|Ds'].
      + destruct (A s' Is' Ds' Ns' Lt) as [v' Hv']. exists v'. apply scan_insert_in; auto.
      + subst s'. exists v. apply scan_insert_in; auto.
  Qed.

  Lemma Inv_ext t (d1 d2 : segment C -> Prop) scan :
    (forall s, In s segs -> is_not_vertical (sx s) = true -> (d1 s <-> d2 s)) -> Inv t d1 scan -> Inv t d2 scan.
  Proof.
    intros H [S V A]. constructor; auto.
    - intros k v Hk. destruct (V k v Hk) as (s & Is & Ds & Es & Sp & Vv).
      exists s. repeat split; auto. apply H; auto. subst k. apply nonvert_is.
      eapply spans_nonvert; eauto.
    - intros s Is Ds Ns Lt. apply A; auto. apply H; auto.
  Qed.

  Definition write_ok (buf : list iseg) (w : nat * fill_t) : Prop :=
    exists s bot, In (fst w, s) buf /\ snd w = snd (aff (sc s) bot) /\ forall i, val i bot = botsum i s.

  Lemma sweep_group_ok p s0 : In s0 segs -> sa (sx s0) = p ->
    forall buf doneg sum scan,
    Permutation (map snd (doneg ++ buf)) (filter (fun s => pt_eqb (sa (sx s)) p) segs) ->
    StronglySorted (angle_lt p) (doneg ++ buf) ->
    (forall i, val i sum = wind (ch i) (qx p, qy p) + zsum (fun t => val i (sc (snd t))) doneg) ->
    Inv (px p) (fun s => done_at p s \/ In s (map snd doneg)) scan ->
    let '(out, scan') := sweep_group aff p buf sum scan in
    Forall (write_ok buf) out /\ map fst out = map fst buf /\
    Inv (px p) (fun s => done_at p s \/ In s (map snd (doneg ++ buf))) scan'.
  Proof.
    intros I0 E0. induction buf as [|[j s] r IH]; intros doneg sum scan P S Hsum HI; simpl.
    - rewrite app_nil_r. split; [constructor|split; [reflexivity|exact HI]].
    - pose proof (fun i => group_sum p s0 (j, s) doneg r i I0 E0 P S) as GS.
      assert (Hs : In s segs /\ sa (sx s) = p).
      { assert (In s (filter (fun s => pt_eqb (sa (sx s)) p) segs)) as H.
        { eapply Permutation_in; [exact P|]. rewrite map_app, in_app_iff. simpl; auto. }
        apply filter_In in H. rewrite pt_eqb_eq in H. auto. }
      destruct Hs as [Is Es].
      assert (NDs : NoDup (map snd (doneg ++ (j, s) :: r))).
      { eapply Permutation_NoDup; [apply Permutation_sym; exact P|].
        apply NoDup_filter. eapply NoDup_map_inv; eauto. }
      destruct (aff (sc s) sum) as [sum' fill] eqn:EA.
      set (scan1 := if is_not_vertical (sx s) then scan_insert (sx s) sum' (expire (px p) scan) else scan).
      specialize (IH (doneg ++ [(j, s)]) sum' scan1).
      rewrite <- app_assoc in IH. simpl in IH.
      assert (Vs' : forall i, val i sum' = val i sum + val i (sc s)).
      { intro i. rewrite <- val_add, EA. reflexivity. }
      assert (H3 : forall i, val i sum' = wind (ch i) (qx p, qy p) + zsum (fun t => val i (sc (snd t))) (doneg ++ [(j, s)])).
      { intro i. rewrite Vs', Hsum, zsum_app, zsum_cons, zsum_nil. simpl. lia. }
      assert (NDone : ~ (done_at p s \/ In s (map snd doneg))).
      { intros [D|D]; [unfold done_at in D; rewrite Es in D; eapply pt_lt_irrefl; eauto|].
        rewrite map_app in NDs. simpl in NDs. apply NoDup_remove_2 in NDs. apply NDs. apply in_or_app; auto. }
      assert (H4 : Inv (px p) (fun s1 => done_at p s1 \/ In s1 (map snd (doneg ++ [(j, s)]))) scan1).
      { unfold scan1. destruct (is_not_vertical (sx s)) eqn:Vs.
        - apply (Inv_ext _ (fun x => (done_at p x \/ In x (map snd doneg)) \/ x = s)).
          + intros x _ _. rewrite map_app, in_app_iff. simpl. intuition.
          + apply insert_inv; auto.
            * pose proof (spans_own _ (wf_nonvert _ (Wf s Is) Vs)) as Sp. rewrite Es in Sp. exact Sp.
            * intro i. rewrite Vs', Hsum, <- GS. unfold botsum. simpl. rewrite Vs. reflexivity.
            * apply (expire_inv (px p)); auto. lia.
        - apply (Inv_ext _ (fun x => done_at p x \/ In x (map snd doneg))); auto.
          intros x Ix Nx. rewrite map_app, in_app_iff. simpl. 
          split; [tauto|]. intros [|[|[->|[]]]]; auto. congruence. }
      specialize (IH P S H3 H4).
      destruct (sweep_group aff p r sum' scan1) as [out scan'] eqn:ES.
      destruct IH as (IH1 & IH2 & IH3). split; [|split].
      + constructor.
        * exists s, sum. simpl. repeat split; auto. { rewrite EA; reflexivity. }
          intro i. rewrite Hsum, <- GS. reflexivity.
        * eapply Forall_impl; [|exact IH1]. intros w (s1 & b1 & W1 & W2). exists s1, b1. split; auto. right; auto.
      + simpl. congruence.
      + exact IH3.
  Qed.

  (** *** sorting of a group *)
  Lemma angle_sorted p (g : list iseg) : (forall s, In s g -> In (snd s) segs /\ sa (sx (snd s)) = p) ->
    NoDup (map snd g) -> StronglySorted (angle_lt p) (isort (angle_leb p) g).
  Proof.
    intros H ND.
    set (D := fun s : iseg => In (snd s) segs /\ sa (sx (snd s)) = p).
    assert (HD : forall s, D s -> wf_xseg (sx (snd s)) /\ sa (sx (snd s)) = p).
    { intros s [A B]. split; auto. }
    assert (AL : forall s t : iseg, angle_leb p s t = true <-> 0 <= cross3 p (sb (sx (snd s))) (sb (sx (snd t)))).
    { intros s t. unfold angle_leb, clock_order. rewrite cross3_swap23.
      destruct (Z.compare_spec (- cross3 p (sb (sx (snd s))) (sb (sx (snd t)))) 0); split; intro; try discriminate; auto; lia. }
    assert (SS : StronglySorted (fun a b => angle_leb p a b = true) (isort (angle_leb p) g)).
    { apply (isort_sorted_on _ D).
      - intros x y _ _. rewrite !AL. rewrite (cross3_swap23 p (sb (sx (snd x)))). lia.
      - intros x y z Dx Dy Dz. rewrite !AL.
        apply HD in Dx as [Wx Ex]. apply HD in Dy as [Wy Ey]. apply HD in Dz as [Wz Ez].
        unfold wf_xseg, pt_lt in *. rewrite Ex in Wx. rewrite Ey in Wy. rewrite Ez in Wz.
        unfold cross3.
        set (ux := px (sb (sx (snd x))) - px p) in *. set (uy := py (sb (sx (snd x))) - py p) in *.
        set (vx := px (sb (sx (snd y))) - px p) in *. set (vy := py (sb (sx (snd y))) - py p) in *.
        set (wx := px (sb (sx (snd z))) - px p) in *. set (wy := py (sb (sx (snd z))) - py p) in *.
        assert (U : 0 < ux \/ (ux = 0 /\ 0 < uy)) by lia.
        assert (Vv : 0 < vx \/ (vx = 0 /\ 0 < vy)) by lia.
        assert (W : 0 < wx \/ (wx = 0 /\ 0 < wy)) by lia.
        clearbody ux uy vx vy wx wy. clear - U Vv W. intros A B.
        destruct Vv as [Vv|[-> Vv]].
        + assert (vx * (ux * wy - uy * wx) = ux * (vx * wy - vy * wx) + wx * (ux * vy - uy * vx)) by ring.
          assert (0 <= vx * (ux * wy - uy * wx)) by nia. nia.
        + assert (wx = 0) by nia. subst. nia.
      - rewrite Forall_forall. intros s Hs. apply H; auto. }
    assert (ND' : NoDup (map snd (isort (angle_leb p) g))).
    { eapply Permutation_NoDup; [|exact ND]. apply Permutation_map, Permutation_sym, isort_perm. }
    assert (H' : forall s, In s (isort (angle_leb p) g) -> D s).
    { intros s Hs. apply H. apply isort_in in Hs; auto. }
    revert SS ND' H'. generalize (isort (angle_leb p) g). intros l SS ND' H'.
    induction SS as [|x l SS IH F]; [constructor|].
    simpl in ND'. inversion ND' as [|? ? N1 N2]; subst.
    constructor.
    - apply IH; auto. intros s Hs. apply H'; right; auto.
    - rewrite Forall_forall in *. intros y Hy. specialize (F y Hy). apply AL in F.
      destruct (H' x (or_introl eq_refl)) as [Ix Ex]. destruct (H' y (or_intror Hy)) as [Iy Ey].
      unfold angle_lt.
      assert (cross3 p (sb (sx (snd x))) (sb (sx (snd y))) <> 0); [|lia].
      rewrite <- Ex. apply same_start_cross; auto; [|congruence].
      intro E. apply segs_inj in E; auto. apply N1. rewrite E. apply in_map; auto.
  Qed.

  (** *** all groups *)
  Lemma filter_none {A} (f : A -> bool) l : (forall x, In x l -> f x = false) -> filter f l = [].
  Proof. induction l as [|x l IH]; intro H; simpl; auto. rewrite (H x) by (left; auto). apply IH. intros; apply H; right; auto. Qed.
  Lemma filter_all {A} (f : A -> bool) l : (forall x, In x l -> f x = true) -> filter f l = l.
  Proof. induction l as [|x l IH]; intro H; simpl; auto. rewrite (H x) by (left; auto). f_equal. apply IH. intros; apply H; right; auto. Qed.

  Lemma sweep_ok : forall gs (done : list iseg) scan t,
    map snd (done ++ concat (map snd gs)) = segs ->
    StronglySorted pt_lt (map fst gs) ->
    (forall p g, In (p, g) gs -> g <> [] /\ forall s, In s g -> sa (sx (snd s)) = p) ->
    (forall p, In p (map fst gs) -> t <= px p /\ forall s, In s done -> pt_lt (sa (sx (snd s))) p) ->
    Inv t (fun s => In s (map snd done)) scan ->
    Forall (write_ok (concat (map snd gs))) (sweep aff gs scan) /\
    Permutation (map fst (sweep aff gs scan)) (map fst (concat (map snd gs))).
  Proof.
    induction gs as [|[p g] gs IH]; intros done scan t EQ SP GA DL HI; simpl.
    - split; constructor.
    - simpl in EQ, SP. inversion SP as [|? ? SP1 SP2]; subst.
      destruct (GA p g (or_introl eq_refl)) as [Ng Ag].
      destruct (DL p (or_introl eq_refl)) as [Tp Dp].
      assert (Rest : forall s, In s (concat (map snd gs)) -> pt_lt p (sa (sx (snd s)))).
      { intros s Hs. apply in_concat in Hs as (g' & Hg' & Hs). apply in_map_iff in Hg' as ([p' g''] & E & Hg'). simpl in E. subst g''.
        destruct (GA p' g' (or_intror Hg')) as [_ A']. rewrite (A' s Hs).
        rewrite Forall_forall in SP2. apply SP2. apply (in_map fst) in Hg'. auto. }
      assert (Perm : Permutation (map snd (isort (angle_leb p) g)) (filter (fun s => pt_eqb (sa (sx s)) p) segs)).
      { rewrite <- EQ. rewrite !map_app, !filter_app.
        rewrite (filter_none _ (map snd done)), (filter_none _ (map snd (concat _))), (filter_all _ (map snd g)).
        - simpl. rewrite app_nil_r. apply Permutation_map, isort_perm.
        - intros x Hx. apply in_map_iff in Hx as (s & <- & Hs). apply pt_eqb_eq. auto.
        - intros x Hx. apply in_map_iff in Hx as (s & <- & Hs). apply pt_eqb_neq.
          intro E. apply Rest in Hs. rewrite E in Hs. eapply pt_lt_irrefl; eauto.
        - intros x Hx. apply in_map_iff in Hx as (s & <- & Hs). apply pt_eqb_neq.
          intro E. apply Dp in Hs. rewrite E in Hs. eapply pt_lt_irrefl; eauto. }
      assert (Inseg : forall s, In s done \/ In s g \/ In s (concat (map snd gs)) -> In (snd s) segs).
      { intros s Hs. rewrite <- EQ. apply in_map. rewrite !in_app_iff. tauto. }
      destruct g as [|s0 g0]; [congruence|]. set (g := s0 :: g0) in *.
      assert (I0 : In (snd s0) segs) by (apply Inseg; right; left; left; auto).
      assert (E0 : sa (sx (snd s0)) = p) by (apply Ag; left; auto).
      assert (NDg : NoDup (map snd g)).
      { assert (NoDup segs) as N by (eapply NoDup_map_inv; eauto). rewrite <- EQ in N.
        rewrite !map_app in N. apply NoDup_app_r in N. apply NoDup_app_l in N. auto. }
      pose proof (angle_sorted p g) as AS.
      assert (HI' : Inv (px p) (fun s => In s (map snd done)) (expire (px p) scan)) by (apply (expire_inv t); auto).
      assert (DD : forall s, In s segs -> (In s (map snd done) <-> done_at p s)).
      { intros s Is. split; intro H.
        - apply in_map_iff in H as (x & <- & Hx). apply Dp; auto.
        - rewrite <- EQ in Is. rewrite !map_app, !in_app_iff in Is. destruct Is as [Is|[Is|Is]]; auto; exfalso.
          + apply in_map_iff in Is as (x & <- & Hx). unfold done_at in H. rewrite (Ag x Hx) in H. eapply pt_lt_irrefl; eauto.
          + apply in_map_iff in Is as (x & <- & Hx). apply Rest in Hx. unfold done_at in H.
            eapply pt_lt_irrefl, pt_lt_trans; eauto. }
      assert (HI0 : Inv (px p) (done_at p) (expire (px p) scan)).
      { eapply Inv_ext; [|exact HI']. intros s Is _. apply DD; auto. }
      pose proof (find_le_wind p (snd s0) _ I0 E0 HI0) as FW.
      pose proof (sweep_group_ok p (snd s0) I0 E0 (isort (angle_leb p) g) []
         (find_le (fun s => under_point_order s p) (wc_new 0 0) (expire (px p) scan)) (expire (px p) scan)) as SG.
      simpl app in SG. specialize (SG Perm).
      destruct (sweep_group aff p (isort (angle_leb p) g)
         (find_le (fun s => under_point_order s p) (wc_new 0 0) (expire (px p) scan)) (expire (px p) scan))
        as [out scan'] eqn:ES.
      destruct SG as (S1 & S2 & S3).
      { apply AS; auto. }
      { intro i. rewrite zsum_nil, FW. lia. }
      { eapply Inv_ext; [|exact HI0]. intros s _ _. simpl. tauto. }
      destruct (IH (done ++ g) scan' (px p)) as [IH1 IH2].
      { rewrite <- app_assoc. exact EQ. }
      { auto. }
      { intros p' g' H. apply GA; right; auto. }
      { intros p' Hp'. rewrite Forall_forall in SP2. pose proof (SP2 p' Hp') as L. split; [unfold pt_lt in L; lia|].
        intros s Hs. apply in_app_or in Hs as [Hs|Hs].
        - eapply pt_lt_trans; [apply Dp; auto|auto].
        - rewrite (Ag s Hs). auto. }
      { eapply Inv_ext; [|exact S3]. intros s Is _. cbv beta.
        rewrite <- (DD s Is), map_app, in_app_iff.
        split; (intros [H|H]; [left; auto|right]).
        - apply in_map_iff in H as (x & <- & Hx). change (In x (isort (angle_leb p) g)) in Hx. apply isort_in in Hx. apply in_map; auto.
        - apply in_map_iff in H as (x & <- & Hx). apply in_map. change (In x (isort (angle_leb p) g)). apply isort_in; auto. }
      split.
      + apply Forall_app. split.
        * eapply Forall_impl; [|exact S1]. intros w (s & b & W1 & W2). exists s, b. split; auto.
          apply isort_in in W1. apply in_or_app; auto.
        * eapply Forall_impl; [|exact IH1]. intros w (s & b & W1 & W2). exists s, b. split; auto.
          apply in_or_app; auto.
      + rewrite !map_app. apply Permutation_app; auto. rewrite S2. apply Permutation_map, isort_perm.
  Qed.

  (** *** writing the result *)
  Lemma set_nth_length {A} i (x : A) l : length (set_nth i x l) = length l.
  Proof. revert i. induction l as [|y l IH]; intros [|i]; simpl; auto. Qed.

  Lemma set_nth_same {A} i (x : A) l : (i < length l)%nat -> nth_error (set_nth i x l) i = Some x.
  Proof. revert i. induction l as [|y l IH]; intros [|i] H; simpl in *; try lia; auto. apply IH; lia. Qed.

  Lemma set_nth_other {A} i j (x : A) l : i <> j -> nth_error (set_nth i x l) j = nth_error l j.
  Proof. revert i j. induction l as [|y l IH]; intros [|i] [|j] H; simpl; auto; try congruence. Qed.

  Lemma writes_length {A} (ws : list (nat * A)) : forall res,
    length (fold_left (fun res w => set_nth (fst w) (snd w) res) ws res) = length res.
  Proof. induction ws as [|w ws IH]; intro res; simpl; auto. rewrite IH, set_nth_length. auto. Qed.

  Lemma writes_notin {A} (ws : list (nat * A)) : forall res j, ~ In j (map fst ws) ->
    nth_error (fold_left (fun res w => set_nth (fst w) (snd w) res) ws res) j = nth_error res j.
  Proof.
    induction ws as [|w ws IH]; intros res j H; simpl; auto. simpl in H.
    rewrite IH by tauto. apply set_nth_other. tauto.
  Qed.

  Lemma writes_nth {A} (ws : list (nat * A)) : forall res j x, NoDup (map fst ws) -> In (j, x) ws ->
    (j < length res)%nat ->
    nth_error (fold_left (fun res w => set_nth (fst w) (snd w) res) ws res) j = Some x.
  Proof.
    induction ws as [|w ws IH]; intros res j x N H L; simpl; [destruct H|].
    simpl in N. inversion N as [|? ? N1 N2]; subst. destruct H as [->|H].
    - simpl in *. rewrite writes_notin by auto. apply set_nth_same; auto.
    - apply IH; auto. rewrite set_nth_length; auto.
  Qed.

  Lemma enum_snd {A} (l : list A) : map snd (enum l) = l.
  Proof.
    unfold enum. generalize 0%nat. induction l as [|x l IH]; intro n; simpl; auto. f_equal. apply IH.
  Qed.

  Lemma enum_fst {A} (l : list A) : map fst (enum l) = seq 0 (length l).
  Proof.
    unfold enum. generalize 0%nat. induction l as [|x l IH]; intro n; simpl; auto. f_equal. apply IH.
  Qed.

  Lemma enum_nth {A} (l : list A) j x : In (j, x) (enum l) <-> nth_error l j = Some x.
  Proof.
    unfold enum.
    assert (forall n, In (j, x) (combine (seq n (length l)) l) <-> (n <= j)%nat /\ nth_error l (j - n) = Some x) as H.
    { induction l as [|y l IH]; intro n; simpl.
      - split; [intros []|]. intros [_ H]. destruct (j - n)%nat; discriminate.
      - rewrite IH. split.
        + intros [H|[H1 H2]].
          * inversion H; subst. split; [lia|]. replace (j - j)%nat with 0%nat by lia. reflexivity.
          * split; [lia|]. replace (j - n)%nat with (S (j - S n)) by lia. exact H2.
        + intros [H1 H2]. destruct (Nat.eq_dec j n) as [->|Ne].
          * replace (n - n)%nat with 0%nat in H2 by lia. simpl in H2. left. congruence.
          * right. split; [lia|]. replace (j - n)%nat with (S (j - S n)) in H2 by lia. exact H2. }
    rewrite H. replace (j - 0)%nat with j by lia. split; [tauto|]. split; auto. lia.
  Qed.

  Lemma SS_map {A B} (h : A -> B) (R : B -> B -> Prop) l :
    StronglySorted R (map h l) -> StronglySorted (fun a b => R (h a) (h b)) l.
  Proof.
    induction l as [|x l IH]; intro H; simpl in *; [constructor|].
    inversion H as [|? ? H1 H2]; subst. constructor; auto.
    rewrite Forall_forall in *. intros y Hy. apply H2, in_map; auto.
  Qed.

  Theorem fill_solve_bot j s : nth_error segs j = Some s ->
    exists bot, nth_error (fill_solve aff segs) j = Some (snd (aff (sc s) bot)) /\
                forall i, val i bot = botsum i s.
  Proof.
    intro Hj. unfold fill_solve.
    destruct (sweep_ok (group_starts (enum segs)) [] [] (fold_right (fun s m => Z.min (px (sa (sx s))) m) 0 segs)) as [W P].
    - transitivity (map snd (enum segs)); [f_equal; apply group_concat|apply enum_snd].
    - apply group_sorted. unfold le_sa. apply (SS_map snd (fun s t => pt_leb (sa (sx s)) (sa (sx t)) = true)).
      rewrite enum_snd. exact Srt.
    - apply group_sa.
    - intros p Hp. split; [|intros ? []].
      apply in_map_iff in Hp as ([p' g] & <- & Hg). simpl.
      destruct (group_sa _ _ _ Hg) as [Ng Ag].
      destruct g as [|x g]; [congruence|]. rewrite <- (Ag x (or_introl eq_refl)).
      assert (Ix : In (snd x) segs).
      { rewrite <- (enum_snd segs). apply in_map. rewrite <- (group_concat (enum segs)). apply in_concat.
        exists (x :: g). split; [|left; auto]. apply (in_map snd) in Hg. exact Hg. }
      clear - Ix. induction segs as [|y l IH]; [destruct Ix|]. simpl. destruct Ix as [->|Ix]; [lia|].
      specialize (IH Ix). lia.
    - constructor; [constructor|intros ? ? []|intros ? ? []].
    - pose proof (group_concat (enum segs)) as GC. change (concat (map snd (group_starts (enum segs))) = enum segs) in GC. rewrite GC in W, P.
      assert (ND : NoDup (map fst (sweep aff (group_starts (enum segs)) []))).
      { eapply Permutation_NoDup; [apply Permutation_sym; exact P|]. rewrite enum_fst. apply seq_NoDup. }
      assert (Ij : In j (map fst (sweep aff (group_starts (enum segs)) []))).
      { eapply Permutation_in; [apply Permutation_sym; exact P|]. rewrite enum_fst. apply in_seq.
        assert (nth_error segs j <> None) as H by congruence. apply nth_error_Some in H. lia. }
      apply in_map_iff in Ij as ([j' f] & E & Iw). simpl in E. subst j'.
      rewrite Forall_forall in W. destruct (W _ Iw) as (s' & bot & W1 & W2 & W3). simpl in *.
      apply enum_nth in W1. assert (s' = s) by congruence. subst s'.
      exists bot. split; auto. subst f. apply writes_nth; auto.
      rewrite repeat_length. apply nth_error_Some. congruence.
  Qed.

  Lemma fill_solve_length : length (fill_solve aff segs) = length segs.
  Proof. unfold fill_solve. rewrite writes_length, repeat_length. reflexivity. Qed.
End SweepProof.
