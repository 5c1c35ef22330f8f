(** * Splitting as a sequence of rounds, each of which moves edges by a bounded distance. *)
From Verif Require Import Base Spec QLib ModelSegm SegmProofs MergeProofs PlanarGeo ModelCross CrossProofs CrossPoint MarksProofs
  CoreResults ModelSplit SplitProofs SplitPass BinsProofs SplitApply SplitLoop SplitFlags SplitNear InputCover FloatSpace.
From Coq Require Import Lqa Qabs.
Open Scope Z_scope.

(** ** A broken line near a segment *)
Section Chain.
  Variables (d : Q) (a b : pt).
  Definition at_param (p : pt) (u : Q) : Prop := (Qabs (qx p - (qx a + u * (qx b - qx a))) <= d)%Q /\ (Qabs (qy p - (qy a + u * (qy b - qy a))) <= d)%Q.
  Lemma mix_bound x y l e : (0 <= l <= 1)%Q -> (- e <= x <= e)%Q -> (- e <= y <= e)%Q -> (- e <= (1 - l) * x + l * y <= e)%Q.
  Proof.
    intros L X Y. pose proof (mul_range (1 - l) x e ltac:(lra) X). pose proof (mul_range l y e ltac:(lra) Y). split; lra.
  Qed.
  Lemma pair_cover x w u v t q : at_param x u -> at_param w v -> (u <= t <= v)%Q -> (fst q == qx a + t * (qx b - qx a))%Q -> (snd q == qy a + t * (qy b - qy a))%Q ->
    exists q', on_seg (XS x w) q' /\ close d q q'.
  Proof.
    intros [X1 Y1] [X2 Y2] T X Y. apply Qabs_le_iff in X1, Y1, X2, Y2.
    destruct (Qlt_le_dec u v) as [L|L].
    - set (l := ((t - u) / (v - u))%Q).
      assert (L1 : (l * (v - u) == t - u)%Q) by (unfold l; field; lra).
      assert (Lr : (0 <= l <= 1)%Q).
      { split; [apply (Qmult_le_l 0 l (v - u)); lra|apply (Qmult_le_l l 1 (v - u)); lra]. }
      pose proof (mix_bound _ _ l d Lr X1 X2) as MX. pose proof (mix_bound _ _ l d Lr Y1 Y2) as MY.
      exists (qx x + l * (qx w - qx x), qy x + l * (qy w - qy x))%Q. split.
      + exists l. cbn [sa sb fst snd]. split; auto. split; reflexivity.
      + assert (Et : (t == u + l * (v - u))%Q) by lra.
        split; cbn [fst snd]; apply Qabs_le_iff; rewrite ?X, ?Y, Et; split; lra.
    - assert (Et : (t == u)%Q) by lra. exists (qof x). split.
      + exists 0%Q. cbn [sa sb fst snd qof]. split; [lra|]. split; ring.
      + split; cbn [fst snd qof]; fold (qx x) (qy x); apply Qabs_le_iff; rewrite ?X, ?Y, Et; lra.
  Qed.
  Variables (t : Q) (q : qpt).
  Hypothesis T : (0 <= t <= 1)%Q.
  Hypothesis X : (fst q == qx a + t * (qx b - qx a))%Q.
  Hypothesis Y : (snd q == qy a + t * (qy b - qy a))%Q.
  Hypothesis D0 : (0 <= d)%Q.
  Context {C : Type} {WC : WindingCount C}.
  Lemma at_end : at_param b 1.
  Proof. split; apply Qabs_le_iff; split; ring_simplify; lra. Qed.
  Lemma at_start : at_param a 0.
  Proof. split; apply Qabs_le_iff; split; ring_simplify; lra. Qed.
  Lemma create_cover (c : C) x w u v : at_param x u -> at_param w v -> (u <= t <= v)%Q ->
    exists q', on_seg (sx (create_and_validate x w c)) q' /\ close d q q'.
  Proof.
    intros A B L. destruct (pair_cover x w u v t q A B L X Y) as (q' & O & Cl). exists q'. split; auto.
    unfold create_and_validate. destruct (pt_ltb x w); cbn [sx]; auto. apply on_seg_swap. exact O.
  Qed.
  Lemma chop_near (c : C) : forall ms x u, at_param x u -> (u <= t)%Q -> Forall (fun m => within d a b (qof m)) ms ->
    exists e q', In e (chop c x ms b) /\ on_seg (sx e) q' /\ close d q q'.
  Proof.
    induction ms as [|m ms IH]; intros x u A L F; cbn [chop].
    - destruct (create_cover c x b u 1 A at_end ltac:(lra)) as (q' & O & Cl). eexists _, q'. split; [left; reflexivity|]. auto.
    - inversion F as [|? ? (v & V & M1 & M2) F']; subst. destruct (Qlt_le_dec v t) as [Lt'|Lt'].
      + destruct (IH m v (conj M1 M2) ltac:(lra) F') as (e & q' & Ie & O & Cl). exists e, q'. split; [right; auto|]. auto.
      + destruct (create_cover c x m u v A (conj M1 M2) ltac:(lra)) as (q' & O & Cl). eexists _, q'. split; [left; reflexivity|]. auto.
  Qed.
End Chain.

(** ** Merging equal segments keeps values of some contributing segment *)
Lemma merge_value {C} {WC : WindingCount C} (f : C -> Z) (l : list (segment C)) s : (forall x y, f (wc_add x y) = f x + f y) ->
  (forall c, wc_not_empty c = false -> f c = 0) -> In s (sort_merge l) -> f (sc s) <> 0 -> exists s', In s' l /\ sx s' = sx s /\ f (sc s') <> 0.
Proof.
  intros F1 F2 Is N.
  assert (L : forall m : list (segment C), NoDup (map sx m) -> In s m -> lin f (fun x => bz (xseg_eqb x (sx s))) m = f (sc s)).
  { clear. unfold lin. induction m as [|x m IH]; intros Nd I; [destruct I|]. rewrite zsum_cons. inversion Nd as [|? ? N1 N2]; subst. destruct I as [->|I].
    - rewrite xseg_eqb_refl. cbn [bz]. rewrite zsum_zero; [lia|]. intros y Iy. destruct (xseg_eqb (sx y) (sx s)) eqn:E; cbn [bz]; [|lia].
      apply xseg_eqb_eq in E. destruct N1. rewrite <- E. apply in_map; auto.
    - rewrite IH by auto. destruct (xseg_eqb (sx x) (sx s)) eqn:E; cbn [bz]; [|lia]. apply xseg_eqb_eq in E. destruct N1. rewrite E. apply in_map; auto. }
  specialize (L (sort_merge l) (strict_sorted_NoDup _ (sort_merge_sorted l)) Is). rewrite sort_merge_lin in L by auto.
  assert (K : forall m, lin f (fun x => bz (xseg_eqb x (sx s))) m <> 0 -> exists s', In s' m /\ sx s' = sx s /\ f (sc s') <> 0).
  { clear. unfold lin. induction m as [|x m IH]; intro H; [destruct H; reflexivity|]. rewrite zsum_cons in H.
    destruct (Z.eq_dec (f (sc x) * bz (xseg_eqb (sx x) (sx s))) 0) as [E|E].
    - destruct IH as (s' & I & P); [lia|]. exists s'. split; simpl; auto.
    - exists x. split; [left; auto|]. destruct (xseg_eqb (sx x) (sx s)) eqn:Ex; cbn [bz] in E; [|lia]. apply xseg_eqb_eq in Ex. split; auto. lia. }
  apply K. lia.
Qed.

(** ** One round *)
Section Round.
  Context {C : Type} {WC : WindingCount C} {WL : WCLaws C}.
  Variable segs : list (segment C).
  Hypothesis I : inv segs.
  Variable ms : list mark.
  Variable d : Q.
  Hypothesis D0 : (0 <= d)%Q.
  Hypothesis Near : forall i s p, nth_error segs i = Some s -> In (i, p) ms -> within d (sa (sx s)) (sb (sx s)) (qof p).
  Hypothesis Range : forall i p, In (i, p) ms -> exists s, nth_error segs i = Some s /\ p <> sa (sx s) /\ p <> sb (sx s).
  Notation out := (sort_merge (split_pieces segs ms)).

  Section Value.
    Variable f : C -> Z.
    Hypothesis F1 : forall x y, f (wc_add x y) = f x + f y.
    Hypothesis F2 : forall c, wc_not_empty c = false -> f c = 0.
    Hypothesis F3 : forall c, f (wc_invert c) = - f c.
    Variable q : qpt.
    (** [q] is farther than [e] from every edge with a value *)
    Definition away_from (e : Q) (l : list (segment C)) : Prop := forall s, In s l -> f (sc s) <> 0 -> ~ within e (sa (sx s)) (sb (sx s)) q.

    Lemma pieces_sum_f (w : pt -> pt -> Z) (w_anti : forall a b, w a b = - w b a) (P : nat -> pt -> Prop) :
      (forall i s, nth_error segs i = Some s -> P i (sa (sx s)) /\ P i (sb (sx s))) ->
      (forall i p, In (i, p) ms -> P i p) ->
      (forall i s x y z, nth_error segs i = Some s -> f (sc s) <> 0 -> P i x -> P i y -> P i z -> w x y + w y z = w x z) ->
      zsum (segval f w) (split_pieces segs ms) = zsum (segval f w) segs.
    Proof.
      intros H1 H2 H3. unfold split_pieces, all_pieces. rewrite zsum_flat_map.
      transitivity (zsum (fun x => segval f w (snd x)) (enum segs)).
      - apply zsum_ext. intros [i s] Ii. apply enum_nth in Ii. simpl.
        destruct (lookup _ i) as [ps|] eqn:L; simpl.
        + apply lookup_spec in L as (_ & L & _). rewrite chop_val by auto. unfold segval. destruct (Z.eq_dec (f (sc s)) 0) as [E|E]; [rewrite E; lia|]. f_equal.
          destruct (H1 i s Ii) as [A B]. apply (polyline_col w (P i)); eauto.
          apply Forall_forall. intros p Hp. apply H2. apply L. auto.
        + rewrite zsum_cons, zsum_nil. lia.
      - rewrite enum_from_enum. generalize O. clear. induction segs as [|s l IH]; intro n; simpl; [reflexivity|].
        rewrite !zsum_cons. rewrite (IH (S n)). reflexivity.
    Qed.
    Lemma round_value : away_from d segs -> wind (chain_of f out) q = wind (chain_of f segs) q.
    Proof.
      intro A. rewrite sort_merge_wind; auto. rewrite !wind_segval.
      - apply (pieces_sum_f (fun a b => edge_wind q (a, b))) with
          (P := fun i p => forall s, nth_error segs i = Some s -> within d (sa (sx s)) (sb (sx s)) (qof p)).
        + intros; apply edge_wind_anti.
        + intros i s Hs. split; intros s' Hs'; rewrite Hs in Hs'; injection Hs' as <-; [apply within_a|apply within_b]; auto.
        + intros i p J s Hs. eapply Near; eauto.
        + intros i s x y z Hs N Hx Hy Hz. apply (triangle_zero d (sa (sx s)) (sb (sx s))); auto. apply A; auto. eapply nth_error_In; eauto.
      - apply I.
      - apply pieces_wf; [apply I|]. intros i p s J Hs. destruct (Range i p J) as (s' & Hs' & N). rewrite Hs in Hs'. injection Hs' as <-. auto.
    Qed.
    Lemma piece_source e : In e (split_pieces segs ms) -> exists s, In s segs /\ (sc e = sc s \/ sc e = wc_invert (sc s)) /\
      within d (sa (sx s)) (sb (sx s)) (qof (sa (sx e))) /\ within d (sa (sx s)) (sb (sx s)) (qof (sb (sx e))).
    Proof.
      intro Ie. apply in_pieces in Ie as (i & s & Hs & Ie). exists s. split; [eapply nth_error_In; eauto|].
      assert (Wa := within_a d (sa (sx s)) (sb (sx s)) D0). assert (Wb := within_b d (sa (sx s)) (sb (sx s)) D0).
      destruct (lookup _ i) as [ps|] eqn:L; simpl in Ie; [|destruct Ie as [<-|[]]; auto].
      apply lookup_spec in L as (_ & L & _). split.
      - assert (K := chop_counts (fun c => c = sc s \/ c = wc_invert (sc s)) (sc s) ps (or_introl eq_refl) (or_intror eq_refl) (sa (sx s)) (sb (sx s))).
        rewrite Forall_forall in K. apply K; auto.
      - assert (K : forall p, In p (sa (sx s) :: ps ++ [sb (sx s)]) -> within d (sa (sx s)) (sb (sx s)) (qof p)).
        { intros p [<-|Ip]; auto. apply in_app_iff in Ip as [Ip|[<-|[]]]; auto. eapply Near; eauto. apply L; auto. }
        apply chop_ends in Ie as [A B]. auto.
    Qed.
    Lemma round_away_from e : (0 <= e)%Q -> away_from (d + e) segs -> away_from e out.
    Proof.
      intros E A s Is N W. destruct (merge_value f _ _ F1 F2 Is N) as (s' & Is' & Ex & N'). rewrite <- Ex in W.
      destruct (piece_source s' Is') as (s0 & I0 & Sc & Wa & Wb). apply (A s0 I0).
      - destruct Sc as [Sc|Sc]; rewrite Sc in N'; auto. rewrite F3 in N'. lia.
      - apply (within_trans d e _ _ (sa (sx s')) (sb (sx s'))); auto.
    Qed.
  End Value.

  (** flags that do not depend on the direction *)
  Variable g : C -> bool.
  Hypothesis G : flag g.
  Hypothesis Gi : forall c, g (wc_invert c) = g c.
  Lemma round_source s : In s out -> g (sc s) = true -> exists s0, In s0 segs /\ g (sc s0) = true /\
    within d (sa (sx s0)) (sb (sx s0)) (qof (sa (sx s))) /\ within d (sa (sx s0)) (sb (sx s0)) (qof (sb (sx s))).
  Proof.
    intros Is H. destruct (merge_flags (split_pieces segs ms) g) as [M _]; auto. { apply pieces_nonempty; apply I. }
    apply M in H as (s' & Is' & H & <-); auto. destruct (piece_source s' Is') as (s0 & I0 & Sc & W). exists s0. split; auto. split; auto.
    destruct Sc as [E|E]; rewrite E in H; auto. rewrite Gi in H. auto.
  Qed.
  Lemma round_cover s q : In s segs -> g (sc s) = true -> on_seg (sx s) q ->
    exists e q', In e out /\ g (sc e) = true /\ on_seg (sx e) q' /\ close d q q'.
  Proof.
    intros Is H (t & T & X & Y). apply In_nth_error in Is as [i Hs].
    assert (K : exists e q', In e (split_pieces segs ms) /\ g (sc e) = true /\ on_seg (sx e) q' /\ close d q q').
    { destruct (lookup (sort_and_filter_marks (map sx segs) ms) i) as [ps|] eqn:L.
      - assert (F : Forall (fun m => within d (sa (sx s)) (sb (sx s)) (qof m)) ps).
        { apply Forall_forall. intros m Im. eapply Near; eauto. apply lookup_spec in L as (_ & L & _). apply L; auto. }
        destruct (chop_near d (sa (sx s)) (sb (sx s)) t q T X Y D0 (sc s) ps (sa (sx s)) 0) as (e & q' & Ie & O & Cl); auto; [apply at_start; auto|lra|].
        exists e, q'. split; [|split; auto].
        + apply in_pieces. exists i, s. split; auto. rewrite L. auto.
        + assert (Kc := chop_counts (fun c => g c = true) (sc s) ps H (eq_trans (Gi _) H) (sa (sx s)) (sb (sx s))). rewrite Forall_forall in Kc. apply Kc; auto.
      - exists s, q. split; [|split; auto; split; [exists t; auto|]].
        + apply in_pieces. exists i, s. split; auto. rewrite L. simpl. auto.
        + split; apply Qabs_le_iff; split; lra. }
    destruct K as (e & q' & Ie & Ge & O & Cl). destruct (merge_flags (split_pieces segs ms) g) as [_ M]; auto. { apply pieces_nonempty; apply I. }
    destruct (M e Ie Ge) as (e' & Ie' & Ge' & Ex). exists e', q'. rewrite Ex. auto.
  Qed.
End Round.

(** ** All rounds *)
Inductive rounds {C} {WC : WindingCount C} {WL : WCLaws C} : Q -> list (segment C) -> list (segment C) -> Prop :=
| no_round D segs : (0 <= D)%Q -> rounds D segs segs
| one_round D d e segs ms out : (0 <= d)%Q -> (0 <= e)%Q -> (d + e <= D)%Q -> inv segs ->
    (forall i s p, nth_error segs i = Some s -> In (i, p) ms -> within d (sa (sx s)) (sb (sx s)) (qof p)) ->
    (forall i p, In (i, p) ms -> exists s, nth_error segs i = Some s /\ p <> sa (sx s) /\ p <> sb (sx s)) ->
    rounds e (sort_merge (split_pieces segs ms)) out -> rounds D segs out.

Lemma away_from_mono {C} (f : C -> Z) q d e (l : list (segment C)) : (d <= e)%Q -> away_from f q e l -> away_from f q d l.
Proof. intros L A s Is N W. apply (A s Is N). eapply within_mono; eauto. Qed.
Lemma close_trans d e p q r : close d p q -> close e q r -> close (d + e) p r.
Proof. intros [A B] [A' B']. apply Qabs_le_iff in A, B, A', B'. split; apply Qabs_le_iff; split; lra. Qed.
Lemma close_mono d e p q : (d <= e)%Q -> close d p q -> close e p q.
Proof. intros L [A B]. split; eapply Qle_trans; eauto. Qed.
Lemma close_refl d p : (0 <= d)%Q -> close d p p.
Proof. intro H. split; apply Qabs_le_iff; split; lra. Qed.

Section Rounds.
  Context {C : Type} {WC : WindingCount C} {WL : WCLaws C}.
  Theorem rounds_wind (f : C -> Z) q D segs out : (forall x y, f (wc_add x y) = f x + f y) -> (forall c, wc_not_empty c = false -> f c = 0) ->
    (forall c, f (wc_invert c) = - f c) -> rounds D segs out -> away_from f q D segs -> wind (chain_of f out) q = wind (chain_of f segs) q.
  Proof.
    intros F1 F2 F3 R. induction R as [D segs D0|D d e segs ms out D0 E0 L I Near Range R IH]; intro A; auto.
    rewrite IH; [apply (round_value segs I ms d D0 Near Range f F1 F2 F3 q)|].
    - eapply away_from_mono; [|exact A]. lra.
    - apply (round_away_from segs ms d D0 Near f F1 F2 F3 q e E0). eapply away_from_mono; [|exact A]. lra.
  Qed.
  Theorem rounds_source (g : C -> bool) D segs out : flag g -> (forall c, g (wc_invert c) = g c) -> rounds D segs out -> forall s, In s out -> g (sc s) = true ->
    exists s0, In s0 segs /\ g (sc s0) = true /\ within D (sa (sx s0)) (sb (sx s0)) (qof (sa (sx s))) /\ within D (sa (sx s0)) (sb (sx s0)) (qof (sb (sx s))).
  Proof.
    intros G Gi R. induction R as [D segs D0|D d e segs ms out D0 E0 L I Near Range R IH]; intros s Is H.
    - exists s. split; auto. split; auto. split; [apply within_a|apply within_b]; auto.
    - destruct (IH s Is H) as (s1 & I1 & H1 & A & B). destruct (round_source segs I ms d D0 Near g G Gi s1 I1 H1) as (s0 & I0 & H0 & A0 & B0).
      exists s0. split; auto. split; auto. split; apply (within_mono (d + e)); auto; apply (within_trans d e _ _ (sa (sx s1)) (sb (sx s1))); auto.
  Qed.
  Theorem rounds_cover (g : C -> bool) D segs out : flag g -> (forall c, g (wc_invert c) = g c) -> rounds D segs out -> forall s q, In s segs -> g (sc s) = true -> on_seg (sx s) q ->
    exists e q', In e out /\ g (sc e) = true /\ on_seg (sx e) q' /\ close D q q'.
  Proof.
    intros G Gi R. induction R as [D segs D0|D d e segs ms out D0 E0 L I Near Range R IH]; intros s q Is H O.
    - exists s, q. split; auto. split; auto. split; auto. apply close_refl; auto.
    - destruct (round_cover segs I ms d D0 Near g G Gi s q Is H O) as (s1 & q1 & I1 & H1 & O1 & C1). destruct (IH s1 q1 I1 H1 O1) as (e2 & q2 & I2 & H2 & O2 & C2).
      exists e2, q2. split; auto. split; auto. split; auto. eapply close_mono; [|eapply close_trans; eauto]. auto.
  Qed.
End Rounds.

Section Loop.
  Variable layout_new : Z -> Z -> nat -> option (Z -> nat).
  Hypothesis Lay : layout_ok layout_new.
  Variable query : list (nat * xseg) -> Z * Z -> Z -> list (nat * xseg).
  Hypothesis Q : query_ok query.
  Variable tree_new : Z * Z -> bool.
  Notation loop := (split_loop layout_new query tree_new).

  Theorem loop_rounds {C} {WC : WindingCount C} {WL : WCLaws C} solver : forall fuel tree r (segs out : list (segment C)), inv segs ->
    loop (S fuel) solver tree r segs = Done out -> rounds (inject_Z (drift fuel r)) segs out.
  Proof.
    assert (D0' : forall n r, (0 <= inject_Z (drift n r))%Q) by (intros; change 0%Q with (inject_Z 0); rewrite <- Zle_Qle; apply drift_pos).
    induction fuel as [|fuel IH]; intros tree r segs out I H; [|remember (S fuel) as n eqn:En]; cbn [split_loop] in H; pose proof (inv_wf_sorted _ I) as W; pose proof (sr_radius_pos r) as Hr;
      destruct (pass_spec query Q tree (sr_radius r) (map sx segs) W Hr) as [P1 P2];
      (destruct (length segs <=? (if tree then 2 else 1))%nat; [injection H as <-; constructor; auto|]);
      destruct ((if tree then tree_pass query else list_pass) (sr_radius r) (map sx segs)) as [ms rd]; cbn [fst snd] in P1, P2;
      (destruct ms as [|m0 ms0] eqn:EM; [injection H as <-; constructor; auto|]);
      rewrite <- EM in *; rewrite (step_apply layout_new Lay segs I (sr_radius r) Hr ms P1) in H by (rewrite EM; discriminate);
      pose proof (step_inv segs I (sr_radius r) Hr ms P1) as I';
      assert (Range : forall i p, In (i, p) ms -> exists s, nth_error segs i = Some s /\ p <> sa (sx s) /\ p <> sb (sx s)) by
        (intros i p Im; apply P1 in Im; apply pass_not_end in Im as (x & Hx & N); auto; apply nth_map_sx in Hx as (s & Hs & <-); eauto);
      assert (Exact : ~ pass_round (map sx segs) (sr_radius r) -> forall i s p, nth_error segs i = Some s -> In (i, p) ms -> within 0 (sa (sx s)) (sb (sx s)) (qof p)) by
        (intros R i s1 p Hs Im; apply within_on; apply (exact_inside segs I (sr_radius r) Hr ms P1 R) with (i := i); auto).
    - destruct rd; cbn [negb] in H.
      + exfalso. destruct tree; [discriminate|]. destruct (is_list_split _ _); [discriminate|]. destruct (sort_merge _); discriminate.
      + injection H as <-. apply (one_round _ 0 0 _ ms); auto; try lra; [apply Exact; intro R; apply P2 in R; discriminate|]. constructor. lra.
    - destruct rd; cbn [negb] in H.
      + subst n. cbn [drift].
        assert (K : forall t r', r' = sr_increment r -> loop (S fuel) solver t r' (sort_merge (split_pieces segs ms)) = Done out ->
           rounds (inject_Z (reach (sr_radius r) + drift fuel (sr_increment r))) segs out).
        { intros t r' -> H'. apply (one_round _ (inject_Z (reach (sr_radius r))) (inject_Z (drift fuel (sr_increment r))) _ ms); auto.
          - apply reach_pos.
          - rewrite inject_Z_plus. lra.
          - intros i s1 p Hs Im. apply (pass_near (map sx segs) (sr_radius r) i (sx s1)); auto; [apply Forall_map, I|rewrite nth_error_map, Hs; auto|apply P1; auto].
          - eapply IH; eauto. }
        destruct tree; [eapply K; eauto|]. destruct (is_list_split solver _); [eapply K; eauto|].
        destruct (sort_merge (split_pieces segs ms)) as [|s0 rest] eqn:E1; [discriminate|]. eapply K; eauto.
      + injection H as <-. subst n. apply (one_round _ 0 0 _ ms); auto; try lra; [apply Exact; intro R; apply P2 in R; discriminate|]. constructor. lra.
  Qed.
End Loop.
