(** * Consequences of the sweep: side flags, selected edges, regions, closedness. *)
From Verif Require Import Base Spec QLib PlanarGeo PlanarSum ModelSegm ModelFill ModelFilter FillProofs.
Open Scope Z_scope.

(** A planar arrangement of closed curves as the splitting stage delivers it:
    sorted, pairwise different, non-degenerate segments that only meet in common end
    points, closed for both operands. *)
Record arrangement (segs : list (segment cntB)) : Prop := {
  arr_wf : forall s, In s segs -> wf_xseg (sx s);
  arr_nodup : NoDup (map sx segs);
  arr_planar : planar (map sx segs);
  arr_sorted : StronglySorted (fun s t => xseg_leb (sx s) (sx t) = true) segs;
  arr_subj : balanced (subj_chain segs);
  arr_clip : balanced (clip_chain segs) }.

(** The point at distance [d] on the upper (for a vertical edge: left) side of an edge
    at its point [q], and on the lower (right) side. *)
Definition top_side (s : xseg) (q : qpt) (d : Q) : qpt :=
  if px (sa s) =? px (sb s) then ((fst q - d)%Q, snd q) else (fst q, (snd q + d)%Q).
Definition bottom_side (s : xseg) (q : qpt) (d : Q) : qpt :=
  if px (sa s) =? px (sb s) then ((fst q + d)%Q, snd q) else (fst q, (snd q - d)%Q).

(** ** bits *)
Lemma rule_bit_inside r w : rule_bit r w = b2n (inside r w).
Proof.
  destruct r; simpl; auto.
  - f_equal. rewrite Zmod_odd. destruct (Z.odd w); reflexivity.
  - f_equal. lia.
Qed.

Definition mkfill (st sb ct cb : bool) : fill_t :=
  N.lor (N.lor (N.lor (b2n st) (N.shiftl (b2n sb) 1)) (N.shiftl (b2n ct) 2)) (N.shiftl (b2n cb) 3).

Lemma mkfill_bits st sb ct cb :
  N.testbit (mkfill st sb ct cb) 0 = st /\ N.testbit (mkfill st sb ct cb) 1 = sb /\
  N.testbit (mkfill st sb ct cb) 2 = ct /\ N.testbit (mkfill st sb ct cb) 3 = cb.
Proof. destruct st, sb, ct, cb; repeat split; reflexivity. Qed.

Lemma aff_bool_fill r this bot : snd (add_and_fill_bool r this bot) =
  mkfill (inside r (subj bot + subj this)) (inside r (subj bot))
         (inside r (clip bot + clip this)) (inside r (clip bot)).
Proof. unfold add_and_fill_bool, mkfill. simpl. rewrite !rule_bit_inside. reflexivity. Qed.

Lemma included_mkfill r st sb ct cb :
  is_included r (mkfill st sb ct cb) = xorb (bool_op r st ct) (bool_op r sb cb).
Proof. destruct r, st, sb, ct, cb; reflexivity. Qed.

Lemma fill_top_mkfill r st sb ct cb : is_included r (mkfill st sb ct cb) = true ->
  is_fill_top r (mkfill st sb ct cb) = bool_op r st ct.
Proof. destruct r, st, sb, ct, cb; try discriminate; reflexivity. Qed.

(** ** side values *)
Definition vals (b : bool) : cntB -> Z := if b then subj else clip.

Ltac dq := repeat match goal with |- context[bz (Qltb ?a ?b)] => destruct (Qltb a b) end; reflexivity.

Section Arr.
  Variable segs : list (segment cntB).
  Hypothesis A : arrangement segs.

  Notation bs s := (botsum bool vals segs true s).
  Notation bc s := (botsum bool vals segs false s).

  Lemma arr_bal i : balanced (chain_of (vals i) segs).
  Proof. destruct i; [exact (arr_subj _ A)|exact (arr_clip _ A)]. Qed.

  Lemma xseg_leb_sa s t : xseg_leb s t = true -> pt_leb (sa s) (sa t) = true.
  Proof.
    rewrite xseg_leb_le. unfold xseg_lt, pt_leb. intros [[H|[H _]]|H].
    - apply pt_ltb_lt in H. rewrite H. reflexivity.
    - rewrite H, pt_eqb_refl. apply orb_true_r.
    - rewrite H, pt_eqb_refl. apply orb_true_r.
  Qed.

  Lemma arr_sorted_sa : StronglySorted (fun s t : segment cntB => pt_leb (sa (sx s)) (sa (sx t)) = true) segs.
  Proof.
    eapply SS_impl_in; [|exact (arr_sorted _ A)]. intros s t _ _. apply xseg_leb_sa.
  Qed.

  Lemma fill_boolean_fill r j s : nth_error segs j = Some s ->
    nth_error (fill_boolean r segs) j = Some
      (mkfill (inside r (bs s + subj (sc s))) (inside r (bs s))
              (inside r (bc s + clip (sc s))) (inside r (bc s))).
  Proof.
    intro Hj.
    destruct (fill_solve_bot (add_and_fill_bool r) bool vals) with (segs := segs) (j := j) (s := s) as (bot & E & V); auto.
    - intros [|] this bot; reflexivity.
    - intros [|]; reflexivity.
    - exact (arr_wf _ A).
    - exact (arr_nodup _ A).
    - exact (arr_planar _ A).
    - exact arr_bal.
    - exact arr_sorted_sa.
    - unfold fill_boolean. rewrite E, aff_bool_fill.
      rewrite <- (V true), <- (V false). reflexivity.
  Qed.

  Lemma fill_boolean_length r : length (fill_boolean r segs) = length segs.
  Proof. apply fill_solve_length. Qed.

  Let G i : good (chain_of (vals i) segs).
  Proof.
    constructor.
    - intros e He. apply in_map_iff in He as (s & <- & Hs). apply (arr_wf _ A); auto.
    - unfold chain_of. rewrite map_map. simpl. exact (arr_nodup _ A).
    - unfold chain_of. rewrite map_map. simpl. exact (arr_planar _ A).
  Qed.

  Lemma inside_seg_coords s q : wf_xseg s -> inside_seg s q ->
    (is_not_vertical s = true /\ (qx (sa s) < fst q)%Q /\ (fst q < qx (sb s))%Q /\ (snd q == height s (fst q))%Q) \/
    (is_not_vertical s = false /\ px (sa s) = px (sb s) /\ (fst q == qx (sa s))%Q /\ (qy (sa s) < snd q)%Q /\ (snd q < qy (sb s))%Q).
  Proof.
    intros W [On NE]. unfold is_end, q_is in NE.
    destruct (is_not_vertical s) eqn:V.
    - left. pose proof (wf_nonvert _ W V) as N. destruct (on_seg_nonvert s q N On) as (H1 & H2 & H3).
      repeat split; auto.
      + destruct (Q_dec (qx (sa s)) (fst q)) as [[K|K]|K]; auto; [lra|]. exfalso. apply NE. left. split; [lra|].
        rewrite H3, <- K, height_at_a. reflexivity.
      + destruct (Q_dec (fst q) (qx (sb s))) as [[K|K]|K]; auto; [lra|]. exfalso. apply NE. right. split; [lra|].
        rewrite H3, K. apply height_at_b. unfold nonvert in N. lra.
    - right. destruct (wf_vert _ W V) as [Vx Vy].
      assert (EX : (qx (sb s) == qx (sa s))%Q) by (unfold qx; rewrite Vx; reflexivity).
      destruct (on_seg_vert_inv s q Vx Vy On) as (H1 & H2 & H3).
      repeat split; auto.
      + destruct (Q_dec (qy (sa s)) (snd q)) as [[K|K]|K]; auto; [lra|]. exfalso. apply NE. left. split; lra.
      + destruct (Q_dec (snd q) (qy (sb s))) as [[K|K]|K]; auto; [lra|]. exfalso. apply NE. right. split; lra.
  Qed.

  Lemma wind_comp c x y x' y' : (x == x')%Q -> (y == y')%Q -> wind c (x, y) = wind c (x', y').
  Proof.
    intros Hx Hy. apply zsum_ext. intros e _.
    assert (under (fst e) (x, y) = under (fst e) (x', y')) as ->; auto.
    apply bool_eq_iff. rewrite !under_iff. simpl. rewrite Hx, Hy. tauto.
  Qed.

  (** the winding numbers on both sides of an edge *)
  Lemma side_winds i s q : In s segs -> inside_seg (sx s) q ->
    near (fun d => wind (chain_of (vals i) segs) (top_side (sx s) q d) = botsum bool vals segs i s + vals i (sc s)) /\
    near (fun d => wind (chain_of (vals i) segs) (bottom_side (sx s) q d) = botsum bool vals segs i s).
  Proof.
    intros Is Hq. pose proof (arr_wf _ A s Is) as W.
    assert (Ic : In (sx s, vals i (sc s)) (chain_of (vals i) segs)).
    { apply (in_map (fun s => (sx s, vals i (sc s)))); auto. }
    unfold top_side, bottom_side, botsum.
    destruct (inside_seg_coords _ _ W Hq) as [(V & H1 & H2 & H3)|(V & Vx & H1 & H2 & H3)]; rewrite V.
    - unfold is_not_vertical in V. apply negb_true_iff in V. rewrite V.
      assert (Ne : nonvert (sx s)) by (unfold nonvert; lra).
      destruct (wind_above _ (G i) (sx s, vals i (sc s)) (fst q) Ic Ne H1 H2) as [W1 W2]. simpl in W1, W2.
      assert (B : below (chain_of (vals i) segs) (sx s) (fst q) =
                  below (chain_of (vals i) segs) (sx s) (qx (sa (sx s)))).
      { apply (below_const _ (G i) (sx s, vals i (sc s))); auto using arr_bal.
        - simpl. apply spans_iff. lra.
        - simpl. apply spans_own; auto. }
      split; [eapply near_mono; [|exact W1]|eapply near_mono; [|exact W2]]; intros d D E; cbv beta in E; rewrite <- B, <- E;
        apply wind_comp; try reflexivity; rewrite H3; reflexivity.
    - rewrite Vx, Z.eqb_refl.
      split.
      + eapply near_mono; [|apply (wind_left _ (G i) (sx s, vals i (sc s)) (snd q)); auto using arr_bal].
        intros d D E; simpl in E. rewrite <- E. apply wind_comp; try reflexivity. rewrite H1. reflexivity.
      + eapply near_mono; [|apply (wind_right _ (G i) (sx s, vals i (sc s)) (snd q)); auto using arr_bal].
        intros d D E; simpl in E. rewrite <- E. apply wind_comp; try reflexivity. rewrite H1. reflexivity.
  Qed.

  Theorem fill_boolean_correct r j s f q :
    nth_error segs j = Some s -> nth_error (fill_boolean r segs) j = Some f -> inside_seg (sx s) q ->
    near (fun d =>
      N.testbit f 0 = inside r (wind (subj_chain segs) (top_side (sx s) q d)) /\
      N.testbit f 1 = inside r (wind (subj_chain segs) (bottom_side (sx s) q d)) /\
      N.testbit f 2 = inside r (wind (clip_chain segs) (top_side (sx s) q d)) /\
      N.testbit f 3 = inside r (wind (clip_chain segs) (bottom_side (sx s) q d))).
  Proof.
    intros Hj Hf Hq. rewrite (fill_boolean_fill r j s Hj) in Hf. injection Hf as <-.
    apply nth_error_In in Hj.
    destruct (side_winds true s q Hj Hq) as [S1 S2]. destruct (side_winds false s q Hj Hq) as [C1 C2].
    eapply near_mono; [|exact (near_and _ _ (near_and _ _ S1 S2) (near_and _ _ C1 C2))].
    intros d D [[E1 E2] [E3 E4]]. cbv beta in *. simpl vals in *.
    destruct (mkfill_bits (inside r (bs s + subj (sc s))) (inside r (bs s))
                (inside r (bc s + clip (sc s))) (inside r (bc s))) as (-> & -> & -> & ->).
    unfold subj_chain, clip_chain. rewrite E1, E2, E3, E4. auto.
  Qed.

  (** ** the selected edges *)
  Definition opv (fr : FillRule) (r : OverlayRule) (ws wc : Z) : bool := bool_op r (inside fr ws) (inside fr wc).

  Lemma opv_zero fr r : opv fr r 0 0 = false.
  Proof. destruct fr, r; reflexivity. Qed.

  (** jump of the result over an edge: +1 filled above only, -1 filled below only, 0 not selected *)
  Definition jump (fr : FillRule) (r : OverlayRule) (s : segment cntB) : Z :=
    bz (opv fr r (bs s + subj (sc s)) (bc s + clip (sc s))) - bz (opv fr r (bs s) (bc s)).

  Definition jump_chain fr r : chain := map (fun s => (sx s, jump fr r s)) segs.

  Definition xor_spans x := filter (fun s : segment cntB => spans (sx s) x) segs.

  Lemma spans_inj s t : In s segs -> In t segs -> sx s = sx t -> s = t.
  Proof. apply segs_inj. exact (arr_nodup _ A). Qed.

  (** telescoping over the edges met by a vertical line *)
  Lemma jump_sum fr r x : forall l : list (segment cntB), forall done : list (segment cntB),
    StronglySorted (fun s t : segment cntB => lt_at x (sx s) (sx t)) (done ++ l) ->
    Permutation (done ++ l) (filter (fun s => spans (sx s) x) segs) ->
    forall l1 l2, l = l1 ++ l2 ->
    zsum (jump fr r) l1 =
      bz (opv fr r (zsum (fun s => subj (sc s)) (done ++ l1)) (zsum (fun s => clip (sc s)) (done ++ l1))) -
      bz (opv fr r (zsum (fun s => subj (sc s)) done) (zsum (fun s => clip (sc s)) done)).
  Proof.
    induction l as [|s l IH]; intros done S P l1 l2 E.
    - destruct l1; [|discriminate]. rewrite app_nil_r, zsum_nil. lia.
    - destruct l1 as [|s' l1]; [rewrite app_nil_r, zsum_nil; lia|].
      injection E as <- E.
      assert (BS : forall i, botsum bool vals segs i s = zsum (fun s => vals i (sc s)) done).
      { intro i.
        assert (Hs : In s segs /\ spans (sx s) x = true).
        { assert (In s (filter (fun s => spans (sx s) x) segs)) as H.
          { eapply Permutation_in; [exact P|]. apply in_or_app; right; left; auto. }
          apply filter_In in H; auto. }
        destruct Hs as [Is Sp]. pose proof (spans_nonvert _ _ Sp) as Ns.
        unfold botsum. rewrite (nonvert_is _ Ns).
        rewrite (below_const _ (G i) (sx s, vals i (sc s)) _ x); auto using arr_bal.
        2:{ apply (in_map (fun s => (sx s, vals i (sc s)))); auto. }
        2:{ simpl. apply spans_own; auto. }
        unfold below, chain_of. rewrite zsum_map. simpl.
        transitivity (zsum (fun g => if lt_atb x (sx g) (sx s) then vals i (sc g) else 0)
                        (filter (fun s => spans (sx s) x) segs)).
        - rewrite zsum_filter. apply zsum_ext. intros g _. destruct (spans (sx g) x); reflexivity.
        - rewrite <- (zsum_perm _ _ _ P), zsum_app, zsum_cons.
          assert (lt_atb x (sx s) (sx s) = false) as ->.
          { destruct (lt_atb x (sx s) (sx s)) eqn:F; auto. apply lt_atb_iff, lt_at_irrefl in F; destruct F. }
          assert (Z1 : zsum (fun g => if lt_atb x (sx g) (sx s) then vals i (sc g) else 0) l = 0).
          { apply zsum_zero. intros t Ht.
            assert (lt_at x (sx s) (sx t)) as L.
            { clear - S Ht. induction done as [|d done IH]; simpl in S; inversion S as [|? ? S1 S2]; subst; auto.
              rewrite Forall_forall in S2; auto. }
            destruct (lt_atb x (sx t) (sx s)) eqn:F; auto. apply lt_atb_iff in F.
            exfalso. eapply lt_at_asym; eauto. }
          rewrite Z1. rewrite !Z.add_0_r. apply zsum_ext. intros t Ht.
          assert (lt_at x (sx t) (sx s)) as L.
          { clear - S Ht. induction done as [|d done IH]; [destruct Ht|].
            simpl in S; inversion S as [|? ? S1 S2]; subst. destruct Ht as [->|Ht]; auto.
            rewrite Forall_forall in S2. apply S2. apply in_or_app; right; left; auto. }
          apply lt_atb_iff in L. rewrite L. reflexivity. }
      rewrite zsum_cons. rewrite (IH (done ++ [s])) with (l1 := l1) (l2 := l2); auto.
      2:{ rewrite <- app_assoc. exact S. }
      2:{ rewrite <- app_assoc. exact P. }
      rewrite <- app_assoc. simpl app.
      rewrite !(zsum_app _ done [s]), !zsum_cons, !zsum_nil, !Z.add_0_r.
      pose proof (BS true) as B1. pose proof (BS false) as B2. simpl vals in B1, B2.
      unfold jump. rewrite B1, B2. lia.
  Qed.

  Lemma sort_spans x : exists l, Permutation l (filter (fun s => spans (sx s) x) segs) /\
    StronglySorted (fun s t : segment cntB => lt_at x (sx s) (sx t)) l.
  Proof.
    set (lb := fun s t : segment cntB => negb (lt_atb x (sx t) (sx s))).
    exists (isort lb (filter (fun s => spans (sx s) x) segs)). split; [apply isort_perm|].
    assert (LL : forall s t, lb s t = true <-> ~ lt_at x (sx t) (sx s)).
    { intros s t. unfold lb. rewrite negb_true_iff, <- lt_atb_iff. destruct (lt_atb x (sx t) (sx s)); intuition congruence. }
    set (D := fun s => In s segs /\ spans (sx s) x = true).
    assert (TOT : forall s t, D s -> D t -> s <> t -> lt_at x (sx s) (sx t) \/ lt_at x (sx t) (sx s)).
    { intros s t [Is Ss] [It St] N. apply lt_at_total; auto.
      apply (arr_planar _ A); auto using in_map. intro E. apply N. apply spans_inj; auto. }
    assert (SS : StronglySorted (fun a b => lb a b = true) (isort lb (filter (fun s => spans (sx s) x) segs))).
    { apply (isort_sorted_on _ D).
      - intros s t Ds Dt. rewrite !LL. destruct (lt_atb x (sx t) (sx s)) eqn:F.
        + apply lt_atb_iff in F. right. apply lt_at_asym; auto.
        + left. rewrite <- lt_atb_iff. congruence.
      - intros s t u Ds Dt Du. rewrite !LL. intros H1 H2 H3.
        destruct (xseg_eq_dec (sx s) (sx t)) as [E|E]; [rewrite E in *; auto|].
        destruct (TOT s t Ds Dt) as [K|K]; [congruence| |auto].
        apply H2. eapply lt_at_trans; eauto.
      - apply Forall_forall. intros s Hs. apply filter_In in Hs. exact Hs. }
    assert (ND : NoDup (isort lb (filter (fun s => spans (sx s) x) segs))).
    { eapply Permutation_NoDup; [apply Permutation_sym, isort_perm|]. apply NoDup_filter.
      eapply NoDup_map_inv, (arr_nodup _ A). }
    assert (HD : forall s, In s (isort lb (filter (fun s => spans (sx s) x) segs)) -> D s).
    { intros s Hs. apply isort_in in Hs. apply filter_In in Hs. exact Hs. }
    revert SS ND HD. generalize (isort lb (filter (fun s => spans (sx s) x) segs)). intros l SS ND HD.
    induction SS as [|s l SS IH F]; [constructor|]. inversion ND as [|? ? N1 N2]; subst.
    constructor.
    - apply IH; auto. intros t Ht. apply HD; right; auto.
    - rewrite Forall_forall in *. intros t Ht. specialize (F t Ht). apply LL in F.
      destruct (TOT s t) as [K|K]; auto; try contradiction; [apply HD; left|apply HD; right|intros ->]; auto.
  Qed.

  (** the signed result edges have winding number 1 inside the result and 0 outside *)
  Theorem jump_wind fr r q :
    wind (jump_chain fr r) q = bz (opv fr r (wind (subj_chain segs) q) (wind (clip_chain segs) q)).
  Proof.
    destruct q as [x y].
    destruct (sort_spans x) as (l & P & S).
    destruct (mono_split (fun s : segment cntB => Qltb (height (sx s) x) y) _ l S) as (l1 & l2 & E & H1 & H2).
    { intros s t _ _ L H. apply Qltb_lt. apply Qltb_lt in H. unfold lt_at in L. lra. }
    assert (SUM : forall f : segment cntB -> Z,
      zsum f l1 = zsum (fun s => if under (sx s) (x, y) then f s else 0) segs).
    { intro f. transitivity (zsum (fun s => if Qltb (height (sx s) x) y then f s else 0)
                               (filter (fun s => spans (sx s) x) segs)).
      - rewrite <- (zsum_perm _ _ _ P), E, zsum_app.
        rewrite (zsum_zero _ l2); [|intros s Hs; rewrite (H2 s Hs); auto].
        rewrite Z.add_0_r. apply zsum_ext. intros s Hs. rewrite (H1 s Hs). auto.
      - rewrite zsum_filter. apply zsum_ext. intros s _. unfold under. simpl.
        destruct (spans (sx s) x); reflexivity. }
    pose proof (jump_sum fr r x l [] S P l1 l2 E) as J. simpl app in J.
    rewrite !zsum_nil, opv_zero in J. unfold bz at 2 in J. rewrite Z.sub_0_r in J.
    unfold wind, jump_chain, subj_chain, clip_chain, chain_of. rewrite !zsum_map. simpl.
    rewrite <- !SUM. exact J.
  Qed.

  (** *** links *)
  Lemma combine_in {X Y} (l : list X) (m : list Y) x y :
    In (x, y) (combine l m) <-> exists j, nth_error l j = Some x /\ nth_error m j = Some y.
  Proof.
    revert m. induction l as [|a l IH]; intro m; simpl.
    - split; [intros []|]. intros [[|j] [H _]]; discriminate.
    - destruct m as [|b m]; simpl.
      + split; [intros []|]. intros [[|j] [_ H]]; discriminate.
      + rewrite IH. split.
        * intros [H|[j H]]; [injection H as -> ->; exists 0%nat; auto|exists (S j); auto].
        * intros [[|j] [H1 H2]]; simpl in *; [left; congruence|right; eauto].
  Qed.

  Lemma zsum_combine {X} (l : list X) (m : list fill_t) (f : X * fill_t -> Z) (g : X -> Z) : length l = length m ->
    (forall j x w, nth_error l j = Some x -> nth_error m j = Some w -> f (x, w) = g x) ->
    zsum f (combine l m) = zsum g l.
  Proof.
    revert m. induction l as [|x l IH]; intros [|w m] L H; simpl in *; try discriminate; auto.
    rewrite !zsum_cons. rewrite (H 0%nat x w) by auto. rewrite (IH m); auto.
    intros j. apply (H (S j)).
  Qed.

  Definition fillof fr (s : segment cntB) : fill_t :=
    mkfill (inside fr (bs s + subj (sc s))) (inside fr (bs s)) (inside fr (bc s + clip (sc s))) (inside fr (bc s)).

  Lemma jump_included fr r s : is_included r (fillof fr s) = negb (jump fr r s =? 0).
  Proof.
    unfold fillof, jump, opv. rewrite included_mkfill.
    destruct (bool_op r (inside fr (bs s + subj (sc s))) (inside fr (bc s + clip (sc s)))),
             (bool_op r (inside fr (bs s)) (inside fr (bc s))); reflexivity.
  Qed.

  Lemma jump_sign fr r s : is_included r (fillof fr s) = true ->
    jump fr r s = if is_fill_top r (fillof fr s) then 1 else -1.
  Proof.
    intro H. unfold fillof in *. rewrite fill_top_mkfill by auto. rewrite included_mkfill in H.
    unfold jump, opv.
    destruct (bool_op r (inside fr (bs s + subj (sc s))) (inside fr (bc s + clip (sc s)))),
             (bool_op r (inside fr (bs s)) (inside fr (bc s))); try discriminate; reflexivity.
  Qed.

  (** any linear functional over the links of the result *)
  Lemma links_sum fr r (h : xseg -> Z -> Z) : (forall s, h s 0 = 0) ->
    zsum (fun l => h (l_seg l) (if is_fill_top r (l_fill l) then 1 else -1))
         (build_links (is_included r) segs (fill_boolean fr segs)) =
    zsum (fun s => h (sx s) (jump fr r s)) segs.
  Proof.
    intro H0. unfold build_links. rewrite zsum_map, zsum_filter.
    apply zsum_combine; [symmetry; apply fill_boolean_length|].
    intros j s w Hs Hw. rewrite (fill_boolean_fill fr j s Hs) in Hw. injection Hw as <-. fold (fillof fr s).
    simpl. replace (l_seg (mk_link (s, fillof fr s))) with (sx s) by (unfold l_seg, mk_link; simpl; destruct (sx s); auto).
    destruct (is_included r (fillof fr s)) eqn:I.
    - rewrite (jump_sign fr r s I). reflexivity.
    - rewrite jump_included in I. apply negb_false_iff, Z.eqb_eq in I. rewrite I, H0. reflexivity.
  Qed.

  Definition link_chain (r : OverlayRule) (ls : list link) : chain :=
    map (fun l => (l_seg l, if is_fill_top r (l_fill l) then 1 else -1)) ls.

  Theorem region_signed fr r q :
    wind (link_chain r (build_links (is_included r) segs (fill_boolean fr segs))) q =
    bz (bool_op r (inside fr (wind (subj_chain segs) q)) (inside fr (wind (clip_chain segs) q))).
  Proof.
    pose proof (jump_wind fr r q) as JW. unfold opv in JW. rewrite <- JW. clear JW. unfold wind, link_chain, jump_chain. rewrite !zsum_map. simpl.
    apply (links_sum fr r (fun s k => if under s q then k else 0)).
    intro s. destruct (under s q); reflexivity.
  Qed.

  (** ** closedness of the result *)
  (** jump of the winding number over a vertical line, for any chain *)
  Definition clear_at (c : chain) (x y : Q) : Prop :=
    forall e, In e c -> (nonvert (fst e) -> ~ on_seg (fst e) (x, y)) /\
      (forall v, v = sa (fst e) \/ v = sb (fst e) -> ~ ((qx v == x)%Q /\ (qy v == y)%Q)).

  Definition vert_at (c : chain) (x y : Q) : Z :=
    zsum (fun e => if negb (is_not_vertical (fst e)) && Qeq_bool (qx (sa (fst e))) x &&
                      Qltb (qy (sa (fst e))) y && Qltb y (qy (sb (fst e))) then snd e else 0) c.

  Definition phi_line (x y : Q) (v : pt) : Z := bz (Qeq_bool (qx v) x && Qltb (qy v) y).

  Lemma wind_line c x y : (forall e, In e c -> wf_xseg (fst e)) -> clear_at c x y ->
    near (fun d => wind c ((x - d)%Q, y) - wind c ((x + d)%Q, y) =
      vert_at c x y + zsum (fun e => snd e * (phi_line x y (sb (fst e)) - phi_line x y (sa (fst e)))) c).
  Proof.
    intros W CL. set (phi := phi_line x y).
    assert (K : forall g, In g c -> near (fun d =>
        bz (under (fst g) ((x - d)%Q, y)) - bz (under (fst g) ((x + d)%Q, y)) =
        (phi (sb (fst g)) - phi (sa (fst g))) +
        bz (negb (is_not_vertical (fst g)) && Qeq_bool (qx (sa (fst g))) x &&
                      Qltb (qy (sa (fst g))) y && Qltb y (qy (sb (fst g)))))).
    { intros g Ig.
      assert (P1 : forall v, (qx v == x)%Q -> phi v = bz (Qltb (qy v) y)).
      { intros v H. unfold phi, phi_line. apply Qeq_bool_iff in H. rewrite H. reflexivity. }
      assert (P0 : forall v, ~ (qx v == x)%Q -> phi v = 0).
      { intros v H. unfold phi, phi_line. destruct (Qeq_bool (qx v) x) eqn:E; auto. apply Qeq_bool_iff in E. contradiction. }
      pose proof (W g Ig) as Wg. destruct (CL g Ig) as [NT NV].
      destruct (is_not_vertical (fst g)) eqn:Vg.
      - pose proof (wf_nonvert _ Wg Vg) as Ng. specialize (NT Ng).
        assert (NY : (qx (sa (fst g)) <= x)%Q -> (x <= qx (sb (fst g)))%Q -> ~ (height (fst g) x == y)%Q).
        { intros H1 H2 H3. apply NT.
          destruct (on_seg_height (fst g) x Ng) as (u & U & Ux & Uy); auto.
          exists u. simpl in *. rewrite <- H3. auto. }
        assert (S1 : (qx (sa (fst g)) <= x)%Q -> (x <= qx (sb (fst g)))%Q -> near (fun d =>
             ((height (fst g) (x - d) < y)%Q <-> (height (fst g) x < y)%Q) /\
             ((height (fst g) (x + d) < y)%Q <-> (height (fst g) x < y)%Q))).
        { intros H1 H2. specialize (NY H1 H2).
          assert (AF : forall d, (height (fst g) (x + d) == height (fst g) x + slope (fst g) * d)%Q /\
                      (height (fst g) (x - d) == height (fst g) x - slope (fst g) * d)%Q).
          { intro d. split; [rewrite (height_affine (fst g) x (x + d))|rewrite (height_affine (fst g) x (x - d))]; ring. }
          destruct (Q_dec (height (fst g) x) y) as [[H|H]|H]; [| |contradiction].
          - eapply near_mono; [|exact (near_and _ _ (near_lin _ _ (slope (fst g)) H) (near_lin _ _ (- slope (fst g)) H))].
            intros d D [L1 L2]. destruct (AF d) as [E1 E2]. rewrite E1, E2. split; split; intro; lra.
          - assert (H' : (- height (fst g) x < - y)%Q) by lra.
            eapply near_mono; [|exact (near_and _ _ (near_lin _ _ (slope (fst g)) H') (near_lin _ _ (- slope (fst g)) H'))].
            intros d D [L1 L2]. destruct (AF d) as [E1 E2]. rewrite E1, E2. split; split; intro; lra. }
        unfold nonvert in Ng. unfold under; simpl.
        assert (US : forall q b, (b = true <-> (qx (sa (fst g)) <= q /\ q < qx (sb (fst g)))%Q) -> spans (fst g) q = b).
        { intros q b H. apply bool_eq_iff. rewrite spans_iff. symmetry; auto. }
        destruct (Q_dec x (qx (sa (fst g)))) as [[H1|H1]|H1].
        + rewrite !P0 by lra.
          apply (near_mono (fun d => (x + d < qx (sa (fst g)))%Q)); [|apply near_lt; auto].
          intros d D L.
          rewrite (US (x - d)%Q false), (US (x + d)%Q false) by (split; intro; [discriminate|lra]). reflexivity.
        + destruct (Q_dec x (qx (sb (fst g)))) as [[H2|H2]|H2].
          * rewrite !P0 by lra.
            eapply near_mono; [|apply near_and; [exact (near_lt _ _ H2)|apply near_and; [exact (near_lt _ _ H1)|apply S1; lra]]].
            intros d D (L1 & L2 & L3 & L4).
            rewrite (US (x - d)%Q true), (US (x + d)%Q true) by (split; intro; [lra|reflexivity]).
            simpl.
            assert (Qltb (height (fst g) (x - d)) y = Qltb (height (fst g) (x + d)) y) as ->; [|dq].
            apply bool_eq_iff. rewrite !Qltb_lt. tauto.
          * rewrite !P0 by lra.
            apply (near_mono (fun d => (qx (sb (fst g)) + d < x)%Q)); [|apply near_lt; auto].
            intros d D L.
            rewrite (US (x - d)%Q false), (US (x + d)%Q false) by (split; intro; [discriminate|lra]). reflexivity.
          * rewrite (P0 (sa (fst g))), (P1 (sb (fst g))) by lra.
            eapply near_mono; [|apply near_and; [exact (near_lt _ _ H1)|apply S1; lra]].
            intros d D (L1 & L2 & L3).
            rewrite (US (x - d)%Q true) by (split; intro; [lra|reflexivity]).
            rewrite (US (x + d)%Q false) by (split; intro; [discriminate|lra]).
            simpl.
            assert (Hh : (height (fst g) x == qy (sb (fst g)))%Q).
            { rewrite H2. apply height_at_b. lra. }
            assert (Qltb (height (fst g) (x - d)) y = Qltb (qy (sb (fst g))) y) as ->; [|dq].
            apply bool_eq_iff. rewrite !Qltb_lt. rewrite L2, Hh. tauto.
        + rewrite (P1 (sa (fst g))), (P0 (sb (fst g))) by lra.
          assert (Lx : (x < qx (sb (fst g)))%Q) by lra.
          eapply near_mono; [|apply near_and; [exact (near_lt _ _ Lx)|apply S1; lra]].
          intros d D (L1 & L2 & L3).
          rewrite (US (x - d)%Q false) by (split; intro; [discriminate|lra]).
          rewrite (US (x + d)%Q true) by (split; intro; [lra|reflexivity]).
          simpl.
          assert (Hh : (height (fst g) x == qy (sa (fst g)))%Q).
          { rewrite H1. apply height_at_a. }
          assert (Qltb (height (fst g) (x + d)) y = Qltb (qy (sa (fst g))) y) as ->; [|dq].
          apply bool_eq_iff. rewrite !Qltb_lt. rewrite L3, Hh. tauto.
      - destruct (wf_vert _ Wg Vg) as [Vx Vy].
        apply near_all. intros d D. unfold under. rewrite !spans_vert by auto. simpl.
        assert (EX : (qx (sa (fst g)) == qx (sb (fst g)))%Q) by (unfold qx; rewrite Vx; reflexivity).
        destruct (Qeq_dec (qx (sa (fst g))) x) as [H|H].
        + rewrite !P1 by lra.
          rewrite (proj2 (Qeq_bool_iff _ _) H). simpl.
          pose proof (NV _ (or_introl eq_refl)) as N1. pose proof (NV _ (or_intror eq_refl)) as N2.
          assert (N1' : ~ (qy (sa (fst g)) == y)%Q) by tauto.
          assert (N2' : ~ (qy (sb (fst g)) == y)%Q) by (intro; apply N2; split; [lra|auto]).
          destruct (Qltb (qy (sa (fst g))) y) eqn:L1, (Qltb (qy (sb (fst g))) y) eqn:L2, (Qltb y (qy (sb (fst g)))) eqn:L3;
            rewrite ?Qltb_lt, ?Qltb_ge in *; try reflexivity; exfalso; try lra.
        + rewrite (P0 (sa (fst g))) by auto. rewrite (P0 (sb (fst g))) by (rewrite <- EX; auto).
          destruct (Qeq_bool (qx (sa (fst g))) x) eqn:F; [apply Qeq_bool_iff in F; contradiction|]. reflexivity. }
    apply near_forall in K.
    eapply near_mono; [|exact K]. intros d D H2. cbv beta in H2.
    unfold wind, vert_at. rewrite <- zsum_minus, <- zsum_plus.
    apply zsum_ext. intros g Ig. rewrite !case_bz.
    rewrite <- Z.mul_sub_distr_l, (H2 g Ig). unfold phi. ring.
  Qed.

  Lemma near_witness (P : Prop) : near (fun _ => P) -> P.
  Proof. intros (e & E & H). apply (H (e / 2)%Q).
    assert (e / 2 == e * (1#2))%Q as -> by field. lra. Qed.

  Lemma near_ex (P : Q -> Prop) : near P -> exists d, (0 < d)%Q /\ P d.
  Proof. intros (e & E & H). exists (e * (1#2))%Q. split; [lra|]. apply H. lra. Qed.

  Lemma vert_unique s t x y : In s segs -> In t segs ->
    is_not_vertical (sx s) = false -> is_not_vertical (sx t) = false ->
    (qx (sa (sx s)) == x)%Q -> (qx (sa (sx t)) == x)%Q ->
    (qy (sa (sx s)) < y < qy (sb (sx s)))%Q -> (qy (sa (sx t)) < y < qy (sb (sx t)))%Q -> s = t.
  Proof.
    intros Is It Vs Vt Es Et Hs Ht.
    destruct (xseg_eq_dec (sx s) (sx t)) as [E|N]; [apply spans_inj; auto|]. exfalso.
    destruct (wf_vert _ (arr_wf _ A s Is) Vs) as [Vx _]. destruct (wf_vert _ (arr_wf _ A t It) Vt) as [Wx _].
    destruct (arr_planar _ A (sx s) (sx t) (in_map _ _ _ Is) (in_map _ _ _ It) N (x, y)) as [F _].
    - apply on_seg_vert; auto; lra.
    - apply on_seg_vert; auto; lra.
    - unfold is_end, q_is in F. simpl in F. lra.
  Qed.

  (** on a vertical line the result jumps exactly by the vertical result edges *)
  Lemma jump_phi_zero fr r x y : clear_at (jump_chain fr r) x y ->
    zsum (fun e => snd e * (phi_line x y (sb (fst e)) - phi_line x y (sa (fst e)))) (jump_chain fr r) = 0.
  Proof.
    intro CL.
    assert (CLi : forall i, clear_at (chain_of (vals i) segs) x y).
    { intros i e He. apply in_map_iff in He as (s & <- & Hs).
      apply (CL (sx s, jump fr r s)). unfold jump_chain. apply (in_map (fun s => (sx s, jump fr r s))); auto. }
    assert (WJ : forall e, In e (jump_chain fr r) -> wf_xseg (fst e)).
    { intros e He. apply in_map_iff in He as (s & <- & Hs). apply (arr_wf _ A); auto. }
    pose proof (wind_line _ x y WJ CL) as NJ.
    pose proof (fun i => wind_line _ x y (g_wf _ (G i)) (CLi i)) as NI.
    pose proof (NI true) as NS. pose proof (NI false) as NC. clear NI.
    (* is there a vertical edge through (x,y)? *)
    set (tst := fun s : segment cntB => negb (is_not_vertical (sx s)) && Qeq_bool (qx (sa (sx s))) x &&
                      Qltb (qy (sa (sx s))) y && Qltb y (qy (sb (sx s)))).
    assert (VA : forall f : segment cntB -> Z, vert_at (map (fun s => (sx s, f s)) segs) x y =
                 zsum (fun s => if tst s then f s else 0) segs).
    { intro f. unfold vert_at. rewrite zsum_map. reflexivity. }
    assert (TST : forall s, In s segs -> tst s = true -> is_not_vertical (sx s) = false /\ (qx (sa (sx s)) == x)%Q /\
               (qy (sa (sx s)) < y < qy (sb (sx s)))%Q).
    { intros s _ H. unfold tst in H. rewrite !andb_true_iff, negb_true_iff, Qeq_bool_iff, !Qltb_lt in H. tauto. }
    destruct (existsb tst segs) eqn:EX.
    - apply existsb_exists in EX as (s & Is & Ts). destruct (TST s Is Ts) as (Vs & Es & Ys).
      assert (VS : forall f : segment cntB -> Z, zsum (fun s => if tst s then f s else 0) segs = f s).
      { intro f. pose proof (arr_nodup _ A) as ND.
        assert (U : forall t, In t segs -> tst t = true -> t = s).
        { intros t It Tt. destruct (TST t It Tt) as (Vt & Et & Yt). apply (vert_unique t s x y); auto. }
        clear - ND Is Ts U. induction segs as [|a l IH]; [destruct Is|]. rewrite zsum_cons.
        simpl in ND. inversion ND as [|? ? N1 N2]; subst. destruct Is as [->|Is].
        - rewrite Ts, zsum_zero; [lia|]. intros t Ht. destruct (tst t) eqn:T; auto.
          exfalso. apply N1. rewrite <- (U t (or_intror Ht) T). apply in_map; auto.
        - rewrite IH; auto; [|intros t Ht; apply U; right; auto].
          destruct (tst a) eqn:T; [|lia]. exfalso. apply N1. rewrite (U a (or_introl eq_refl) T). apply in_map; auto. }
      assert (INS : inside_seg (sx s) (x, y)).
      { destruct (wf_vert _ (arr_wf _ A s Is) Vs) as [Vx Vy]. split.
        - apply on_seg_vert; auto; lra.
        - unfold is_end, q_is. simpl. lra. }
      destruct (side_winds true s (x, y) Is INS) as [S1 S2]. destruct (side_winds false s (x, y) Is INS) as [C1 C2].
      destruct (wf_vert _ (arr_wf _ A s Is) Vs) as [Vx Vy].
      unfold top_side, bottom_side in S1, S2, C1, C2. rewrite Vx, Z.eqb_refl in S1, S2, C1, C2. simpl in S1, S2, C1, C2.
      destruct (near_ex _ (near_and _ _ NJ (near_and _ _ (near_and _ _ S1 S2) (near_and _ _ C1 C2)))) as (d & D & J & [[E1 E2] [E3 E4]]).
      rewrite !jump_wind in J. unfold subj_chain, clip_chain in J. rewrite E1, E2, E3, E4 in J.
      unfold jump_chain at 1 in J. rewrite VA, VS in J. unfold jump in J at 1. lia.
    - assert (T0 : forall s, In s segs -> tst s = false).
      { intros s Is. destruct (tst s) eqn:T; auto. rewrite <- EX. symmetry. apply existsb_exists. eauto. }
      assert (V0 : forall f : segment cntB -> Z, zsum (fun s => if tst s then f s else 0) segs = 0).
      { intro f. apply zsum_zero. intros s Is. rewrite (T0 s Is). auto. }
      destruct (near_ex _ (near_and _ _ NJ (near_and _ _ NS NC))) as (d & D & J & E1 & E2).
      rewrite (balanced_phi _ _ (arr_bal true)) in E1. rewrite (balanced_phi _ _ (arr_bal false)) in E2.
      unfold chain_of at 3 in E1. rewrite VA, V0 in E1. unfold chain_of at 3 in E2. rewrite VA, V0 in E2.
      unfold jump_chain at 3 in J. rewrite VA, V0 in J.
      rewrite !jump_wind in J. unfold subj_chain, clip_chain in J. simpl vals in E1, E2.
      assert (W1 : wind (chain_of subj segs) ((x - d)%Q, y) = wind (chain_of subj segs) ((x + d)%Q, y)) by lia.
      assert (W2 : wind (chain_of clip segs) ((x - d)%Q, y) = wind (chain_of clip segs) ((x + d)%Q, y)) by lia.
      rewrite W1, W2 in J. lia.
  Qed.

  Theorem jump_balanced fr r : balanced (jump_chain fr r).
  Proof.
    intro v. set (c := jump_chain fr r).
    assert (WJ : forall e, In e c -> wf_xseg (fst e)).
    { intros e He. apply in_map_iff in He as (s & <- & Hs). apply (arr_wf _ A); auto. }
    (* heights just below and just above v that no edge touches *)
    assert (K : near (fun d => clear_at c (qx v) (qy v - d)%Q /\ clear_at c (qx v) (qy v + d)%Q /\
         forall e, In e c -> forall u, u = sa (fst e) \/ u = sb (fst e) -> (qx u == qx v)%Q ->
            ((qy u < qy v - d)%Q <-> (qy u < qy v)%Q) /\ ((qy u < qy v + d)%Q <-> (qy u <= qy v)%Q))).
    { assert (ONE : forall h : Q, near (fun d => ~ (h == qy v - d)%Q /\ ~ (h == qy v + d)%Q /\
                 ((h < qy v - d)%Q <-> (h < qy v)%Q) /\ ((h < qy v + d)%Q <-> (h <= qy v)%Q))).
      { intro h. destruct (Q_dec h (qy v)) as [[H|H]|H].
        - apply (near_mono (fun d => (h + d < qy v)%Q)); [|apply near_lt; auto].
          intros d D L. repeat split; intros; lra.
        - apply (near_mono (fun d => (qy v + d < h)%Q)); [|apply near_lt; auto].
          intros d D L. repeat split; intros; lra.
        - apply near_all. intros d D. repeat split; intros; lra. }
      apply (near_mono (fun d => forall e, In e c ->
         (~ (height (fst e) (qx v) == qy v - d)%Q /\ ~ (height (fst e) (qx v) == qy v + d)%Q /\
          ((height (fst e) (qx v) < qy v - d)%Q <-> (height (fst e) (qx v) < qy v)%Q) /\ ((height (fst e) (qx v) < qy v + d)%Q <-> (height (fst e) (qx v) <= qy v)%Q)) /\
         (~ (qy (sa (fst e)) == qy v - d)%Q /\ ~ (qy (sa (fst e)) == qy v + d)%Q /\
          ((qy (sa (fst e)) < qy v - d)%Q <-> (qy (sa (fst e)) < qy v)%Q) /\ ((qy (sa (fst e)) < qy v + d)%Q <-> (qy (sa (fst e)) <= qy v)%Q)) /\
         (~ (qy (sb (fst e)) == qy v - d)%Q /\ ~ (qy (sb (fst e)) == qy v + d)%Q /\
          ((qy (sb (fst e)) < qy v - d)%Q <-> (qy (sb (fst e)) < qy v)%Q) /\ ((qy (sb (fst e)) < qy v + d)%Q <-> (qy (sb (fst e)) <= qy v)%Q)))).
      - intros d D H. split; [|split].
        + intros e He. destruct (H e He) as ((N1 & _) & (N2 & _) & (N3 & _)). split.
          * intros Ne On. destruct (on_seg_nonvert _ _ Ne On) as (_ & _ & E). simpl in E. apply N1. lra.
          * intros u [->| ->] [_ E]; [apply N2|apply N3]; lra.
        + intros e He. destruct (H e He) as ((_ & N1 & _) & (_ & N2 & _) & (_ & N3 & _)). split.
          * intros Ne On. destruct (on_seg_nonvert _ _ Ne On) as (_ & _ & E). simpl in E. apply N1. lra.
          * intros u [->| ->] [_ E]; [apply N2|apply N3]; lra.
        + intros e He u Hu _. destruct (H e He) as (_ & (_ & _ & N2 & N2') & (_ & _ & N3 & N3')).
          destruct Hu as [->| ->]; auto.
      - apply near_forall. intros e He. apply near_and; [apply ONE|apply near_and; apply ONE]. }
    destruct (near_ex _ K) as (d & D & C1 & C2 & HU).
    pose proof (jump_phi_zero fr r _ _ C1) as Z1. pose proof (jump_phi_zero fr r _ _ C2) as Z2.
    fold c in Z1, Z2.
    assert (EV : forall e u, In e c -> u = sa (fst e) \/ u = sb (fst e) ->
       bz (pt_eqb u v) = phi_line (qx v) (qy v + d) u - phi_line (qx v) (qy v - d) u).
    { intros e u He Hu. unfold phi_line.
      destruct (Qeq_bool (qx u) (qx v)) eqn:EX.
      - apply Qeq_bool_iff in EX. destruct (HU e He u Hu EX) as [H1 H2]. simpl.
        destruct (pt_eqb u v) eqn:E.
        + apply pt_eqb_eq in E. subst u.
          assert (Qltb (qy v) (qy v + d) = true) as -> by (apply Qltb_lt; lra).
          assert (Qltb (qy v) (qy v - d) = false) as -> by (apply Qltb_ge; lra). reflexivity.
        + apply pt_eqb_neq in E.
          assert (~ (qy u == qy v)%Q).
          { intro EY. apply E. apply pt_ext; [exact (proj1 (qz_eq _ _) EX)|exact (proj1 (qz_eq _ _) EY)]. }
          assert (Qltb (qy u) (qy v + d) = Qltb (qy u) (qy v - d)) as ->; [|unfold bz at 1; lia].
          apply bool_eq_iff. rewrite !Qltb_lt. rewrite H1, H2. split; intro; [|lra].
          destruct (Q_dec (qy u) (qy v)) as [[L|L]|L]; auto; [lra|contradiction].
      - simpl. destruct (pt_eqb u v) eqn:E; auto. apply pt_eqb_eq in E. subst u.
        exfalso. assert (Qeq_bool (qx v) (qx v) = true) by (apply Qeq_bool_iff; reflexivity). congruence. }
    unfold boundary.
    transitivity (zsum (fun e => snd e * (phi_line (qx v) (qy v + d) (sb (fst e)) - phi_line (qx v) (qy v + d) (sa (fst e)))) c
                - zsum (fun e => snd e * (phi_line (qx v) (qy v - d) (sb (fst e)) - phi_line (qx v) (qy v - d) (sa (fst e)))) c); [|lia].
    rewrite <- zsum_minus. apply zsum_ext. intros e He.
    rewrite (EV e (sb (fst e))), (EV e (sa (fst e))) by auto. ring.
  Qed.

  Theorem links_balanced fr r :
    balanced (link_chain r (build_links (is_included r) segs (fill_boolean fr segs))).
  Proof.
    intro v. rewrite <- (jump_balanced fr r v). unfold boundary, link_chain, jump_chain. rewrite !zsum_map. simpl.
    apply (links_sum fr r (fun s k => k * (bz (pt_eqb (sb s) v) - bz (pt_eqb (sa s) v)))).
    intro s. lia.
  Qed.
End Arr.
