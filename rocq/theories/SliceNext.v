(** * The move chosen while slicing: the first possible one in the rotation. *)
From Verif Require Import Base Spec QLib SegmProofs PlanarGeo PlanarSum FillProofs FillCorrect ModelGraph GraphProofs ModelExtract ExtractProofs Rotation NextLink MoveLemma SectorLemma Sides WalkSides ModelSlice.
Open Scope Z_scope.

(** ** bits *)
Definition bit_of (s : bool) : fill_t := if s then SUBJ_TOP else SUBJ_BOTTOM.
Definition av (fills : list fill_t) (t : nat * bool) : bool := negb (N.land (fill_at fills (fst t)) (bit_of (snd t)) =? 0)%N.
Definition okf (fills : list fill_t) : Prop := forall i, In (fill_at fills i) [0; 1; 2; 3]%N.

Lemma fill_at_upd f fills i j : (i < length fills)%nat -> fill_at (upd i f fills) j = if (j =? i)%nat then f (fill_at fills j) else fill_at fills j.
Proof.
  revert i j. induction fills as [|x r IH]; intros i j H; [simpl in H; lia|]. unfold fill_at in *.
  destruct i as [|i], j as [|j]; simpl in *; auto. apply IH. lia.
Qed.

Section Next.
  Variable g : graph.
  Variable pts : list pt.
  Hypothesis G : graph_wf g pts.
  Hypothesis P : links_planar (g_links g).
  Hypothesis NDp : NoDup pts.
  Notation links := (g_links g).
  Notation nodes := (g_nodes g).
  Notation valid := (valid g).
  Notation at_node := (at_node g).
  Notation na := (na g).
  Notation nb := (nb g).
  Notation lk := (lk g).
  Notation pn := (pn pts).
  Notation nd := (nd g pts).

  Lemma direct i : valid i -> pt_ltb (l_a (lk i)) (l_b (lk i)) = true.
  Proof. intro V. pose proof (lp_wf _ P i _ (lk_nth g i V)) as W. unfold wf_xseg in W. simpl in W. apply pt_ltb_lt. exact W. Qed.

  (** a side is a link with one of its two sides; the walk with flag [cw] runs along the upper side from the lesser end if [cw], from the greater end otherwise *)
  Definition tn (cw : bool) (t : nat * bool) : nat := if Bool.eqb cw (snd t) then na (fst t) else nb (fst t).
  Definition hn (cw : bool) (t : nat * bool) : nat := tn (negb cw) t.
  (** the side of link [i] that leaves node [v], the side that enters it *)
  Definition out_side (cw : bool) (v i : nat) : nat * bool := (i, Bool.eqb cw (na i =? v)%nat).
  Definition in_side (cw : bool) (v i : nat) : nat * bool := out_side (negb cw) v i.

  Lemma tn_hn cw t : valid (fst t) -> tn cw t <> hn cw t.
  Proof. intro V. destruct (node_pts g pts G (fst t) V) as (_ & _ & N). unfold hn, tn. destruct cw, (snd t); simpl; auto. Qed.
  Lemma at_tn cw t : at_node (tn cw t) (fst t).
  Proof. unfold tn, WalkSides.at_node. destruct (Bool.eqb cw (snd t)); auto. Qed.
  Lemma at_hn cw t : at_node (hn cw t) (fst t).
  Proof. apply at_tn. Qed.
  Lemma tn_out cw v i : valid i -> at_node v i -> tn cw (out_side cw v i) = v.
  Proof.
    intros V A. unfold tn, out_side. cbn [fst snd]. destruct (node_pts g pts G i V) as (_ & _ & N).
    destruct (Nat.eqb_spec (na i) v) as [E|E]; [destruct cw; simpl; auto|]. destruct A as [A|A]; [congruence|]. destruct cw; simpl; auto.
  Qed.
  Lemma hn_in cw v i : valid i -> at_node v i -> hn cw (in_side cw v i) = v.
  Proof. intros V A. unfold hn, in_side. apply tn_out; auto. Qed.
  Lemma out_tn cw t v : valid (fst t) -> tn cw t = v -> t = out_side cw v (fst t).
  Proof.
    intros V E. destruct t as [i s]. unfold out_side, tn in *. cbn [fst snd] in *. destruct (node_pts g pts G i V) as (_ & _ & N). subst v. f_equal.
    destruct cw, s; simpl; rewrite ?Nat.eqb_refl, ?(proj2 (Nat.eqb_neq _ _) N); auto.
  Qed.
  Lemma in_hn cw t v : valid (fst t) -> hn cw t = v -> t = in_side cw v (fst t).
  Proof. apply out_tn. Qed.
  Lemma in_out cw v i : in_side cw v i = (i, negb (snd (out_side cw v i))).
  Proof. unfold in_side, out_side. cbn [snd]. f_equal. destruct cw, (_ =? _)%nat; auto. Qed.

  Lemma possible_av fills cw v i : okf fills -> valid i -> at_node v i -> possible g fills v cw i = av fills (out_side cw v i).
  Proof.
    intros O V A. unfold possible. rewrite (lk_nth g i V). unfold is_move_possible, av, out_side. cbn [fst snd]. rewrite (direct i V). fold (na i).
    specialize (O i). destruct O as [E|[E|[E|[E|[]]]]]; rewrite <- E; destruct cw, (na i =? v)%nat; reflexivity.
  Qed.
  Lemma visit_av fills cw v i t : okf fills -> valid i -> at_node v i -> length fills = length links ->
    let fills' := upd i (fun f => visit_fill (lk i) f v cw) fills in
    okf fills' /\ length fills' = length links /\ av fills' t = av fills t && negb ((fst t =? i)%nat && Bool.eqb (snd t) (snd (out_side cw v i))).
  Proof.
    intros O V A Ln fills'. assert (Li : (i < length fills)%nat) by (rewrite Ln; exact V).
    assert (Vf : forall f, visit_fill (lk i) f v cw = N.ldiff f (bit_of (snd (out_side cw v i)))).
    { intro f. unfold visit_fill, out_side. cbn [snd]. rewrite (direct i V). fold (na i). destruct cw, (na i =? v)%nat; reflexivity. }
    split; [|split].
    - intro j. unfold fills'. rewrite fill_at_upd by auto. rewrite Vf. pose proof (O j) as Oj. destruct (j =? i)%nat; auto.
      destruct Oj as [E|[E|[E|[E|[]]]]]; rewrite <- E; destruct (snd (out_side cw v i)); vm_compute; auto.
    - unfold fills'. rewrite upd_length. auto.
    - unfold av, fills'. rewrite fill_at_upd by auto. rewrite Vf. pose proof (O (fst t)) as Oj. destruct (fst t =? i)%nat; [|rewrite andb_true_r; auto].
      destruct Oj as [E|[E|[E|[E|[]]]]]; rewrite <- E; destruct (snd (out_side cw v i)), (snd t); reflexivity.
  Qed.

  Lemma next_move_spec fills i v cw ids :
    let Q := fun u => negb (u =? i)%nat && possible g fills v cw u in
    match next_move g fills i v cw ids with
    | None => filter Q ids = []
    | Some (f, r) => filter Q ids = f :: filter Q r /\ exists pre, ids = pre ++ f :: r
    end.
  Proof.
    intro Q. induction ids as [|u ids IH]; [reflexivity|]. cbn [next_move filter].
    assert (Qu : Q u = negb (u =? i)%nat && possible g fills v cw u) by reflexivity. rewrite Qu. destruct (u =? i)%nat; cbn [negb andb].
    - destruct (next_move g fills i v cw ids) as [[f r]|]; auto. destruct IH as (E & pre & ->). split; auto. exists (u :: pre). reflexivity.
    - destruct (possible g fills v cw u).
      + split; auto. exists []. reflexivity.
      + destruct (next_move g fills i v cw ids) as [[f r]|]; auto. destruct IH as (E & pre & ->). split; auto. exists (u :: pre). reflexivity.
  Qed.

  Lemma nearest_skip k c a cw i l : nth_error links i = Some l -> l_other l k = a -> forall ids b id, (forall u, In u ids -> nth_error links u <> None) ->
    nearest_loop g k ids (NV c a b (more (rf cw) (vsub a c) (vsub b c)) id cw) =
    nearest_loop g k (filter (fun u => negb (u =? i)%nat) ids) (NV c a b (more (rf cw) (vsub a c) (vsub b c)) id cw).
  Proof.
    intros Hl Ho. induction ids as [|u ids IH]; intros b id Ok; auto. cbn [filter]. destruct (Nat.eqb_spec u i) as [->|N].
    - cbn [negb nearest_loop]. rewrite Hl, Ho. destruct (nv_add_more c a b id cw a i) as (b' & id' & -> & [(-> & -> & _)|(_ & _ & B)]).
      + apply IH. intros; apply Ok; right; auto.
      + exfalso. unfold before, more in B. rewrite vx_self in B. simpl in B. destruct B as [[B _]|[B1 B2]]; [discriminate|].
        symmetry in B1. apply Z.leb_le in B1. lia.
    - cbn [negb nearest_loop]. destruct (nth_error links u) as [m|] eqn:Hu; [|destruct (Ok u (or_introl eq_refl)); auto].
      destruct (nv_add_more c a b id cw (l_other m k) u) as (b' & id' & -> & _). apply IH. intros; apply Ok; right; auto.
  Qed.

  Lemma slice_next_first i v cw n fills j : nth_error nodes v = Some n -> valid i -> at_node v i ->
    valid j -> at_node v j -> j <> i -> possible g fills v cw j = true ->
    (forall u, valid u -> at_node v u -> u <> i -> u <> j -> possible g fills v cw u = true -> before (rf cw) (nd v i) (nd v j) (nd v u)) ->
    slice_next g i v cw (node_links n) fills = Some j.
  Proof.
    intros Hn Vi Ai Vj Aj Nji Pj Fst. destruct (gw_node _ _ G v n Hn) as [ND M].
    assert (In_ : forall u, In u (node_links n) <-> valid u /\ at_node v u).
    { intro u. rewrite M. split.
      - intros (l & Hl & E). apply lk_eq in Hl as [E' V]. split; auto. unfold WalkSides.at_node, WalkSides.na, WalkSides.nb. rewrite E'. auto.
      - intros [V A]. exists (lk u). split; [apply lk_nth; auto|exact A]. }
    set (ids := node_links n) in *. set (Q := fun u => negb (u =? i)%nat && possible g fills v cw u).
    assert (FQ : forall u, In u (filter Q ids) <-> valid u /\ at_node v u /\ u <> i /\ possible g fills v cw u = true).
    { intro u. unfold Q. rewrite filter_In, In_, andb_true_iff, negb_true_iff, Nat.eqb_neq. tauto. }
    assert (NDf : NoDup (filter Q ids)) by (apply NoDup_filter; auto).
    assert (Fj : In j (filter Q ids)) by (apply FQ; auto).
    unfold slice_next. pose proof (next_move_spec fills i v cw ids) as N1. fold Q in N1. cbv zeta in N1.
    destruct (next_move g fills i v cw ids) as [[f r]|]; [|rewrite N1 in Fj; destruct Fj].
    destruct N1 as [E1 (pre & Epre)]. pose proof (next_move_spec fills i v cw r) as N2. fold Q in N2. cbv zeta in N2.
    destruct (next_move g fills i v cw r) as [[s r2]|].
    2:{ rewrite E1, N2 in Fj. destruct Fj as [->|[]]. auto. }
    destruct N2 as [E2 (pre2 & Epre2)]. rewrite E2 in E1.
    assert (Ff : In f (filter Q ids)) by (rewrite E1; simpl; auto). apply FQ in Ff as (Vf & Af & Nf & Pf).
    rewrite (lk_nth g i Vi), (lk_nth g f Vf).
    assert (Eca : (if (l_aid (lk i) =? v)%nat then (l_a (lk i), l_b (lk i)) else (l_b (lk i), l_a (lk i))) = (pn v, l_other (lk i) v)).
    { unfold l_other. pose proof (pn_a g pts G i Vi) as A1. pose proof (pn_b g pts G i Vi) as B1. destruct (Nat.eqb_spec (l_aid (lk i)) v) as [E|E].
      - f_equal. rewrite <- E. exact (eq_sym A1).
      - f_equal. destruct Ai as [Ai|Ai]; [exfalso; apply E; exact Ai|]. rewrite <- Ai. exact (eq_sym B1). }
    rewrite Eca, nv_new_more.
    set (rest := s :: filter (possible g fills v cw) r2).
    assert (R0 : forall u, In u rest -> In u ids).
    { intros u I. rewrite Epre, Epre2. apply in_or_app. right. right. apply in_or_app. right. destruct I as [->|I]; [left; auto|right]. apply filter_In in I. tauto. }
    rewrite (nearest_skip v (pn v) (l_other (lk i) v) cw i (lk i)); auto using lk_nth.
    2:{ intros u I. apply R0, In_ in I as [V _]. rewrite (lk_nth g u V). discriminate. }
    assert (E3 : filter (fun u => negb (u =? i)%nat) rest = s :: filter Q r2).
    { unfold rest. assert (Fs : In s (filter Q ids)) by (rewrite E1; simpl; auto). apply FQ in Fs as (_ & _ & Ns & _). cbn [filter]. rewrite (proj2 (Nat.eqb_neq _ _) Ns). cbn [negb]. f_equal.
      clear. induction r2 as [|x r IH]; auto. unfold Q in *. cbn [filter]. destruct (possible g fills v cw x); cbn [filter]; [|rewrite andb_false_r; auto].
      destruct (x =? i)%nat; cbn [negb andb]; auto. f_equal. auto. }
    rewrite E3.
    assert (Dn : forall u, valid u -> at_node v u -> dirn g v (pn v) u = nd v u) by (intros u Vu Au; exact (dirn_dir g pts G NDp v u Vu Au)).
    assert (Di : nd v i = vsub (l_other (lk i) v) (pn v)).
    { rewrite <- Dn by auto. unfold dirn. rewrite (lk_nth g i Vi). auto. }
    destruct (nearest_loop_first g v (pn v) (l_other (lk i) v) cw) with (D := fun z => In z (filter Q ids)) (ids := s :: filter Q r2) (id := f) (b := l_other (lk f) v)
      as (w & E & B & Fi).
    - rewrite <- Di. apply (nd_nz g pts G P); auto.
    - intros z I. apply FQ in I as (Vz & Az & Nz & _). split; [exists (lk z); apply lk_nth; auto|]. rewrite Dn, <- Di by auto. split; [apply (nd_nz g pts G P); auto|apply (nd_sep g pts G P); auto].
    - intros z z' I I' N. apply FQ in I as (Vz & Az & Nz & _). apply FQ in I' as (Vz' & Az' & Nz' & _). rewrite !Dn by auto. apply (nd_sep g pts G P); auto.
    - rewrite E1. apply Forall_forall. intros z I. right. auto.
    - rewrite E1. left; auto.
    - rewrite E1 in NDf. inversion NDf; auto.
    - rewrite E1 in NDf. inversion NDf; auto.
    - unfold dirn. rewrite (lk_nth g f Vf). auto.
    - rewrite E. simpl. f_equal. rewrite E1 in Fj.
      destruct (Nat.eq_dec (nv_best w) j) as [|Nw]; auto. exfalso.
      assert (Iw : In (nv_best w) (filter Q ids)) by (rewrite E1; destruct B as [->|B]; [left; auto|right; auto]).
      apply FQ in Iw as (Vw & Aw & Nwi & Pw).
      assert (Bj : before (rf cw) (nd v i) (nd v (nv_best w)) (nd v j)).
      { rewrite Di, <- (Dn j), <- (Dn (nv_best w)) by auto. apply Fi; auto. destruct Fj as [->|Fj]; [left; auto|right; auto]. }
      exact (before_asym _ _ _ _ Bj (Fst _ Vw Aw Nwi Nw Pw)).
  Qed.
  Lemma slice_next_back i v cw n fills : nth_error nodes v = Some n ->
    (forall u, valid u -> at_node v u -> u <> i -> possible g fills v cw u = false) -> possible g fills v cw i = true ->
    slice_next g i v cw (node_links n) fills = Some i.
  Proof.
    intros Hn No Pi. destruct (gw_node _ _ G v n Hn) as [ND M]. unfold slice_next.
    pose proof (next_move_spec fills i v cw (node_links n)) as N1. cbv zeta in N1. destruct (next_move g fills i v cw (node_links n)) as [[f r]|]; [|rewrite Pi; auto].
    exfalso. destruct N1 as [E _]. assert (I : In f (filter (fun u => negb (u =? i)%nat && possible g fills v cw u) (node_links n))) by (rewrite E; left; auto).
    apply filter_In in I as [I Q]. apply andb_true_iff in Q as [N Q]. apply negb_true_iff, Nat.eqb_neq in N.
    apply M in I as (l & Hl & El). apply lk_eq in Hl as [E' V]. assert (A : at_node v f) by (unfold WalkSides.at_node, WalkSides.na, WalkSides.nb; rewrite E'; auto).
    rewrite (No f V A N) in Q. discriminate.
  Qed.
End Next.
