(** * The walks of a slice: consecutive sides, termination, every side once. *)
From Verif Require Import Base Spec QLib SegmProofs PlanarGeo PlanarSum FillProofs FillCorrect ModelGraph GraphProofs ModelExtract ExtractProofs Rotation NextLink MoveLemma SectorLemma Sides WalkSides ModelSlice SliceNext.
Open Scope Z_scope.

Lemma zsum_single (e : xseg) (c : Z) l : NoDup l -> In e l -> zsum (fun y => if xseg_eq_dec y e then c else 0) l = c.
Proof.
  induction l as [|x l IH]; intros ND I; [destruct I|]. inversion ND; subst. rewrite zsum_cons. destruct (xseg_eq_dec x e) as [->|N].
  - rewrite zsum_zero; [lia|]. intros y Iy. destruct (xseg_eq_dec y e) as [->|]; auto. contradiction.
  - rewrite IH; auto. destruct I; [congruence|auto].
Qed.

Lemma nodup_join {A} (l m : list A) : NoDup l -> NoDup m -> (forall z, In z l -> In z m -> False) -> NoDup (l ++ m).
Proof.
  intros N M D. induction l as [|x l IH]; simpl; auto. inversion N; subst. constructor; [|apply IH; auto; intros z I J; apply (D z); simpl; auto].
  rewrite in_app_iff. intros [I|I]; auto. apply (D x); simpl; auto.
Qed.

Section Slice.
  Variable g : graph.
  Variable pts : list pt.
  Hypothesis G : graph_wf g pts.
  Hypothesis P : links_planar (g_links g).
  Hypothesis NDp : NoDup pts.
  Variable F0 : list fill_t.
  Hypothesis O0 : okf F0.
  Hypothesis L0 : length F0 = length (g_links g).
  Notation links := (g_links g).
  Notation nodes := (g_nodes g).
  Notation valid := (valid g).
  Notation at_node := (at_node g).
  Notation na := (na g).
  Notation nb := (nb g).
  Notation lk := (lk g).
  Notation pn := (pn pts).
  Notation nd := (nd g pts).
  Notation seg := (seg g).
  Notation ges := (ges g).
  Notation tn := (tn g).
  Notation hn := (hn g).
  Notation top k i := (top ges k (seg i)).
  Notation bot k i := (bot ges k (seg i)).
  Notation ch := (ch ges).

  (** the links that take part *)
  Definition used (u : nat) : Prop := valid u /\ fill_at F0 u <> 0%N.
  Lemma used_valid u : used u -> valid u. Proof. intros [V _]. exact V. Qed.
  Lemma used_dec u : {used u} + {~ used u}.
  Proof.
    unfold used, WalkSides.valid. destruct (lt_dec u (length links)); [|right; tauto]. destruct (N.eq_dec (fill_at F0 u) 0); [right; tauto|left; auto].
  Qed.
  Lemma av_used t : av F0 t = true -> used (fst t).
  Proof.
    intro A. unfold av in A. apply negb_true_iff, N.eqb_neq in A.
    assert (N0 : fill_at F0 (fst t) <> 0%N) by (intro E; rewrite E in A; apply A; reflexivity).
    split; auto. destruct (lt_dec (fst t) (length links)) as [L|L]; auto. exfalso. apply N0. unfold fill_at. apply nth_overflow. lia.
  Qed.

  (** [t] follows [s] in a walk with flag [cw] *)
  Definition corner (cw : bool) (s t : nat * bool) : Prop :=
    used (fst s) /\ used (fst t) /\ tn cw t = hn cw s /\
    ((fst t = fst s /\ forall u, used u -> at_node (hn cw s) u -> u = fst s) \/
     (fst t <> fst s /\ forall u, used u -> at_node (hn cw s) u -> u <> fst s -> u <> fst t ->
        before (rf cw) (nd (hn cw s) (fst s)) (nd (hn cw s) (fst t)) (nd (hn cw s) u))).

  Lemma prod_dec (s t : nat * bool) : {s = t} + {s <> t}.
  Proof. decide equality; [apply bool_dec|apply Nat.eq_dec]. Qed.
  Lemma side_eq (s t : nat * bool) : fst s = fst t -> snd s = snd t -> s = t.
  Proof. destruct s, t; simpl; congruence. Qed.
  Lemma corner_ex cw s : used (fst s) -> exists t, corner cw s t.
  Proof.
    intro U. pose proof (used_valid _ U) as V. set (v := hn cw s). set (i := fst s).
    set (l := filter (fun u => (if used_dec u then true else false) && negb (u =? i)%nat && ((na u =? v)%nat || (nb u =? v)%nat)) (seq 0 (length links))).
    assert (L : forall u, In u l <-> used u /\ u <> i /\ at_node v u).
    { intro u. unfold l, WalkSides.at_node. rewrite filter_In, in_seq, !andb_true_iff, orb_true_iff, negb_true_iff, Nat.eqb_neq, !Nat.eqb_eq.
      destruct (used_dec u) as [H|H]; [pose proof (used_valid _ H) as Vu; unfold WalkSides.valid in Vu|]; intuition (try lia; try discriminate). }
    destruct (Nat.eq_dec (length l) 0) as [E|NE].
    - exists (out_side g cw v i). assert (At : at_node v i) by apply at_hn. unfold corner. cbn [out_side fst]. split; auto. split; auto.
      split; [apply (tn_out g pts G); auto|]. left. split; auto. intros u Uu Au. destruct (Nat.eq_dec u i) as [|N]; auto. exfalso.
      assert (I : In u l) by (apply L; auto). destruct l; [destruct I|discriminate].
    - destruct (pick_first (rf cw) (nd v i) (nd v) l (rf_cases cw)) as (e & Ie & M).
      { apply (nd_nz g pts G P); auto. apply at_hn. }
      { intros ->. auto. }
      { intros y Iy. apply L in Iy as (Uy & Ny & Ay). pose proof (used_valid _ Uy). split; [apply (nd_nz g pts G P); auto|apply (nd_sep g pts G P); auto; apply at_hn]. }
      { intros y z Iy Iz N. apply L in Iy as (Uy & Ny & Ay). apply L in Iz as (Uz & Nz & Az). apply (nd_sep g pts G P); auto using used_valid. }
      apply L in Ie as Ie'. destruct Ie' as (Ue & Ne & Ae). exists (out_side g cw v e). unfold corner. cbn [out_side fst]. split; auto. split; auto.
      split; [apply (tn_out g pts G); auto using used_valid|]. right. split; auto. intros u Uu Au N1 N2. apply M; auto. apply L. auto.
  Qed.
  Lemma corner_fun cw s t t' : corner cw s t -> corner cw s t' -> t = t'.
  Proof.
    intros (U & Ut & E & C) (_ & Ut' & E' & C'). pose proof (used_valid _ Ut) as Vt. pose proof (used_valid _ Ut') as Vt'.
    assert (K : fst t = fst t').
    { assert (A : at_node (hn cw s) (fst t)) by (rewrite <- E; apply at_tn). assert (A' : at_node (hn cw s) (fst t')) by (rewrite <- E'; apply at_tn).
      destruct C as [[C1 C2]|[C1 C2]], C' as [[C1' C2']|[C1' C2']].
      - congruence.
      - exfalso. apply C1'. apply C2; auto.
      - exfalso. apply C1. apply C2'; auto.
      - destruct (Nat.eq_dec (fst t) (fst t')) as [|N]; auto. exfalso.
        apply (before_asym _ _ _ _ (C2 _ Ut' A' C1' (fun X => N (eq_sym X)))). apply C2'; auto. }
    rewrite (out_tn g pts G cw t _ Vt E), (out_tn g pts G cw t' _ Vt' E'), K. auto.
  Qed.
  Lemma tn_neg cw t : tn (negb cw) t = hn cw t. Proof. reflexivity. Qed.
  Lemma hn_neg cw t : hn (negb cw) t = tn cw t. Proof. unfold SliceNext.hn. rewrite negb_involutive. auto. Qed.
  Lemma corner_dual cw s t : corner cw s t -> corner (negb cw) t s.
  Proof.
    intros (U & Ut & E & C). pose proof (used_valid _ U) as V. pose proof (used_valid _ Ut) as Vt.
    split; auto. split; auto. split; [rewrite tn_neg, hn_neg; auto|]. rewrite hn_neg, E.
    assert (As : at_node (hn cw s) (fst s)) by apply at_hn. assert (At : at_node (hn cw s) (fst t)) by (rewrite <- E; apply at_tn).
    destruct C as [[C1 C2]|[C1 C2]]; [left; split; [congruence|intros u Uu Au; rewrite C1; auto]|right].
    split; [congruence|]. intros u Uu Au N1 N2. set (v := hn cw s) in *. pose proof (used_valid _ Uu) as Vu.
    assert (Sep : forall x y, valid x -> valid y -> at_node v x -> at_node v y -> x <> y -> ~ same_ray (nd v x) (nd v y)) by (intros; apply (nd_sep g pts G P); auto).
    assert (Nz : forall x, valid x -> at_node v x -> nd v x <> (0, 0)) by (intros; apply (nd_nz g pts G P); auto).
    destruct (before_total (rf (negb cw)) (rf_cases _) (nd v (fst t)) (Nz _ Vt At) (nd v (fst s)) (nd v u)) as [B|B]; auto.
    - split; auto.
    - split; auto.
    - exfalso. apply (before_between _ (rf_cases _) _ (Nz _ Vt At)) in B; [|split; auto|split; auto|auto].
      assert (B' : before (rf cw) (nd v (fst s)) (nd v u) (nd v (fst t))).
      { apply (before_between _ (rf_cases _) _ (Nz _ V As)); [split; auto|split; auto|auto|]. unfold Rotation.between in *. destruct cw; exact B. }
      exact (before_asym _ _ _ _ (C2 u Uu Au N2 N1) B').
  Qed.
  Lemma corner_inj cw s s' t : corner cw s t -> corner cw s' t -> s = s'.
  Proof. intros H H'. apply corner_dual in H, H'. eapply corner_fun; eauto. Qed.
  Lemma corner_ne cw s t : corner cw s t -> s <> t.
  Proof. intros (U & _ & E & _) ->. exact (tn_hn g pts G cw t (used_valid _ U) E). Qed.

  (** ** values on the sides *)
  Definition dsv (k : xseg -> Z) (t : nat * bool) : Z := if snd t then top k (fst t) else bot k (fst t).
  Lemma side_tn cw k t : valid (fst t) -> side_at ges k (pn (tn cw t)) (rf cw) (seg (fst t)) = dsv k t.
  Proof.
    intro V. destruct t as [i s]. unfold side_at. rewrite (sa_node g pts G NDp _ _ V (at_tn g cw (i, s))), (rf_b cw). unfold dsv, SliceNext.tn. cbn [fst snd] in *.
    destruct (node_pts g pts G i V) as (_ & _ & N). destruct cw, s; cbn [Bool.eqb]; rewrite ?Nat.eqb_refl, ?(proj2 (Nat.eqb_neq _ _) N); auto.
  Qed.
  Lemma side_hn cw k t : valid (fst t) -> side_at ges k (pn (hn cw t)) (- rf cw) (seg (fst t)) = dsv k t.
  Proof. intro V. rewrite <- (side_tn (negb cw) k t V). unfold SliceNext.hn. destruct cw; reflexivity. Qed.

  Lemma degree_one k v i : balanced (ch k) -> valid i -> at_node v i -> (forall u, valid u -> k (seg u) <> 0 -> at_node v u -> u = i) -> k (seg i) = 0.
  Proof.
    intros B V A H. specialize (B (pn v)). unfold boundary, SectorLemma.ch in B. rewrite zsum_map in B. cbn [fst snd] in B.
    rewrite (zsum_ext _ (fun y => if xseg_eq_dec y (seg i) then k (seg i) * (bz (pt_eqb (sb (seg i)) (pn v)) - bz (pt_eqb (sa (seg i)) (pn v))) else 0)) in B.
    - rewrite (zsum_single (seg i)) in B; [|apply (am_nodup _ (g_ambient g P))|apply seg_in; auto].
      pose proof (sa_node g pts G NDp v i V A) as Ea. pose proof (am_wf _ (g_ambient g P) _ (seg_in g i V)) as W.
      destruct (pt_eqb (sa (seg i)) (pn v)) eqn:E1, (pt_eqb (sb (seg i)) (pn v)) eqn:E2; cbn [bz] in B; try lia.
      + apply pt_eqb_eq in E1, E2. exfalso. unfold wf_xseg in W. rewrite E1, E2 in W. eapply pt_lt_irrefl; exact W.
      + exfalso. destruct A as [A|A].
        * rewrite <- A, (pn_a g pts G i V), pt_eqb_refl in E1. discriminate.
        * rewrite <- A, (pn_b g pts G i V), pt_eqb_refl in E2. discriminate.
    - intros y Iy. apply in_seg in Iy as (u & Vu & ->). destruct (xseg_eq_dec (seg u) (seg i)) as [E|N]; [rewrite E; auto|].
      destruct (Z.eq_dec (k (seg u)) 0) as [Z|NZ]; [rewrite Z; lia|].
      assert (Nv : ~ at_node v u) by (intro Au; apply N; f_equal; apply H; auto).
      assert (Nv' : ~ at_v (pn v) (seg u)) by (intro X; apply Nv; apply (at_v_node g pts G NDp v u i); auto).
      destruct (pt_eqb (sa (seg u)) (pn v)) eqn:E1; [exfalso; apply Nv'; left; apply pt_eqb_eq; auto|].
      destruct (pt_eqb (sb (seg u)) (pn v)) eqn:E2; [exfalso; apply Nv'; right; apply pt_eqb_eq; auto|]. cbn [bz]. lia.
  Qed.
  Lemma dsv_corner cw k s t : balanced (ch k) -> (forall u, valid u -> k (seg u) <> 0 -> used u) -> corner cw s t -> dsv k s = dsv k t.
  Proof.
    intros B K (U & Ut & E & C). pose proof (used_valid _ U) as V. pose proof (used_valid _ Ut) as Vt.
    rewrite <- (side_hn cw k s V), <- (side_tn cw k t Vt), E.
    assert (As : at_node (hn cw s) (fst s)) by apply at_hn. assert (At : at_node (hn cw s) (fst t)) by (rewrite <- E; apply at_tn).
    destruct C as [[C1 C2]|[C1 C2]].
    - rewrite C1. assert (Z : k (seg (fst s)) = 0) by (apply (degree_one k (hn cw s)); auto).
      unfold side_at. assert (T : top k (fst s) = bot k (fst s)) by (rewrite (top_bot g k (fst s)), Z; lia).
      destruct (pt_eqb _ _), (_ =? _), (_ =? _); auto.
    - apply (sector_cw g pts G P NDp cw k (hn cw s)); auto.
  Qed.

  (** ** counting the sides that are left *)
  Definition all_sides : list (nat * bool) := flat_map (fun i => [(i, true); (i, false)]) (seq 0 (length links)).
  Lemma in_all t : In t all_sides <-> valid (fst t).
  Proof.
    unfold all_sides, WalkSides.valid. rewrite in_flat_map. split.
    - intros (i & I & H). apply in_seq in I. destruct H as [<-|[<-|[]]]; simpl; lia.
    - intro V. exists (fst t). split; [apply in_seq; lia|]. destruct t as [i []]; simpl; auto.
  Qed.
  Lemma all_nodup : NoDup all_sides.
  Proof.
    unfold all_sides. generalize (seq_NoDup (length links) 0). generalize (seq 0 (length links)). intros l H. induction H as [|i l N H IH]; simpl; [constructor|].
    assert (K : forall b, ~ In (i, b) (flat_map (fun i => [(i, true); (i, false)]) l)) by (intros b I; apply in_flat_map in I as (j & J & [E|[E|[]]]); injection E as -> _; auto).
    constructor; [|constructor; auto]. intros [E|I]; [discriminate|]. exact (K _ I).
  Qed.
  Definition nav (fills : list fill_t) : nat := length (filter (av fills) all_sides).
  Lemma nav_max fills : (nav fills <= 2 * length links)%nat.
  Proof.
    unfold nav. assert (X : forall (A : Type) (f : A -> bool) l, (length (filter f l) <= length l)%nat) by (clear; intros A f l; induction l as [|x l IH]; simpl; [lia|destruct (f x); simpl; lia]).
    etransitivity; [apply X|]. unfold all_sides. rewrite <- (seq_length (length links) 0) at 2. generalize (seq 0 (length links)). intro l.
    induction l; simpl; lia.
  Qed.
  Lemma nav_drop fills fills' t : valid (fst t) -> av fills t = true -> (forall x, av fills' x = true -> av fills x = true /\ x <> t) -> (nav fills' < nav fills)%nat.
  Proof.
    intros V A H. unfold nav. assert (I : incl (t :: filter (av fills') all_sides) (filter (av fills) all_sides)).
    { intros x [<-|Ix]; apply filter_In; [rewrite in_all; auto|]. apply filter_In in Ix as [I1 I2]. apply H in I2. tauto. }
    apply NoDup_incl_length in I; [simpl in I; lia|]. constructor; [|apply NoDup_filter; apply all_nodup]. intro X. apply filter_In in X as [_ X]. apply H in X. tauto.
  Qed.

  (** ** one walk *)
  Record st (fills : list fill_t) (p0 : pt) : Prop := {
    s_ok : okf fills;
    s_len : length fills = length links;
    s_sub : forall t, av fills t = true -> av F0 t = true;
    s_low : forall t, av fills t = true -> ~ pt_lt (sa (seg (fst t))) p0 }.
  Definition paired (fills : list fill_t) (p0 : pt) : Prop :=
    forall s t, corner true s t -> pt_lt p0 (pn (hn true s)) -> av fills s = av fills t.
  Lemma paired_cw fills p0 cw s t : paired fills p0 -> corner cw s t -> pt_lt p0 (pn (hn cw s)) -> av fills s = av fills t.
  Proof.
    intros H C L. destruct cw; [apply H; auto|]. symmetry. pose proof (corner_dual _ _ _ C) as D. apply H; auto. destruct C as (_ & _ & E & _).
    change (hn true t) with (tn false t). rewrite E. exact L.
  Qed.
  Fixpoint chained (cw : bool) (s : nat * bool) (T : list (nat * bool)) : Prop :=
    match T with [] => True | t :: T' => corner cw s t /\ chained cw t T' end.
  Definition side_pt (cw : bool) (t : nat * bool) : pt := pn (tn cw t).

  Lemma step_state fills p0 cw t : st fills p0 -> av fills t = true -> used (fst t) ->
    let fills' := upd (fst t) (fun f => visit_fill (lk (fst t)) f (tn cw t) cw) fills in
    st fills' p0 /\ (forall x, av fills' x = true <-> av fills x = true /\ x <> t).
  Proof.
    intros S A U fills'. pose proof (used_valid _ U) as V.
    assert (K : forall x, av fills' x = true <-> av fills x = true /\ x <> t).
    { intro x. destruct (visit_av g P fills cw (tn cw t) (fst t) x (s_ok _ _ S) V (at_tn g cw t) (s_len _ _ S)) as (_ & _ & E). fold fills' in E. rewrite E.
      rewrite <- (out_tn g pts G cw t (tn cw t) V eq_refl). rewrite andb_true_iff, negb_true_iff, andb_false_iff, Nat.eqb_neq, eqb_false_iff. split.
      - intros [H1 H2]. split; auto. intros ->. tauto.
      - intros [H1 H2]. split; auto. destruct (Nat.eq_dec (fst x) (fst t)) as [E1|]; auto. right. intro E2. apply H2. apply side_eq; auto. }
    split; auto. destruct (visit_av g P fills cw (tn cw t) (fst t) t (s_ok _ _ S) V (at_tn g cw t) (s_len _ _ S)) as (O & Ln & _). constructor; auto.
    - intros x H. apply K in H as [H _]. apply (s_sub _ _ S); auto.
    - intros x H. apply K in H as [H _]. apply (s_low _ _ S); auto.
  Qed.
  Lemma ends_ge i p0 : valid i -> ~ pt_lt (sa (seg i)) p0 -> forall v, at_node v i -> pn v = p0 \/ pt_lt p0 (pn v).
  Proof.
    intros V L v A. pose proof (am_wf _ (g_ambient g P) _ (seg_in g i V)) as W. unfold wf_xseg in W. destruct (pt_total p0 (pn v)) as [[X|X]|X]; auto. exfalso. apply L.
    destruct A as [<-|<-]; [rewrite (pn_a g pts G) in X by auto; auto|]. rewrite (pn_b g pts G) in X by auto. eapply pt_lt_trans; eauto.
  Qed.
  Lemma node_at v i : valid i -> at_node v i -> exists n, nth_error nodes v = Some n.
  Proof.
    intros V A. destruct (gw_link _ _ G i _ (lk_nth g i V)) as (_ & _ & _ & (x & y & X & Y)). destruct A as [<-|<-]; eauto.
  Qed.
  Lemma next_side fills p0 cw s t n : st fills p0 -> corner cw s t -> av fills t = true -> nth_error nodes (hn cw s) = Some n ->
    slice_next g (fst s) (hn cw s) cw (node_links n) fills = Some (fst t).
  Proof.
    intros S (U & Ut & E & C) A Hn. pose proof (used_valid _ U) as V. pose proof (used_valid _ Ut) as Vt.
    assert (As : at_node (hn cw s) (fst s)) by apply at_hn. assert (At : at_node (hn cw s) (fst t)) by (rewrite <- E; apply at_tn).
    assert (Pt : possible g fills (hn cw s) cw (fst t) = true).
    { rewrite (possible_av g P) by (auto; apply (s_ok _ _ S)). rewrite <- (out_tn g pts G cw t _ Vt E). auto. }
    assert (Pu : forall u, valid u -> at_node (hn cw s) u -> possible g fills (hn cw s) cw u = true -> used u).
    { intros u Vu Au Pu. rewrite (possible_av g P) in Pu by (auto; apply (s_ok _ _ S)). apply (s_sub _ _ S) in Pu. apply av_used in Pu. exact Pu. }
    destruct C as [[C1 C2]|[C1 C2]].
    - rewrite C1 in *. apply (slice_next_back g pts G); auto. intros u Vu Au Nu. destruct (possible g fills (hn cw s) cw u) eqn:X; auto. exfalso. apply Nu. apply C2; auto.
    - apply (slice_next_first g pts G P NDp); auto.
  Qed.

  Lemma walk_ok cw z : forall fuel s fills, let p0 := pn z in
    nth_error pts z = Some p0 -> st fills p0 -> used (fst s) -> av fills s = false -> ~ pt_lt (sa (seg (fst s))) p0 ->
    (forall s' t', corner cw s' t' -> pt_lt p0 (pn (hn cw s')) -> s' <> s -> av fills s' = av fills t') ->
    (hn cw s <> z -> forall t, corner cw s t -> av fills t = true) -> (nav fills <= fuel)%nat ->
    exists T fills', slice_walk g fuel cw (fst s) (hn cw s) z fills = Some (map (side_pt cw) T, fills') /\
      chained cw s T /\ hn cw (last T s) = z /\ (forall t, In t T -> tn cw t <> z) /\ NoDup T /\ (forall t, In t T -> av fills t = true) /\
      st fills' p0 /\ paired fills' p0 /\ (forall t, av fills' t = true <-> av fills t = true /\ ~ In t T).
  Proof.
    induction fuel as [|fuel IH]; intros s fills p0 Hz S U As Low Pr Nx M; pose proof (used_valid _ U) as V; cbn [slice_walk].
    all: destruct (Nat.eqb_spec (hn cw s) z) as [E|NE].
    1,3: exists [], fills; split; [reflexivity|]; split; [exact I|]; split; [exact E|]; split; [intros t []|]; split; [constructor|]; split; [intros t []|]; split; [exact S|]; split; [|intro t; simpl; tauto].
    - (* pairing *) intros s' t' C L. destruct cw.
      + apply Pr; auto. intros ->. fold p0 in L. rewrite E in L. exact (pt_lt_irrefl _ L).
      + pose proof (corner_dual _ _ _ C) as D. cbn [negb] in D. assert (X : hn false t' = hn true s') by (destruct C as (_ & _ & X & _); exact X).
        symmetry. apply Pr; auto; rewrite ?X; auto. intros ->. rewrite <- X, E in L. exact (pt_lt_irrefl _ L).
    - intros s' t' C L. destruct cw.
      + apply Pr; auto. intros ->. fold p0 in L. rewrite E in L. exact (pt_lt_irrefl _ L).
      + pose proof (corner_dual _ _ _ C) as D. cbn [negb] in D. assert (X : hn false t' = hn true s') by (destruct C as (_ & _ & X & _); exact X).
        symmetry. apply Pr; auto; rewrite ?X; auto. intros ->. rewrite <- X, E in L. exact (pt_lt_irrefl _ L).
    - exfalso. destruct (corner_ex cw s U) as (t & C). pose proof (Nx NE t C) as A. destruct C as (_ & Ut & _).
      assert (I : In t (filter (av fills) all_sides)) by (apply filter_In; split; auto; apply in_all; apply used_valid; auto). unfold nav in M. destruct (filter (av fills) all_sides); [destruct I|simpl in M; lia].
    - destruct (corner_ex cw s U) as (t & C). pose proof (Nx NE t C) as A. pose proof C as (_ & Ut & Et & _). pose proof (used_valid _ Ut) as Vt.
      destruct (node_at (hn cw s) (fst s) V (at_hn g cw s)) as (n & Hn). rewrite Hn, (next_side fills p0 cw s t n S C A Hn), (lk_nth g (fst t) Vt).
      assert (Pn : (if (l_aid (lk (fst t)) =? hn cw s)%nat then (l_a (lk (fst t)), l_bid (lk (fst t))) else (l_b (lk (fst t)), l_aid (lk (fst t)))) = (side_pt cw t, hn cw t)).
      { rewrite <- Et. destruct (node_pts g pts G (fst t) Vt) as (_ & _ & N). pose proof (pn_a g pts G _ Vt) as Pa. pose proof (pn_b g pts G _ Vt) as Pb.
        unfold side_pt, SliceNext.hn, SliceNext.tn in *. fold (na (fst t)) (nb (fst t)). destruct cw, (snd t); cbn [Bool.eqb negb] in *; rewrite ?Nat.eqb_refl, ?(proj2 (Nat.eqb_neq _ _) N), ?Pa, ?Pb; reflexivity. }
      rewrite Pn. destruct (step_state fills p0 cw t S A Ut) as [S' K]. rewrite Et in S', K. set (fills' := upd (fst t) _ fills) in *.
      assert (Lt : pt_lt p0 (pn (hn cw s))).
      { destruct (ends_ge (fst s) p0 V Low (hn cw s) (at_hn g cw s)) as [X|X]; auto. exfalso. apply NE. eapply (pn_inj pts NDp); [apply (pn_node g pts G (fst s)); auto; apply at_hn|exact Hz|exact X]. }
      assert (Nst : s <> t) by (intros ->; congruence).
      destruct (IH t fills') as (T & f2 & Ew & Ch & La & Tz & ND & Tav & S2 & P2 & K2); auto.
      + destruct (av fills' t) eqn:X; auto. apply K in X. tauto.
      + apply (s_low _ _ S t A).
      + intros s' t' C' L' Ns'. apply eq_true_iff_eq. rewrite !K.
        assert (E' : s' <> s -> av fills s' = av fills t') by (intro; apply Pr; auto).
        destruct (prod_dec s' s) as [->|Ns].
        * rewrite (corner_fun _ _ _ _ C' C), As. intuition congruence.
        * assert (Nt' : t' <> t) by (intros ->; apply Ns; eapply corner_inj; eauto). rewrite E' by auto. tauto.
      + intros Nz t2 C2. apply K. split; [|apply not_eq_sym; eapply corner_ne; eauto]. rewrite <- (Pr t t2); auto.
        destruct (ends_ge (fst t) p0 Vt (s_low _ _ S t A) (hn cw t) (at_hn g cw t)) as [X|X]; auto. exfalso. apply Nz. eapply (pn_inj pts NDp); [apply (pn_node g pts G (fst t)); auto; apply at_hn|exact Hz|exact X].
      + assert (D : (nav fills' < nav fills)%nat) by (apply (nav_drop fills fills' t); auto; intros x H; apply K; auto). lia.
      + exists (t :: T), f2. fold p0 in Ew. rewrite Ew. split; [reflexivity|]. split; [split; auto|]. split; [|split; [|split; [|split; [|split; [|split]]]]]; auto.
        * rewrite <- La. f_equal. clear. destruct T as [|x T]; auto. revert x t s. induction T as [|y T IH]; intros x t s; auto. simpl in *. apply (IH y t s).
        * intros x [<-|Ix]; auto. congruence.
        * constructor; auto. intro X. apply Tav, K in X. tauto.
        * intros x [<-|Ix]; auto. apply Tav, K in Ix. tauto.
        * intro x. rewrite K2, K. simpl. split; [intros [[H1 H2] H3]; split; auto; intros [->|]; tauto|intros [H1 H2]; repeat split; auto; intros ->; auto].
  Qed.

  (** a closed walk along consecutive sides, that meets its first node only at the end *)
  Definition closed_sides (cw : bool) (W : list (nat * bool)) : Prop :=
    exists s T, W = s :: T /\ chained cw s T /\ hn cw (last T s) = tn cw s /\ (forall t, In t T -> tn cw t <> tn cw s).
  Lemma av_some fills i : okf fills -> fill_at fills i <> 0%N -> av fills (i, (N.land (fill_at fills i) SUBJ_TOP =? SUBJ_TOP)%N) = true.
  Proof. intros O N. unfold av. cbn [fst snd]. destruct (O i) as [E|[E|[E|[E|[]]]]]; rewrite <- E in *; try reflexivity. congruence. Qed.
  Lemma av_zero fills t : fill_at fills (fst t) = 0%N -> av fills t = false.
  Proof. intro E. unfold av. rewrite E. reflexivity. Qed.

  Lemma get_paths_ok i fills : let p0 := sa (seg i) in let cw := (N.land (fill_at fills i) SUBJ_TOP =? SUBJ_TOP)%N in
    valid i -> st fills p0 -> paired fills p0 -> fill_at fills i <> 0%N ->
    exists W fills', get_paths g (2 * length fills) i cw fills = Some (map (side_pt cw) W, fills') /\ In (i, cw) W /\
      closed_sides cw W /\ NoDup W /\ (forall t, In t W -> av fills t = true) /\
      st fills' p0 /\ paired fills' p0 /\ (forall t, av fills' t = true <-> av fills t = true /\ ~ In t W).
  Proof.
    intros p0 cw V S Pr N0. set (s := (i, cw)). pose proof (av_some fills i (s_ok _ _ S) N0) as A. fold cw s in A.
    assert (U : used i) by (apply (av_used s), (s_sub _ _ S), A).
    assert (Ts : tn cw s = na i) by (unfold SliceNext.tn, s; cbn [fst snd]; rewrite eqb_reflx; auto).
    assert (Hs : hn cw s = nb i) by (unfold SliceNext.hn, SliceNext.tn, s; cbn [fst snd]; destruct cw; auto).
    pose proof (pn_a g pts G i V) as Pa. destruct (node_pts g pts G i V) as (Na & Nb & Nn).
    assert (Pz : pn (na i) = p0) by exact Pa.
    destruct (step_state fills p0 cw s S A U) as [S' K]. rewrite Ts in S', K. cbn [fst s] in S', K.
    unfold get_paths. rewrite (lk_nth g i V). fold (na i) (nb i). set (fills' := upd i (fun f => visit_fill (lk i) f (na i) cw) fills) in *.
    assert (Lt : pt_lt p0 (pn (nb i))) by (rewrite (pn_b g pts G i V); exact (am_wf _ (g_ambient g P) _ (seg_in g i V))).
    assert (Ns : forall t, corner cw s t -> t <> s) by (intros t C; apply not_eq_sym; eapply corner_ne; eauto).
    destruct (walk_ok cw (na i) (2 * length fills) s fills') as (T & f2 & Ew & Ch & La & Tz & ND & Tav & S2 & P2 & K2).
    - rewrite Pz. exact Na.
    - rewrite Pz. exact S'.
    - exact U.
    - destruct (av fills' s) eqn:X; auto. apply K in X. tauto.
    - rewrite Pz. apply pt_lt_irrefl.
    - rewrite Pz. intros s' t' C L N. apply eq_true_iff_eq. rewrite !K. rewrite (paired_cw _ _ _ _ _ Pr C L). assert (t' <> s); [|tauto].
      intros ->. destruct C as (_ & _ & E & _). rewrite <- E, Ts, Pz in L. exact (pt_lt_irrefl _ L).
    - intros _ t C. apply K. split; [|auto]. rewrite <- (paired_cw _ _ _ _ _ Pr C); auto. rewrite Hs. auto.
    - rewrite (s_len _ _ S). apply nav_max.
    - rewrite Pz in *. exists (s :: T), f2. rewrite Hs in Ew. cbn [fst s] in Ew. rewrite Ew. split; [|split; [|split; [|split; [|split; [|split; [|split]]]]]]; auto.
      + cbn [option_map fst snd map]. unfold side_pt at 2. rewrite Ts, Pz. reflexivity.
      + left. reflexivity.
      + exists s, T. rewrite Ts. auto.
      + constructor; auto. intro X. apply Tav, K in X. tauto.
      + intros x [<-|X]; auto. apply Tav, K in X. tauto.
      + intro x. rewrite K2, K. simpl. split; [intros [[H1 H2] H3]; split; auto; intros [->|]; tauto|intros [H1 H2]; repeat split; auto; intros ->; auto].
  Qed.

  (** ** the main loop *)
  Hypothesis Srt : forall i j, (i <= j)%nat -> valid j -> ~ pt_lt (sa (seg j)) (sa (seg i)).
  Variable cwo : list pt -> bool.
  Variable min_area : Z.
  Definition good_walk (w : bool * list (nat * bool)) : Prop :=
    closed_sides (fst w) (snd w) /\ NoDup (snd w) /\ (forall t, In t (snd w) -> av F0 t = true).
  Hypothesis Spl : forall w, good_walk w -> exists ls, split_loops min_area (map (side_pt (fst w)) (snd w)) = Some ls.
  Definition loops_of (w : bool * list (nat * bool)) : list (list pt) :=
    match split_loops min_area (map (side_pt (fst w)) (snd w)) with Some ls => ls | None => [] end.

  Lemma st_le fills p0 p1 : (forall t, av fills t = true -> ~ pt_lt (sa (seg (fst t))) p1) -> st fills p0 -> st fills p1.
  Proof. intros L S. destruct S. constructor; auto. Qed.
  Lemma loop_ok clockwise : forall fuel i fills,
    (forall t, av fills t = true -> (i <= fst t)%nat) -> okf fills -> length fills = length links -> (forall t, av fills t = true -> av F0 t = true) ->
    (valid i -> paired fills (sa (seg i))) -> (length links - i + nav fills < fuel)%nat ->
    exists Ws, slice_loop g cwo fuel clockwise min_area i fills = Some (flat_map (fun w => map (place_path cwo clockwise (fst w)) (loops_of w)) Ws) /\
      Forall good_walk Ws /\ NoDup (flat_map snd Ws) /\ (forall t, In t (flat_map snd Ws) <-> av fills t = true).
  Proof.
    induction fuel as [|fuel IH]; intros i fills Lo Ok Ln Sb Pr M; [lia|]. cbn [slice_loop]. rewrite Ln. destruct (Nat.leb_spec (length links) i) as [Le|Lt].
    - exists []. split; [reflexivity|]. split; [constructor|]. split; [constructor|]. intro t. split; [intros []|]. intro A. exfalso. pose proof (Lo t A). pose proof (Sb t A) as X. apply av_used, used_valid in X. unfold WalkSides.valid in X. lia.
    - destruct (N.eqb_spec (fill_at fills i) 0) as [Z|NZ].
      + destruct (IH (Datatypes.S i) fills) as (Ws & E & H); eauto.
        * intros t A. specialize (Lo t A). assert (fst t <> i); [|lia]. intro X. rewrite <- X in Z. rewrite (av_zero fills t Z) in A. discriminate.
        * intros V' s t C L. apply (Pr Lt s t C). pose proof (Srt i (Datatypes.S i) ltac:(lia) V') as Q. destruct (pt_total (sa (seg i)) (pn (hn true s))) as [[X|X]|X]; auto; exfalso; apply Q.
          -- rewrite X. auto.
          -- eapply pt_lt_trans; eauto.
        * lia.
      + assert (S : st fills (sa (seg i))).
        { constructor; auto. intros t A. apply Srt; auto. pose proof (Sb t A) as X. apply av_used, used_valid in X. exact X. }
        destruct (get_paths_ok i fills Lt S (Pr Lt) NZ) as (W & f2 & E & Iw & Cl & ND & Wav & S2 & P2 & K). cbv zeta in E. rewrite Ln in E. rewrite E. set (cw := (N.land (fill_at fills i) SUBJ_TOP =? SUBJ_TOP)%N) in *.
        assert (GW : good_walk (cw, W)) by (split; [exact Cl|split; [exact ND|intros t It; apply Sb, Wav, It]]).
        destruct (Spl _ GW) as (ls & El). cbn [fst snd] in El. rewrite El.
        destruct (IH i f2) as (Ws & E' & Fo & ND' & Me).
        * intros t A. apply Lo. apply K in A. tauto.
        * apply (s_ok _ _ S2).
        * apply (s_len _ _ S2).
        * apply (s_sub _ _ S2).
        * auto.
        * assert (D : (nav f2 < nav fills)%nat) by (apply (nav_drop fills f2 (i, cw)); auto; intros x H; apply K in H as [H1 H2]; split; auto; intros ->; auto). lia.
        * rewrite E'. exists ((cw, W) :: Ws). split; [|split; [|split]].
          -- cbn [flat_map option_map fst]. unfold loops_of at 2. cbn [fst snd]. rewrite El. reflexivity.
          -- constructor; auto.
          -- cbn [flat_map snd]. apply nodup_join; auto. intros t I1 I2. apply Me, K in I2. tauto.
          -- intro t. cbn [flat_map snd]. rewrite in_app_iff, Me, K. destruct (in_dec prod_dec t W) as [I|N]; [|tauto]. pose proof (Wav t I). tauto.
  Qed.
End Slice.
