(** * Direction and nesting of the extracted contours. *)
From Verif Require Import Base Spec QLib SegmProofs PlanarGeo PlanarSum FillProofs FillCorrect ModelGraph GraphProofs ModelExtract ExtractProofs Rotation NextLink MoveLemma SectorLemma Sides WalkSides.
Open Scope Z_scope.

(** ** angular order in the right half plane *)
Definition lexpos (a : vec) : Prop := 0 < fst a \/ (fst a = 0 /\ 0 < snd a).
Lemma lex_trans a b c : lexpos a -> lexpos b -> lexpos c -> 0 <= vx a b -> vx a c <= 0 -> vx b c <= 0.
Proof.
  intros Ha Hb Hc H1 H2. assert (E : fst a * vx b c = fst b * vx a c - fst c * vx a b) by (unfold vx; ring).
  assert (0 <= fst b) by (unfold lexpos in Hb; lia). assert (0 <= fst c) by (unfold lexpos in Hc; lia).
  destruct Ha as [Ha|[Ha1 Ha2]]; [nia|].
  unfold vx in *. rewrite Ha1 in *. assert (fst b = 0) by nia. rewrite H3. unfold lexpos in Hb. nia.
Qed.

Lemma mid_inside e : wf_xseg e -> exists q, inside_seg e q.
Proof.
  intro W. exists ((qx (sa e) + qx (sb e)) / 2, (qy (sa e) + qy (sb e)) / 2)%Q.
  assert (H2 : forall a b : Q, ((a + b) / 2 == a + (1 # 2) * (b - a))%Q) by (intros; field).
  split.
  - exists (1 # 2)%Q. split; [lra|]. cbn [fst snd]. rewrite !H2. split; reflexivity.
  - assert (N : ~ (qx (sa e) == qx (sb e) /\ qy (sa e) == qy (sb e))%Q).
    { intros [X Y]. apply (proj1 (qz_eq _ _)) in X. apply (proj1 (qz_eq _ _)) in Y. unfold wf_xseg, pt_lt in W. lia. }
    intros [[X Y]|[X Y]]; cbn [fst snd] in X, Y; rewrite H2 in X, Y; apply N; split; lra.
Qed.

Lemma map_fst_combine {X Y} (l : list X) (m : list Y) : length l = length m -> map fst (combine l m) = l.
Proof. revert m. induction l as [|x l IH]; intros [|y m] H; simpl in *; try discriminate; auto. f_equal. auto. Qed.
Lemma map_snd_combine {X Y} (l : list X) (m : list Y) : length l = length m -> map snd (combine l m) = m.
Proof. revert m. induction l as [|x l IH]; intros [|y m] H; simpl in *; try discriminate; auto. f_equal. auto. Qed.

Section Orient.
  Variable g : graph.
  Variable pts : list pt.
  Hypothesis G : graph_wf g pts.
  Hypothesis P : links_planar (g_links g).
  Hypothesis NDp : NoDup pts.
  Hypothesis Srt : forall i j, (i <= j)%nat -> valid g j -> ~ pt_lt (sa (seg g j)) (sa (seg g i)).
  Notation links := (g_links g).
  Notation nodes := (g_nodes g).
  Notation valid := (valid g).
  Notation seg := (seg g).
  Notation ges := (ges g).
  Notation na := (na g).
  Notation nb := (nb g).
  Notation lk := (lk g).
  Notation A := (g_ambient g P).
  Notation top k i := (top ges k (seg i)).
  Notation bot k i := (bot ges k (seg i)).
  Notation ch := (ch ges).

  (** ** the start link *)
  Lemma seg_lexpos i : valid i -> lexpos (vsub (sb (seg i)) (sa (seg i))).
  Proof. intro V. pose proof (am_wf _ A _ (seg_in g i V)) as W. unfold wf_xseg, pt_lt in W. unfold lexpos, vsub. cbn [fst snd]. lia. Qed.
  Definition vis_min (vis : list bool) (k : nat) : Prop := forall i, not_visited vis i = true -> (k <= i)%nat.
  Definition upper (vis : list bool) (p : pt) (t x : nat) : Prop :=
    sa (seg x) = p -> vx (vsub (sb (seg t)) p) (vsub (sb (seg x)) p) <= 0.
  Lemma upper_refl vis p t : upper vis p t t.
  Proof. intros _. rewrite vx_self. lia. Qed.

  Lemma left_top_loop_upper vis k p ids : (forall i, In i ids -> valid i) ->
    (forall i, In i ids -> not_visited vis i = true -> sa (seg i) = p) ->
    forall ti (done : list nat), valid ti -> sa (seg ti) = p ->
      (forall x, In x done -> valid x /\ (not_visited vis x = true -> upper vis p ti x)) ->
      (In k ids -> upper vis p ti k) -> valid k -> (sa (seg k) = p) ->
      forall t, left_top_loop g k ids ti (lk ti) vis = Some t ->
        sa (seg t) = p /\ (forall x, In x (done ++ ids) -> not_visited vis x = true -> upper vis p t x).
  Proof.
    induction ids as [|i ids IH]; intros Vi Ai ti done Vt At Dn Kk Vk Ak t H; simpl in H.
    - injection H as <-. split; auto. intros x I. rewrite app_nil_r in I. apply Dn; auto.
    - assert (Vi' : forall j, In j ids -> valid j) by (intros; apply Vi; right; auto).
      assert (Ai' : forall j, In j ids -> not_visited vis j = true -> sa (seg j) = p) by (intros; apply Ai; auto; right; auto).
      assert (Keep : (not_visited vis i = true -> upper vis p ti i) -> left_top_loop g k ids ti (lk ti) vis = Some t ->
        sa (seg t) = p /\ (forall x, In x (done ++ i :: ids) -> not_visited vis x = true -> upper vis p t x)).
      { intros Ui H'. destruct (IH Vi' Ai' ti (done ++ [i]) Vt At) with (t := t) as [R1 R2]; auto.
        - intros x I. apply in_app_iff in I as [I|[<-|[]]]; auto. split; [apply Vi; left; auto|auto].
        - intro I. apply Kk. right; auto.
        - split; auto. intros x I. apply R2. rewrite <- app_assoc. auto. }
      destruct (Nat.eqb_spec i k) as [->|Nik]; [apply Keep; auto; intros; apply Kk; left; auto|].
      rewrite (lk_nth g i (Vi i (or_introl eq_refl))) in H.
      destruct (negb (pt_ltb (l_a (lk i)) (l_b (lk i))) || is_clockwise (l_a (lk ti)) (l_b (lk ti)) (l_b (lk i))) eqn:C.
      { apply Keep; auto. intros U Ei. apply orb_true_iff in C as [C|C].
        - exfalso. pose proof (am_wf _ A _ (seg_in g i (Vi i (or_introl eq_refl)))) as W. apply negb_true_iff in C.
          unfold wf_xseg, WalkSides.seg, l_seg in W. cbn [sa sb] in W. apply pt_ltb_lt in W. congruence.
        - unfold is_clockwise in C. apply Z.ltb_lt in C. change (l_a (lk ti)) with (sa (seg ti)) in C. change (l_b (lk ti)) with (sb (seg ti)) in C. change (l_b (lk i)) with (sb (seg i)) in C.
          rewrite At in C. unfold cross3 in C. unfold vx, vsub. cbn [fst snd]. lia. }
      destruct (is_visited vis i) eqn:V; [apply Keep; auto; unfold not_visited; rewrite V; discriminate|].
      assert (U : not_visited vis i = true) by (unfold not_visited; rewrite V; auto).
      pose proof (Ai i (or_introl eq_refl) U) as Ei. pose proof (Vi i (or_introl eq_refl)) as Vii.
      apply orb_false_iff in C as [_ C]. unfold is_clockwise in C. apply Z.ltb_ge in C. change (l_a (lk ti)) with (sa (seg ti)) in C. change (l_b (lk ti)) with (sb (seg ti)) in C. change (l_b (lk i)) with (sb (seg i)) in C.
      rewrite At in C.
      assert (Up : forall x, valid x -> upper vis p ti x -> upper vis p i x).
      { intros x Vx Ux Ex. specialize (Ux Ex). pose proof (seg_lexpos i Vii) as L1. pose proof (seg_lexpos ti Vt) as L2. pose proof (seg_lexpos x Vx) as L3.
        rewrite Ei in L1. rewrite At in L2. rewrite Ex in L3. eapply lex_trans; [exact L2|exact L1|exact L3| |exact Ux]. unfold cross3 in C. unfold vx, vsub. cbn [fst snd]. lia. }
      destruct (IH Vi' Ai' i (done ++ [i]) Vii Ei) with (t := t) as [R1 R2]; auto.
      + intros x I. apply in_app_iff in I as [I|[<-|[]]].
        * destruct (Dn x I) as [Vx Ux]. split; auto.
        * split; auto. intros _. apply upper_refl.
      + intro I. apply Up; auto. apply Kk. right; auto.
      + split; auto. intros x I. apply R2. rewrite <- app_assoc. auto.
  Qed.

  (** no unvisited link starts before link [k] *)
  Definition vis_low (vis : list bool) (k : nat) : Prop := forall i, valid i -> not_visited vis i = true -> ~ pt_lt (sa (seg i)) (sa (seg k)).
  Lemma vis_min_low vis k : vis_min vis k -> vis_low vis k.
  Proof. intros M i V U. apply Srt; auto. Qed.
  Lemma min_a_low vis k i : vis_low vis k -> valid k -> not_visited vis k = true -> valid i -> not_visited vis i = true -> at_node g (na k) i -> na i = na k.
  Proof.
    intros M Vk Uk Vi Ui [E|E]; auto. exfalso. apply (M i Vi Ui).
    assert (X : sb (seg i) = sa (seg k)) by (rewrite <- (pn_a g pts G k Vk), <- (pn_b g pts G i Vi), E; auto).
    rewrite <- X. apply (am_wf _ A _ (seg_in g i Vi)).
  Qed.

  Lemma left_top_upper_low vis k : all_even g vis -> vis_low vis k -> valid k -> not_visited vis k = true ->
    exists t, find_left_top_link g k vis = Some t /\ valid t /\ not_visited vis t = true /\ sa (seg t) = sa (seg k) /\
      forall x, valid x -> not_visited vis x = true -> sa (seg x) = sa (seg k) -> vx (vsub (sb (seg t)) (sa (seg k))) (vsub (sb (seg x)) (sa (seg k))) <= 0.
  Proof.
    intros E M Vk Uk. destruct (left_top_spec g pts G k vis (lk k) E Uk (lk_nth g k Vk)) as (t & lt & Ft & Ut & Ht & At).
    apply lk_eq in Ht as Ht'. destruct Ht' as [Elt Vt]. exists t. split; auto. split; auto. split; auto.
    assert (Nt : na t = na k) by (apply (min_a_low vis); auto; unfold at_node, WalkSides.na, WalkSides.nb; rewrite Elt; exact At).
    assert (St : sa (seg t) = sa (seg k)) by (rewrite <- (pn_a g pts G t Vt), <- (pn_a g pts G k Vk), Nt; auto). split; auto.
    unfold find_left_top_link in Ft. rewrite (lk_nth g k Vk) in Ft.
    destruct (gw_link _ _ G k _ (lk_nth g k Vk)) as (_ & _ & _ & n & nb' & Ha & _). rewrite Ha in Ft.
    destruct (gw_node _ _ G _ n Ha) as [N Mn].
    assert (Inn : forall x, valid x -> sa (seg x) = sa (seg k) -> In x (node_links n)).
    { intros x Vx Sx. apply Mn. exists (lk x). split; [apply lk_nth; auto|]. left.
      destruct (node_pts g pts G x Vx) as (Px & _). destruct (node_pts g pts G k Vk) as (Pk & _). eapply (pn_inj pts NDp); eauto. }
    assert (Val : forall x, In x (node_links n) -> valid x /\ at_node g (na k) x).
    { intros x I. apply Mn in I as (l & Hl & El). apply lk_eq in Hl as [El2 Vx]. split; auto. unfold at_node, WalkSides.na, WalkSides.nb. rewrite El2. exact El. }
    assert (Ua : forall x, In x (node_links n) -> not_visited vis x = true -> sa (seg x) = sa (seg k)).
    { intros x I U. destruct (Val x I) as [Vx Ax]. rewrite <- (pn_a g pts G x Vx), <- (pn_a g pts G k Vk). f_equal. apply (min_a_low vis); auto. }
    destruct n as [i j|ids].
    - cbn [node_links] in *. destruct (Val i (or_introl eq_refl)) as [Vi Ai]. destruct (Val j (or_intror (or_introl eq_refl))) as [Vj Aj].
      (* both links of a bridge are unvisited *)
      specialize (E _ _ Ha). unfold deg in E. cbn [node_links filter] in E.
      assert (U2 : not_visited vis i = true /\ not_visited vis j = true).
      { pose proof (Inn k Vk eq_refl) as Ik. destruct (not_visited vis i) eqn:X, (not_visited vis j) eqn:Y; simpl in E; try discriminate; auto.
        destruct Ik as [->|[->|[]]]; congruence. }
      destruct U2 as [Ui Uj]. pose proof (Ua i (or_introl eq_refl) Ui) as Si. pose proof (Ua j (or_intror (or_introl eq_refl)) Uj) as Sj.
      unfold left_top_bridge in Ft. rewrite (lk_nth g i Vi), (lk_nth g j Vj) in Ft.
      change (l_a (lk i)) with (sa (seg i)) in Ft. change (l_b (lk i)) with (sb (seg i)) in Ft. change (l_b (lk j)) with (sb (seg j)) in Ft.
      rewrite Si in Ft. intros x Vx Ux Sx. pose proof (Inn x Vx Sx) as Ix.
      destruct (is_clockwise (sa (seg k)) (sb (seg i)) (sb (seg j))) eqn:C; injection Ft as <-; unfold is_clockwise in C.
      + apply Z.ltb_lt in C. destruct Ix as [<-|[<-|[]]]; [rewrite vx_self; lia|]. unfold cross3 in C. unfold vx, vsub. cbn [fst snd]. lia.
      + apply Z.ltb_ge in C. destruct Ix as [<-|[<-|[]]]; [|rewrite vx_self; lia]. unfold cross3 in C. unfold vx, vsub. cbn [fst snd]. lia.
    - destruct (left_top_loop_upper vis k (sa (seg k)) ids) with (ti := k) (done := @nil nat) (t := t) as [_ R]; auto.
      + intros i I. apply Val; auto.
      + intros x [].
      + intros _. apply upper_refl.
      + intros x Vx Ux Sx. apply R; auto.
  Qed.

  Lemma min_a vis k i : vis_min vis k -> valid k -> not_visited vis k = true -> valid i -> not_visited vis i = true -> at_node g (na k) i -> na i = na k.
  Proof. intro M. apply min_a_low, vis_min_low; auto. Qed.
  Lemma left_top_upper vis k : all_even g vis -> vis_min vis k -> valid k -> not_visited vis k = true ->
    exists t, find_left_top_link g k vis = Some t /\ valid t /\ not_visited vis t = true /\ sa (seg t) = sa (seg k) /\
      forall x, valid x -> not_visited vis x = true -> sa (seg x) = sa (seg k) -> vx (vsub (sb (seg t)) (sa (seg k))) (vsub (sb (seg x)) (sa (seg k))) <= 0.
  Proof. intros E M. apply left_top_upper_low; auto. apply vis_min_low; auto. Qed.

  (** ** chains given by coefficients of the links *)
  Fixpoint pos (e : xseg) (l : list xseg) : nat :=
    match l with [] => O | x :: r => if xseg_eq_dec x e then O else S (pos e r) end.
  Definition kx (f : nat -> Z) (e : xseg) : Z := f (pos e ges).
  Lemma pos_nth e l : In e l -> nth_error l (pos e l) = Some e.
  Proof. induction l as [|x l IH]; [intros []|]. simpl. destruct (xseg_eq_dec x e) as [->|N]; auto. intros [->|I]; [congruence|]. simpl. auto. Qed.
  Lemma kx_seg f i : valid i -> kx f (seg i) = f i.
  Proof.
    intro V. unfold kx. f_equal. pose proof (pos_nth _ _ (seg_in g i V)) as H. generalize dependent (pos (seg i) ges). intros j H.
    unfold WalkSides.ges in H. rewrite nth_error_map in H. destruct (nth_error links j) as [l|] eqn:E; [|discriminate]. simpl in H.
    apply lk_eq in E as [E V']. apply (seg_inj g P); auto. unfold WalkSides.seg at 1. rewrite E. congruence.
  Qed.
  Lemma ges_seq : ges = map seg (seq 0 (length links)).
  Proof.
    unfold WalkSides.ges. apply (nth_ext _ _ (XS (Pt 0 0) (Pt 0 0)) (XS (Pt 0 0) (Pt 0 0))).
    - rewrite !map_length, seq_length. auto.
    - intros n Hn. rewrite map_length in Hn.
      assert (E1 : nth_error (map l_seg links) n = Some (seg n)) by (rewrite nth_error_map, (lk_nth g n Hn); auto).
      assert (E2 : nth_error (map seg (seq 0 (length links))) n = Some (seg n)).
      { rewrite nth_error_map. rewrite (nth_error_nth' _ O) by (rewrite seq_length; auto). rewrite seq_nth by auto. auto. }
      rewrite (nth_error_nth _ _ _ E1), (nth_error_nth _ _ _ E2). auto.
  Qed.
  Lemma sum_used (F : xseg -> Z) (h : nat -> Z) used : NoDup used -> (forall x, In x used -> valid x /\ F (seg x) = h x) ->
    (forall x, valid x -> ~ In x used -> F (seg x) = 0) -> zsum F ges = zsum h used.
  Proof.
    intros N H Z. rewrite ges_seq, zsum_map.
    rewrite (zsum_ext _ (fun i => if memn i used then h i else 0)).
    2:{ intros x I. apply in_seq in I. destruct (memn x used) eqn:M; [apply memn_in in M; apply H; auto|apply memn_false in M; apply Z; auto; unfold WalkSides.valid; lia]. }
    rewrite <- zsum_filter. apply zsum_perm. apply NoDup_Permutation; auto.
    - apply NoDup_filter. apply seq_NoDup.
    - intro x. rewrite filter_In, memn_in, in_seq. split; [tauto|]. intro I. split; auto. destruct (H x I) as [V _]. unfold WalkSides.valid in V. lia.
  Qed.

  Section Sum.
    Variables (cw : bool) (Lw : Z) (kR : nat -> Z).
    Hypothesis HL : Lw = 1 \/ Lw = -1.
    Notation tl := (tl g cw Lw kR).
    Notation hd := (hd g cw Lw kR).
    Notation pn := (pn pts).
    Lemma otrail_sum (f : pt * pt -> Z) k c u z : otrail g pts cw Lw kR k c u z ->
      zsum f (combine c (List.tl (c ++ [pn z]))) = zsum (fun x => f (pn (tl x), pn (hd x))) u.
    Proof.
      intro T. induction T as [k|i c u z T IH]; auto. simpl List.tl. 
      inversion T as [k0 E1 E2 E3|i' c' u' z' T' E1 E2 E3]; subst.
      - simpl. rewrite !zsum_cons, !zsum_nil. auto.
      - simpl in *. rewrite !zsum_cons in *. rewrite <- IH. rewrite E1. reflexivity.
    Qed.
    Lemma otrail_edges k c u z : otrail g pts cw Lw kR k c u z ->
      combine c (List.tl (c ++ [pn z])) = map (fun x => (pn (tl x), pn (hd x))) u.
    Proof.
      intro T. induction T as [k|i c u z T IH]; auto. simpl List.tl. 
      inversion T as [k0 E1 E2 E3|i' c' u' z' T' E1 E2 E3]; subst.
      - simpl. auto.
      - simpl in *. rewrite <- IH. rewrite E1. reflexivity.
    Qed.
    Lemma contour_sum (f : pt * pt -> Z) i c u : (forall p q, f (p, q) = - f (q, p)) ->
      otrail g pts cw Lw kR (hd i) c u (tl i) -> NoDup (i :: u) -> (forall x, In x (i :: u) -> valid x /\ (kR x = 1 \/ kR x = -1)) ->
      zsum f (edges (pn (tl i) :: c)) = rf cw * Lw * zsum (fun e => kx (fun x => if memn x (i :: u) then kR x else 0) e * f (sa e, sb e)) ges.
    Proof.
      intros An T N V. pose proof (otrail_sum f _ _ _ _ (ot_cons g pts cw Lw kR i c u _ T)) as S.
      unfold edges. simpl List.tl in S. rewrite S. rewrite <- zsum_mult. symmetry. apply sum_used; auto.
      - intros x I. destruct (V x I) as [Vx Kx]. split; auto. rewrite kx_seg by auto. rewrite (proj2 (memn_in x (i :: u)) I).
        rewrite <- (pn_a g pts G x Vx), <- (pn_b g pts G x Vx). unfold WalkSides.tl, WalkSides.hd, tau.
        destruct HL as [-> | ->], Kx as [-> | ->], cw; cbn [rf]; simpl (_ =? _); cbv iota; try ring; rewrite (An (pn (nb x))); ring.
      - intros x Vx NI. rewrite kx_seg by auto. rewrite (proj2 (memn_false x (i :: u)) NI). ring.
    Qed.
  End Sum.

  (** ** one contour *)
  Lemma side_pts k i : valid i -> balanced (ch k) -> (exists q, wind (ch k) q = top k i) /\ (exists q, wind (ch k) q = bot k i).
  Proof.
    intros V B. destruct (mid_inside (seg i)) as (q & Hq); [apply (am_wf _ A); apply seg_in; auto|].
    destruct (sides ges A k (seg i) q B (seg_in g i V) Hq) as [S1 S2].
    assert (One : (0 < 1)%Q) by reflexivity.
    destruct (near_pick _ 1%Q One S1) as (d & _ & E1). destruct (near_pick _ 1%Q One S2) as (d' & _ & E2). eauto.
  Qed.

  Section Region.
    Variable kR : nat -> Z.
    Variable visI : list bool.
    Hypothesis KR : forall i, valid i -> if not_visited visI i then kR i = 1 \/ kR i = -1 else kR i = 0.
    Hypothesis BR : balanced (ch (kx kR)).
    Hypothesis WR : forall q, wind (ch (kx kR)) q = 0 \/ wind (ch (kx kR)) q = 1.

    Definition fU (vis : list bool) (i : nat) : Z := if not_visited vis i then kR i else 0.
    Record ginv (vis : list bool) : Prop := {
      gi_sub : forall i, not_visited vis i = true -> not_visited visI i = true;
      gi_bal : balanced (ch (kx (fU vis)));
      gi_bnd : forall q, -1 <= wind (ch (kx (fU vis))) q <= 1;
      gi_off : forall x k, valid x -> not_visited vis x = false -> kR x <> 0 -> balanced (ch k) ->
        (forall u, valid u -> k (seg u) <> 0 -> not_visited vis u = true) -> top k x = 0 }.

    Lemma ginv_start : ginv visI.
    Proof.
      assert (E : forall e, In e ges -> kx (fU visI) e = kx kR e).
      { intros e I. apply in_seg in I as (i & V & ->). rewrite !kx_seg by auto. unfold fU. specialize (KR i V). destruct (not_visited visI i); auto. }
      assert (C : ch (kx (fU visI)) = ch (kx kR)) by (unfold SectorLemma.ch; apply map_ext_in; intros e I; rewrite (E e I); auto).
      constructor; auto.
      - rewrite C. auto.
      - intro q. rewrite C. destruct (WR q) as [-> | ->]; lia.
      - intros x k V U K. specialize (KR x V). rewrite U in KR. congruence.
    Qed.

    Variable vis : list bool.
    Hypothesis GI : ginv vis.
    Hypothesis Ev : all_even g vis.
    Hypothesis Len : length vis = length links.
    Variable t : nat.
    Hypothesis Vt : valid t.
    Hypothesis Ut : not_visited vis t = true.
    Hypothesis Mt : forall x, valid x -> not_visited vis x = true -> ~ pt_lt (sa (seg x)) (sa (seg t)).
    Hypothesis Tt : forall x, valid x -> not_visited vis x = true -> sa (seg x) = sa (seg t) -> vx (vsub (sb (seg t)) (sa (seg t))) (vsub (sb (seg x)) (sa (seg t))) <= 0.
    Variable dir : bool.
    Notation Lw := (- kR t).
    Notation kU := (kx (fU vis)).

    Lemma KRu i : valid i -> not_visited vis i = true -> kR i = 1 \/ kR i = -1.
    Proof. intros V U. specialize (KR i V). rewrite (gi_sub _ GI i U) in KR. auto. Qed.
    Lemma HLw : Lw = 1 \/ Lw = -1.
    Proof. destruct (KRu t Vt Ut); lia. Qed.
    Lemma KUs i : valid i -> kU (seg i) = if not_visited vis i then kR i else 0.
    Proof. intro V. rewrite kx_seg; auto. Qed.
    Lemma start_zero k : balanced (ch k) -> (forall u, valid u -> k (seg u) <> 0 -> not_visited vis u = true) -> top k t = 0.
    Proof.
      intros B K. apply (start_top ges A); auto using seg_in.
      - intros x Ix Kx L. apply in_seg in Ix as (u & Vu & ->). apply (Mt u Vu); auto.
      - intros x Ix Kx E NE. apply in_seg in Ix as (u & Vu & ->).
        assert (D : forall j, sa (seg j) = sa (seg t) -> SectorLemma.dir (sa (seg t)) (seg j) = vsub (sb (seg j)) (sa (seg t))).
        { intros j Ej. unfold SectorLemma.dir, other. rewrite Ej, pt_eqb_refl. auto. }
        rewrite !D by auto. apply Tt; auto.
    Qed.
    Lemma tau_t : tau dir Lw kR t = negb dir.
    Proof. unfold tau. destruct (KRu t Vt Ut) as [-> | ->], dir; reflexivity. Qed.
    Lemma inv_start : inv g pts vis dir Lw kR kU t [t] t (visit t vis).
    Proof.
      assert (KUu : forall u, valid u -> kU (seg u) <> 0 -> not_visited vis u = true) by (intros u Vu; rewrite KUs by auto; destruct (not_visited vis u); congruence).
      constructor.
      - intro x. unfold not_visited. rewrite visit_spec by (apply unvisited_lt; auto). rewrite !negb_true_iff, orb_false_iff, Nat.eqb_neq. simpl. tauto.
      - left; auto.
      - intros x [<-|[]]. auto.
      - intros x [<-|[]]. unfold sw. rewrite tau_t. pose proof (start_zero kU (gi_bal _ GI) KUu) as Z. pose proof (top_bot g kU t) as E. rewrite KUs, Ut in E by auto.
        destruct dir; cbn [negb Bool.eqb]; lia.
      - intros x k [<-|[]] B O. apply start_zero; auto. intros u Vu Ku. apply O; auto.
      - intros x [<-|[]]. auto.
      - cbn [linked]. auto.
      - eauto.
    Qed.
    Definition fC (used : list nat) (x : nat) : Z := if memn x used then kR x else 0.
    Lemma Bound i : valid i -> not_visited vis i = true -> -1 <= top kU i <= 1 /\ -1 <= bot kU i <= 1.
    Proof.
      intros V _. destruct (side_pts kU i V (gi_bal _ GI)) as [[q1 E1] [q2 E2]]. rewrite <- E1, <- E2. split; apply (gi_bnd _ GI).
    Qed.
    Lemma step_contour fuel raw used vis' :
      get_contour g fuel (start_path dir (lk t) t) dir vis = Some (raw, used, vis') ->
      NoDup used -> flags_after vis vis' used ->
      ginv vis' /\ balanced (ch (kx (fC used))) /\
      (forall q, contour_wind raw q = rf dir * Lw * wind (ch (kx (fC used))) q) /\
      (forall q, wind (ch (kx (fC used))) q = 0 \/ wind (ch (kx (fC used))) q = Lw) /\
      (exists q, wind (ch (kx (fC used))) q = Lw) /\
      (forall q, wind (ch (kx (fC used))) q <> 0 -> wind (ch (kx kR)) q - wind (ch kU) q = if Lw =? 1 then 0 else 1) /\
      (forall q, wind (ch (kx (fU vis'))) q = wind (ch kU) q - wind (ch (kx (fC used))) q) /\
      (* a chain of links visited before has one value on the points enclosed *)
      (forall k, balanced (ch k) -> (forall u, valid u -> k (seg u) <> 0 -> kR u <> 0 /\ not_visited vis u = false) ->
         forall q, wind (ch (kx (fC used))) q <> 0 -> wind (ch k) q = top k t) /\
      edges raw = map (fun x => if kR x =? rf dir * Lw then (sa (seg x), sb (seg x)) else (sb (seg x), sa (seg x))) used.
    Proof.
      intros Gc Nd Fl. pose proof HLw as HL.
      destruct (node_pts g pts G t Vt) as (Pa & Pb & Nab).
      assert (Sd : start_path dir (lk t) t = SD (pn pts (tl g dir Lw kR t)) (hd g dir Lw kR t) t (tl g dir Lw kR t)).
      { unfold start_path, hd, tl. rewrite tau_t. destruct dir; cbn [negb]; [rewrite (pn_b g pts G t Vt)|rewrite (pn_a g pts G t Vt)]; reflexivity. }
      unfold get_contour in Gc. rewrite Sd in Gc. cbn [sd_begin sd_node sd_link sd_last] in Gc.
      destruct (walk g fuel dir t (hd g dir Lw kR t) (tl g dir Lw kR t) (visit t vis)) as [[[c u] v]|] eqn:Wk; [|discriminate].
      injection Gc as <- <- <-.
      assert (Odd : odd_at g (visit t vis) (hd g dir Lw kR t) (tl g dir Lw kR t)).
      { pose proof (visit_start g pts G vis t (lk t) Ev Ut (lk_nth g t Vt)) as O. unfold hd, tl. destruct (tau dir Lw kR t); auto.
        intros k n Hn. rewrite (O k n Hn). rewrite xorb_comm. auto. }
      destruct (walk_inv g pts G P NDp vis dir Lw HL kR kU KUs (gi_bal _ GI) KRu Bound t (tl g dir Lw kR t) eq_refl fuel t (visit t vis) [t] c u v inv_start Odd Wk)
        as (T & j & W' & I & Mem).
      set (used := t :: u) in *.
      assert (MemW : forall x, In x W' <-> In x used) by (intro x; rewrite Mem; unfold used; simpl; tauto).
      assert (Ok : forall x, In x used -> valid x /\ not_visited vis x = true) by (intros x Ix; apply (iv_ok _ _ _ _ _ _ _ _ _ _ _ I); apply MemW; auto).
      assert (Ok2 : forall x, In x used -> valid x /\ (kR x = 1 \/ kR x = -1)) by (intros x Ix; destruct (Ok x Ix); split; auto; apply KRu; auto).
      assert (Fv : forall x, not_visited v x = true <-> not_visited vis x = true /\ ~ In x used) by (intro x; apply (flags_trans vis v used Fl)).
      (* the chain of the contour *)
      assert (Sum : forall f : pt * pt -> Z, (forall p q, f (p, q) = - f (q, p)) ->
         zsum f (edges (pn pts (tl g dir Lw kR t) :: c)) = rf dir * Lw * zsum (fun e => kx (fC used) e * f (sa e, sb e)) ges).
      { intros f An. apply (contour_sum dir Lw kR HL f t c u An T Nd Ok2). }
      assert (Rl : rf dir * Lw = 1 \/ rf dir * Lw = -1) by (destruct (rf_cases dir) as [-> | ->]; lia).
      assert (BC : balanced (ch (kx (fC used)))).
      { intro w. assert (S0 := Sum (fun e => bz (pt_eqb (snd e) w) - bz (pt_eqb (fst e) w))). cbn [fst snd] in S0.
        assert (Z0 : zsum (fun e : pt * pt => bz (pt_eqb (snd e) w) - bz (pt_eqb (fst e) w)) (edges (pn pts (tl g dir Lw kR t) :: c)) = 0).
        { rewrite zsum_minus. generalize (pn pts (tl g dir Lw kR t)). intro p. unfold edges.
          assert (M1 : map fst (combine (p :: c) (c ++ [p])) = p :: c) by (apply map_fst_combine; rewrite app_length; simpl; lia).
          assert (M2 : map snd (combine (p :: c) (c ++ [p])) = c ++ [p]) by (apply map_snd_combine; rewrite app_length; simpl; lia).
          rewrite <- (zsum_map fst (fun x => bz (pt_eqb x w))), <- (zsum_map snd (fun x => bz (pt_eqb x w))), M1, M2.
          rewrite zsum_app, !zsum_cons, zsum_nil. lia. }
        rewrite Z0 in S0. unfold boundary, SectorLemma.ch. rewrite zsum_map. cbn [fst snd].
        assert (S1 : 0 = rf dir * Lw * zsum (fun e => kx (fC used) e * (bz (pt_eqb (sb e) w) - bz (pt_eqb (sa e) w))) ges) by (apply S0; intros; lia).
        destruct Rl as [R|R]; rewrite R in S1; lia. }
      assert (Cw : forall q, contour_wind (pn pts (tl g dir Lw kR t) :: c) q = rf dir * Lw * wind (ch (kx (fC used))) q).
      { intro q. unfold contour_wind. rewrite (Sum (edge_wind q)) by (intros; apply edge_wind_anti). f_equal.
        unfold wind, SectorLemma.ch. rewrite zsum_map. cbn [fst snd]. apply zsum_ext. intros e Ie.
        pose proof (am_wf _ A e Ie) as We. unfold edge_wind. cbn [fst snd]. destruct e as [a b]. cbn [sa sb].
        destruct (under (XS a b) q) eqn:U1; [ring|]. destruct (under (XS b a) q) eqn:U2; [|ring]. exfalso.
        apply under_iff in U2. cbn [sa sb] in U2. unfold wf_xseg, pt_lt in We. cbn [sa sb] in We. destruct U2 as (X1 & X2 & _).
        assert (X : (qx b < qx a)%Q) by lra. apply (proj1 (qz_lt _ _)) in X. lia. }
      (* decomposition *)
      assert (DecU : forall e, In e ges -> kx (fU v) e = kU e + (-1) * kx (fC used) e).
      { intros e Ie. apply in_seg in Ie as (i & Vi & ->). rewrite !kx_seg by auto. unfold fU, fC.
        destruct (memn i used) eqn:M.
        - apply memn_in in M. rewrite (proj2 (Ok i M)). destruct (not_visited v i) eqn:X; [apply Fv in X; tauto|]. lia.
        - apply memn_false in M. destruct (not_visited vis i) eqn:X, (not_visited v i) eqn:Y; try lia.
          + assert (not_visited v i = true) by (apply Fv; auto). congruence.
          + apply Fv in Y. destruct Y; congruence. }
      set (kV := kx (fun i => if not_visited vis i then 0 else kR i)).
      assert (DecV : forall e, In e ges -> kV e = kx kR e + (-1) * kU e).
      { intros e Ie. apply in_seg in Ie as (i & Vi & ->). unfold kV. rewrite !kx_seg by auto. unfold fU. destruct (not_visited vis i); lia. }
      assert (BU' : balanced (ch (kx (fU v)))) by (eapply balanced_lin; [exact DecU|apply (gi_bal _ GI)|auto]).
      assert (BV : balanced (ch kV)) by (eapply balanced_lin; [exact DecV|auto|apply (gi_bal _ GI)]).
      assert (WU : forall q, wind (ch (kx (fU v))) q = wind (ch kU) q - wind (ch (kx (fC used))) q).
      { intro q. rewrite (wind_lin ges _ _ _ _ DecU q). lia. }
      assert (SupC : forall y, In y ges -> kx (fC used) y <> 0 -> exists i, valid i /\ y = seg i /\ In i used).
      { intros y Iy Ky. apply in_seg in Iy as (i & Vi & ->). exists i. split; auto. split; auto. rewrite kx_seg in Ky by auto. unfold fC in Ky.
        destruct (memn i used) eqn:M; [apply memn_in; auto|congruence]. }
      (* values of C and V at the links of the contour *)
      assert (SwU : forall i, In i used -> sw g dir Lw kR kU i = Lw) by (intros i Ii; apply (iv_sw _ _ _ _ _ _ _ _ _ _ _ I); apply MemW; auto).
      assert (OffU' : off g vis (kx (fU v)) W').
      { intros x Vx Kx. rewrite kx_seg in Kx by auto. unfold fU in Kx. destruct (not_visited v x) eqn:X; [|congruence]. apply Fv in X. rewrite MemW. auto. }
      assert (TopC : forall i, In i used -> top (kx (fC used)) i = top kU i /\ bot (kx (fC used)) i = bot kU i).
      { intros i Ii. destruct (Ok i Ii) as [Vi Ui]. pose proof (iv_off _ _ _ _ _ _ _ _ _ _ _ I i (kx (fU v)) (proj2 (MemW i) Ii) BU' OffU') as T0.
        rewrite (top_lin ges _ _ _ _ DecU (seg i) (seg_in g i Vi)) in T0.
        pose proof (top_bot g (kx (fC used)) i) as E1. pose proof (top_bot g kU i) as E2. rewrite KUs, Ui in E2 by auto. rewrite kx_seg in E1 by auto.
        unfold fC in E1. rewrite (proj2 (memn_in i used) Ii) in E1. fold fC in *. unfold fC in T0 |- *. lia. }
      assert (SideC : forall i, In i used -> (top (kx (fC used)) i = 0 \/ top (kx (fC used)) i = Lw) /\ (bot (kx (fC used)) i = 0 \/ bot (kx (fC used)) i = Lw)).
      { intros i Ii. destruct (Ok i Ii) as [Vi Ui]. destruct (TopC i Ii) as [-> ->]. pose proof (SwU i Ii) as S1.
        pose proof (ow_sw g vis dir Lw HL kR kU KUs KRu i Vi Ui) as S2. unfold sw in S1, S2. unfold ow in S2. destruct (Bool.eqb (tau dir Lw kR i) dir); lia. }
      assert (TopV : forall i, In i used -> top kV i = (if Lw =? 1 then 0 else 1)).
      { intros i Ii. destruct (Ok i Ii) as [Vi Ui].
        assert (Kz : kV (seg i) = 0) by (unfold kV; rewrite kx_seg, Ui by auto; auto).
        assert (TB : top kV i = bot kV i) by (rewrite (top_bot g kV i), Kz; lia).
        pose proof (top_lin ges _ _ _ _ DecV (seg i) (seg_in g i Vi)) as E1. pose proof (bot_lin ges _ _ _ _ DecV (seg i)) as E2.
        destruct (side_pts (kx kR) i Vi BR) as [[q1 Q1] [q2 Q2]]. pose proof (WR q1) as W1. pose proof (WR q2) as W2. rewrite Q1 in W1. rewrite Q2 in W2.
        pose proof (SwU i Ii) as S1. pose proof (ow_sw g vis dir Lw HL kR kU KUs KRu i Vi Ui) as S2.
        pose proof (top_bot g (kx kR) i) as E3. pose proof (top_bot g kU i) as E4. rewrite KUs, Ui in E4 by auto. rewrite kx_seg in E3 by auto.
        unfold sw in S1, S2. unfold ow in S2. destruct (Z.eqb_spec Lw 1); destruct (Bool.eqb (tau dir Lw kR i) dir); lia. }
      assert (WC : forall q, wind (ch (kx (fC used))) q = 0 \/ wind (ch (kx (fC used))) q = Lw).
      { intro q. destruct (highest ges A (fun e => negb (kx (fC used) e =? 0)) q) as [H|(e & Ie & Pe & H)].
        - left. apply H. intros y _ Ky. apply negb_true_iff, Z.eqb_neq. auto.
        - rewrite (H _ BC) by (intros y _ Ky; apply negb_true_iff, Z.eqb_neq; auto).
          apply negb_true_iff, Z.eqb_neq in Pe. destruct (SupC e Ie Pe) as (i & Vi & -> & Ii). apply SideC; auto. }
      assert (WV : forall q, wind (ch (kx (fC used))) q <> 0 -> wind (ch kV) q = if Lw =? 1 then 0 else 1).
      { intros q Nz. set (Pr := fun e => negb (kx (fC used) e =? 0) || negb (kV e =? 0)).
        assert (P1 : forall y, In y ges -> kx (fC used) y <> 0 -> Pr y = true) by (intros y _ Ky; unfold Pr; apply orb_true_iff; left; apply negb_true_iff, Z.eqb_neq; auto).
        assert (P2 : forall y, In y ges -> kV y <> 0 -> Pr y = true) by (intros y _ Ky; unfold Pr; apply orb_true_iff; right; apply negb_true_iff, Z.eqb_neq; auto).
        destruct (highest ges A Pr q) as [H|(e & Ie & Pe & H)]; [exfalso; apply Nz; apply H; auto|].
        rewrite (H _ BV P2). rewrite (H _ BC P1) in Nz. unfold Pr in Pe. apply orb_true_iff in Pe as [Pe|Pe]; apply negb_true_iff, Z.eqb_neq in Pe.
        - destruct (SupC e Ie Pe) as (i & Vi & -> & Ii). apply TopV; auto.
        - exfalso. apply Nz. apply in_seg in Ie as (i & Vi & ->). unfold kV in Pe. rewrite kx_seg in Pe by auto. destruct (not_visited vis i) eqn:Ui; [congruence|].
          apply (gi_off _ GI); auto. intros x Vx Kx. destruct (SupC (seg x) (seg_in g x Vx) Kx) as (x' & Vx' & Ex & Ix). apply (seg_inj g P) in Ex; auto. subst x'. apply Ok; auto. }
      assert (WV2 : forall q, wind (ch kV) q = wind (ch (kx kR)) q - wind (ch kU) q) by (intro q; rewrite (wind_lin ges _ _ _ _ DecV q); lia).
      assert (SupU : forall x, valid x -> kx (fC used) (seg x) <> 0 -> In x used).
      { intros x Vx Kx. destruct (SupC (seg x) (seg_in g x Vx) Kx) as (x' & Vx' & Ex & Ix). apply (seg_inj g P) in Ex; auto. subst x'. auto. }
      assert (OffC : forall x, valid x -> not_visited vis x = false -> kR x <> 0 -> top (kx (fC used)) x = 0 /\ bot (kx (fC used)) x = 0).
      { intros x Vx Ux Kx. assert (T0 : top (kx (fC used)) x = 0).
        { apply (gi_off _ GI); auto. intros y Vy Ky. apply Ok. auto. }
        split; auto. pose proof (top_bot g (kx (fC used)) x) as E. destruct (Z.eq_dec (kx (fC used) (seg x)) 0) as [Z0|Z0]; [lia|].
        exfalso. apply (SupU x Vx) in Z0. apply Ok in Z0. destruct Z0; congruence. }
      assert (SwC : forall i, In i used -> sw g dir Lw kR (kx (fC used)) i = Lw).
      { intros i Ii. pose proof (SwU i Ii) as S1. unfold sw in S1 |- *. destruct (TopC i Ii) as [-> ->]. auto. }
      assert (Const : forall k, balanced (ch k) -> (forall u, valid u -> k (seg u) <> 0 -> kR u <> 0) ->
        forall x, In x used -> sw g dir Lw kR k x = sw g dir Lw kR k t).
      { intros k Bk Sk x Ix. apply MemW in Ix. revert x Ix.
        apply (linked_ind g pts vis dir Lw HL kR t (fun x => sw g dir Lw kR k x = sw g dir Lw kR k t) W' (iv_lnk _ _ _ _ _ _ _ _ _ _ _ I)); auto.
        intros i j' Wi Wj Hij Fij <-. apply MemW in Wi, Wj. destruct (Ok i Wi) as [Vi Ui]. destruct (Ok j' Wj) as [Vj Uj].
        assert (Nij : i <> j') by (intros ->; apply (hd_tl g pts G dir Lw kR j' Vj); auto).
        rewrite <- (side_tl g pts G NDp dir Lw kR k j' Vj), <- (side_hd g pts G NDp dir Lw kR k i Vi), <- Hij. symmetry.
        assert (Aj : at_node g (hd g dir Lw kR i) j') by (rewrite Hij; apply at_tl).
        pose proof (at_hd g dir Lw kR i) as Ai.
        apply (sector_cw g pts G P NDp); auto.
        intros y Vu Ku Nui Nuj Au.
        destruct (not_visited vis y) eqn:Uu; [apply Fij; auto|].
        pose proof (Sk y Vu Ku) as Ru. set (nd0 := hd g dir Lw kR i) in *.
        destruct (before_total (rf dir) (rf_cases dir) (nd g pts nd0 i) (nd_nz g pts G P nd0 i Vi Ai) (nd g pts nd0 j') (nd g pts nd0 y)) as [L|L]; auto.
        { split; [apply (nd_nz g pts G P); auto|apply (nd_sep g pts G P); auto]. }
        { split; [apply (nd_nz g pts G P); auto|apply (nd_sep g pts G P); auto]. }
        { apply (nd_sep g pts G P); auto. }
        exfalso. destruct (OffC y Vu Uu Ru) as [O1 O2].
        assert (S : side_at ges (kx (fC used)) (pn pts nd0) (- rf dir) (seg i) = side_at ges (kx (fC used)) (pn pts nd0) (rf dir) (seg y)).
        { apply (sector_cw g pts G P NDp); auto. intros w Vw Kw Nwi Nwu Aw. pose proof (SupU w Vw Kw) as Iw. destruct (Ok w Iw) as [_ Uw].
          destruct (Nat.eq_dec w j') as [->|Nwj]; auto.
          eapply (before_trans (rf dir) (rf_cases dir) (nd g pts nd0 i) (nd_nz g pts G P nd0 i Vi Ai)); [| | |exact L|apply Fij; auto];
            (split; [apply (nd_nz g pts G P); auto|apply (nd_sep g pts G P); auto]). }
        unfold nd0 in S. rewrite (side_hd g pts G NDp dir Lw kR (kx (fC used)) i Vi), (SwC i Wi) in S. unfold side_at in S. 
        destruct (Bool.eqb _ _) in S; lia. }
      assert (Nest : forall k, balanced (ch k) -> (forall u, valid u -> k (seg u) <> 0 -> kR u <> 0 /\ not_visited vis u = false) ->
         forall q, wind (ch (kx (fC used))) q <> 0 -> wind (ch k) q = top k t).
      { intros k Bk Sk q Nz.
        assert (K0 : forall i, In i used -> top k i = sw g dir Lw kR k i).
        { intros i Ii. destruct (Ok i Ii) as [Vi Ui]. assert (Kz : k (seg i) = 0) by (destruct (Z.eq_dec (k (seg i)) 0) as [|Kn]; auto; destruct (Sk i Vi Kn); congruence).
          pose proof (top_bot g k i) as TB. unfold sw. destruct (Bool.eqb _ _); lia. }
        set (Pr := fun e => negb (kx (fC used) e =? 0) || negb (k e =? 0)).
        assert (P1 : forall y, In y ges -> kx (fC used) y <> 0 -> Pr y = true) by (intros y _ Ky; unfold Pr; apply orb_true_iff; left; apply negb_true_iff, Z.eqb_neq; auto).
        assert (P2 : forall y, In y ges -> k y <> 0 -> Pr y = true) by (intros y _ Ky; unfold Pr; apply orb_true_iff; right; apply negb_true_iff, Z.eqb_neq; auto).
        destruct (highest ges A Pr q) as [H|(e & Ie & Pe & H)]; [exfalso; apply Nz; apply H; auto|].
        rewrite (H _ Bk P2). rewrite (H _ BC P1) in Nz. unfold Pr in Pe. apply orb_true_iff in Pe as [Pe|Pe]; apply negb_true_iff, Z.eqb_neq in Pe.
        - destruct (SupC e Ie Pe) as (i & Vi & -> & Ii). rewrite (K0 i Ii), (K0 t (or_introl eq_refl)). apply Const; auto. intros y Vy Ky. apply Sk; auto.
        - exfalso. apply Nz. apply in_seg in Ie as (i & Vi & ->). destruct (Sk i Vi Pe). apply OffC; auto. }
      assert (Ed : edges (pn pts (tl g dir Lw kR t) :: c) = map (fun x => if kR x =? rf dir * Lw then (sa (seg x), sb (seg x)) else (sb (seg x), sa (seg x))) used).
      { pose proof (otrail_edges dir Lw kR _ _ _ _ (ot_cons g pts dir Lw kR t c u _ T)) as S. unfold edges. simpl List.tl in S. rewrite S.
        fold used. apply map_ext_in. intros x Ix. destruct (Ok x Ix) as [Vx _]. unfold WalkSides.tl, WalkSides.hd, tau.
        rewrite <- (pn_a g pts G x Vx), <- (pn_b g pts G x Vx). destruct (kR x =? rf dir * Lw); auto. }
      split; [|split; [auto|split; [auto|split; [auto|split; [|split; [|auto]]]]]].
      - constructor.
        + intros i Ui. apply Fv in Ui. apply (gi_sub _ GI); tauto.
        + auto.
        + intro q. rewrite WU. destruct (WC q) as [Z0|Z0]; [rewrite Z0; pose proof (gi_bnd _ GI q); lia|].
          assert (Nz : wind (ch (kx (fC used))) q <> 0) by (rewrite Z0; lia). pose proof (WV q Nz) as V1. rewrite WV2 in V1. pose proof (WR q) as V2.
          destruct (Z.eqb_spec Lw 1); lia.
        + intros x k Vx Ux Kx B K. destruct (in_dec Nat.eq_dec x used) as [Ix|Nx].
          * apply (iv_off _ _ _ _ _ _ _ _ _ _ _ I); auto; [apply MemW; auto|]. intros y Vy Ky. specialize (K y Vy Ky). apply Fv in K. rewrite MemW. auto.
          * apply (gi_off _ GI); auto.
            -- destruct (not_visited vis x) eqn:X; auto. assert (not_visited v x = true) by (apply Fv; auto). congruence.
            -- intros y Vy Ky. specialize (K y Vy Ky). apply Fv in K. tauto.
      - assert (It : In t used) by (left; auto). destruct (side_pts (kx (fC used)) t Vt BC) as [[q1 Q1] [q2 Q2]].
        destruct (TopC t It) as [T1 T2]. pose proof (SwU t It) as S1. unfold sw in S1. destruct (Bool.eqb (tau dir Lw kR t) dir); [exists q1|exists q2]; lia.
      - intros q Nz. rewrite <- WV2. apply WV; auto.
    Qed.
  End Region.

  (** ** all contours *)
  Definition main_dir (clockwise : bool) : Z := if clockwise then -1 else 1.
  Definition piece_dir (clockwise hole : bool) : Z := if hole then - main_dir clockwise else main_dir clockwise.
  Definition pieces_wind (ps : list piece) (q : qpt) : Z := zsum (fun p => contour_wind (p_raw p) q) ps.

  Section Loop.
    Variable kR : nat -> Z.
    Variable visI : list bool.
    Hypothesis KR : forall i, valid i -> if not_visited visI i then kR i = 1 \/ kR i = -1 else kR i = 0.
    Hypothesis BR : balanced (ch (kx kR)).
    Hypothesis WR : forall q, wind (ch (kx kR)) q = 0 \/ wind (ch (kx kR)) q = 1.
    Variable clean : bool -> list pt -> list pt * bool.
    Variables (r : OverlayRule) (clockwise simplify : bool) (min_area : Z).
    Hypothesis KT : forall i, valid i -> not_visited visI i = true -> kR i = if is_fill_top r (l_fill (lk i)) then 1 else -1.

    Lemma extract_oriented : forall fuel k vis ps, ginv kR visI vis -> all_even g vis -> length vis = length links -> vis_min vis k ->
      extract_loop g clean fuel r clockwise simplify min_area k vis = Some ps ->
      (forall p, In p ps -> (exists q, contour_wind (p_raw p) q <> 0) -> p_valid p = true) ->
      (forall q, pieces_wind ps q = main_dir clockwise * wind (ch (kx (fU kR vis))) q) /\
      forall ps1 p ps2, ps = ps1 ++ p :: ps2 ->
        (forall q, contour_wind (p_raw p) q = 0 \/ contour_wind (p_raw p) q = piece_dir clockwise (p_hole p)) /\
        (exists q, contour_wind (p_raw p) q = piece_dir clockwise (p_hole p)) /\
        (forall q, contour_wind (p_raw p) q <> 0 ->
           main_dir clockwise * (wind (ch (kx kR)) q - wind (ch (kx (fU kR vis))) q) + pieces_wind ps1 q = if p_hole p then main_dir clockwise else 0).
    Proof.
      induction fuel as [|fuel IH]; intros k vis ps GI Ev Len Mn H Va; cbn [extract_loop] in H.
      - destruct (Nat.leb_spec (length vis) k) as [L|L]; [|discriminate]. injection H as <-. split.
        + intro q. unfold pieces_wind. rewrite zsum_nil.
          assert (Z0 : wind (ch (kx (fU kR vis))) q = 0).
          { unfold wind, SectorLemma.ch. rewrite zsum_map. apply zsum_zero. intros e I. cbn [fst snd]. apply in_seg in I as (i & V & ->). rewrite kx_seg by auto.
            unfold fU. destruct (not_visited vis i) eqn:U; [|destruct (under _ _); auto]. exfalso. pose proof (Mn i U). unfold WalkSides.valid in V. lia. }
          rewrite Z0. lia.
        + intros ps1 p ps2 E; destruct ps1; discriminate.
      - destruct (Nat.leb_spec (length vis) k) as [L|L].
        { injection H as <-. split.
          + intro q. unfold pieces_wind. rewrite zsum_nil.
            assert (Z0 : wind (ch (kx (fU kR vis))) q = 0).
            { unfold wind, SectorLemma.ch. rewrite zsum_map. apply zsum_zero. intros e I. cbn [fst snd]. apply in_seg in I as (i & V & ->). rewrite kx_seg by auto.
              unfold fU. destruct (not_visited vis i) eqn:U; [|destruct (under _ _); auto]. exfalso. pose proof (Mn i U). unfold WalkSides.valid in V. lia. }
            rewrite Z0. lia.
          + intros ps1 p ps2 E; destruct ps1; discriminate. }
        destruct (is_visited vis k) eqn:Vk.
        { apply (IH (S k) vis ps); auto. intros i U. pose proof (Mn i U). destruct (Nat.eq_dec i k) as [->|]; [unfold not_visited in U; rewrite Vk in U; discriminate|lia]. }
        assert (Uk : not_visited vis k = true) by (unfold not_visited; rewrite Vk; auto).
        assert (Vk' : valid k) by (unfold WalkSides.valid; lia).
        destruct (left_top_upper vis k Ev Mn Vk' Uk) as (t & Ft & Vt & Ut & St & Tt). rewrite Ft, (lk_nth g t Vt) in H.
        set (hole := is_fill_top r (l_fill (lk t))) in *. set (dir := Bool.eqb hole clockwise) in *.
        destruct (contour_spec g pts G (length vis) dir dir (lk t) t vis Ev Ut (lk_nth g t Vt) Len) as (raw & u & vis' & Gc & _ & Nd & _ & Fl & Ev' & _).
        { pose proof (ucount_le vis). lia. }
        rewrite Gc in H. destruct (clean simplify raw) as [cc m] eqn:Ecl.
        destruct (extract_loop g clean fuel r clockwise simplify min_area (if is_valid min_area cc then k else S k) vis') as [ps'|] eqn:Hl; [|discriminate].
        injection H as <-.
        assert (Mt : forall x, valid x -> not_visited vis x = true -> ~ pt_lt (sa (seg x)) (sa (seg t))) by (intros x Vx Ux; rewrite St; apply Srt; auto).
        rewrite <- St in Tt.
        destruct (step_contour kR visI KR BR WR vis GI Ev Len t Vt Ut Mt Tt dir (length vis) raw (t :: u) vis' Gc Nd Fl) as (GI' & BC & Cw & WC & Ex & WV & WU & _).
        assert (Kt : kR t = if hole then 1 else -1) by (apply KT; auto; apply (gi_sub _ _ _ GI); auto).
        assert (Dr : rf dir * - kR t = main_dir clockwise) by (rewrite Kt; unfold dir, main_dir; destruct hole, clockwise; reflexivity).
        assert (Dp : rf dir * - kR t * - kR t = piece_dir clockwise hole) by (rewrite Kt; unfold dir, piece_dir, main_dir; destruct hole, clockwise; reflexivity).
        assert (Vp : is_valid min_area cc = true).
        { apply (Va _ (or_introl eq_refl)). cbn [p_raw]. destruct Ex as (q & Eq). exists q. rewrite Cw, Eq, Dp. unfold piece_dir, main_dir. destruct hole, clockwise; discriminate. }
        rewrite Vp in Hl.
        destruct (IH k vis' ps') as [S1 S2]; auto.
        { destruct Fl as [Fl _]. congruence. }
        { intros i U. apply Mn. apply (flags_trans vis vis' (t :: u) Fl) in U. tauto. }
        { intros p I. apply Va. right; auto. }
        split.
        + intro q. unfold pieces_wind in *. rewrite zsum_cons. cbn [p_raw]. rewrite S1, WU, Cw, Dr. lia.
        + intros ps1 p ps2 E. destruct ps1 as [|p1 ps1]; injection E as E1 E2.
          * subst p ps2. cbn [p_raw p_hole]. split; [|split].
            -- intro q. rewrite Cw. destruct (WC q) as [-> | ->]; [left; lia|right; auto].
            -- destruct Ex as (q & Eq). exists q. rewrite Cw, Eq. auto.
            -- intros q Nz. rewrite Cw in Nz. assert (Nz' : wind (ch (kx (fC kR (t :: u)))) q <> 0) by (intro X; apply Nz; rewrite X; lia).
               rewrite (WV q Nz'). unfold pieces_wind. rewrite zsum_nil. rewrite Kt. unfold main_dir. destruct hole; simpl; destruct clockwise; reflexivity.
          * subst p1 ps'. destruct (S2 ps1 p ps2 eq_refl) as (R1 & R2 & R3). split; auto. split; auto.
            intros q Nz. specialize (R3 q Nz). rewrite WU in R3. unfold pieces_wind in *. rewrite zsum_cons. cbn [p_raw]. rewrite Cw, Dr. lia.
    Qed.
  End Loop.
End Orient.
