(** * The order in which an unstable sort leaves equal link ends does not matter. *)
From Verif Require Import Base Spec QLib ModelSegm SegmProofs MergeProofs PlanarGeo PlanarSum ModelFill ModelFilter FillProofs FillCorrect
  ModelCross CrossProofs CrossPoint MarksProofs CoreResults Properties01 ModelSplit SplitProofs SplitPlanar SplitPass BinsProofs SplitApply SplitLoop
  ModelFrag ModelOverlay OverlayProofs FragProofs GridCover Properties02
  ModelGraph GraphProofs ModelExtract ExtractProofs ContourResults Rotation NextLink Properties03
  MoveLemma SectorLemma Sides WalkSides Orient Properties04.
From Coq Require Import Permutation.
Open Scope Z_scope.

Lemma SS_pt_ext : forall l k : list pt, StronglySorted pt_lt l -> StronglySorted pt_lt k -> (forall x, In x l <-> In x k) -> l = k.
Proof.
  induction l as [|s l IH]; intros [|t k] Hl Hk HE; auto.
  - exfalso. apply (HE t). left; auto.
  - exfalso. apply (HE s). left; auto.
  - inversion Hl as [|? ? Hl1 Hl2]; subst. inversion Hk as [|? ? Hk1 Hk2]; subst. rewrite Forall_forall in Hl2, Hk2.
    assert (s = t) as ->.
    { destruct (proj1 (HE s) (or_introl eq_refl)) as [E|I]; auto.
      destruct (proj2 (HE t) (or_introl eq_refl)) as [E|I']; auto.
      exfalso. apply (pt_lt_irrefl s). eapply pt_lt_trans; [apply Hl2; exact I'|apply Hk2; exact I]. }
    f_equal. apply IH; auto. intro x. split; intro I.
    + destruct (proj1 (HE x) (or_intror I)) as [<-|K]; auto. exfalso. eapply pt_lt_irrefl. apply Hl2, I.
    + destruct (proj2 (HE x) (or_intror I)) as [<-|K]; auto. exfalso. eapply pt_lt_irrefl. apply Hk2, I.
Qed.

Lemma Permutation_filter {A} (f : A -> bool) (l k : list A) : Permutation l k -> Permutation (filter f l) (filter f k).
Proof.
  induction 1 as [|x l k P IH|x y l|l k j P1 IH1 P2 IH2]; cbn [filter]; auto.
  - destruct (f x); auto.
  - destruct (f x), (f y); auto. apply perm_swap.
  - eapply perm_trans; eauto.
Qed.

(** ** Two graphs of the same links *)
Section Shape.
  Variable links : list link.
  Hypothesis Sl : StronglySorted (fun l m => pt_leb (l_a l) (l_a m) = true) links.
  Hypothesis W : Forall (fun l => pt_lt (l_a l) (l_b l)) links.
  Definition node_at (ends : list (nat * pt)) (v : pt) : node := node_new (at_pt v (enum (map l_a links)) ++ at_pt v ends).

  Lemma graph_shape ends : ends_ok links ends -> exists g pts, graph_new links ends = Some g /\ graph_of links g pts /\ g_nodes g = map (node_at ends) pts.
  Proof.
    intro O. destruct (graph_spec links ends Sl W O) as (g & pts & H & G). exists g, pts. split; auto. split; auto.
    destruct O as [P Se]. destruct links as [|l0 ls] eqn:El.
    { injection H as <-. destruct pts as [|p pts]; auto. exfalso. destruct (proj1 (go_pts _ _ _ G p) (or_introl eq_refl)) as (l & [] & _). }
    assert (BG : build_graph (l0 :: ls) ends = build_loop (S (length (enum (map l_a (l0 :: ls))) + length ends)) (l_a l0) (head_point ends (l_b l0))
      (enum (map l_a (l0 :: ls))) ends (l0 :: ls) []) by reflexivity.
    rewrite <- El in *. rewrite Forall_forall in W. unfold graph_new in H. rewrite BG in H. clear BG.
    assert (Wn : forall i l, nth_error links i = Some l -> pt_lt (l_a l) (l_b l)) by (intros i l N; apply W; eapply nth_error_In; eauto).
    assert (Ea : forall i p, In (i, p) (enum (map l_a links)) <-> exists l, nth_error links i = Some l /\ l_a l = p).
    { intros i p. rewrite enum_nth, nth_error_map. destruct (nth_error links i) as [l|]; cbn [option_map]; split.
      - intro X. injection X as <-. eauto.
      - intros (l' & X & <-). congruence.
      - discriminate.
      - intros (? & ? & _). discriminate. }
    assert (Eb : forall i p, In (i, p) ends <-> exists l, nth_error links i = Some l /\ l_b l = p).
    { intros i p. split.
      - intro I. apply (Permutation_in _ P) in I. apply enum_nth in I. rewrite nth_error_map in I. destruct (nth_error links i) as [l|]; [|discriminate]. injection I as <-. eauto.
      - intros (l & X & <-). apply (Permutation_in _ (Permutation_sym P)). apply enum_nth. rewrite nth_error_map, X. auto. }
    destruct (GraphProofs.loop_spec (S (length (enum (map l_a links)) + length ends)) (l_a l0) (head_point ends (l_b l0)) (enum (map l_a links)) ends links [])
      as (pts' & links' & E & Sp & M & Ids); auto.
    - apply enum_psorted. clear - Sl. induction Sl as [|l k S0 IH F]; cbn [map]; constructor; auto. apply Forall_map. auto.
    - intros _. rewrite El. reflexivity.
    - intro N. destruct ends as [|[? ?] ?]; [congruence|reflexivity].
    - intros i p I. apply Ea; auto.
    - intros i p I. apply Eb; auto.
    - intros i p l I X. apply Eb. eauto.
    - rewrite E in H. injection H as <-. cbn [g_nodes app]. unfold node_at. f_equal.
      apply SS_pt_ext; auto; [apply (go_sorted _ _ _ G)|]. intro v. rewrite M, (go_pts _ _ _ G). split.
      + intros (i & [I|I]); [apply Ea in I|apply Eb in I]; destruct I as (l & Hl & <-); exists l; split; eauto using nth_error_In.
      + intros (l & I & X). apply In_nth_error in I as [i I]. exists i. destruct X as [X|X]; [left; apply Ea|right; apply Eb]; eauto.
  Qed.

  Record same (g1 g2 : graph) (pts : list pt) : Prop := {
    sm_links : g_links g1 = g_links g2;
    sm_len : length (g_nodes g1) = length (g_nodes g2);
    sm_sorted : forall i j l k, nth_error (g_links g1) i = Some l -> nth_error (g_links g1) j = Some k -> (i <= j)%nat -> ~ pt_lt (l_a k) (l_a l);
    sm_dir : forall i l, nth_error (g_links g1) i = Some l -> pt_lt (l_a l) (l_b l);
    sm_node : forall k n1, nth_error (g_nodes g1) k = Some n1 -> exists n2 ga gb1 gb2,
      nth_error (g_nodes g2) k = Some n2 /\ n1 = node_new (ga ++ gb1) /\ n2 = node_new (ga ++ gb2) /\ Permutation gb1 gb2 /\
      forall i, In i gb1 -> exists l, nth_error (g_links g1) i = Some l /\ l_bid l = k }.

  Lemma links_sorted i j l k : nth_error links i = Some l -> nth_error links j = Some k -> (i <= j)%nat -> ~ pt_lt (l_a k) (l_a l).
  Proof.
    clear W. revert i j. induction Sl as [|x ls S IH F]; intros i j Hi Hj L; [destruct i; discriminate|].
    destruct j as [|j].
    - assert (i = 0%nat) by lia. subst i. rewrite Hi in Hj. injection Hj as ->. apply pt_lt_irrefl.
    - destruct i as [|i].
      + injection Hi as ->. cbn [nth_error] in Hj. apply nth_error_In in Hj. rewrite Forall_forall in F. apply F in Hj. cbv beta in Hj.
        rewrite pt_leb_alt in Hj. apply negb_true_iff in Hj. intro X. apply pt_ltb_lt in X. congruence.
      + apply (IH S i j); auto. lia.
  Qed.

  Theorem graphs_same ends1 ends2 : ends_ok links ends1 -> ends_ok links ends2 ->
    exists g1 g2 pts, graph_new links ends1 = Some g1 /\ graph_new links ends2 = Some g2 /\ graph_of links g1 pts /\ graph_of links g2 pts /\ same g1 g2 pts.
  Proof.
    intros O1 O2. destruct (graph_shape ends1 O1) as (g1 & pts & H1 & G1 & N1). destruct (graph_shape ends2 O2) as (g2 & pts2 & H2 & G2 & N2).
    assert (E : pts2 = pts).
    { apply SS_pt_ext; try eapply go_sorted; eauto. intro x. rewrite (go_pts _ _ _ G1), (go_pts _ _ _ G2). reflexivity. }
    subst pts2. exists g1, g2, pts. split; auto. split; auto. split; auto. split; auto.
    assert (ND : NoDup pts).
    { pose proof (go_sorted _ _ _ G1) as S. clear - S. induction S as [|p l S IH F]; constructor; auto.
      intro I. rewrite Forall_forall in F. specialize (F p I). eapply pt_lt_irrefl; eauto. }
    assert (B : forall g, graph_of links g pts -> forall i l', nth_error (g_links g) i = Some l' -> exists l, nth_error links i = Some l /\
      l_a l' = l_a l /\ l_b l' = l_b l /\ l_fill l' = l_fill l /\ nth_error pts (l_aid l') = Some (l_a l) /\ nth_error pts (l_bid l') = Some (l_b l)).
    { intros g G i l' H. destruct (nth_error links i) as [l|] eqn:E.
      - destruct (go_link _ _ _ G i l E) as (l2 & X & R). rewrite H in X. injection X as <-. eauto.
      - apply nth_error_None in E. rewrite <- (go_len _ _ _ G) in E. apply nth_error_None in E. congruence. }
    assert (U : forall x y p, nth_error pts x = Some p -> nth_error pts y = Some p -> x = y).
    { intros x y p X Y. apply (proj1 (NoDup_nth_error pts) ND); [apply nth_error_Some; congruence|congruence]. }
    constructor.
    - assert (X : forall i, nth_error (g_links g1) i = nth_error (g_links g2) i).
      { intro i. destruct (nth_error (g_links g1) i) as [l1|] eqn:X1.
        - destruct (B g1 G1 i l1 X1) as (l & Hl & A1 & A2 & A3 & A4 & A5). destruct (go_link _ _ _ G2 i l Hl) as (l2 & X2 & B1 & B2 & B3 & B4 & B5).
          rewrite X2. f_equal. assert (l_aid l1 = l_aid l2) by (eapply U; eauto). assert (l_bid l1 = l_bid l2) by (eapply U; eauto).
          assert (l_a l1 = l_a l2) by congruence. assert (l_b l1 = l_b l2) by congruence. assert (l_fill l1 = l_fill l2) by congruence.
          clear - H H0 H3 H4 H5. destruct l1, l2; simpl in *; subst; reflexivity.
        - symmetry. apply nth_error_None. rewrite (go_len _ _ _ G2), <- (go_len _ _ _ G1). apply nth_error_None. auto. }
      clear - X. revert X. generalize (g_links g1), (g_links g2). induction l as [|x l IH]; intros [|y k] X; auto; try (specialize (X 0%nat); discriminate).
      f_equal; [specialize (X 0%nat); cbn in X; congruence|]. apply IH. intro i. apply (X (S i)).
    - rewrite (go_nlen _ _ _ G1), (go_nlen _ _ _ G2). reflexivity.
    - intros i j l k Hi Hj L. destruct (B g1 G1 i l Hi) as (l' & Hi' & -> & _). destruct (B g1 G1 j k Hj) as (k' & Hj' & -> & _). eapply links_sorted; eauto.
    - intros i l Hi. destruct (B g1 G1 i l Hi) as (l' & Hi' & -> & -> & _). apply nth_error_In in Hi'. rewrite Forall_forall in W. auto.
    - intros k n1 Hn. rewrite N1, nth_error_map in Hn. destruct (nth_error pts k) as [p|] eqn:Hp; [|discriminate]. injection Hn as <-.
      exists (node_at ends2 p), (at_pt p (enum (map l_a links))), (at_pt p ends1), (at_pt p ends2).
      split; [rewrite N2, nth_error_map, Hp; reflexivity|]. split; auto. split; auto. split.
      + unfold at_pt. apply Permutation_map, Permutation_filter. apply Permutation_trans with (1 := proj1 O1). apply Permutation_sym, O2.
      + intros i I. apply at_pt_in in I. apply (Permutation_in _ (proj1 O1)) in I. apply enum_nth in I. rewrite nth_error_map in I.
        destruct (nth_error links i) as [l|] eqn:Hl; [|discriminate]. injection I as I. destruct (go_link _ _ _ G1 i l Hl) as (l' & Hl' & _ & _ & _ & _ & X).
        exists l'. split; auto. eapply U; eauto. congruence.
  Qed.
End Shape.

(** ** The walk *)
Section Same.
  Variables g1 g2 : graph.
  Variable pts : list pt.
  Hypothesis Sm : same g1 g2 pts.
  Hypothesis G1 : graph_wf g1 pts.
  Hypothesis G2 : graph_wf g2 pts.
  Hypothesis P : links_planar (g_links g1).
  Notation L := (g_links g1).

  Lemma sm_deg k n2 vis : nth_error (g_nodes g2) k = Some n2 -> exists n1, nth_error (g_nodes g1) k = Some n1 /\ deg vis n1 = deg vis n2.
  Proof.
    intro Hn2. assert (X : (k < length (g_nodes g1))%nat) by (rewrite (sm_len _ _ _ Sm); apply nth_error_Some; congruence).
    apply nth_error_Some in X. destruct (nth_error (g_nodes g1) k) as [n1|] eqn:Hn1; [|congruence]. exists n1. split; auto.
    destruct (sm_node _ _ _ Sm k n1 Hn1) as (n2' & ga & gb1 & gb2 & H2 & E1 & E2 & Pm & _). rewrite Hn2 in H2. injection H2 as <-.
    unfold deg. rewrite E1, E2, !node_new_links, !filter_app, !app_length. rewrite (Permutation_length (Permutation_filter (not_visited vis) _ _ Pm)). reflexivity.
  Qed.
  Lemma sm_odd vis a b : odd_at g1 vis a b -> odd_at g2 vis a b.
  Proof. intros O k n2 Hn2. destruct (sm_deg k n2 vis Hn2) as (n1 & Hn1 & <-). apply O; auto. Qed.

  Lemma next_same i k cw n1 n2 vis last l0 : nth_error (g_nodes g1) k = Some n1 -> nth_error (g_nodes g2) k = Some n2 ->
    odd_at g1 vis k last -> k <> last -> nth_error L i = Some l0 -> (l_aid l0 = k \/ l_bid l0 = k) -> not_visited vis i = false ->
    next_link g2 i k cw n2 vis = next_link g1 i k cw n1 vis.
  Proof.
    intros H1 H2 O NE Hl El Vi. pose proof (sm_links _ _ _ Sm) as EL.
    destruct (next_link_spec g1 pts G1 i k cw n1 vis last l0 H1 O NE Hl El Vi) as (j1 & l1 & N1 & U1 & Hl1 & E1).
    destruct (next_link_spec g2 pts G2 i k cw n2 vis last l0 H2 (sm_odd _ _ _ O) NE) as (j2 & l2 & N2 & U2 & Hl2 & E2); try (rewrite <- EL); auto.
    rewrite <- EL in Hl2. rewrite N1, N2. f_equal.
    assert (M1 : forall j l, nth_error L j = Some l -> (l_aid l = k \/ l_bid l = k) -> In j (node_links n1)).
    { intros j l X Y. apply (gw_node _ _ G1 k n1 H1). eauto. }
    assert (M2 : forall j l, nth_error L j = Some l -> (l_aid l = k \/ l_bid l = k) -> In j (node_links n2)).
    { intros j l X Y. apply (gw_node _ _ G2 k n2 H2). rewrite <- EL. eauto. }
    assert (exists c, nth_error pts k = Some c) as [c Hc].
    { destruct (gw_link _ _ G1 i l0 Hl) as (_ & Pa & Pb & _). destruct El as [<-|<-]; eauto. }
    assert (P2 : links_planar (g_links g2)) by (rewrite <- EL; auto).
    destruct (Nat.eq_dec j2 j1) as [E|N]; auto. exfalso.
    pose proof (next_link_first g1 pts G1 P i k cw n1 vis c l0 j1 H1 Hc Hl El Vi (ex_intro _ j1 (conj (M1 _ _ Hl1 E1) U1)) N1 j2 (M1 _ _ Hl2 E2) U2 N) as B1.
    assert (Hl' : nth_error (g_links g2) i = Some l0) by (rewrite <- EL; auto).
    pose proof (next_link_first g2 pts G2 P2 i k cw n2 vis c l0 j2 H2 Hc Hl' El Vi (ex_intro _ j2 (conj (M2 _ _ Hl2 E2) U2)) N2 j1 (M2 _ _ Hl1 E1) U1 (not_eq_sym N)) as B2.
    unfold dirn in B1, B2. rewrite <- EL in B2. eapply before_asym; eauto.
  Qed.

  Lemma walk_same cw last : forall fuel i k vis l0, odd_at g1 vis k last -> nth_error L i = Some l0 -> (l_aid l0 = k \/ l_bid l0 = k) ->
    not_visited vis i = false -> walk g2 fuel cw i k last vis = walk g1 fuel cw i k last vis.
  Proof.
    induction fuel as [|fuel IH]; intros i k vis l0 O Hl El Vi; auto. cbn [walk].
    destruct (Nat.eqb_spec k last) as [E|NE]; auto.
    destruct (gw_link _ _ G1 i l0 Hl) as (_ & _ & _ & na & nb & Ha & Hb).
    assert (exists n1, nth_error (g_nodes g1) k = Some n1) as [n1 H1] by (destruct El as [<-|<-]; eauto). rewrite H1.
    destruct (sm_node _ _ _ Sm k n1 H1) as (n2 & _ & _ & _ & H2 & _). rewrite H2.
    rewrite (next_same i k cw n1 n2 vis last l0) by auto.
    destruct (next_link_spec g1 pts G1 i k cw n1 vis last l0 H1 O NE Hl El Vi) as (j & l & -> & U & Hj & Ej).
    rewrite <- (sm_links _ _ _ Sm), Hj. pose proof (unvisited_lt _ _ U) as Lt.
    assert (Vj : not_visited (visit j vis) j = false) by (unfold not_visited; rewrite visit_spec, Nat.eqb_refl by auto; auto).
    destruct (Nat.eqb_spec (l_aid l) k) as [Ek|Nk].
    - rewrite (IH j (l_bid l) (visit j vis) l); auto. apply (visit_step g1 pts G1 vis j l k (l_bid l) last); auto.
    - rewrite (IH j (l_aid l) (visit j vis) l); auto. apply (visit_step g1 pts G1 vis j l k (l_aid l) last); auto. right. destruct Ej; [congruence|auto].
  Qed.

  Lemma contour_same fuel d cw l id vis : all_even g1 vis -> not_visited vis id = true -> nth_error L id = Some l ->
    get_contour g2 fuel (start_path d l id) cw vis = get_contour g1 fuel (start_path d l id) cw vis.
  Proof.
    intros E U Hl. pose proof (visit_start g1 pts G1 vis id l E U Hl) as O. pose proof (unvisited_lt _ _ U) as Lt.
    assert (V : not_visited (visit id vis) id = false) by (unfold not_visited; rewrite visit_spec, Nat.eqb_refl by auto; auto).
    unfold get_contour, start_path. destruct d; cbn [sd_link sd_node sd_last sd_begin]; erewrite walk_same; eauto.
    intros k n Hn. rewrite (O k n Hn). rewrite xorb_comm. auto.
  Qed.

  Lemma left_filter g k vis ids : (forall i, In i ids -> exists l, nth_error (g_links g) i = Some l) -> forall i l,
    left_top_loop g k ids i l vis = left_top_loop g k (filter (not_visited vis) ids) i l vis.
  Proof.
    induction ids as [|j ids IH]; intros H i l; auto. assert (H' : forall i, In i ids -> exists l, nth_error (g_links g) i = Some l) by (intros; apply H; right; auto).
    cbn [left_top_loop filter]. unfold not_visited at 1. destruct (is_visited vis j) eqn:V; cbn [negb].
    - destruct (H j (or_introl eq_refl)) as [t ->]. destruct (j =? k)%nat; [apply IH; auto|]. destruct (_ || _); apply IH; auto.
    - cbn [left_top_loop]. rewrite V. destruct (j =? k)%nat; [apply IH; auto|]. destruct (nth_error (g_links g) j) as [t|]; auto.
      destruct (_ || _); apply IH; auto.
  Qed.
  Lemma left_links ids k vis : forall i l, left_top_loop g2 k ids i l vis = left_top_loop g1 k ids i l vis.
  Proof.
    induction ids as [|j ids IH]; intros i l; auto. cbn [left_top_loop]. rewrite <- (sm_links _ _ _ Sm), !IH.
    destruct (j =? k)%nat; auto. destruct (nth_error L j); auto. destruct (_ || _); auto. destruct (is_visited vis j); auto.
  Qed.

  Lemma filter_none vis (l : list nat) : (forall i, In i l -> not_visited vis i = false) -> filter (not_visited vis) l = [].
  Proof. induction l as [|i l IH]; intro H; auto. cbn [filter]. rewrite H by (left; auto). apply IH. intros; apply H; right; auto. Qed.

  Lemma left_same k vis : not_visited vis k = true -> (forall i, (i < k)%nat -> not_visited vis i = false) ->
    find_left_top_link g2 k vis = find_left_top_link g1 k vis.
  Proof.
    intros U Old. unfold find_left_top_link. rewrite <- (sm_links _ _ _ Sm). destruct (nth_error L k) as [t|] eqn:Ht; auto.
    destruct (gw_link _ _ G1 k t Ht) as (_ & Pt & _ & na & nb & Ha & _). rewrite Ha.
    destruct (sm_node _ _ _ Sm _ _ Ha) as (n2 & ga & gb1 & gb2 & H2 & E1 & E2 & Pm & Eb). rewrite H2.
    assert (Vb : forall i, In i gb1 -> not_visited vis i = false).
    { intros i I. destruct (Eb i I) as (l & Hl & El). apply Old. destruct (Nat.lt_ge_cases i k) as [X|X]; auto. exfalso.
      apply (sm_sorted _ _ _ Sm k i t l Ht Hl X). destruct (gw_link _ _ G1 i l Hl) as (_ & _ & Pb & _). rewrite El, Pt in Pb. injection Pb as ->.
      apply (sm_dir _ _ _ Sm i l Hl). }
    assert (Ik : In k (ga ++ gb1)).
    { rewrite <- node_new_links, <- E1. apply (gw_node _ _ G1 _ _ Ha). eauto. }
    assert (Ika : In k ga).
    { apply in_app_iff in Ik as [Ik|Ik]; auto. apply Vb in Ik. congruence. }
    assert (Two : forall i j, ga ++ gb1 = [i; j] -> gb1 = gb2).
    { intros i j E. destruct ga as [|x ga]; [destruct Ika|]. destruct gb1 as [|b [|b' gb1]].
      - symmetry. apply Permutation_nil. auto.
      - symmetry. apply Permutation_length_1_inv. auto.
      - exfalso. apply (f_equal (@length nat)) in E. rewrite app_length in E. cbn in E. lia. }
    assert (Len : length (ga ++ gb1) = length (ga ++ gb2)) by (rewrite !app_length, (Permutation_length Pm); auto).
    assert (Bridge_or : (exists i j, ga ++ gb1 = [i; j]) \/ (node_new (ga ++ gb1) = Cross (ga ++ gb1) /\ node_new (ga ++ gb2) = Cross (ga ++ gb2))).
    { destruct (ga ++ gb1) as [|x [|y [|z r]]]; destruct (ga ++ gb2) as [|x' [|y' [|z' r']]]; cbn in Len; try lia; auto. left; eauto. }
    destruct Bridge_or as [(i & j & E)|[C1 C2]].
    - pose proof (Two i j E) as Eg. subst gb2 n2. rewrite <- E1. destruct na as [x y|l]; [unfold left_top_bridge; rewrite <- (sm_links _ _ _ Sm); reflexivity|apply left_links].
    - rewrite E1, E2, C1, C2. rewrite left_links.
      assert (Lk : forall n, (forall i, In i n -> In i (ga ++ gb1)) -> forall i, In i n -> exists l, nth_error L i = Some l).
      { intros n Hn i I. apply Hn in I. rewrite <- node_new_links, <- E1 in I. apply (gw_node _ _ G1 _ _ Ha) in I as (l & X & _). eauto. }
      rewrite (left_filter g1 k vis (ga ++ gb2)), (left_filter g1 k vis (ga ++ gb1)); [|apply Lk; auto|].
      + rewrite !filter_app, (filter_none vis gb1) by auto. rewrite (filter_none vis gb2); auto. intros i I. apply Vb. apply (Permutation_in _ (Permutation_sym Pm)). auto.
      + apply Lk. intros i I. apply in_app_iff in I. apply in_app_iff. destruct I as [I|I]; auto. right. apply (Permutation_in _ (Permutation_sym Pm)). auto.
  Qed.

  (** as long as no contour is rejected, everything before the current link has been visited *)
  Theorem extract_same clean r cw simplify a : forall fuel k vis ps, all_even g1 vis -> length vis = length L -> (length vis - k + ucount vis <= fuel)%nat ->
    (forall i, (i < k)%nat -> not_visited vis i = false) ->
    extract_loop g1 clean fuel r cw simplify a k vis = Some ps -> (forall p, In p ps -> p_valid p = true) ->
    extract_loop g2 clean fuel r cw simplify a k vis = Some ps.
  Proof.
    induction fuel as [|fuel IH]; intros k vis ps E Len Fu Old H V; cbn [extract_loop] in *; destruct (length vis <=? k)%nat eqn:Ek; auto.
    apply Nat.leb_gt in Ek.
    destruct (is_visited vis k) eqn:Vk.
    { apply IH; auto; [lia|]. intros i Hi. destruct (Nat.eq_dec i k) as [->|N]; [unfold not_visited; rewrite Vk; auto|]. apply Old. lia. }
    assert (U : not_visited vis k = true) by (unfold not_visited; rewrite Vk; auto).
    rewrite (left_same k vis U Old). assert (Lk : (k < length L)%nat) by lia. apply nth_error_Some in Lk. destruct (nth_error L k) as [l|] eqn:Hl; [|congruence].
    destruct (left_top_spec g1 pts G1 k vis l E U Hl) as (lt & ll & Elt & Ut & Hll & _). rewrite Elt in *.
    rewrite <- (sm_links _ _ _ Sm). rewrite Hll in *. rewrite (contour_same _ _ _ ll lt vis E Ut Hll).
    set (dir := Bool.eqb (is_fill_top r (l_fill ll)) cw) in *.
    destruct (contour_spec g1 pts G1 (length vis) dir dir ll lt vis E Ut Hll Len) as (c & u & vis' & Ec & _ & _ & _ & Fl & Ev & Cn & _).
    { pose proof (ucount_le vis). lia. }
    rewrite Ec in *. destruct (clean simplify c) as [cc md].
    destruct (extract_loop g1 clean fuel r cw simplify a _ vis') as [ps'|] eqn:Er; [|discriminate]. injection H as <-.
    pose proof (V _ (or_introl eq_refl)) as Vp. cbn [p_valid] in Vp. rewrite Vp in *.
    destruct Fl as [Fl1 Fl2]. cbn [length] in Cn.
    rewrite (IH k vis' ps'); auto; [lia|lia| |intros; apply V; right; auto].
    intros i Hi. specialize (Old i Hi). unfold not_visited in *. rewrite Fl2. apply negb_false_iff in Old. rewrite Old. auto.
  Qed.
End Same.
