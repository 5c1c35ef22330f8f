(** * Proofs about the extraction of contours from the graph. *)
From Verif Require Import Base Spec ModelGraph GraphProofs ModelExtract.
Open Scope nat_scope.

(** ** well-formed graphs *)
Record graph_wf (g : graph) (pts : list pt) : Prop := {
  gw_link : forall i l, nth_error (g_links g) i = Some l ->
    l_aid l <> l_bid l /\ nth_error pts (l_aid l) = Some (l_a l) /\ nth_error pts (l_bid l) = Some (l_b l) /\
    (exists na nb, nth_error (g_nodes g) (l_aid l) = Some na /\ nth_error (g_nodes g) (l_bid l) = Some nb);
  gw_node : forall k n, nth_error (g_nodes g) k = Some n -> NoDup (node_links n) /\
    forall i, In i (node_links n) <-> exists l, nth_error (g_links g) i = Some l /\ (l_aid l = k \/ l_bid l = k) }.

Lemma graph_of_wf links g pts : Forall (fun l => pt_lt (l_a l) (l_b l)) links -> graph_of links g pts -> graph_wf g pts.
Proof.
  intros W G. pose proof (go_len _ _ _ G) as Len.
  assert (Back : forall i l', nth_error (g_links g) i = Some l' -> exists l, nth_error links i = Some l /\
     l_a l' = l_a l /\ l_b l' = l_b l /\ nth_error pts (l_aid l') = Some (l_a l) /\ nth_error pts (l_bid l') = Some (l_b l)).
  { intros i l' H. destruct (nth_error links i) as [l|] eqn:E.
    - destruct (go_link _ _ _ G i l E) as (l2 & H2 & A & B & _ & C & D). rewrite H in H2. injection H2 as <-. exists l. auto.
    - apply nth_error_None in E. assert (i < length (g_links g)) by (apply nth_error_Some; congruence). lia. }
  assert (ND : NoDup pts).
  { pose proof (go_sorted _ _ _ G) as S. clear - S. induction S as [|p l S IH F]; constructor; auto.
    intro I. rewrite Forall_forall in F. specialize (F p I). eapply pt_lt_irrefl; eauto. }
  rewrite Forall_forall in W. constructor.
  - intros i l' H. destruct (Back i l' H) as (l & Hl & A & B & C & D). rewrite A, B. split; [|split; [|split]]; auto.
    + intro E. rewrite E in C. rewrite C in D. injection D as D. specialize (W l (nth_error_In _ _ Hl)). rewrite D in W. eapply pt_lt_irrefl; eauto.
    + assert (Ha : l_aid l' < length (g_nodes g)) by (rewrite (go_nlen _ _ _ G); apply nth_error_Some; congruence).
      assert (Hb : l_bid l' < length (g_nodes g)) by (rewrite (go_nlen _ _ _ G); apply nth_error_Some; congruence).
      apply nth_error_Some in Ha, Hb. destruct (nth_error (g_nodes g) (l_aid l')) as [na|]; [|congruence].
      destruct (nth_error (g_nodes g) (l_bid l')) as [nb|]; [|congruence]. eauto.
  - intros k n Hn. assert (Hk : k < length pts) by (rewrite <- (go_nlen _ _ _ G); apply nth_error_Some; congruence).
    pose proof Hk as Hk'. apply nth_error_Some in Hk. destruct (nth_error pts k) as [v|] eqn:Ev; [|congruence].
    destruct (go_node _ _ _ G k n v Hn Ev) as [N M]. split; auto. intro i. rewrite M. split.
    + intros (l & Hl & E). destruct (go_link _ _ _ G i l Hl) as (l2 & H2 & _ & _ & _ & C & D). exists l2. split; auto.
      rewrite NoDup_nth_error in ND. destruct E as [E|E]; [left|right]; symmetry; apply ND; auto; congruence.
    + intros (l' & Hl & E). destruct (Back i l' Hl) as (l & H2 & _ & _ & C & D). exists l. split; auto.
      destruct E as [E|E]; [left|right]; congruence.
Qed.

(** ** visited flags *)
Lemma visit_spec vis i j : i < length vis -> is_visited (visit i vis) j = (i =? j) || is_visited vis j.
Proof.
  unfold is_visited, visit. revert i j. induction vis as [|b vis IH]; intros i j H; simpl in *; [lia|].
  destruct i as [|i], j as [|j]; simpl; auto. apply IH. lia.
Qed.
Lemma visit_length vis i : length (visit i vis) = length vis.
Proof. apply upd_length. Qed.
Lemma unvisited_lt vis i : not_visited vis i = true -> i < length vis.
Proof.
  unfold not_visited, is_visited. intro H. destruct (Nat.lt_ge_cases i (length vis)); auto. rewrite nth_overflow in H by auto. discriminate.
Qed.
Definition ucount (vis : list bool) : nat := length (filter negb vis).
Lemma ucount_visit vis i : not_visited vis i = true -> S (ucount (visit i vis)) = ucount vis.
Proof.
  unfold ucount, not_visited, is_visited, visit. revert i. induction vis as [|b vis IH]; intros i H; simpl in *.
  - destruct i; discriminate.
  - destruct i as [|i]; simpl in *.
    + destruct b; simpl in *; [discriminate|auto].
    + destruct b; simpl; rewrite <- (IH i H); auto.
Qed.
Lemma ucount_le vis : ucount vis <= length vis.
Proof. unfold ucount. induction vis as [|[] l IH]; simpl; lia. Qed.
Lemma ucount_pos vis i : not_visited vis i = true -> 0 < ucount vis.
Proof. intro H. rewrite <- (ucount_visit vis i H). lia. Qed.

Definition deg (vis : list bool) (n : node) : nat := length (filter (not_visited vis) (node_links n)).
Definition mem_node (i : nat) (n : node) : nat := if memn i (node_links n) then 1 else 0.
Lemma deg_visit vis i n : NoDup (node_links n) -> not_visited vis i = true -> deg (visit i vis) n + mem_node i n = deg vis n.
Proof.
  intros N U. pose proof (unvisited_lt _ _ U) as L. unfold deg, mem_node.
  induction (node_links n) as [|j l IH]; simpl; auto. inversion N as [|? ? H1 H2]; subst. specialize (IH H2).
  assert (V : not_visited (visit i vis) j = negb (i =? j) && not_visited vis j).
  { unfold not_visited. rewrite visit_spec by auto. destruct (i =? j), (is_visited vis j); auto. }
  rewrite V. destruct (Nat.eqb_spec i j) as [->|NE]; simpl.
  - rewrite U. simpl. destruct (memn j l) eqn:E; [apply memn_in in E; tauto|]. lia.
  - fold (memn i l). destruct (not_visited vis j); simpl; lia.
Qed.

Definition all_even (g : graph) (vis : list bool) : Prop :=
  forall k n, nth_error (g_nodes g) k = Some n -> Nat.even (deg vis n) = true.
Definition odd_at (g : graph) (vis : list bool) (a b : nat) : Prop :=
  forall k n, nth_error (g_nodes g) k = Some n -> Nat.even (deg vis n) = negb (xorb (k =? a) (k =? b)).

Section Walk.
  Variable g : graph.
  Variable pts : list pt.
  Hypothesis G : graph_wf g pts.
  Notation links := (g_links g).
  Notation nodes := (g_nodes g).

  Lemma mem_node_spec i l k n : nth_error links i = Some l -> nth_error nodes k = Some n ->
    mem_node i n = if (k =? l_aid l) || (k =? l_bid l) then 1 else 0.
  Proof.
    intros Hl Hn. unfold mem_node. destruct (gw_node _ _ G k n Hn) as [_ M]. specialize (M i).
    destruct (memn i (node_links n)) eqn:E.
    - apply memn_in, M in E as (l' & H & E). rewrite Hl in H. injection H as <-.
      destruct E as [->| ->]; rewrite Nat.eqb_refl; [reflexivity|rewrite orb_true_r; reflexivity].
    - apply memn_false in E. destruct (k =? l_aid l) eqn:E1; [exfalso; apply E, M; apply Nat.eqb_eq in E1; eauto|].
      destruct (k =? l_bid l) eqn:E2; [exfalso; apply E, M; apply Nat.eqb_eq in E2; eauto|]. auto.
  Qed.

  (** visiting a link moves the odd vertex along *)
  Lemma visit_start vis i l : all_even g vis -> not_visited vis i = true -> nth_error links i = Some l ->
    odd_at g (visit i vis) (l_aid l) (l_bid l).
  Proof.
    intros E U Hl k n Hn. destruct (gw_node _ _ G k n Hn) as [N _].
    pose proof (deg_visit vis i n N U) as D. rewrite (mem_node_spec i l k n Hl Hn) in D.
    specialize (E k n Hn). rewrite <- D in E. destruct (gw_link _ _ G i l Hl) as (NE & _).
    destruct (Nat.eqb_spec k (l_aid l)), (Nat.eqb_spec k (l_bid l)); simpl in *; try congruence.
    - rewrite Nat.add_1_r, Nat.even_succ in E. rewrite <- Nat.negb_odd, E. auto.
    - rewrite Nat.add_1_r, Nat.even_succ in E. rewrite <- Nat.negb_odd, E. auto.
    - rewrite Nat.add_0_r in E. auto.
  Qed.
  Lemma visit_step vis i l node next last : odd_at g vis node last -> not_visited vis i = true -> nth_error links i = Some l ->
    (node = l_aid l /\ next = l_bid l) \/ (node = l_bid l /\ next = l_aid l) -> odd_at g (visit i vis) next last.
  Proof.
    intros O U Hl Or k n Hn. destruct (gw_node _ _ G k n Hn) as [N _].
    pose proof (deg_visit vis i n N U) as D. rewrite (mem_node_spec i l k n Hl Hn) in D.
    specialize (O k n Hn). rewrite <- D in O. destruct (gw_link _ _ G i l Hl) as (NE & _).
    assert (X : (k =? l_aid l) || (k =? l_bid l) = xorb (k =? node) (k =? next)).
    { destruct Or as [[-> ->]|[-> ->]]; destruct (Nat.eqb_spec k (l_aid l)), (Nat.eqb_spec k (l_bid l)); simpl; congruence. }
    rewrite X in O. destruct (k =? node), (k =? next), (k =? last); simpl in *;
      try (rewrite Nat.add_1_r, Nat.even_succ in O; rewrite <- Nat.negb_odd, O; reflexivity);
      try (rewrite Nat.add_0_r in O; exact O).
  Qed.

  (** *** choice of the next link *)
  Lemma nearest_loop_spec node ids : (forall i, In i ids -> exists l, nth_error links i = Some l) ->
    forall v, exists v', nearest_loop g node ids v = Some v' /\ (nv_best v' = nv_best v \/ In (nv_best v') ids).
  Proof.
    induction ids as [|i ids IH]; intros H v; simpl; [eauto|].
    destruct (H i (or_introl eq_refl)) as [l ->].
    destruct (IH (fun j Hj => H j (or_intror Hj)) (nv_add v (l_other l node) i)) as (v' & E & B).
    exists v'. split; auto. destruct B as [B|B]; auto.
    rewrite B. unfold nv_add. destruct (Bool.eqb _ _).
    - destruct (_ <? _)%Z; simpl; auto.
    - destruct (nv_more v); simpl; auto.
  Qed.
  Lemma find_nearest_spec target node cw ids vis : (forall i, In i ids -> exists l, nth_error links i = Some l) ->
    (exists l, nth_error links target = Some l) -> (exists i, In i ids /\ not_visited vis i = true) ->
    exists i, find_nearest_link_to g target node cw ids vis = Some i /\ In i ids /\ not_visited vis i = true.
  Proof.
    intros H [t Ht] (j & Ij & Uj). unfold find_nearest_link_to.
    assert (F : forall i, In i (filter (not_visited vis) ids) -> In i ids /\ not_visited vis i = true) by (intros i I; apply filter_In in I; auto).
    assert (Ne : In j (filter (not_visited vis) ids)) by (apply filter_In; auto).
    destruct (filter (not_visited vis) ids) as [|f rest]; [destruct Ne|].
    assert (Kf : In f ids /\ not_visited vis f = true) by (apply F; left; auto).
    destruct rest as [|s rest].
    - exists f. tauto.
    - rewrite Ht. destruct (H f (proj1 Kf)) as [lf ->].
      destruct (if l_aid t =? node then (l_a t, l_b t) else (l_b t, l_a t)) as [c a].
      destruct (nearest_loop_spec node (s :: rest)) with (v := nv_new c a (l_other lf node) f cw) as (v' & -> & B).
      { intros i I. apply H. apply F. right; auto. }
      exists (nv_best v'). split; auto. destruct B as [->|B]; [exact Kf|]. apply F. right; auto.
  Qed.

  Lemma next_link_spec link_id node cw n vis last l0 : nth_error nodes node = Some n -> odd_at g vis node last -> node <> last ->
    nth_error links link_id = Some l0 -> (l_aid l0 = node \/ l_bid l0 = node) -> not_visited vis link_id = false ->
    exists i l, next_link g link_id node cw n vis = Some i /\ not_visited vis i = true /\ nth_error links i = Some l /\ (l_aid l = node \/ l_bid l = node).
  Proof.
    intros Hn O NE H0 E0 V0. destruct (gw_node _ _ G node n Hn) as [N M].
    specialize (O node n Hn). rewrite Nat.eqb_refl in O. rewrite (proj2 (Nat.eqb_neq node last) NE) in O. simpl in O.
    assert (Ex : exists i, In i (node_links n) /\ not_visited vis i = true).
    { unfold deg in O. destruct (filter (not_visited vis) (node_links n)) as [|i r] eqn:F; [discriminate|].
      exists i. apply filter_In. rewrite F. left; auto. }
    assert (I0 : In link_id (node_links n)) by (apply M; eauto).
    assert (Lk : forall i, In i (node_links n) -> exists l, nth_error links i = Some l) by (intros i I; apply M in I as (l & Hl & _); eauto).
    assert (Fin : forall i, In i (node_links n) -> exists l, nth_error links i = Some l /\ (l_aid l = node \/ l_bid l = node)) by (intros i I; apply M; auto).
    destruct n as [i j|l]; simpl next_link.
    - simpl in *. destruct Ex as (u & Iu & Uu).
      assert (Eu : u = if i =? link_id then j else i).
      { destruct (Nat.eqb_spec i link_id) as [->|NE2].
        - destruct Iu as [<-|[<-|[]]]; [congruence|auto].
        - destruct I0 as [->|[->|[]]]; [congruence|]. destruct Iu as [<-|[<-|[]]]; [auto|congruence]. }
      rewrite <- Eu. destruct (Fin u Iu) as (l & Hl & E). exists u, l. auto.
    - destruct (find_nearest_spec link_id node cw l vis Lk (ex_intro _ l0 H0) Ex) as (i & E & I & U).
      destruct (Fin i I) as (l' & Hl & E'). exists i, l'. auto.
  Qed.

  (** *** a walk along links: from node [k] to node [last], [c] the points of the nodes passed *)
  Inductive trail : nat -> list pt -> list nat -> nat -> Prop :=
  | trail_nil k : trail k [] [] k
  | trail_cons k p i l next c u last : nth_error pts k = Some p -> nth_error links i = Some l ->
      (k = l_aid l /\ next = l_bid l) \/ (k = l_bid l /\ next = l_aid l) ->
      trail next c u last -> trail k (p :: c) (i :: u) last.

  Definition flags_after (vis vis' : list bool) (u : list nat) : Prop :=
    length vis' = length vis /\ forall j, is_visited vis' j = is_visited vis j || memn j u.

  Lemma walk_spec cw last : forall fuel link_id node vis l0,
    odd_at g vis node last -> length vis = length links -> ucount vis <= fuel ->
    nth_error links link_id = Some l0 -> (l_aid l0 = node \/ l_bid l0 = node) -> not_visited vis link_id = false ->
    exists c u vis', walk g fuel cw link_id node last vis = Some (c, u, vis') /\
      trail node c u last /\ NoDup u /\ (forall i, In i u -> not_visited vis i = true) /\ flags_after vis vis' u /\ all_even g vis' /\
      ucount vis' + length u = ucount vis.
  Proof.
    induction fuel as [|fuel IH]; intros link_id node vis l0 O Len Uc H0 E0 V0.
    - destruct (Nat.eq_dec node last) as [->|NE].
      + exists [], [], vis. simpl. rewrite Nat.eqb_refl. split; auto. split; [constructor|]. split; [constructor|]. split; [intros ? []|].
        split; [split; auto; intro; rewrite orb_false_r; auto|]. split; [|lia].
        intros k n Hn. rewrite (O k n Hn). destruct (k =? last); auto.
      + exfalso. destruct (gw_link _ _ G link_id l0 H0) as (_ & _ & _ & na & nb & Ha & Hb).
        assert (exists n, nth_error nodes node = Some n) as [n Hn] by (destruct E0 as [<-|<-]; eauto).
        destruct (next_link_spec link_id node cw n vis last l0 Hn O NE H0 E0 V0) as (i & l & _ & U & _). apply ucount_pos in U. lia.
    - simpl. destruct (Nat.eqb_spec node last) as [->|NE].
      { exists [], [], vis. split; auto. split; [constructor|]. split; [constructor|]. split; [intros ? []|].
        split; [split; auto; intro; rewrite orb_false_r; auto|]. split; [|simpl; lia].
        intros k n Hn. rewrite (O k n Hn). destruct (k =? last); auto. }
      destruct (gw_link _ _ G link_id l0 H0) as (_ & _ & _ & na & nb & Ha & Hb).
      assert (exists n, nth_error nodes node = Some n) as [n Hn] by (destruct E0 as [<-|<-]; eauto).
      destruct (next_link_spec link_id node cw n vis last l0 Hn O NE H0 E0 V0) as (i & l & Nx & U & Hl & E).
      rewrite Hn, Nx, Hl. pose proof (unvisited_lt _ _ U) as Lt.
      destruct (gw_link _ _ G i l Hl) as (NEl & Pa & Pb & _).
      set (pn := if l_aid l =? node then (l_a l, l_bid l) else (l_b l, l_aid l)).
      assert (K : exists p next, pn = (p, next) /\ nth_error pts node = Some p /\ ((node = l_aid l /\ next = l_bid l) \/ (node = l_bid l /\ next = l_aid l))).
      { unfold pn. destruct (Nat.eqb_spec (l_aid l) node) as [E1|E1].
        - exists (l_a l), (l_bid l). rewrite <- E1. auto.
        - destruct E as [E|E]; [congruence|]. exists (l_b l), (l_aid l). rewrite <- E. auto. }
      destruct K as (p & next & -> & Pp & Or).
      destruct (IH i next (visit i vis) l) as (c & u & vis' & W & T & N & A & [F1 F2] & Ev & Cnt).
      + eapply visit_step; eauto.
      + rewrite visit_length. auto.
      + pose proof (ucount_visit vis i U). lia.
      + auto.
      + destruct Or as [[? ->]|[? ->]]; auto.
      + unfold not_visited. rewrite visit_spec, Nat.eqb_refl by auto. auto.
      + exists (p :: c), (i :: u), vis'. rewrite W. split; auto. split; [econstructor; eauto|].
        assert (A' : forall j, In j u -> not_visited vis j = true /\ j <> i).
        { intros j Ij. specialize (A j Ij). unfold not_visited in *. rewrite visit_spec in A by auto.
          destruct (Nat.eqb_spec i j); simpl in *; [discriminate|]. split; auto. }
        split; [constructor; auto; intro Ii; apply A' in Ii; tauto|]. split.
        { intros j [<-|Ij]; auto. apply A'; auto. }
        split; [split; [rewrite F1; apply visit_length|]|].
        { intro j. rewrite F2, visit_spec by auto. simpl. rewrite (Nat.eqb_sym j i). destruct (i =? j), (is_visited vis j); auto. }
        split; auto. pose proof (ucount_visit vis i U). simpl. lia.
  Qed.

  (** the edges of a closed contour are the links used, in order *)
  Definition edge_is (e : pt * pt) (i : nat) : Prop :=
    exists l, nth_error links i = Some l /\ (e = (l_a l, l_b l) \/ e = (l_b l, l_a l)).
  Lemma trail_start k c u last : trail k c u last -> forall q, nth_error pts last = Some q ->
    exists c', c ++ [q] = match nth_error pts k with Some p => p | None => q end :: c'.
  Proof.
    intros T q Hq. destruct T as [k|k p i l next c u last Hp]; simpl.
    - rewrite Hq. eauto.
    - rewrite Hp. eauto.
  Qed.
  Lemma trail_edges k c u last : trail k c u last -> forall q, nth_error pts last = Some q ->
    Forall2 edge_is (combine c (tl (c ++ [q]))) u.
  Proof.
    intros T q Hq. induction T as [k|k p i l next c u last Hp Hl Or T IH]; simpl; [constructor|].
    specialize (IH Hq). destruct (gw_link _ _ G i l Hl) as (_ & Pa & Pb & _).
    assert (E : exists p', nth_error pts next = Some p' /\ edge_is (p, p') i).
    { destruct Or as [[-> ->]|[-> ->]].
      - exists (l_b l). split; auto. exists l. split; auto. left. congruence.
      - exists (l_a l). split; auto. exists l. split; auto. right. congruence. }
    destruct E as (p' & Hp' & Ed). inversion T as [k0 E1 E2 E3|k0 p1 i1 l1 n1 c1 u1 last1 Hp1 Hl1 Or1 T1 E1 E2 E3]; subst.
    - simpl. constructor; [|constructor]. rewrite Hq in Hp'. injection Hp' as <-. auto.
    - simpl. rewrite Hp' in Hp1. injection Hp1 as <-. constructor; auto.
  Qed.

  Lemma contour_spec fuel direction cw l id vis : all_even g vis -> not_visited vis id = true -> nth_error links id = Some l ->
    length vis = length links -> ucount vis <= S fuel ->
    exists c u vis', get_contour g fuel (start_path direction l id) cw vis = Some (c, id :: u, vis') /\
      Forall2 edge_is (edges c) (id :: u) /\ NoDup (id :: u) /\ (forall i, In i (id :: u) -> not_visited vis i = true) /\
      flags_after vis vis' (id :: u) /\ all_even g vis' /\ ucount vis' + length (id :: u) = ucount vis /\
      (exists c', c = sd_begin (start_path direction l id) :: c' /\ trail (sd_node (start_path direction l id)) c' u (sd_last (start_path direction l id))).
  Proof.
    intros E U Hl Len Uc. destruct (gw_link _ _ G id l Hl) as (NE & Pa & Pb & _).
    pose proof (unvisited_lt _ _ U) as Lt. pose proof (ucount_visit vis id U) as Cn.
    set (sd := start_path direction l id).
    assert (S : sd_link sd = id /\ nth_error pts (sd_last sd) = Some (sd_begin sd) /\
       odd_at g (visit id vis) (sd_node sd) (sd_last sd) /\ (l_aid l = sd_node sd \/ l_bid l = sd_node sd) /\
       (exists p, nth_error pts (sd_node sd) = Some p /\ edge_is (sd_begin sd, p) id) /\ sd_node sd <> sd_last sd).
    { pose proof (visit_start vis id l E U Hl) as O. unfold sd, start_path. destruct direction; simpl.
      - repeat split; auto. exists (l_a l). split; auto. exists l. auto.
      - repeat split; auto.
        + intros k n Hn. rewrite (O k n Hn). rewrite xorb_comm. auto.
        + exists (l_b l). split; auto. exists l. auto. }
    destruct S as (S1 & S2 & S3 & S4 & (p & S5 & S6) & S7). clearbody sd.
    destruct (walk_spec cw (sd_last sd) fuel id (sd_node sd) (visit id vis) l) as (c & u & vis' & W & T & N & A & [F1 F2] & Ev & Cnt); auto.
    - rewrite visit_length. auto.
    - lia.
    - unfold not_visited. rewrite visit_spec, Nat.eqb_refl by auto. auto.
    - exists (sd_begin sd :: c), u, vis'. unfold get_contour. rewrite S1, W. split; auto.
      assert (A' : forall j, In j u -> not_visited vis j = true /\ j <> id).
      { intros j Ij. specialize (A j Ij). unfold not_visited in *. rewrite visit_spec in A by auto.
        destruct (Nat.eqb_spec id j); simpl in *; [discriminate|]. split; auto. }
      split; [|split; [|split; [|split; [|split; [|split]]]]]; auto.
      + simpl. pose proof (trail_edges _ _ _ _ T _ S2) as TE.
        inversion T as [k0 E1 E2 E3|k0 p1 i1 l1 n1 c1 u1 last1 Hp1 Hl1 Or1 T1 E1 E2 E3]; subst; [congruence|].
        simpl in *. assert (p1 = p) by congruence. subst p1. constructor; auto.
      + constructor; auto. intro I. apply A' in I. tauto.
      + intros i [<-|I]; auto. apply A'; auto.
      + split; [rewrite F1; apply visit_length|]. intro j. rewrite F2, visit_spec by auto. simpl. rewrite (Nat.eqb_sym j id). destruct (id =? j), (is_visited vis j); auto.
      + simpl. lia.
      + exists c. auto.
  Qed.

  (** *** the start link *)
  Lemma left_top_loop_spec link_index ids : (forall i, In i ids -> exists l, nth_error links i = Some l) ->
    forall vis top_index top, nth_error links top_index = Some top -> not_visited vis top_index = true ->
    exists i, left_top_loop g link_index ids top_index top vis = Some i /\ not_visited vis i = true /\ (exists l, nth_error links i = Some l) /\
      (i = top_index \/ In i ids).
  Proof.
    induction ids as [|i ids IH]; intros H vis ti t Ht U; simpl.
    - exists ti. repeat split; eauto.
    - assert (H' : forall j, In j ids -> exists l, nth_error links j = Some l) by (intros j I; apply H; right; auto).
      assert (W : exists j, left_top_loop g link_index ids ti t vis = Some j /\ not_visited vis j = true /\ (exists l, nth_error links j = Some l) /\ (j = ti \/ i = j \/ In j ids)).
      { destruct (IH H' vis ti t Ht U) as (j & A & B & C & D). exists j. repeat split; auto. tauto. }
      destruct (i =? link_index); auto. destruct (H i (or_introl eq_refl)) as [l Hl]. rewrite Hl.
      destruct (_ || _); auto. destruct (is_visited vis i) eqn:V; auto.
      destruct (IH H' vis i l Hl) as (j & A & B & C & D); [unfold not_visited; rewrite V; auto|].
      exists j. repeat split; auto. destruct D as [->|D]; auto.
  Qed.
  Lemma left_top_spec link_index vis l : all_even g vis -> not_visited vis link_index = true -> nth_error links link_index = Some l ->
    exists i l', find_left_top_link g link_index vis = Some i /\ not_visited vis i = true /\ nth_error links i = Some l' /\
      (l_aid l' = l_aid l \/ l_bid l' = l_aid l).
  Proof.
    intros E U Hl. unfold find_left_top_link. rewrite Hl.
    destruct (gw_link _ _ G link_index l Hl) as (_ & _ & _ & na & nb & Ha & _). rewrite Ha.
    destruct (gw_node _ _ G _ na Ha) as [N M].
    assert (I0 : In link_index (node_links na)) by (apply M; eauto).
    destruct na as [i j|ids].
    - simpl in *. specialize (E _ _ Ha). unfold deg in E. simpl in E.
      assert (U2 : not_visited vis i = true /\ not_visited vis j = true).
      { destruct I0 as [->|[->|[]]]; rewrite U in E; destruct (not_visited vis _) eqn:X in E; simpl in E; try discriminate; split; auto;
          try (inversion N; fail); destruct (not_visited vis i) eqn:Y; simpl in E; auto; try discriminate. }
      assert (Li : forall x, x = i \/ x = j -> exists l0, nth_error links x = Some l0 /\ (l_aid l0 = l_aid l \/ l_bid l0 = l_aid l)).
      { intros x Hx. apply M. destruct Hx as [->| ->]; auto. }
      destruct (Li i (or_introl eq_refl)) as (l0 & H0 & E0). destruct (Li j (or_intror eq_refl)) as (l1 & H1 & E1).
      unfold left_top_bridge. rewrite H0, H1. destruct (is_clockwise _ _ _); [exists i, l0|exists j, l1]; tauto.
    - assert (Lk : forall x, In x ids -> exists l0, nth_error links x = Some l0) by (intros x I; apply M in I as (l0 & H0 & _); eauto).
      destruct (left_top_loop_spec link_index ids Lk vis link_index l Hl U) as (i & A & B & _ & D).
      simpl in M, I0. assert (Ii : In i ids) by (destruct D as [->|D]; auto). apply M in Ii as (l' & Hl' & E').
      exists i, l'. auto.
  Qed.

  (** *** the whole extraction *)
  Variable clean : bool -> list pt -> list pt * bool.

  Lemma flags_trans vis vis' u : flags_after vis vis' u -> forall j, not_visited vis' j = true <-> not_visited vis j = true /\ ~ In j u.
  Proof.
    intros [_ F] j. unfold not_visited. rewrite F. rewrite negb_true_iff, orb_false_iff, memn_false, negb_true_iff. tauto.
  Qed.

  Theorem extract_spec r cw simplify min_area : forall fuel link_index vis,
    all_even g vis -> length vis = length links -> (length vis - link_index) + ucount vis <= fuel ->
    exists ps, extract_loop g clean fuel r cw simplify min_area link_index vis = Some ps /\
      Forall (fun p => Forall2 edge_is (edges (p_raw p)) (p_used p) /\
        p_contour p = fst (clean simplify (p_raw p)) /\ p_valid p = is_valid min_area (p_contour p)) ps /\
      NoDup (concat (map p_used ps)) /\
      (forall i, In i (concat (map p_used ps)) -> not_visited vis i = true) /\
      ((forall p, In p ps -> p_valid p = true) -> forall i, link_index <= i -> not_visited vis i = true -> In i (concat (map p_used ps))).
  Proof.
    induction fuel as [|fuel IH]; intros k vis E Len Fu; simpl.
    - destruct (Nat.leb_spec (length vis) k) as [L|L]; [|lia].
      exists []. split; auto. split; [constructor|]. split; [constructor|]. split; [intros ? []|].
      intros _ i Hi U. apply unvisited_lt in U. lia.
    - destruct (Nat.leb_spec (length vis) k) as [L|L].
      { exists []. split; auto. split; [constructor|]. split; [constructor|]. split; [intros ? []|].
        intros _ i Hi U. apply unvisited_lt in U. lia. }
      destruct (is_visited vis k) eqn:V.
      { destruct (IH (S k) vis E Len) as (ps & A & B & C & D & F); [lia|]. exists ps. split; auto. split; auto. split; auto. split; auto.
        intros Av i Hi U. destruct (Nat.eq_dec i k) as [->|NE]; [unfold not_visited in U; rewrite V in U; discriminate|]. apply F; auto. lia. }
      assert (U : not_visited vis k = true) by (unfold not_visited; rewrite V; auto).
      assert (Lk : k < length links) by lia. pose proof Lk as Lk'. apply nth_error_Some in Lk. destruct (nth_error links k) as [l|] eqn:Hl; [|congruence].
      destruct (left_top_spec k vis l E U Hl) as (lt & ll & -> & Ut & Hll & _). rewrite Hll.
      set (hole := is_fill_top r (l_fill ll)). set (dir := Bool.eqb hole cw).
      destruct (contour_spec (length vis) dir dir ll lt vis E Ut Hll Len) as (c & u & vis' & -> & Ed & Nd & Un & Fl & Ev & Cn & _).
      { pose proof (ucount_le vis). lia. }
      destruct (clean simplify c) as [cc m] eqn:Ecl.
      destruct (IH (if is_valid min_area cc then k else S k) vis' Ev) as (ps & A & B & C & D & F).
      { destruct Fl as [Fl _]. congruence. }
      { destruct Fl as [Fl _]. rewrite Fl. simpl in Cn. destruct (is_valid min_area cc); lia. }
      rewrite A. eexists. split; [reflexivity|]. split; [|split; [|split]].
      + constructor; auto. simpl. rewrite Ecl. auto.
      + simpl. change (lt :: u ++ concat (map p_used ps)) with ((lt :: u) ++ concat (map p_used ps)).
        assert (Dj : forall i, In i (lt :: u) -> ~ In i (concat (map p_used ps))).
        { intros i I1 I2. apply D in I2. apply (flags_trans _ _ _ Fl) in I2. tauto. }
        clear - Nd C Dj. induction (lt :: u) as [|x l IH]; simpl; auto. inversion Nd; subst. constructor.
        * rewrite in_app_iff. intros [I|I]; auto. eapply Dj; [left; auto|auto].
        * apply IH; auto. intros i I. apply Dj. right; auto.
      + intros i I. cbn [map concat p_used] in I. apply in_app_iff in I as [I|I]; auto. apply D in I. apply (flags_trans _ _ _ Fl) in I. tauto.
      + intros Av i Hi Ui. cbn [map concat p_used]. apply in_app_iff.
        destruct (memn i (lt :: u)) eqn:Mi; [left; apply memn_in; auto|]. apply memn_false in Mi. right.
        pose proof (Av _ (or_introl eq_refl)) as Vp. simpl in Vp. rewrite Vp in F.
        apply F; [intros p Ip; apply Av; right; auto|auto|]. apply (proj2 (flags_trans _ _ _ Fl i)). auto.
  Qed.
End Walk.
