(** * A graph with all links and a graph with the links of one rule: the same contours. *)
From Verif Require Import Base Spec QLib ModelSegm SegmProofs MergeProofs PlanarGeo PlanarSum ModelFill ModelFilter FillProofs FillCorrect
  ModelCross CrossProofs CrossPoint MarksProofs CoreResults Properties01 ModelSplit SplitProofs SplitPlanar SplitPass BinsProofs SplitApply SplitLoop
  ModelFrag ModelOverlay OverlayProofs FragProofs GridCover Properties02
  ModelGraph GraphProofs ModelExtract ExtractProofs ContourResults Rotation NextLink Properties03
  MoveLemma SectorLemma Sides WalkSides Orient Properties04 ModelBind Order.
From Coq Require Import Permutation.
Open Scope nat_scope.

Lemma SS_nat_ext : forall l k : list nat, StronglySorted lt l -> StronglySorted lt k -> (forall x, In x l <-> In x k) -> l = k.
Proof.
  induction l as [|s l IH]; intros [|t k] Hl Hk HE; auto.
  - exfalso. apply (HE t). left; auto.
  - exfalso. apply (HE s). left; auto.
  - inversion Hl as [|? ? Hl1 Hl2]; subst. inversion Hk as [|? ? Hk1 Hk2]; subst. rewrite Forall_forall in Hl2, Hk2.
    assert (s = t) as ->.
    { destruct (proj1 (HE s) (or_introl eq_refl)) as [E|I]; auto.
      destruct (proj2 (HE t) (or_introl eq_refl)) as [E|I']; auto. apply Hl2 in I'. apply Hk2 in I. lia. }
    f_equal. apply IH; auto. intro x. split; intro I.
    + destruct (proj1 (HE x) (or_intror I)) as [<-|K]; auto. apply Hl2 in I. lia.
    + destruct (proj2 (HE x) (or_intror I)) as [<-|K]; auto. apply Hk2 in I. lia.
Qed.
Lemma SS_filter {A} (R : A -> A -> Prop) (f : A -> bool) l : StronglySorted R l -> StronglySorted R (filter f l).
Proof.
  induction 1 as [|x l S IH F]; cbn [filter]; [constructor|]. destruct (f x); auto. constructor; auto.
  apply Forall_forall. intros y I. apply filter_In in I as [I _]. rewrite Forall_forall in F. auto.
Qed.
Lemma enum_SS {A} (l : list A) : StronglySorted (fun x y : nat * A => fst x < fst y) (enum l).
Proof.
  unfold enum. generalize 0. induction l as [|x l IH]; intro n; simpl; constructor; auto. apply Forall_forall. intros [i y] I. apply in_combine_l in I. apply in_seq in I. simpl. lia.
Qed.
Lemma SS_fst {A} (l : list (nat * A)) : StronglySorted (fun x y : nat * A => fst x < fst y) l -> StronglySorted lt (map fst l).
Proof. induction 1 as [|x l S IH F]; cbn [map]; constructor; auto. apply Forall_map. auto. Qed.
Lemma SS_nth (l : list nat) : StronglySorted lt l -> forall k m i j, nth_error l k = Some i -> nth_error l m = Some j -> (k < m <-> i < j).
Proof.
  assert (H : StronglySorted lt l -> forall k m i j, nth_error l k = Some i -> nth_error l m = Some j -> k < m -> i < j).
  { induction 1 as [|x l S IH F]; intros k m i j Hk Hm L; [destruct k; discriminate|]. destruct m as [|m]; [lia|]. destruct k as [|k].
    - injection Hk as <-. cbn [nth_error] in Hm. apply nth_error_In in Hm. rewrite Forall_forall in F. auto.
    - apply (IH k m); auto. lia. }
  intros S k m i j Hk Hm. split; [eapply H; eauto|]. intro L. destruct (Nat.lt_trichotomy k m) as [X|[X|X]]; auto.
  - subst. rewrite Hk in Hm. injection Hm as ->. lia.
  - pose proof (H S m k j i Hm Hk X). lia.
Qed.

(** ** The links of the smaller graph within the larger one *)
Section Em.
  Variable links : list link.
  Variable inc : link -> bool.
  Definition emb : list nat := map fst (filter (fun x => inc (snd x)) (enum links)).
  Definition Em (k i : nat) : Prop := nth_error emb k = Some i.
  Lemma emb_SS : StronglySorted lt emb.
  Proof. apply SS_fst, SS_filter, enum_SS. Qed.
  Lemma filter_enum : filter inc links = map snd (filter (fun x => inc (snd x)) (enum links)).
  Proof. rewrite <- (enum_snd links) at 1. induction (enum links) as [|x l IH]; auto. cbn [map filter]. destruct (inc (snd x)); cbn [map]; rewrite IH; auto. Qed.
  Lemma em_len : length emb = length (filter inc links).
  Proof. rewrite filter_enum. unfold emb. rewrite !map_length. auto. Qed.
  Lemma em_get k i : Em k i -> exists l, nth_error (filter inc links) k = Some l /\ nth_error links i = Some l /\ inc l = true.
  Proof.
    unfold Em, emb. rewrite nth_error_map, filter_enum. intro H. destruct (nth_error (filter (fun x => inc (snd x)) (enum links)) k) as [[j l]|] eqn:E; [|discriminate]. injection H as <-.
    exists l. rewrite nth_error_map, E. split; auto. apply nth_error_In, filter_In in E as [E I]. split; auto. apply enum_nth. auto.
  Qed.
  Lemma em_of k : k < length (filter inc links) -> exists i, Em k i.
  Proof. rewrite <- em_len. intro L. apply nth_error_Some in L. unfold Em. destruct (nth_error emb k); [eauto|congruence]. Qed.
  Lemma em_in i l : nth_error links i = Some l -> inc l = true -> exists k, Em k i.
  Proof.
    intros H I. apply enum_nth in H. assert (J : In i emb).
    { unfold emb. apply in_map_iff. exists (i, l). split; auto. apply filter_In. auto. }
    apply In_nth_error in J. exact J.
  Qed.
  Lemma em_lt k m i j : Em k i -> Em m j -> (k < m <-> i < j).
  Proof. apply SS_nth, emb_SS. Qed.
  Lemma em_fun k i j : Em k i -> Em k j -> i = j.
  Proof. unfold Em. congruence. Qed.
  Lemma em_inj k m i : Em k i -> Em m i -> k = m.
  Proof. intros A B. destruct (Nat.lt_trichotomy k m) as [X|[X|X]]; auto; apply (em_lt _ _ _ _ A B) in X || apply (em_lt _ _ _ _ B A) in X; lia. Qed.
  Lemma em_k k i : Em k i -> k < length (filter inc links).
  Proof. intro H. destruct (em_get _ _ H) as (l & X & _). apply nth_error_Some. congruence. Qed.

  (** positions of the two scans *)
  Definition Pos (i k : nat) : Prop := (forall m j, Em m j -> (m < k <-> j < i)) /\ k <= length (filter inc links).
  Lemma pos_0 : Pos 0 0.
  Proof. split; [intros; lia|lia]. Qed.
  Lemma pos_end i k : Pos i k -> length links <= i -> k = length (filter inc links).
  Proof.
    intros [P Le] L. destruct (Nat.eq_dec k (length (filter inc links))) as [E|N]; auto. assert (X : k < length (filter inc links)) by lia.
    destruct (em_of k X) as (j & Ej). specialize (P k j Ej). destruct (em_get _ _ Ej) as (l & _ & Hl & _). assert (j < length links) by (apply nth_error_Some; congruence). lia.
  Qed.
  Lemma pos_skip i k l : Pos i k -> nth_error links i = Some l -> inc l = false -> Pos (S i) k.
  Proof.
    intros [P Le] Hl I. split; auto. intros m j E. rewrite (P m j E). split; intro X; [lia|]. destruct (Nat.eq_dec j i) as [->|N]; [|lia].
    destruct (em_get _ _ E) as (l' & _ & H2 & I2). congruence.
  Qed.
  Lemma pos_em i k l : Pos i k -> nth_error links i = Some l -> inc l = true -> Em k i /\ Pos (S i) (S k).
  Proof.
    intros [P Le] Hl I. destruct (em_in i l Hl I) as (m & Em_). assert (Nm : ~ m < k) by (rewrite (P m i Em_); lia).
    assert (E : m = k).
    { destruct (Nat.eq_dec m k) as [X|X]; auto. exfalso. assert (L : k < m) by lia. pose proof (em_k _ _ Em_) as Lm.
      destruct (em_of k) as (j & Ej); [lia|]. apply (em_lt _ _ _ _ Ej Em_) in L. apply (P k j Ej) in L. lia. }
    subst m. split; auto. split; [|pose proof (em_k _ _ Em_); lia]. intros m j E. pose proof (em_lt _ _ _ _ E Em_) as H. destruct (Nat.eq_dec m k) as [->|X].
    - pose proof (em_fun _ _ _ E Em_). subst. lia.
    - assert (j <> i) by (intros ->; apply X; eapply em_inj; eauto). lia.
  Qed.
End Em.

(** ** The start of a contour *)
Section Top.
  Variable links : list link.
  Hypothesis W : Forall (fun l => pt_lt (l_a l) (l_b l)) links.
  Hypothesis Sl : StronglySorted (fun l m => pt_leb (l_a l) (l_a m) = true) links.
  Variable ends : list (nat * pt).
  Hypothesis Oe : ends_ok links ends.
  Variable g : graph.
  Variable pts : list pt.
  Hypothesis G : graph_of links g pts.
  Hypothesis Nd : g_nodes g = map (node_at links ends) pts.
  Definition starts (v : pt) : list nat := at_pt v (enum (map l_a links)).

  Lemma starts_SS v : StronglySorted lt (starts v).
  Proof. unfold starts, at_pt. apply SS_fst, SS_filter, enum_SS. Qed.
  Lemma starts_in v i : In i (starts v) <-> exists l, nth_error links i = Some l /\ l_a l = v.
  Proof.
    unfold starts. rewrite at_pt_in, enum_nth, nth_error_map. destruct (nth_error links i) as [l|]; cbn [option_map]; split; try discriminate.
    - intro X. injection X as <-. eauto.
    - intros (l' & X & <-). congruence.
    - intros (? & ? & _). discriminate.
  Qed.
  Lemma link_back i l' : nth_error (g_links g) i = Some l' -> exists l, nth_error links i = Some l /\ l_a l' = l_a l /\ l_b l' = l_b l /\ l_fill l' = l_fill l.
  Proof.
    intro H. destruct (nth_error links i) as [l|] eqn:E.
    - destruct (go_link _ _ _ G i l E) as (l2 & X & R1 & R2 & R3 & _). rewrite H in X. injection X as <-. eauto 6.
    - apply nth_error_None in E. rewrite <- (go_len _ _ _ G) in E. apply nth_error_None in E. congruence.
  Qed.

  Lemma top_starts k top vis : all_even g vis -> not_visited vis k = true -> (forall i, i < k -> not_visited vis i = false) -> nth_error (g_links g) k = Some top ->
    find_left_top_link g k vis = left_top_loop g k (filter (not_visited vis) (starts (l_a top))) k top vis.
  Proof.
    intros E U Old Hk. unfold find_left_top_link. rewrite Hk. pose proof (graph_of_wf _ _ _ W G) as GW.
    destruct (gw_link _ _ GW k top Hk) as (_ & Pt & _ & na & _ & Ha & _). rewrite Ha.
    pose proof Ha as Ha'. rewrite Nd, nth_error_map, Pt in Ha'. injection Ha' as En. unfold node_at in En. fold (starts (l_a top)) in En.
    pose proof (starts_SS (l_a top)) as SS. assert (St : forall i, In i (starts (l_a top)) -> exists l, nth_error links i = Some l /\ l_a l = l_a top) by (intros i; apply starts_in).
    remember (starts (l_a top)) as ga eqn:Ega. remember (at_pt (l_a top) ends) as gb eqn:Egb.
    destruct (gw_node _ _ GW _ _ Ha) as [ND M].
    assert (Vb : forall i, In i gb -> not_visited vis i = false).
    { intros i I. rewrite Egb in I. apply at_pt_in in I. apply (Permutation_in _ (proj1 Oe)) in I. apply enum_nth in I. rewrite nth_error_map in I.
      destruct (nth_error links i) as [l|] eqn:Hl; [|discriminate]. injection I as I. apply Old. destruct (Nat.lt_ge_cases i k) as [X|X]; auto. exfalso.
      destruct (link_back k top Hk) as (t & Ht & Ea & _). apply (links_sorted links Sl k i t l Ht Hl X). rewrite <- Ea, <- I.
      rewrite Forall_forall in W. apply W. eapply nth_error_In; eauto. }
    assert (Ik : In k (ga ++ gb)).
    { rewrite <- (node_new_links (ga ++ gb)), En. apply M. eauto. }
    assert (Ika : In k ga).
    { apply in_app_iff in Ik as [Ik|Ik]; auto. apply Vb in Ik. congruence. }
    assert (Lk : forall i, In i (ga ++ gb) -> exists l, nth_error (g_links g) i = Some l).
    { intros i I. rewrite <- (node_new_links (ga ++ gb)), En in I. apply M in I as (l & X & _). eauto. }
    assert (Fga : filter (not_visited vis) (ga ++ gb) = filter (not_visited vis) ga).
    { rewrite filter_app, (filter_none vis gb), app_nil_r; auto. }
    destruct na as [x y|ids].
    - assert (Eg : ga ++ gb = [x; y]) by (rewrite <- (node_new_links (ga ++ gb)), En; reflexivity).
      specialize (E _ _ Ha). unfold deg in E. cbn [node_links] in E. rewrite <- Eg, Fga in E.
      destruct ga as [|x' ga]; [destruct Ika|]. cbn [app] in Eg. injection Eg as -> Eg.
      assert (Gb : ga = [y] /\ gb = []).
      { destruct ga as [|y' ga]; [|cbn [app] in Eg; injection Eg as -> Eg; destruct ga; [auto|discriminate]]. destruct Ika as [<-|[]]. exfalso. clear - E U. cbn [filter] in E. rewrite U in E. discriminate. }
      destruct Gb as [-> Gb]. clear Eg.
      inversion SS as [|? ? _ Fo]; subst. inversion Fo as [|? ? Sd _]; subst. clear Fo.
      assert (U2 : not_visited vis x = true /\ not_visited vis y = true).
      { cbn [filter] in E. destruct Ika as [->|[->|[]]]; rewrite U in E; [destruct (not_visited vis y)|destruct (not_visited vis x)]; cbn in E; try discriminate; auto. }
      destruct U2 as [Ux Uy]. assert (k = x) as ->.
      { destruct Ika as [->|[->|[]]]; auto. apply Old in Sd. congruence. }
      cbn [filter]. rewrite Ux, Uy. cbn [left_top_loop]. rewrite Nat.eqb_refl. destruct (Nat.eqb_spec y x) as [X|_]; [lia|].
      unfold left_top_bridge. rewrite Hk. destruct (Lk y (or_intror (or_introl eq_refl))) as (ly & Hy). rewrite Hy.
      assert (Ly : pt_ltb (l_a ly) (l_b ly) = true).
      { apply pt_ltb_lt. destruct (link_back y ly Hy) as (l0 & H0 & -> & -> & _). rewrite Forall_forall in W. apply W. eapply nth_error_In; eauto. }
      rewrite Ly. cbn [negb orb]. unfold not_visited in Uy. apply negb_true_iff in Uy. rewrite Uy. destruct (is_clockwise _ _ _); reflexivity.
    - assert (Eg : ids = ga ++ gb) by (rewrite <- (node_new_links (ga ++ gb)), En; reflexivity). subst ids.
      rewrite (left_filter g k vis (ga ++ gb)) by auto. rewrite Fga. reflexivity.
  Qed.
End Top.

(** ** Both graphs *)
Section Sub.
  Variable links : list link.
  Variable inc : link -> bool.
  Notation links' := (filter inc links).
  Hypothesis W : Forall (fun l => pt_lt (l_a l) (l_b l)) links.
  Hypothesis Sl : StronglySorted (fun l m => pt_leb (l_a l) (l_a m) = true) links.
  Variables ends ends' : list (nat * pt).
  Hypothesis Oe : ends_ok links ends.
  Hypothesis Oe' : ends_ok links' ends'.
  Variables g g' : graph.
  Variables pts pts' : list pt.
  Hypothesis G : graph_of links g pts.
  Hypothesis G' : graph_of links' g' pts'.
  Hypothesis Nd : g_nodes g = map (node_at links ends) pts.
  Hypothesis Nd' : g_nodes g' = map (node_at links' ends') pts'.
  Hypothesis P : links_planar (g_links g).
  Hypothesis P' : links_planar (g_links g').
  Notation em := (Em links inc).

  Lemma W' : Forall (fun l => pt_lt (l_a l) (l_b l)) links'.
  Proof. apply Forall_forall. intros l I. apply filter_In in I as [I _]. rewrite Forall_forall in W. auto. Qed.
  Lemma Sl' : StronglySorted (fun l m => pt_leb (l_a l) (l_a m) = true) links'.
  Proof. apply SS_filter. exact Sl. Qed.
  Lemma GW : graph_wf g pts.
  Proof. exact (graph_of_wf _ _ _ W G). Qed.
  Lemma GW' : graph_wf g' pts'.
  Proof. exact (graph_of_wf _ _ _ W' G'). Qed.

  (** the same vertex *)
  Definition Nn (k k' : nat) : Prop := exists v, nth_error pts k = Some v /\ nth_error pts' k' = Some v.
  Lemma SS_NoDup (l : list pt) : StronglySorted pt_lt l -> NoDup l.
  Proof.
    induction 1 as [|p l S IH F]; constructor; auto. intro I. rewrite Forall_forall in F. specialize (F p I). eapply pt_lt_irrefl; eauto.
  Qed.
  Lemma Nn_eq a a' b b' : Nn a a' -> Nn b b' -> (a = b <-> a' = b').
  Proof.
    intros (v & H1 & H2) (w & K1 & K2). pose proof (proj1 (NoDup_nth_error pts) (SS_NoDup _ (go_sorted _ _ _ G))) as U.
    pose proof (proj1 (NoDup_nth_error pts') (SS_NoDup _ (go_sorted _ _ _ G'))) as U'. split; intros <-.
    - apply U'; [apply nth_error_Some; congruence|congruence].
    - apply U; [apply nth_error_Some; congruence|congruence].
  Qed.
  Lemma Nn_eqb a a' b b' : Nn a a' -> Nn b b' -> (a =? b) = (a' =? b').
  Proof. intros H K. pose proof (Nn_eq _ _ _ _ H K) as E. destruct (Nat.eqb_spec a b), (Nat.eqb_spec a' b'); auto; tauto. Qed.

  Lemma em_links k i : em k i -> exists l l', nth_error (g_links g) i = Some l /\ nth_error (g_links g') k = Some l' /\
    l_a l = l_a l' /\ l_b l = l_b l' /\ l_fill l = l_fill l' /\ Nn (l_aid l) (l_aid l') /\ Nn (l_bid l) (l_bid l').
  Proof.
    intro E. destruct (em_get _ _ _ _ E) as (l0 & H' & H & _).
    destruct (go_link _ _ _ G i l0 H) as (l & Hl & A1 & A2 & A3 & A4 & A5). destruct (go_link _ _ _ G' k l0 H') as (l' & Hl' & B1 & B2 & B3 & B4 & B5).
    exists l, l'. repeat split; auto; try congruence; [exists (l_a l0)|exists (l_b l0)]; auto.
  Qed.

  Record R (vis vis' : list bool) : Prop := {
    R_len : length vis = length links;
    R_len' : length vis' = length links';
    R_em : forall k i, em k i -> is_visited vis i = is_visited vis' k;
    R_out : forall i l, nth_error links i = Some l -> inc l = false -> is_visited vis i = true }.

  Lemma R_visit vis vis' k i : R vis vis' -> em k i -> R (visit i vis) (visit k vis').
  Proof.
    intros [L L' E O] H. assert (Li : i < length vis) by (destruct (em_get _ _ _ _ H) as (l & _ & X & _); rewrite L; apply nth_error_Some; congruence).
    assert (Lk : k < length vis') by (rewrite L'; eapply em_k; eauto).
    assert (Lv : forall j v, length (visit j v) = length v).
    { clear. intros j v. unfold visit. revert j. induction v as [|b v IH]; intros [|j]; simpl; auto. }
    constructor.
    - rewrite Lv. auto.
    - rewrite Lv. auto.
    - intros m j Hm. rewrite !visit_spec by auto. rewrite (E m j Hm). f_equal.
      destruct (Nat.eqb_spec i j) as [->|N], (Nat.eqb_spec k m) as [->|N']; auto; exfalso.
      + apply N'. eapply em_inj; eauto.
      + apply N. eapply em_fun; eauto.
    - intros j l Hl I. rewrite visit_spec by auto. rewrite (O j l Hl I), orb_true_r. auto.
  Qed.
  Lemma R_un vis vis' i : R vis vis' -> not_visited vis i = true -> exists k, em k i /\ not_visited vis' k = true.
  Proof.
    intros [L L' E O] U. pose proof (unvisited_lt _ _ U) as Li. rewrite L in Li. apply nth_error_Some in Li. destruct (nth_error links i) as [l|] eqn:Hl; [|congruence].
    destruct (inc l) eqn:I.
    - destruct (em_in _ _ _ _ Hl I) as (k & Hk). exists k. split; auto. unfold not_visited in *. rewrite <- (E k i Hk). auto.
    - unfold not_visited in U. rewrite (O i l Hl I) in U. discriminate.
  Qed.
  Lemma R_un' vis vis' k i : R vis vis' -> em k i -> not_visited vis' k = not_visited vis i.
  Proof. intros r E. unfold not_visited. rewrite (R_em _ _ r k i E). auto. Qed.

  Lemma em_dirn m j k k' c l l' : em m j -> nth_error (g_links g) j = Some l -> nth_error (g_links g') m = Some l' -> Nn k k' -> dirn g k c j = dirn g' k' c m.
  Proof.
    intros E Hl Hl' N. destruct (em_links _ _ E) as (l1 & l1' & X & X' & Ea & Eb & _ & Na & _). rewrite Hl in X. injection X as <-. rewrite Hl' in X'. injection X' as <-.
    unfold dirn. rewrite Hl, Hl'. unfold l_other. rewrite (Nn_eqb _ _ _ _ Na N), Ea, Eb. auto.
  Qed.

  Lemma next_sub i m k k' cw n n' vis vis' last last' : R vis vis' -> em m i -> Nn k k' -> nth_error (g_nodes g) k = Some n -> nth_error (g_nodes g') k' = Some n' ->
    odd_at g vis k last -> odd_at g' vis' k' last' -> k <> last -> k' <> last' ->
    forall l0 l0', nth_error (g_links g) i = Some l0 -> (l_aid l0 = k \/ l_bid l0 = k) -> nth_error (g_links g') m = Some l0' -> (l_aid l0' = k' \/ l_bid l0' = k') ->
    not_visited vis i = false ->
    exists j jm, next_link g i k cw n vis = Some j /\ next_link g' m k' cw n' vis' = Some jm /\ em jm j /\ not_visited vis j = true.
  Proof.
    intros r E N Hn Hn' O O' NE NE' l0 l0' Hl El Hl' El' Vi. pose proof GW as GWg. pose proof GW' as GWg'.
    assert (Vi' : not_visited vis' m = false) by (rewrite (R_un' _ _ _ _ r E); auto).
    destruct (next_link_spec g pts GWg i k cw n vis last l0 Hn O NE Hl El Vi) as (j & l1 & N1 & U1 & Hl1 & E1).
    destruct (next_link_spec g' pts' GWg' m k' cw n' vis' last' l0' Hn' O' NE' Hl' El' Vi') as (jm & l2 & N2 & U2 & Hl2 & E2).
    exists j, jm. split; auto. split; auto. split; auto.
    destruct (R_un _ _ _ r U1) as (j' & Ej & Uj).
    assert (exists i2, em jm i2) as (i2 & E2').
    { apply em_of. rewrite <- (go_len _ _ _ G'). apply nth_error_Some. congruence. }
    assert (Ui2 : not_visited vis i2 = true) by (rewrite <- (R_un' _ _ _ _ r E2'); auto).
    destruct (Nat.eq_dec j' jm) as [<-|D]; auto. exfalso. assert (D2 : i2 <> j) by (intros ->; apply D; eapply em_inj; eauto).
    destruct (em_links _ _ Ej) as (x & x' & Hx & Hx' & _ & _ & _ & Nxa & Nxb). rewrite Hl1 in Hx. injection Hx as <-.
    destruct (em_links _ _ E2') as (y & y' & Hy & Hy' & _ & _ & _ & Nya & Nyb). rewrite Hl2 in Hy'. injection Hy' as <-.
    assert (Ex' : l_aid x' = k' \/ l_bid x' = k') by (destruct E1 as [X|X]; [left; apply (Nn_eq _ _ _ _ Nxa N)|right; apply (Nn_eq _ _ _ _ Nxb N)]; auto).
    assert (Ey : l_aid y = k \/ l_bid y = k) by (destruct E2 as [X|X]; [left; apply (Nn_eq _ _ _ _ Nya N)|right; apply (Nn_eq _ _ _ _ Nyb N)]; auto).
    assert (M : forall j l, nth_error (g_links g) j = Some l -> (l_aid l = k \/ l_bid l = k) -> In j (node_links n)) by (intros a b X Y; apply (gw_node _ _ GWg k n Hn); eauto).
    assert (M' : forall j l, nth_error (g_links g') j = Some l -> (l_aid l = k' \/ l_bid l = k') -> In j (node_links n')) by (intros a b X Y; apply (gw_node _ _ GWg' k' n' Hn'); eauto).
    destruct N as (c & Hc & Hc'). assert (N : Nn k k') by (exists c; auto).
    pose proof (next_link_first g pts GWg P i k cw n vis c l0 j Hn Hc Hl El Vi (ex_intro _ j (conj (M _ _ Hl1 E1) U1)) N1 i2 (M _ _ Hy Ey) Ui2 D2) as B1.
    pose proof (next_link_first g' pts' GWg' P' m k' cw n' vis' c l0' jm Hn' Hc' Hl' El' Vi' (ex_intro _ jm (conj (M' _ _ Hl2 E2) U2)) N2 j' (M' _ _ Hx' Ex') Uj D) as B2.
    rewrite (em_dirn m i k k' c l0 l0' E Hl Hl' N), (em_dirn j' j k k' c l1 x' Ej Hl1 Hx' N), (em_dirn jm i2 k k' c y l2 E2' Hy Hl2 N) in B1.
    eapply before_asym; eauto.
  Qed.

  Lemma walk_sub cw last last' : Nn last last' -> forall fuel' fuel i m k k' vis vis' l0 l0' c u' v', fuel' <= fuel -> R vis vis' -> em m i -> Nn k k' ->
    odd_at g vis k last -> odd_at g' vis' k' last' ->
    nth_error (g_links g) i = Some l0 -> (l_aid l0 = k \/ l_bid l0 = k) -> nth_error (g_links g') m = Some l0' -> (l_aid l0' = k' \/ l_bid l0' = k') ->
    not_visited vis i = false -> walk g' fuel' cw m k' last' vis' = Some (c, u', v') -> exists u v, walk g fuel cw i k last vis = Some (c, u, v) /\ R v v'.
  Proof.
    intro NL. induction fuel' as [|fuel' IH]; intros fuel i m k k' vis vis' l0 l0' c u' v' Fu r E N O O' Hl El Hl' El' Vi H.
    - cbn [walk] in H. destruct (Nat.eqb_spec k' last') as [X|X]; [|discriminate]. injection H as <- <- <-. exists [], vis. split; auto.
      assert (k = last) as -> by (apply (Nn_eq _ _ _ _ N NL); auto). destruct fuel; cbn [walk]; rewrite Nat.eqb_refl; auto.
    - cbn [walk] in H. destruct (Nat.eqb_spec k' last') as [X|X].
      { injection H as <- <- <-. exists [], vis. split; auto. assert (k = last) as -> by (apply (Nn_eq _ _ _ _ N NL); auto). destruct fuel; cbn [walk]; rewrite Nat.eqb_refl; auto. }
      assert (NE : k <> last) by (intro Y; apply X; apply (Nn_eq _ _ _ _ N NL); auto).
      destruct fuel as [|fuel]; [lia|]. cbn [walk]. rewrite (proj2 (Nat.eqb_neq k last) NE).
      assert (exists n, nth_error (g_nodes g) k = Some n) as (n & Hn).
      { destruct (gw_link _ _ GW i l0 Hl) as (_ & _ & _ & na & nb & Ha & Hb). destruct El as [<-|<-]; eauto. }
      assert (exists n, nth_error (g_nodes g') k' = Some n) as (n' & Hn').
      { destruct (gw_link _ _ GW' m l0' Hl') as (_ & _ & _ & na & nb & Ha & Hb). destruct El' as [<-|<-]; eauto. }
      rewrite Hn. rewrite Hn' in H.
      destruct (next_sub i m k k' cw n n' vis vis' last last' r E N Hn Hn' O O' NE X l0 l0' Hl El Hl' El' Vi) as (j & jm & Ej & Ejm & Em_ & Uj).
      rewrite Ej. rewrite Ejm in H. destruct (em_links _ _ Em_) as (l & l' & Hj & Hj' & Ea & Eb & _ & Na & Nb). rewrite Hj. rewrite Hj' in H.
      assert (Uj' : not_visited vis' jm = true) by (rewrite (R_un' _ _ _ _ r Em_); auto).
      pose proof (unvisited_lt _ _ Uj) as Lt. assert (Vj : not_visited (visit j vis) j = false) by (unfold not_visited; rewrite visit_spec, Nat.eqb_refl by auto; auto).
      rewrite (Nn_eqb _ _ _ _ Na N), Ea, Eb.
      assert (At : (l_aid l' =? k') = false -> l_bid l = k /\ l_bid l' = k').
      { intro Y. apply Nat.eqb_neq in Y. destruct (next_link_spec g' pts' GW' m k' cw n' vis' last' l0' Hn' O' X Hl' El') as (q & lq & Q1 & _ & Q2 & Q3); [rewrite (R_un' _ _ _ _ r E); auto|].
        rewrite Ejm in Q1. injection Q1 as <-. rewrite Hj' in Q2. injection Q2 as <-. destruct Q3 as [Q3|Q3]; [congruence|]. split; auto. apply (Nn_eq _ _ _ _ Nb N). auto. }
      destruct (l_aid l' =? k') eqn:Ek.
      + apply Nat.eqb_eq in Ek. assert (Ek2 : l_aid l = k) by (apply (Nn_eq _ _ _ _ Na N); auto).
        destruct (walk g' fuel' cw jm (l_bid l') last' (visit jm vis')) as [[[c1 u1] v1]|] eqn:Hw; [|discriminate]. injection H as <- <- <-.
        edestruct (IH fuel j jm (l_bid l) (l_bid l') (visit j vis) (visit jm vis') l l') as (u & v & -> & Rv); eauto; try lia.
        * apply R_visit; auto.
        * apply (visit_step g pts GW vis j l k (l_bid l) last); auto.
        * apply (visit_step g' pts' GW' vis' jm l' k' (l_bid l') last'); auto.
      + destruct (At eq_refl) as [B1 B2].
        destruct (walk g' fuel' cw jm (l_aid l') last' (visit jm vis')) as [[[c1 u1] v1]|] eqn:Hw; [|discriminate]. injection H as <- <- <-.
        edestruct (IH fuel j jm (l_aid l) (l_aid l') (visit j vis) (visit jm vis') l l') as (u & v & -> & Rv); eauto; try lia.
        * apply R_visit; auto.
        * apply (visit_step g pts GW vis j l k (l_aid l) last); auto.
        * apply (visit_step g' pts' GW' vis' jm l' k' (l_aid l') last'); auto.
  Qed.

  Lemma contour_sub fuel fuel' d cw l l' i m vis vis' c u' v' : fuel' <= fuel -> R vis vis' -> em m i -> all_even g vis -> all_even g' vis' -> not_visited vis i = true ->
    nth_error (g_links g) i = Some l -> nth_error (g_links g') m = Some l' ->
    get_contour g' fuel' (start_path d l' m) cw vis' = Some (c, u', v') -> exists u v, get_contour g fuel (start_path d l i) cw vis = Some (c, u, v) /\ R v v'.
  Proof.
    intros Fu r E Ev Ev' U Hl Hl' H. destruct (em_links _ _ E) as (x & x' & X & X' & Ea & Eb & _ & Na & Nb). rewrite Hl in X. injection X as <-. rewrite Hl' in X'. injection X' as <-.
    assert (U' : not_visited vis' m = true) by (rewrite (R_un' _ _ _ _ r E); auto).
    pose proof (visit_start g pts GW vis i l Ev U Hl) as O. pose proof (visit_start g' pts' GW' vis' m l' Ev' U' Hl') as O'.
    pose proof (unvisited_lt _ _ U) as Lt. assert (V : not_visited (visit i vis) i = false) by (unfold not_visited; rewrite visit_spec, Nat.eqb_refl by auto; auto).
    pose proof (R_visit _ _ _ _ r E) as r2. unfold get_contour, start_path in *. destruct d; cbn [sd_link sd_node sd_last sd_begin] in *.
    - destruct (walk g' fuel' cw m (l_aid l') (l_bid l') (visit m vis')) as [[[c1 u1] v1]|] eqn:Hw; [|discriminate]. injection H as <- <- <-.
      destruct (walk_sub cw _ _ Nb fuel' fuel i m _ _ _ _ l l' _ _ _ Fu r2 E Na O O' Hl (or_introl eq_refl) Hl' (or_introl eq_refl) V Hw) as (u & v & -> & Rv).
      exists (i :: u), v. rewrite Eb. auto.
    - assert (Sw : forall g0 vis0 a b, odd_at g0 vis0 a b -> odd_at g0 vis0 b a) by (intros g0 vis0 a b H0 k n Hn; rewrite (H0 k n Hn), xorb_comm; auto).
      destruct (walk g' fuel' cw m (l_bid l') (l_aid l') (visit m vis')) as [[[c1 u1] v1]|] eqn:Hw; [|discriminate]. injection H as <- <- <-.
      destruct (walk_sub cw _ _ Na fuel' fuel i m _ _ _ _ l l' _ _ _ Fu r2 E Nb (Sw _ _ _ _ O) (Sw _ _ _ _ O') Hl (or_intror eq_refl) Hl' (or_intror eq_refl) V Hw) as (u & v & -> & Rv).
      exists (i :: u), v. rewrite Ea. auto.
  Qed.

  Lemma starts_sub v vis vis' : R vis vis' -> Forall2 em (filter (not_visited vis') (starts links' v)) (filter (not_visited vis) (starts links v)).
  Proof.
    intro r. set (l' := filter (not_visited vis') (starts links' v)).
    set (f := fun k => nth k (emb links inc) 0).
    assert (F : forall k, In k l' -> em k (f k)).
    { intros k I. apply filter_In in I as [I _]. apply starts_in in I as (l & Hl & _). assert (L : k < length links') by (apply nth_error_Some; congruence).
      unfold f, Em. apply nth_error_nth'. rewrite em_len. auto. }
    assert (E : filter (not_visited vis) (starts links v) = map f l').
    { apply SS_nat_ext.
      - apply SS_filter, starts_SS.
      - assert (S' : StronglySorted lt l') by (apply SS_filter, starts_SS). clearbody l'. clear - S' F. induction S' as [|k l S IH Fo]; cbn [map]; constructor.
        + apply IH. intros; apply F; right; auto.
        + apply Forall_map, Forall_forall. intros m I. rewrite Forall_forall in Fo. apply (em_lt links inc k m); [apply F; left; auto|apply F; right; auto|auto].
      - intro i. rewrite filter_In, in_map_iff. split.
        + intros [I U]. destruct (R_un _ _ _ r U) as (k & Ek & Uk). apply starts_in in I as (l & Hl & Ea). destruct (em_get _ _ _ _ Ek) as (l2 & H2 & H3 & _).
          exists k. assert (Ik : In k l') by (apply filter_In; split; auto; apply starts_in; exists l2; split; auto; congruence). split; auto. eapply em_fun; eauto.
        + intros (k & <- & Ik). pose proof (F k Ik) as Ek. apply filter_In in Ik as [Ik Uk]. split; [|rewrite <- (R_un' _ _ _ _ r Ek); auto].
          apply starts_in in Ik as (l & Hl & Ea). destruct (em_get _ _ _ _ Ek) as (l2 & H2 & H3 & _). apply starts_in. exists l2. split; auto. congruence. }
    rewrite E. clear E. revert F. generalize l' as q. induction q as [|k q IH]; intro F; cbn [map]; constructor; [apply F; left; auto|]. apply IH. intros; apply F; right; auto.
  Qed.

  Lemma left_loop_sub k i vis vis' : R vis vis' -> em k i -> forall ids' ids, Forall2 em ids' ids -> forall t' t top' top, em t' t -> l_a top' = l_a top -> l_b top' = l_b top ->
    forall m, left_top_loop g' k ids' t' top' vis' = Some m -> exists j, left_top_loop g i ids t top vis = Some j /\ em m j.
  Proof.
    intros r E. induction 1 as [|k1 i1 ids' ids E1 F IH]; intros t' t top' top Et Ea Eb m H; cbn [left_top_loop] in *.
    - injection H as <-. eauto.
    - assert (Eq : (i1 =? i) = (k1 =? k)).
      { destruct (Nat.eqb_spec i1 i) as [->|N], (Nat.eqb_spec k1 k) as [->|N']; auto; exfalso; [apply N'; eapply em_inj; eauto|apply N; eapply em_fun; eauto]. }
      rewrite Eq. destruct (k1 =? k); [eapply IH; eauto|].
      destruct (em_links _ _ E1) as (l & l' & Hl & Hl' & Ela & Elb & _). rewrite Hl. rewrite Hl' in H. rewrite Ela, Elb, <- Ea, <- Eb. destruct (_ || _); [eapply IH; eauto|].
      rewrite (R_em _ _ r _ _ E1). destruct (is_visited vis' k1); [eapply IH; eauto|]. apply (IH k1 i1 l' l); auto.
  Qed.

  Lemma left_sub k i vis vis' m : R vis vis' -> em k i -> all_even g vis -> all_even g' vis' -> not_visited vis i = true ->
    (forall j, j < i -> not_visited vis j = false) -> find_left_top_link g' k vis' = Some m -> exists j, find_left_top_link g i vis = Some j /\ em m j.
  Proof.
    intros r E Ev Ev' U Old H. destruct (em_links _ _ E) as (l & l' & Hl & Hl' & Ea & Eb & _).
    assert (U' : not_visited vis' k = true) by (rewrite (R_un' _ _ _ _ r E); auto).
    assert (Old' : forall m, m < k -> not_visited vis' m = false).
    { intros q L. destruct (em_of links inc q) as (j & Ej); [pose proof (em_k _ _ _ _ E); lia|]. rewrite (R_un' _ _ _ _ r Ej). apply Old. apply (em_lt _ _ _ _ _ _ Ej E). auto. }
    rewrite (top_starts links' W' Sl' ends' Oe' g' pts' G' Nd' k l' vis' Ev' U' Old' Hl') in H.
    rewrite (top_starts links W Sl ends Oe g pts G Nd i l vis Ev U Old Hl).
    eapply left_loop_sub; try exact H; auto; try congruence. rewrite Ea. apply starts_sub. auto.
  Qed.

  (** what is observable of a contour *)
  Definition bare (p : piece) : piece := Pc (p_hole p) (p_valid p) (p_raw p) (p_contour p) (p_mod p) [].

  Theorem extract_sub clean r cw simplify a : forall fuel i k vis vis' fuel' ps', all_even g vis -> all_even g' vis' -> R vis vis' -> Pos links inc i k ->
    (length vis - i + ucount vis <= fuel) -> (length vis' - k + ucount vis' <= fuel') -> (forall j, j < i -> not_visited vis j = false) ->
    extract_loop g' clean fuel' r cw simplify a k vis' = Some ps' -> (forall p, In p ps' -> p_valid p = true) ->
    exists ps, extract_loop g clean fuel r cw simplify a i vis = Some ps /\ map bare ps = map bare ps'.
  Proof.
    induction fuel as [|fuel IH]; intros i k vis vis' fuel' ps' Ev Ev' r_ Po Fu Fu' Old H V.
    - assert (Le : length vis <= i) by lia. assert (k = length links') by (rewrite (R_len _ _ r_) in Le; eapply pos_end; eauto). subst k.
      rewrite <- (R_len' _ _ r_) in H. assert (ps' = []) as ->. { destruct fuel'; cbn [extract_loop] in H; rewrite Nat.leb_refl in H; injection H as <-; auto. }
      exists []. cbn [extract_loop]. rewrite (proj2 (Nat.leb_le _ _) Le). auto.
    - cbn [extract_loop]. destruct (length vis <=? i) eqn:Ei.
      { apply Nat.leb_le in Ei. assert (k = length links') by (rewrite (R_len _ _ r_) in Ei; eapply pos_end; eauto). subst k.
        rewrite <- (R_len' _ _ r_) in H. assert (ps' = []) as ->. { destruct fuel'; cbn [extract_loop] in H; rewrite Nat.leb_refl in H; injection H as <-; auto. }
        exists []. auto. }
      apply Nat.leb_gt in Ei. pose proof Ei as Ei2. rewrite (R_len _ _ r_) in Ei2. apply nth_error_Some in Ei2. destruct (nth_error links i) as [l0|] eqn:Hl0; [|congruence].
      assert (OldS : is_visited vis i = true -> forall j, j < S i -> not_visited vis j = false).
      { intros X j Lj. destruct (Nat.eq_dec j i) as [->|Nj]; [unfold not_visited; rewrite X; auto|]. apply Old. lia. }
      destruct (inc l0) eqn:I0.
      + destruct (pos_em _ _ _ _ _ Po Hl0 I0) as [E Po2]. pose proof (em_k _ _ _ _ E) as Lk. rewrite <- (R_len' _ _ r_) in Lk.
        destruct fuel' as [|fuel']; [lia|]. cbn [extract_loop] in H. rewrite (proj2 (Nat.leb_gt _ _) Lk) in H. rewrite (R_em _ _ r_ _ _ E) in *.
        destruct (is_visited vis' k) eqn:Vk.
        { apply (IH (S i) (S k) vis vis' fuel' ps'); auto; try lia. }
        assert (U : not_visited vis i = true) by (unfold not_visited; rewrite (R_em _ _ r_ _ _ E), Vk; auto).
        assert (U' : not_visited vis' k = true) by (unfold not_visited; rewrite Vk; auto).
        destruct (find_left_top_link g' k vis') as [m|] eqn:Ft'; [|discriminate].
        destruct (left_sub k i vis vis' m r_ E Ev Ev' U Old Ft') as (j & -> & Ej). destruct (em_links _ _ Ej) as (l & l' & Hl & Hl' & Ea & Eb & Ef & _). rewrite Hl. rewrite Hl' in H. rewrite Ef.
        set (dir := Bool.eqb (is_fill_top r (l_fill l')) cw) in *.
        destruct (get_contour g' (length vis') (start_path dir l' m) dir vis') as [[[raw used'] v']|] eqn:Gc'; [|discriminate].
        destruct (nth_error (g_links g') k) as [lk|] eqn:Hk; [|apply nth_error_None in Hk; rewrite (go_len _ _ _ G'), <- (R_len' _ _ r_) in Hk; lia].
        destruct (left_top_spec g' pts' GW' k vis' lk Ev' U' Hk) as (m2 & ll & Em2 & Um & _ & _). rewrite Ft' in Em2. injection Em2 as <-.
        assert (Uj : not_visited vis j = true) by (rewrite <- (R_un' _ _ _ _ r_ Ej); auto).
        assert (Lv : length vis' <= length vis).
        { rewrite (R_len _ _ r_), (R_len' _ _ r_). clear. induction links as [|x l IH]; cbn [filter length]; auto. destruct (inc x); cbn [length]; lia. }
        destruct (contour_sub (length vis) (length vis') dir dir l l' j m vis vis' raw used' v' Lv r_ Ej Ev Ev' Uj Hl Hl' Gc') as (u & v & Gc & Rv). rewrite Gc.
        destruct (contour_spec g pts GW (length vis) dir dir l j vis Ev Uj Hl) as (c & u2 & v2 & Ec & _ & _ & _ & Fl & Evv & Cn & _).
        { rewrite (R_len _ _ r_). symmetry. apply (go_len _ _ _ G). } { pose proof (ucount_le vis). lia. }
        rewrite Gc in Ec. injection Ec as -> -> ->.
        destruct (contour_spec g' pts' GW' (length vis') dir dir l' m vis' Ev' Um Hl') as (c3 & u3 & v3 & Ec & _ & _ & _ & Fl' & Evv' & Cn' & _).
        { rewrite (R_len' _ _ r_). symmetry. apply (go_len _ _ _ G'). } { pose proof (ucount_le vis'). lia. }
        rewrite Gc' in Ec. injection Ec as -> -> ->.
        destruct (clean simplify c3) as [cc md]. destruct (extract_loop g' clean fuel' r cw simplify a _ v3) as [ps1|] eqn:Er; [|discriminate]. injection H as <-.
        pose proof (V _ (or_introl eq_refl)) as Vp. cbn [p_valid] in Vp. rewrite Vp in *. destruct Fl as [Fl1 Fl2]. destruct Fl' as [Fl1' Fl2']. cbn [length] in Cn, Cn'.
        destruct (IH i k v2 v3 fuel' ps1) as (ps & -> & Eb2); auto; try lia.
        * intros q Lq. specialize (Old q Lq). unfold not_visited in *. rewrite Fl2. apply negb_false_iff in Old. rewrite Old. auto.
        * intros; apply V; right; auto.
        * eexists. split; [reflexivity|]. cbn [map]. rewrite Eb2. reflexivity.
      + pose proof (R_out _ _ r_ _ _ Hl0 I0) as Vi. rewrite Vi. apply (IH (S i) k vis vis' fuel' ps'); auto; try lia. eapply pos_skip; eauto.
  Qed.
End Sub.

Lemma bare_anchors dbg cw : forall ps ix, anchors_of dbg cw ix (map bare ps) = anchors_of dbg cw ix ps.
Proof.
  induction ps as [|p ps IH]; intro ix; auto. cbn [map anchors_of]. rewrite !IH. destruct p; reflexivity.
Qed.
Lemma bare_outer ps : outer_contours (map bare ps) = outer_contours ps.
Proof. unfold outer_contours. induction ps as [|p ps IH]; auto. cbn [map filter]. destruct p as [h v ? ? ? ?]; cbn [bare p_valid p_hole]. destruct (v && negb h); cbn [map]; rewrite IH; reflexivity. Qed.
Lemma bare_holes ps : hole_contours (map bare ps) = hole_contours ps.
Proof. unfold hole_contours. induction ps as [|p ps IH]; auto. cbn [map filter]. destruct p as [h v ? ? ? ?]; cbn [bare p_valid p_hole]. destruct (v && h); cbn [map]; rewrite IH; reflexivity. Qed.
