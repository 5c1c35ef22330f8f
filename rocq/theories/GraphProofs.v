(** * Proofs about the construction of the graph. *)
From Verif Require Import Base Spec ModelGraph FillProofs SplitProofs.
Open Scope nat_scope.

Lemma upd_nth {A} (f : A -> A) l : forall i j, nth_error (upd i f l) j = if i =? j then option_map f (nth_error l j) else nth_error l j.
Proof.
  induction l as [|x l IH]; intros [|i] [|j]; simpl; auto. destruct (i =? j); auto.
Qed.
Lemma upd_length {A} (f : A -> A) l : forall i, length (upd i f l) = length l.
Proof. induction l as [|x l IH]; intros [|i]; simpl; auto. Qed.

Definition memn (i : nat) (l : list nat) : bool := existsb (Nat.eqb i) l.
Lemma memn_in i l : memn i l = true <-> In i l.
Proof.
  unfold memn. rewrite existsb_exists. split.
  - intros (x & I & E). apply Nat.eqb_eq in E. subst. auto.
  - intro I. exists i. split; auto. apply Nat.eqb_refl.
Qed.
Lemma memn_false i l : memn i l = false <-> ~ In i l.
Proof. rewrite <- memn_in. destruct (memn i l); split; intro; try congruence; exfalso; auto. Qed.

(** updating a set of elements with an idempotent function *)
Lemma upds_nth {A} (f : A -> A) (Id : forall x, f (f x) = f x) g : forall (l : list A) j,
  nth_error (fold_left (fun ls i => upd i f ls) g l) j =
  if memn j g then option_map f (nth_error l j) else nth_error l j.
Proof.
  induction g as [|i g IH]; intros l j; simpl; auto. rewrite IH, upd_nth.
  rewrite (Nat.eqb_sym j i). destruct (i =? j), (memn j g); simpl; auto. destruct (nth_error l j); simpl; auto. rewrite Id. auto.
Qed.
Lemma upds_length {A} (f : A -> A) g : forall l : list A, length (fold_left (fun ls i => upd i f ls) g l) = length l.
Proof. induction g as [|i g IH]; intro l; simpl; auto. rewrite IH, upd_length. auto. Qed.

(** ** runs of equal points *)
Notation psorted := (StronglySorted (fun e f : nat * pt => pt_leb (snd e) (snd f) = true)).
Definition at_pt (v : pt) (l : list (nat * pt)) : list nat := map fst (filter (fun e => pt_eqb (snd e) v) l).

Lemma run_of_spec p l : psorted l -> Forall (fun e => pt_leb p (snd e) = true) l ->
  fst (run_of p l) = at_pt p l /\ psorted (snd (run_of p l)) /\
  Forall (fun e => pt_lt p (snd e)) (snd (run_of p l)) /\
  (forall v, v <> p -> at_pt v (snd (run_of p l)) = at_pt v l) /\
  (forall e, In e (snd (run_of p l)) <-> In e l /\ snd e <> p) /\
  length (snd (run_of p l)) <= length l.
Proof.
  induction l as [|[i q] l IH]; intros S F; simpl; [repeat split; auto; intros; tauto|].
  inversion S as [|? ? S1 S2]; subst. inversion F as [|? ? F1 F2]; subst. simpl in F1.
  destruct (pt_eqb q p) eqn:E.
  - apply pt_eqb_eq in E as ->. destruct (IH S1 F2) as (A & B & C & D & M & L). destruct (run_of p l) as [g r]. simpl in *.
    unfold at_pt in *. simpl. rewrite pt_eqb_refl. simpl. rewrite A. split; auto. split; auto. split; auto. split; [|split].
    + intros v Hv. rewrite D by auto. simpl. assert (E2 : pt_eqb p v = false) by (apply pt_eqb_neq; congruence). rewrite E2. auto.
    + intros e. rewrite M. split; [tauto|]. intros [[<-|I] N]; [simpl in N; congruence|tauto].
    + lia.
  - pose proof (proj1 (pt_eqb_neq _ _) E) as E'. assert (Lt : pt_lt p q) by (apply pt_leb_lt; auto).
    assert (G : Forall (fun e => pt_lt p (snd e)) ((i, q) :: l)).
    { constructor; auto. eapply Forall_impl; [|exact S2]. intros e H. cbv beta in *. simpl in H.
      unfold pt_leb in H. apply orb_true_iff in H as [H|H]; [apply pt_ltb_lt in H; eapply pt_lt_trans; eauto|apply pt_eqb_eq in H; rewrite <- H; auto]. }
    simpl. repeat split; auto; try tauto.
    + unfold at_pt. simpl. rewrite E. clear - G. inversion G as [|? ? _ G2]; subst. clear G. induction l as [|e l IH]; simpl; auto.
      inversion G2; subst. assert (X : pt_eqb (snd e) p = false) by (apply pt_eqb_neq; intro X; rewrite X in *; eapply pt_lt_irrefl; eauto).
      rewrite X. auto.
    + rewrite Forall_forall in G. specialize (G _ H). intro X. rewrite X in G. eapply pt_lt_irrefl; eauto.
Qed.

Lemma head_run_spec p l : psorted l -> (l <> [] -> head_point l p = p) ->
  fst (head_run p l) = at_pt p l /\ psorted (snd (head_run p l)) /\
  Forall (fun e => pt_lt p (snd e)) (snd (head_run p l)) /\
  (forall v, v <> p -> at_pt v (snd (head_run p l)) = at_pt v l) /\
  (forall e, In e (snd (head_run p l)) <-> In e l /\ snd e <> p) /\
  (l <> [] -> length (snd (head_run p l)) < length l).
Proof.
  intros S H. destruct l as [|[i q] l]; [simpl; repeat split; auto; tauto|].
  specialize (H ltac:(discriminate)). simpl in H. subst q. inversion S as [|? ? S1 S2]; subst.
  destruct (run_of_spec p l S1 S2) as (A & B & C & D & M & L). simpl. destruct (run_of p l) as [g r]. simpl in *.
  unfold at_pt in *. simpl. rewrite pt_eqb_refl. simpl. rewrite A. split; auto. split; auto. split; auto. split; [|split].
  - intros v Hv. rewrite D by auto. simpl. assert (E2 : pt_eqb p v = false) by (apply pt_eqb_neq; congruence). rewrite E2. auto.
  - intros e. rewrite M. split; [tauto|]. intros [[<-|I] N]; [simpl in N; congruence|tauto].
  - lia.
Qed.

Lemma at_pt_in v l i : In i (at_pt v l) <-> In (i, v) l.
Proof.
  unfold at_pt. rewrite in_map_iff. split.
  - intros ([j q] & <- & I). apply filter_In in I as [I E]. apply pt_eqb_eq in E. simpl in *. subst. auto.
  - intro I. exists (i, v). split; auto. apply filter_In. split; auto. simpl. apply pt_eqb_refl.
Qed.
Lemma at_pt_none v l : Forall (fun e => pt_lt v (snd e)) l -> at_pt v l = [].
Proof.
  intro F. unfold at_pt. induction F as [|e l H F IH]; simpl; auto.
  assert (X : pt_eqb (snd e) v = false) by (apply pt_eqb_neq; intro X; rewrite X in *; eapply pt_lt_irrefl; eauto). rewrite X. auto.
Qed.

(** position of a point in a list *)
Fixpoint posn (v : pt) (l : list pt) : nat := match l with [] => 0 | p :: r => if pt_eqb p v then 0 else S (posn v r) end.
Lemma posn_nth v l : In v l -> nth_error l (posn v l) = Some v.
Proof.
  induction l as [|p l IH]; [intros []|]. intros [->|I]; simpl; [rewrite pt_eqb_refl; auto|].
  destruct (pt_eqb p v) eqn:E; simpl; auto. apply pt_eqb_eq in E. congruence.
Qed.

Definition ids_set (n0 : nat) (pts : list pt) (la lb : list (nat * pt)) (links links' : list link) : Prop :=
  forall i, nth_error links' i = option_map (fun l =>
    Lk (if memn i (map fst la) then n0 + posn (l_a l) pts else l_aid l) (l_a l)
       (if memn i (map fst lb) then n0 + posn (l_b l) pts else l_bid l) (l_b l) (l_fill l)) (nth_error links i).


Definition set_ids (id : nat) (ga gb : list nat) (links : list link) : list link :=
  fold_left (fun ls i => upd i (set_bid id) ls) gb (fold_left (fun ls i => upd i (set_aid id) ls) ga links).

Definition cut (v : pt) (l l' : list (nat * pt)) : Prop :=
  psorted l' /\ Forall (fun e => pt_lt v (snd e)) l' /\ (forall w, w <> v -> at_pt w l' = at_pt w l) /\
  (forall e, In e l' <-> In e l /\ snd e <> v).

Lemma above_head v l p : psorted l -> l <> [] -> head_point l p = p -> pt_lt v p -> Forall (fun e => pt_lt v (snd e)) l.
Proof.
  intros S N H L. destruct l as [|[i q] l]; [congruence|]. simpl in H. subst q.
  inversion S as [|? ? S1 S2]; subst. constructor; auto. eapply Forall_impl; [|exact S2]. intros e X. cbv beta in *. simpl in X.
  unfold pt_leb in X. apply orb_true_iff in X as [X|X]; [apply pt_ltb_lt in X; eapply pt_lt_trans; eauto|apply pt_eqb_eq in X; rewrite <- X; auto].
Qed.
Lemma cut_above v l : psorted l -> Forall (fun e => pt_lt v (snd e)) l -> cut v l l /\ at_pt v l = [].
Proof.
  intros S F. split; [|apply at_pt_none; auto]. repeat split; auto; try tauto.
  rewrite Forall_forall in F. specialize (F e H). intro X. rewrite X in F. eapply pt_lt_irrefl; eauto.
Qed.

Lemma step_spec fuel a b la lb links nodes :
  psorted la -> psorted lb -> la <> [] \/ lb <> [] -> (la <> [] -> lb <> []) ->
  (la <> [] -> head_point la a = a) -> (lb <> [] -> head_point lb b = b) ->
  exists v la' lb' a' b', cut v la la' /\ cut v lb lb' /\
    (la' <> [] -> head_point la' a' = a') /\ (lb' <> [] -> head_point lb' b' = b') /\
    length la' + length lb' < length la + length lb /\ (exists i, In (i, v) la \/ In (i, v) lb) /\
    build_loop (S fuel) a b la lb links nodes =
    build_loop fuel a' b' la' lb' (set_ids (length nodes) (at_pt v la) (at_pt v lb) links)
      (nodes ++ [node_new (at_pt v la ++ at_pt v lb)]).
Proof.
  intros Sa Sb NE NB Ha Hb.
  assert (Nb : lb <> []) by (destruct NE; auto).
  assert (HP : forall l p, l <> [] -> head_point l (head_point l p) = head_point l p) by (intros [|[? ?] ?]; simpl; congruence).
  assert (Inb : exists i, In (i, b) lb) by (destruct lb as [|[j q] lb]; [congruence|]; specialize (Hb Nb); simpl in Hb; subst; exists j; left; auto).
  assert (Ina : la <> [] -> exists i, In (i, a) la) by (intro Na; destruct la as [|[j q] la]; [congruence|]; specialize (Ha Na); simpl in Ha; subst; exists j; left; auto).
  cbn [build_loop].
  replace (match la with [] => match lb with [] => Some (nodes, links) | _ :: _ => _ end | _ :: _ => _ end) with
   (let '(ta, tb) := if pt_eqb a b then (true, true) else if (match la with [] => false | _ => true end) && pt_ltb a b then (true, false) else (false, true) in
          let '(ga, la') := if ta then head_run a la else ([], la) in
          let '(gb, lb') := if tb then head_run b lb else ([], lb) in
          build_loop fuel (if ta then head_point la' a else a) (if tb then head_point lb' b else b) la' lb'
            (set_ids (length nodes) ga gb links) (nodes ++ [node_new (ga ++ gb)]))
   by (destruct la, lb; reflexivity || congruence).
  destruct (head_run_spec a la Sa Ha) as (A1 & A2 & A3 & A4 & A5 & A6).
  destruct (head_run_spec b lb Sb Hb) as (B1 & B2 & B3 & B4 & B5 & B6).
  destruct (pt_eqb a b) eqn:E; [|destruct (_ && pt_ltb a b) eqn:L].
  - apply pt_eqb_eq in E. subst b. destruct (head_run a la) as [ga la'], (head_run a lb) as [gb lb']. simpl in *. subst ga gb.
    exists a, la', lb', (head_point la' a), (head_point lb' a). split; [split; auto|]. split; [split; auto|]. split; auto. split; auto. split; [|split; [|reflexivity]].
    + assert (length la' <= length la) by (destruct la; [assert (la' = []) as -> by (destruct la' as [|x ?]; auto; destruct (A5 x) as [X _]; destruct X as [[] _]; left; auto); auto|specialize (A6 ltac:(discriminate)); lia]).
      specialize (B6 Nb). lia.
    + destruct Inb as [i I]. exists i. auto.
  - assert (Na : la <> []) by (destruct la; [discriminate|congruence]).
    apply andb_true_iff in L as [_ L]. apply pt_ltb_lt in L.
    destruct (head_run a la) as [ga la']. simpl in *. subst ga.
    destruct (cut_above a lb Sb (above_head a lb b Sb Nb (Hb Nb) L)) as [Cb Eb].
    exists a, la', lb, (head_point la' a), b. split; [split; auto|]. split; auto. split; auto. split; auto.
    split; [specialize (A6 Na); lia|]. split; [destruct (Ina Na) as [i I]; exists i; auto|]. rewrite Eb. reflexivity.
  - assert (L2 : la <> [] -> pt_lt b a).
    { intro Na. destruct la as [|e0 l0]; [congruence|]. simpl in L. apply pt_ltb_ge in L. apply pt_eqb_neq in E.
      destruct (pt_total a b) as [[X|X]|X]; tauto || congruence. }
    destruct (head_run b lb) as [gb lb']. simpl in *. subst gb.
    assert (Fa : Forall (fun e => pt_lt b (snd e)) la).
    { destruct la as [|e0 l0] eqn:El; [constructor|]. rewrite <- El in *. apply (above_head b la a); auto; try (apply Ha; congruence); try (apply L2; congruence); congruence. }
    destruct (cut_above b la Sa Fa) as [Ca Ea].
    exists b, la, lb', a, (head_point lb' b). split; auto. split; [split; auto|]. split; auto. split; auto.
    split; [specialize (B6 Nb); lia|]. split; [destruct Inb as [i I]; exists i; auto|]. rewrite Ea. reflexivity.
Qed.

Lemma set_ids_nth id ga gb links i : nth_error (set_ids id ga gb links) i =
  option_map (fun l => Lk (if memn i ga then id else l_aid l) (l_a l) (if memn i gb then id else l_bid l) (l_b l) (l_fill l)) (nth_error links i).
Proof.
  unfold set_ids. rewrite !upds_nth by (intros []; reflexivity).
  destruct (memn i ga), (memn i gb), (nth_error links i) as [[]|]; reflexivity.
Qed.

Lemma loop_spec : forall fuel a b la lb links nodes,
  length la + length lb < fuel ->
  psorted la -> psorted lb ->
  (la <> [] -> head_point la a = a) -> (lb <> [] -> head_point lb b = b) ->
  (forall i p, In (i, p) la -> exists l, nth_error links i = Some l /\ l_a l = p) ->
  (forall i p, In (i, p) lb -> exists l, nth_error links i = Some l /\ l_b l = p) ->
  (forall i p l, In (i, p) la -> nth_error links i = Some l -> In (i, l_b l) lb) ->
  (forall i l, nth_error links i = Some l -> pt_lt (l_a l) (l_b l)) ->
  exists pts links', build_loop fuel a b la lb links nodes =
      Some (nodes ++ map (fun v => node_new (at_pt v la ++ at_pt v lb)) pts, links') /\
    StronglySorted pt_lt pts /\
    (forall v, In v pts <-> exists i, In (i, v) la \/ In (i, v) lb) /\
    ids_set (length nodes) pts la lb links links'.
Proof.
  induction fuel as [|fuel IH]; intros a b la lb links nodes Hf Sa Sb Ha Hb La Lb Lab W; [lia|].
  assert (D : (la = [] /\ lb = []) \/ (la <> [] \/ lb <> [])) by (destruct la, lb; auto; right; try (left; congruence); right; congruence).
  destruct D as [[-> ->]|NE].
  { simpl. exists [], links. rewrite app_nil_r. split; auto. split; [constructor|]. split; [firstorder|].
    intro i. simpl. destruct (nth_error links i) as [[]|]; reflexivity. }
  assert (NB : la <> [] -> lb <> []).
  { intros Na X. subst lb. destruct la as [|[i p] la]; [congruence|]. destruct (La i p (or_introl eq_refl)) as (l & Hl & _).
    apply (Lab i p l (or_introl eq_refl) Hl). }
  destruct (step_spec fuel a b la lb links nodes Sa Sb NE NB Ha Hb) as (v & la' & lb' & a' & b' & (Ca1 & Ca2 & Ca3 & Ca4) & (Cb1 & Cb2 & Cb3 & Cb4) & Ha' & Hb' & Len & Hv & Eq).
  set (links1 := set_ids (length nodes) (at_pt v la) (at_pt v lb) links) in *.
  assert (Nth1 : forall i l1, nth_error links1 i = Some l1 -> exists l, nth_error links i = Some l /\ l_a l1 = l_a l /\ l_b l1 = l_b l).
  { intros i l1. unfold links1. rewrite set_ids_nth. destruct (nth_error links i) as [l|]; simpl; [|discriminate]. intro E. injection E as <-. exists l. auto. }
  assert (Nth2 : forall i l, nth_error links i = Some l -> exists l1, nth_error links1 i = Some l1 /\ l_a l1 = l_a l /\ l_b l1 = l_b l).
  { intros i l H. unfold links1. rewrite set_ids_nth, H. simpl. eexists. split; [reflexivity|]. auto. }
  destruct (IH a' b' la' lb' links1 (nodes ++ [node_new (at_pt v la ++ at_pt v lb)])) as (pts & links' & E & Srt & M & Ids); auto.
  { lia. }
  { intros i p I. apply Ca4 in I as [I _]. destruct (La i p I) as (l & Hl & Hp). destruct (Nth2 i l Hl) as (l1 & H1 & E1 & _). exists l1. split; congruence. }
  { intros i p I. apply Cb4 in I as [I _]. destruct (Lb i p I) as (l & Hl & Hp). destruct (Nth2 i l Hl) as (l1 & H1 & _ & E1). exists l1. split; congruence. }
  { intros i p l1 I H1. destruct (Nth1 i l1 H1) as (l & Hl & Ea & Eb). rewrite Forall_forall in Ca2. pose proof (Ca2 _ I) as Lt.
    apply Ca4 in I as [I Np]. rewrite Eb. apply Cb4. split; [eapply Lab; eauto|].
    simpl in *. intro X. destruct (La i p I) as (l2 & H2 & H3). assert (l2 = l) by congruence. subst l2.
    specialize (W i l Hl). rewrite X, H3 in W. eapply pt_lt_irrefl. eapply pt_lt_trans; eauto. }
  { intros i l1 H1. destruct (Nth1 i l1 H1) as (l & Hl & -> & ->). eauto. }
  exists (v :: pts), links'. rewrite Eq, E. split; [|split; [|split]].
  - f_equal. f_equal. rewrite <- app_assoc. simpl. do 2 f_equal. apply map_ext_in. intros w Hw.
    assert (w <> v). { intro X. subst w. apply M in Hw as (i & [I|I]); [apply Ca4 in I|apply Cb4 in I]; simpl in I; tauto. }
    rewrite Ca3, Cb3 by auto. auto.
  - constructor; auto. apply Forall_forall. intros w Hw. apply M in Hw as (i & [I|I]).
    + rewrite Forall_forall in Ca2. apply (Ca2 _ I).
    + rewrite Forall_forall in Cb2. apply (Cb2 _ I).
  - intro w. simpl. rewrite M. split.
    + intros [<-|(i & [I|I])]; auto; exists i; [apply Ca4 in I; tauto|apply Cb4 in I; tauto].
    + intros (i & I). destruct (pt_eq_dec v w) as [X|X]; auto. right. exists i. destruct I as [I|I]; [left; apply Ca4|right; apply Cb4]; auto.
  - intro i. specialize (Ids i). rewrite Ids. unfold links1. rewrite set_ids_nth. destruct (nth_error links i) as [l|] eqn:Hl; simpl; auto.
    rewrite app_length. simpl length.
    assert (Key : forall (lx lx' : list (nat * pt)) (p : pt) (old : nat), (forall e, In e lx' <-> In e lx /\ snd e <> v) -> (forall q, In (i, q) lx -> q = p) ->
       (if memn i (map fst lx') then length nodes + 1 + posn p pts else if memn i (at_pt v lx) then length nodes else old) =
       (if memn i (map fst lx) then length nodes + (if pt_eqb v p then 0 else S (posn p pts)) else old)).
    { intros lx lx' p old C4 U.
      destruct (memn i (map fst lx)) eqn:Ei.
      - apply memn_in, in_map_iff in Ei as ([j q] & Ej & I). simpl in Ej. subst j. pose proof (U q I). subst q.
        destruct (pt_eqb v p) eqn:Ev.
        + apply pt_eqb_eq in Ev. subst p. assert (X : memn i (map fst lx') = false).
          { apply memn_false. intro X. apply in_map_iff in X as ([j q] & Ej & I2). simpl in Ej. subst j. apply C4 in I2 as [I2 N]. apply U in I2. simpl in N. congruence. }
          rewrite X. assert (Y : memn i (at_pt v lx) = true) by (apply memn_in, at_pt_in; auto). rewrite Y. lia.
        + apply pt_eqb_neq in Ev. assert (X : memn i (map fst lx') = true).
          { apply memn_in, in_map_iff. exists (i, p). split; auto. apply C4. simpl. split; congruence. }
          rewrite X. lia.
      - apply memn_false in Ei. assert (X : memn i (map fst lx') = false).
        { apply memn_false. intro X. apply Ei. apply in_map_iff in X as (e & Ee & I). apply in_map_iff. exists e. split; auto. apply C4; auto. }
        rewrite X. assert (Y : memn i (at_pt v lx) = false).
        { apply memn_false. intro Y. apply at_pt_in in Y. apply Ei. apply in_map_iff. exists (i, v). auto. }
        rewrite Y. auto. }
    f_equal. f_equal; apply Key; auto; intros q I.
    + destruct (La i q I) as (l2 & H2 & H3). congruence.
    + destruct (Lb i q I) as (l2 & H2 & H3). congruence.
Qed.

(** ** The graph: points of the nodes, incidences, ids. *)
Record graph_of (links : list link) (g : graph) (pts : list pt) : Prop := {
  go_sorted : StronglySorted pt_lt pts;
  go_pts : forall v, In v pts <-> exists l, In l links /\ (l_a l = v \/ l_b l = v);
  go_len : length (g_links g) = length links;
  go_link : forall i l, nth_error links i = Some l -> exists l', nth_error (g_links g) i = Some l' /\
     l_a l' = l_a l /\ l_b l' = l_b l /\ l_fill l' = l_fill l /\
     nth_error pts (l_aid l') = Some (l_a l) /\ nth_error pts (l_bid l') = Some (l_b l);
  go_nlen : length (g_nodes g) = length pts;
  go_node : forall k n v, nth_error (g_nodes g) k = Some n -> nth_error pts k = Some v ->
     NoDup (node_links n) /\ forall i, In i (node_links n) <-> exists l, nth_error links i = Some l /\ (l_a l = v \/ l_b l = v);
  go_shape : forall k i j, nth_error (g_nodes g) k = Some (Cross [i; j]) -> False }.

Lemma node_new_links l : node_links (node_new l) = l.
Proof. destruct l as [|i [|j [|? ?]]]; reflexivity. Qed.

Lemma enum_psorted (l : list pt) : StronglySorted (fun p q => pt_leb p q = true) l -> psorted (enum l).
Proof.
  rewrite enum_from_enum. intro S. generalize 0. induction S as [|p l S IH F]; intro n; simpl; constructor; auto.
  apply Forall_forall. intros [i q] I. apply enum_from_nth in I as [_ I]. apply nth_error_In in I. rewrite Forall_forall in F. simpl. auto.
Qed.
Lemma enum_length {A} (l : list A) : length (enum l) = length l.
Proof. unfold enum. rewrite combine_length, seq_length. lia. Qed.
Lemma at_pt_nodup v l : NoDup (map fst l) -> NoDup (at_pt v l).
Proof.
  unfold at_pt. induction l as [|[i p] l IH]; simpl; intro N; [constructor|]. inversion N as [|? ? H1 H2]; subst.
  destruct (pt_eqb p v); simpl; auto. constructor; auto. intro I. apply H1. apply in_map_iff in I as (e & E & I). apply filter_In in I as [I _].
  apply in_map_iff. eauto.
Qed.
Lemma enum_fst {A} (l : list A) : map fst (enum l) = seq 0 (length l).
Proof. unfold enum. generalize 0. induction l as [|x l IH]; intro n; simpl; auto. f_equal. apply IH. Qed.

Theorem graph_spec links ends :
  StronglySorted (fun l m => pt_leb (l_a l) (l_a m) = true) links ->
  Forall (fun l => pt_lt (l_a l) (l_b l)) links ->
  ends_ok links ends ->
  exists g pts, graph_new links ends = Some g /\ graph_of links g pts.
Proof.
  intros Sl W [P Se]. unfold graph_new, build_graph.
  destruct links as [|l0 ls] eqn:El.
  { exists (Graph [] []), []. split; auto. constructor; simpl; auto.
    - constructor.
    - intro v. split; [intros []|intros (l & [] & _)].
    - intros [|i] l H; discriminate.
    - intros [|k] n v H; discriminate.
    - intros [|k] i j H; discriminate. }
  rewrite <- El in *. rewrite Forall_forall in W.
  assert (Wn : forall i l, nth_error links i = Some l -> pt_lt (l_a l) (l_b l)) by (intros i l H; apply W; eapply nth_error_In; eauto).
  assert (Ea : forall i p, In (i, p) (enum (map l_a links)) <-> exists l, nth_error links i = Some l /\ l_a l = p).
  { intros i p. rewrite enum_nth, nth_error_map. destruct (nth_error links i) as [l|]; simpl; split.
    - intro H. injection H as <-. eauto.
    - intros (l' & H & <-). congruence.
    - discriminate.
    - intros (? & ? & _). discriminate. }
  assert (Eb : forall i p, In (i, p) ends <-> exists l, nth_error links i = Some l /\ l_b l = p).
  { intros i p. split.
    - intro I. apply (Permutation_in _ P) in I. apply enum_nth in I. rewrite nth_error_map in I. destruct (nth_error links i) as [l|]; [|discriminate]. injection I as <-. eauto.
    - intros (l & H & <-). apply (Permutation_in _ (Permutation_sym P)). apply enum_nth. rewrite nth_error_map, H. auto. }
  destruct (loop_spec (S (length (enum (map l_a links)) + length ends)) (l_a l0) (head_point ends (l_b l0)) (enum (map l_a links)) ends links [])
    as (pts & links' & E & Sp & M & Ids); auto.
  - apply enum_psorted. clear - Sl. induction Sl as [|l m Sl IH F]; simpl; constructor; auto. apply Forall_map. auto.
  - intros _. rewrite El. reflexivity.
  - intro N. destruct ends as [|[? ?] ?]; [congruence|reflexivity].
  - intros i p I. apply Ea; auto.
  - intros i p I. apply Eb; auto.
  - intros i p l I H. apply Eb. eauto.
  - rewrite E. exists (Graph (map (fun v => node_new (at_pt v (enum (map l_a links)) ++ at_pt v ends)) pts) links'), pts. split; auto.
    assert (Mp : forall v, In v pts <-> exists l, In l links /\ (l_a l = v \/ l_b l = v)).
    { intro v. rewrite M. split.
      - intros (i & [I|I]); [apply Ea in I|apply Eb in I]; destruct I as (l & Hl & <-); exists l; split; eauto using nth_error_In.
      - intros (l & I & H). apply In_nth_error in I as [i I]. exists i. destruct H as [H|H]; [left; apply Ea|right; apply Eb]; eauto. }
    assert (MA : forall i l, nth_error links i = Some l -> memn i (map fst (enum (map l_a links))) = true).
    { intros i l H. apply memn_in. rewrite enum_fst, map_length. apply in_seq. assert (i < length links) by (apply nth_error_Some; congruence). lia. }
    assert (Pf : Permutation (map fst ends) (seq 0 (length links))).
    { rewrite <- (map_length l_b). rewrite <- enum_fst. apply Permutation_map. auto. }
    assert (MB : forall i l, nth_error links i = Some l -> memn i (map fst ends) = true).
    { intros i l H. apply memn_in. apply (Permutation_in _ (Permutation_sym Pf)). apply in_seq. assert (i < length links) by (apply nth_error_Some; congruence). lia. }
    constructor; simpl; auto.
    + assert (G : forall i, nth_error links' i = None <-> nth_error links i = None).
      { intro i. rewrite (Ids i). destruct (nth_error links i); simpl; split; congruence. }
      destruct (Nat.lt_trichotomy (length links') (length links)) as [X|[X|X]]; auto.
      * destruct (G (length links')) as [G1 _]. rewrite !nth_error_None in G1. lia.
      * destruct (G (length links)) as [_ G1]. rewrite !nth_error_None in G1. lia.
    + intros i l H. specialize (Ids i). rewrite H in Ids. simpl in Ids. rewrite (MA i l H), (MB i l H) in Ids.
      eexists. split; [exact Ids|]. simpl. repeat split; auto; apply posn_nth; apply Mp; exists l; split; eauto using nth_error_In.
    + rewrite map_length. auto.
    + intros k n v Hn Hv. rewrite nth_error_map, Hv in Hn. injection Hn as <-. rewrite node_new_links. split.
      * assert (N1 : NoDup (at_pt v (enum (map l_a links)))) by (apply at_pt_nodup; rewrite enum_fst; apply seq_NoDup).
        assert (N2 : NoDup (at_pt v ends)) by (apply at_pt_nodup; eapply Permutation_NoDup; [symmetry; exact Pf|apply seq_NoDup]).
        assert (D : forall i, In i (at_pt v (enum (map l_a links))) -> ~ In i (at_pt v ends)).
        { intros i I1 I2. apply at_pt_in, Ea in I1 as (l & H1 & A1). apply at_pt_in, Eb in I2 as (l2 & H2 & A2).
          assert (l2 = l) by congruence. subst. specialize (Wn i l H1). rewrite A2 in Wn. eapply pt_lt_irrefl; eauto. }
        clear - N1 N2 D. induction (at_pt v (enum (map l_a links))) as [|x l IH]; simpl; auto. inversion N1; subst. constructor.
        -- rewrite in_app_iff. intros [I|I]; auto. eapply D; [left; auto|auto].
        -- apply IH; auto. intros i I. apply D. right; auto.
      * intro i. rewrite in_app_iff, !at_pt_in, Ea, Eb. firstorder.
    + intros k i j H. rewrite nth_error_map in H. destruct (nth_error pts k); simpl in H; [|discriminate].
      injection H as H. destruct (at_pt _ _ ++ at_pt _ _) as [|? [|? [|? ?]]]; simpl in H; discriminate H.
Qed.
