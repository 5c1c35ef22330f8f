(** * From the arrangement to contours: the graph of its links and what extraction makes of it. *)
From Verif Require Import Base Spec QLib ModelSegm SegmProofs MergeProofs PlanarGeo PlanarSum ModelFill ModelFilter FillProofs FillCorrect
  CoreResults ModelGraph GraphProofs ModelExtract ExtractProofs.
Open Scope nat_scope.

Lemma NoDup_map_filter {X Y} (f : X -> Y) (h : X -> bool) l : NoDup (map f l) -> NoDup (map f (filter h l)).
Proof.
  induction l as [|x l IH]; simpl; auto. intro N. inversion N as [|? ? N1 N2]; subst. destruct (h x); simpl; auto.
  constructor; auto. intro I. apply N1. apply in_map_iff in I as (y & E & I). apply filter_In in I as [I _]. apply in_map_iff. eauto.
Qed.

Section Arr.
  Variable segs : list (segment cntB).
  Hypothesis A : arrangement segs.
  Variable fr : FillRule.

  Notation blinks inc := (build_links inc segs (fill_boolean fr segs)).

  Lemma blinks_in inc l : In l (blinks inc) -> exists s f, In s segs /\ inc f = true /\ l = mk_link (s, f).
  Proof.
    unfold build_links. rewrite in_map_iff. intros ([s f] & <- & I). apply filter_In in I as [I E].
    apply in_combine_l in I. eauto.
  Qed.
  Lemma blinks_wf inc : Forall (fun l => pt_lt (l_a l) (l_b l)) (blinks inc).
  Proof. apply Forall_forall. intros l I. apply blinks_in in I as (s & f & I & _ & ->). simpl. apply (arr_wf _ A); auto. Qed.
  Lemma blinks_sorted inc : StronglySorted (fun l m => pt_leb (l_a l) (l_a m) = true) (blinks inc).
  Proof.
    pose proof (arr_sorted_sa _ A) as S. unfold build_links. generalize (fill_boolean fr segs). clear A.
    induction S as [|s l S IH F]; intros [|f fs]; simpl; try constructor.
    destruct (inc f); auto. simpl. constructor; auto.
    apply Forall_forall. intros k I. apply in_map_iff in I as ([s' f'] & <- & I). apply filter_In in I as [I _].
    apply in_combine_l in I. rewrite Forall_forall in F. apply F; auto.
  Qed.
  Lemma blinks_nodup inc : NoDup (map l_seg (blinks inc)).
  Proof.
    unfold build_links. rewrite map_map.
    assert (ND : NoDup (map (fun sf => sx (fst sf)) (combine segs (fill_boolean fr segs)))).
    { pose proof (arr_nodup _ A) as ND. clear A. revert ND. generalize (fill_boolean fr segs).
      induction segs as [|s l IH]; intros [|f fs] ND; simpl in *; try constructor; inversion ND as [|? ? N1 N2]; subst; auto.
      intro I. apply N1. apply in_map_iff in I as ([s' f'] & E & I). apply in_combine_l in I. apply in_map_iff. eauto. }
    erewrite map_ext; [apply NoDup_map_filter, ND|]. intros [s f]. apply mk_link_seg.
  Qed.

  Lemma blinks_graph inc ends : ends_ok (blinks inc) ends -> exists g pts, graph_new (blinks inc) ends = Some g /\ graph_of (blinks inc) g pts.
  Proof. intro E. apply graph_spec; auto using blinks_wf, blinks_sorted. Qed.
End Arr.

(** ** degrees: flags given by a predicate on the links *)
Definition flags (inc : link -> bool) (links : list link) : list bool := map (fun l => negb (inc l)) links.

Lemma flags_visited inc links i l : nth_error links i = Some l -> not_visited (flags inc links) i = inc l.
Proof.
  intro H. unfold not_visited, is_visited, flags.
  rewrite (nth_error_nth _ _ true (map_nth_error (fun l => negb (inc l)) i links H)). apply negb_involutive.
Qed.
Lemma filter_idx {X} (f : X -> bool) (l : list X) : forall k,
  length (filter f l) = length (filter (fun i => match nth_error l (i - k) with Some x => f x | None => false end) (seq k (length l))).
Proof.
  induction l as [|x l IH]; intro k; simpl; auto. rewrite Nat.sub_diag. simpl. specialize (IH (S k)).
  assert (E : filter (fun i => match nth_error (x :: l) (i - k) with Some x => f x | None => false end) (seq (S k) (length l)) =
    filter (fun i => match nth_error l (i - S k) with Some x => f x | None => false end) (seq (S k) (length l))).
  { apply filter_ext_in. intros i I. apply in_seq in I. replace (i - k) with (S (i - S k)) by lia. reflexivity. }
  rewrite E. destruct (f x); simpl; rewrite IH; auto.
Qed.

Lemma deg_degree links g pts inc k n v : graph_of links g pts -> nth_error (g_nodes g) k = Some n -> nth_error pts k = Some v ->
  deg (flags inc links) n = degree (filter inc links) v.
Proof.
  intros G Hn Hv. destruct (go_node _ _ _ G k n v Hn Hv) as [N M]. unfold deg, degree.
  assert (E : length (filter (fun l => pt_eqb (l_a l) v || pt_eqb (l_b l) v) (filter inc links)) =
    length (filter (fun l => inc l && (pt_eqb (l_a l) v || pt_eqb (l_b l) v)) links)).
  { clear. induction links as [|l ls IH]; simpl; auto. destruct (inc l); simpl; auto. destruct (_ || _); simpl; auto. }
  rewrite E, (filter_idx _ links 0). apply Permutation_length. apply NoDup_Permutation; auto using NoDup_filter, seq_NoDup.
  intro i. rewrite !filter_In, in_seq, Nat.sub_0_r, M. split.
  - intros ((l & Hl & Ev) & U). rewrite Hl. rewrite (flags_visited _ _ _ _ Hl) in U. rewrite U.
    assert (i < length links) by (apply nth_error_Some; congruence). split; [lia|]. simpl.
    destruct Ev as [<-|<-]; rewrite pt_eqb_refl; auto using orb_true_r.
  - intros (L & Ev). destruct (nth_error links i) as [l|] eqn:Hl; [|discriminate].
    rewrite (flags_visited _ _ _ _ Hl). apply andb_true_iff in Ev as [Ei Ev]. apply orb_true_iff in Ev. split; auto.
    exists l. split; auto. destruct Ev as [Ev|Ev]; apply pt_eqb_eq in Ev; auto.
Qed.
Lemma flags_even links g pts inc : graph_of links g pts -> (forall v, Nat.Even (degree (filter inc links) v)) -> all_even g (flags inc links).
Proof.
  intros G H k n Hn. assert (Hk : k < length pts) by (rewrite <- (go_nlen _ _ _ G); apply nth_error_Some; congruence).
  apply nth_error_Some in Hk. destruct (nth_error pts k) as [v|] eqn:Hv; [|congruence].
  rewrite (deg_degree links g pts inc k n v G Hn Hv). apply Nat.even_spec, H.
Qed.
Lemma flags_all links : flags (fun _ => true) links = repeat false (length links).
Proof. unfold flags. induction links; simpl; f_equal; auto. Qed.
Lemma filter_true {X} (l : list X) : filter (fun _ => true) l = l.
Proof. induction l; simpl; f_equal; auto. Qed.

(** the edges of a contour are links with the given indices *)
Definition edge_of (links : list link) (e : pt * pt) (i : nat) : Prop :=
  exists l, nth_error links i = Some l /\ (e = (l_a l, l_b l) \/ e = (l_b l, l_a l)).
Lemma edge_is_of links g pts e i : graph_of links g pts -> edge_is g e i -> edge_of links e i.
Proof.
  intros G (l' & H & E). destruct (nth_error links i) as [l|] eqn:Hl.
  - destruct (go_link _ _ _ G i l Hl) as (l2 & H2 & A & B & _). rewrite H in H2. injection H2 as <-. exists l. rewrite <- A, <- B. auto.
  - apply nth_error_None in Hl. rewrite <- (go_len _ _ _ G) in Hl. apply nth_error_None in Hl. congruence.
Qed.

Lemma Forall2_impl {X Y} (P R : X -> Y -> Prop) l m : (forall x y, P x y -> R x y) -> Forall2 P l m -> Forall2 R l m.
Proof. intros H F. induction F; auto. Qed.

(** everything extraction does, for any flags with even degrees *)
Theorem pieces_spec links g pts inc clean r cw simplify min_area :
  graph_of links g pts -> Forall (fun l => pt_lt (l_a l) (l_b l)) links -> (forall v, Nat.Even (degree (filter inc links) v)) ->
  exists ps, extract_pieces g clean r cw simplify min_area (flags inc links) = Some ps /\
    Forall (fun p => Forall2 (edge_of links) (edges (p_raw p)) (p_used p) /\
       p_contour p = fst (clean simplify (p_raw p)) /\ p_valid p = is_valid min_area (p_contour p)) ps /\
    NoDup (concat (map p_used ps)) /\
    (forall i, In i (concat (map p_used ps)) -> exists l, nth_error links i = Some l /\ inc l = true) /\
    ((forall p, In p ps -> p_valid p = true) -> forall i l, nth_error links i = Some l -> inc l = true -> In i (concat (map p_used ps))).
Proof.
  intros G W Ev. pose proof (graph_of_wf _ _ _ W G) as GW.
  assert (Len : length (flags inc links) = length (g_links g)) by (unfold flags; rewrite map_length; symmetry; apply (go_len _ _ _ G)).
  destruct (extract_spec g pts GW clean r cw simplify min_area (S (2 * length (flags inc links))) 0 (flags inc links)
    (flags_even _ _ _ _ G Ev) Len) as (ps & H & F & N & U & All).
  { pose proof (ucount_le (flags inc links)). lia. }
  exists ps. split; auto. split; [|split; [|split]]; auto.
  - eapply Forall_impl; [|exact F]. cbv beta. intros p (E & C). split; auto. eapply Forall2_impl; [|exact E]. intros; eapply edge_is_of; eauto.
  - intros i I. specialize (U i I). pose proof (unvisited_lt _ _ U) as L. unfold flags in L. rewrite map_length in L.
    apply nth_error_Some in L. destruct (nth_error links i) as [l|] eqn:Hl; [|congruence]. exists l. split; auto.
    rewrite (flags_visited _ _ _ _ Hl) in U. auto.
  - intros V i l Hl Il. apply All; auto; [lia|]. rewrite (flags_visited _ _ _ _ Hl). auto.
Qed.

(** ** lengths: a closed walk along distinct edges has at least three points *)
Lemma edges_length c : length (edges c) = length c.
Proof. destruct c as [|p c]; auto. unfold edges. rewrite combine_length, app_length. cbn [length]. lia. Qed.
Lemma Forall2_length' {X Y} (R : X -> Y -> Prop) l m : Forall2 R l m -> length l = length m.
Proof. induction 1; simpl; auto. Qed.
Lemma walk_long links c u : Forall (fun l => pt_lt (l_a l) (l_b l)) links -> NoDup (map l_seg links) ->
  Forall2 (edge_of links) (edges c) u -> NoDup u -> c <> [] -> 3 <= length c.
Proof.
  intros W N F Nu NE. rewrite Forall_forall in W.
  destruct c as [|p [|q [|x c]]]; simpl in *; try lia; [congruence| |].
  - inversion F as [|? ? ? ? (l & Hl & E) ?]; subst. specialize (W l (nth_error_In _ _ Hl)).
    exfalso. eapply pt_lt_irrefl. destruct E as [E|E]; injection E as E1 E2; rewrite <- E1, <- E2 in W; exact W.
  - inversion F as [|? i ? u1 (l & Hl & E) F1]; subst. inversion F1 as [|? j ? u2 (m & Hm & E') F2]; subst.
    exfalso. assert (i <> j) by (inversion Nu as [|? ? Nu1 ?]; subst; intros ->; apply Nu1; left; auto).
    assert (S : l_seg l = l_seg m).
    { pose proof (W l (nth_error_In _ _ Hl)) as Wl. pose proof (W m (nth_error_In _ _ Hm)) as Wm. unfold l_seg.
      destruct E as [E|E], E' as [E'|E']; injection E as E1 E2; injection E' as E1' E2'; subst; try congruence;
        exfalso; rewrite E1', E2' in *; eapply pt_lt_irrefl; eapply pt_lt_trans; eauto. }
    apply H. apply (proj1 (NoDup_nth_error (map l_seg links)) N).
    + apply nth_error_Some. rewrite nth_error_map, Hl. discriminate.
    + rewrite !nth_error_map, Hl, Hm. simpl. congruence.
Qed.
