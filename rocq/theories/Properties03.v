(** * Property theorems, part 3: the graph and the extraction of contours.

    [ends_ok links ends]: [ends] is any sorted permutation of the end points (the code uses
    an unstable sort).  [clean] stands for the two contour clean-up functions of [i_shape]. *)
From Verif Require Import Base Spec QLib ModelSegm SegmProofs MergeProofs PlanarGeo PlanarSum ModelFill ModelFilter FillProofs FillCorrect
  CoreResults Properties01 ModelGraph GraphProofs ModelExtract ExtractProofs ContourResults Rotation NextLink.
Open Scope Z_scope.

(** the links of an arrangement kept by a filter *)
Notation kept inc fr segs := (build_links inc segs (fill_boolean fr segs)).
Definition touches (l : link) (v : pt) : Prop := l_a l = v \/ l_b l = v.

(** ** C16: nodes and incidences.  [pts] lists the points of the nodes. *)
Theorem C16_graph_exact segs fr inc ends : arrangement segs -> ends_ok (kept inc fr segs) ends ->
  exists g pts, graph_new (kept inc fr segs) ends = Some g /\
    (* one node per distinct end point *)
    length (g_nodes g) = length pts /\ NoDup pts /\
    (forall v, In v pts <-> exists l, In l (kept inc fr segs) /\ touches l v) /\
    (* every link is kept, and knows the nodes of its ends *)
    length (g_links g) = length (kept inc fr segs) /\
    (forall i l, nth_error (kept inc fr segs) i = Some l -> exists l', nth_error (g_links g) i = Some l' /\
       l_a l' = l_a l /\ l_b l' = l_b l /\ l_fill l' = l_fill l /\
       nth_error pts (l_aid l') = Some (l_a l) /\ nth_error pts (l_bid l') = Some (l_b l)) /\
    (* every node knows precisely the links that touch its point, each once *)
    (forall k n v, nth_error (g_nodes g) k = Some n -> nth_error pts k = Some v ->
       NoDup (node_links n) /\
       forall i, In i (node_links n) <-> exists l, nth_error (kept inc fr segs) i = Some l /\ touches l v).
Proof.
  intros A E. destruct (blinks_graph segs A fr inc ends E) as (g & pts & H & G). exists g, pts. split; auto. split; [|split; [|split; [|split; [|split]]]].
  - apply (go_nlen _ _ _ G).
  - pose proof (go_sorted _ _ _ G) as S. clear - S. induction S as [|p l S IH F]; constructor; auto.
    intro I. rewrite Forall_forall in F. specialize (F p I). eapply pt_lt_irrefl; eauto.
  - apply (go_pts _ _ _ G).
  - apply (go_len _ _ _ G).
  - apply (go_link _ _ _ G).
  - apply (go_node _ _ _ G).
Qed.

(** ** C18: extraction. *)
(** [c] is a closed walk along the links with the indices [u], in this order *)
Definition closed_walk (links : list link) (c : list pt) (u : list nat) : Prop :=
  Forall2 (fun e i => exists l, nth_error links i = Some l /\ (e = (l_a l, l_b l) \/ e = (l_b l, l_a l))) (edges c) u.

(** direct overlay: the links of the rule, nothing visited *)
Theorem C18_extraction segs fr r ends clean cw simplify min_area : arrangement segs -> ends_ok (result_links fr r segs) ends ->
  let n := length (result_links fr r segs) in
  exists g ps, graph_new (result_links fr r segs) ends = Some g /\
    extract_pieces g clean r cw simplify min_area (repeat false n) = Some ps /\
    (forall p, In p ps -> closed_walk (result_links fr r segs) (p_raw p) (p_used p)) /\
    NoDup (concat (map p_used ps)) /\ (forall i, In i (concat (map p_used ps)) -> (i < n)%nat) /\
    ((forall p, In p ps -> p_valid p = true) -> Permutation (concat (map p_used ps)) (seq 0 n)).
Proof.
  intros A E n. destruct (blinks_graph segs A fr _ ends E) as (g & pts & H & G). fold (result_links fr r segs) in *.
  destruct (pieces_spec (result_links fr r segs) g pts (fun _ => true) clean r cw simplify min_area G (blinks_wf segs A fr _)) as (ps & P1 & P2 & P3 & P4 & P5).
  { intro v. rewrite filter_true. apply result_even; auto. }
  rewrite flags_all in P1. exists g, ps. split; auto. split; auto. split; [|split; [|split]]; auto.
  - rewrite Forall_forall in P2. intros p I. apply P2 in I. apply I.
  - intros i I. apply P4 in I as (l & Hl & _). apply nth_error_Some. congruence.
  - intro V. apply NoDup_Permutation; auto using seq_NoDup. intro i. rewrite in_seq. split.
    + intro I. apply P4 in I as (l & Hl & _). assert (i < length (result_links fr r segs))%nat by (apply nth_error_Some; congruence). subst n. lia.
    + intros [_ L]. simpl in L. assert (X : nth_error (result_links fr r segs) i <> None) by (apply nth_error_Some; auto).
      destruct (nth_error (result_links fr r segs) i) as [l|] eqn:Hl; [|congruence]. eapply P5; eauto.
Qed.

(** reused graph: all links that any rule needs, the others flagged as visited *)
Theorem C18_extraction_graph segs fr r ends clean cw simplify min_area : arrangement segs ->
  let links := kept is_included_filler fr segs in
  ends_ok links ends ->
  exists g ps, graph_new links ends = Some g /\
    extract_pieces g clean r cw simplify min_area (filter_by_rule r links) = Some ps /\
    (forall p, In p ps -> closed_walk links (p_raw p) (p_used p)) /\
    NoDup (concat (map p_used ps)) /\
    (forall i, In i (concat (map p_used ps)) -> exists l, nth_error links i = Some l /\ is_included r (l_fill l) = true) /\
    ((forall p, In p ps -> p_valid p = true) -> forall i l, nth_error links i = Some l -> is_included r (l_fill l) = true -> In i (concat (map p_used ps))).
Proof.
  intros A links E. destruct (blinks_graph segs A fr _ ends E) as (g & pts & H & G). fold links in G, H.
  destruct (pieces_spec links g pts (fun l => is_included r (l_fill l)) clean r cw simplify min_area G (blinks_wf segs A fr _)) as (ps & P1 & P2 & P3 & P4 & P5).
  { intro v. unfold links. rewrite graph_reuse by auto. apply result_even; auto. }
  exists g, ps. split; auto. split; [exact P1|]. split; [|split; [|split]]; auto.
  rewrite Forall_forall in P2. intros p I. apply P2 in I. apply I.
Qed.

(** ** C19: the tightest turn.  [link i] was walked into the vertex [c] (node [k]); [between cw a p b]:
    rotating (clockwise if [cw]) around [c] from ray [a], ray [p] is met strictly before ray [b]. *)
(** direction in which link [l] leaves its end point [c] *)
Definition leaves (l : link) (c : pt) : vec := if pt_eqb (l_a l) c then vsub (l_b l) c else vsub (l_a l) c.

Lemma graph_planar segs fr inc g pts : arrangement segs -> graph_of (kept inc fr segs) g pts -> links_planar (g_links g).
Proof.
  intros A G.
  assert (B : forall i l', nth_error (g_links g) i = Some l' -> exists l, nth_error (kept inc fr segs) i = Some l /\ l_seg l' = l_seg l).
  { intros i l' H. destruct (nth_error (kept inc fr segs) i) as [l|] eqn:E.
    - destruct (go_link _ _ _ G i l E) as (l2 & H2 & A1 & B1 & _). rewrite H in H2. injection H2 as <-. exists l. split; auto. unfold l_seg. congruence.
    - apply nth_error_None in E. rewrite <- (go_len _ _ _ G) in E. apply nth_error_None in E. congruence. }
  assert (In_s : forall l, In l (kept inc fr segs) -> exists s, In s segs /\ l_seg l = sx s).
  { intros l I. apply blinks_in in I as (s & f & I & _ & ->). exists s. split; auto. apply mk_link_seg. }
  pose proof (blinks_nodup segs A fr inc) as ND. constructor.
  - intros i l' H. apply B in H as (l & H & ->). apply nth_error_In in H. apply In_s in H as (s & I & ->). apply (arr_wf _ A); auto.
  - intros i j l' m' Hi Hj N. apply B in Hi as (l & Hi & ->). apply B in Hj as (m & Hj & ->).
    assert (NE : l_seg l <> l_seg m).
    { intro E. apply N. apply (proj1 (NoDup_nth_error _) ND).
      - apply nth_error_Some. rewrite nth_error_map, Hi. discriminate.
      - rewrite !nth_error_map, Hi, Hj. simpl. congruence. }
    split; auto. intros q O1 O2. apply nth_error_In in Hi, Hj. apply In_s in Hi as (s & Is & E1). apply In_s in Hj as (t & It & E2).
    rewrite E1, E2 in *. apply (arr_planar _ A); auto using in_map.
Qed.

Theorem C19_tightest_turn segs fr inc ends g pts vis cw i l k n c j : arrangement segs ->
  ends_ok (kept inc fr segs) ends -> graph_new (kept inc fr segs) ends = Some g -> graph_of (kept inc fr segs) g pts ->
  nth_error (g_nodes g) k = Some n -> nth_error pts k = Some c ->
  nth_error (g_links g) i = Some l -> touches l c -> is_visited vis i = true ->
  (exists u, In u (node_links n) /\ is_visited vis u = false) ->
  next_link g i k cw n vis = Some j ->
  forall lj u lu, nth_error (g_links g) j = Some lj -> u <> j ->
    nth_error (g_links g) u = Some lu -> touches lu c -> is_visited vis u = false ->
    between cw (leaves l c) (leaves lj c) (leaves lu c).
Proof.
  intros A E H G Hn Hc Hl Tl Vi Ex Nx lj u lu Hj Nuj Hu Tu Uu.
  pose proof (graph_of_wf _ _ _ (blinks_wf segs A fr inc) G) as GW. pose proof (graph_planar segs fr inc g pts A G) as LP.
  assert (NDp : NoDup pts).
  { pose proof (go_sorted _ _ _ G) as S. clear - S. induction S as [|p l S IH F]; constructor; auto.
    intro I. rewrite Forall_forall in F. specialize (F p I). eapply pt_lt_irrefl; eauto. }
  assert (At : forall x m, nth_error (g_links g) x = Some m -> touches m c -> l_aid m = k \/ l_bid m = k).
  { intros x m Hx T. destruct (gw_link _ _ GW x m Hx) as (_ & Pa & Pb & _). rewrite NoDup_nth_error in NDp.
    destruct T as [T|T]; [left|right]; apply NDp; try congruence; apply nth_error_Some; congruence. }
  assert (Lv : forall x m, nth_error (g_links g) x = Some m -> (l_aid m = k \/ l_bid m = k) -> dirn g k c x = leaves m c).
  { intros x m Hx Em. unfold dirn. rewrite Hx. unfold l_other, leaves. destruct (gw_link _ _ GW x m Hx) as (NE & Pa & Pb & _).
    destruct (Nat.eqb_spec (l_aid m) k) as [<-|N].
    - assert (l_a m = c) as -> by congruence. rewrite pt_eqb_refl. auto.
    - destruct Em as [Em|<-]; [congruence|]. destruct (pt_eqb (l_a m) c) eqn:X; auto. apply pt_eqb_eq in X.
      exfalso. apply NE. rewrite NoDup_nth_error in NDp. apply NDp; [apply nth_error_Some; congruence|]. congruence. }
  destruct (gw_node _ _ GW k n Hn) as [ND M].
  assert (Iu : In u (node_links n)) by (apply M; eauto).
  assert (Uj : not_visited vis j = true /\ (l_aid lj = k \/ l_bid lj = k)).
  { assert (Ex' : exists u, In u (node_links n) /\ not_visited vis u = true).
    { destruct Ex as (w & Iw & Vw). exists w. split; auto. unfold not_visited. rewrite Vw. auto. }
    assert (Kj : In j (node_links n) /\ not_visited vis j = true).
    { destruct n as [x y|ids]; simpl in *.
      - injection Nx as Nx. assert (Ii : In i [x; y]) by (apply M; eauto).
        assert (j <> i /\ In j [x; y]) as [Nji Ij].
        { destruct (Nat.eqb_spec x i) as [->|N]; subst j; simpl; split; auto. intros ->. inversion ND as [|? ? N1 _]; subst. apply N1. left; auto. }
        split; auto. destruct Ex' as (w & Iw & Uw). assert (w <> i) by (intros ->; unfold not_visited in Uw; rewrite Vi in Uw; discriminate).
        simpl in *. assert (w = j) by (destruct Ii as [->|[->|[]]], Iw as [->|[->|[]]], Ij as [->|[->|[]]]; congruence). subst. auto.
      - destruct (find_nearest_spec g i k cw ids vis) as (j' & E1 & E2 & E3); auto.
        + intros z I. apply M in I as (m & Hm & _). eauto.
        + eauto.
        + rewrite E1 in Nx. injection Nx as <-. auto. }
    split; [tauto|]. destruct Kj as [Kj _]. apply M in Kj as (m & Hm & Em). congruence. }
  destruct Uj as [Uj Ej].
  pose proof (next_link_first g pts GW LP i k cw n vis c l j Hn Hc Hl (At _ _ Hl Tl)) as F.
  specialize (F ltac:(unfold not_visited; rewrite Vi; auto)).
  specialize (F ltac:(exists u; split; auto; unfold not_visited; rewrite Uu; auto) Nx u Iu ltac:(unfold not_visited; rewrite Uu; auto) Nuj).
  rewrite <- (Lv _ _ Hl (At _ _ Hl Tl)), <- (Lv _ _ Hj Ej), <- (Lv _ _ Hu (At _ _ Hu Tu)).
  assert (Nij : i <> j) by (intros ->; unfold not_visited in Uj; rewrite Vi in Uj; discriminate).
  assert (Niu : i <> u) by congruence.
  apply (before_between (rf cw) (rf_cases cw)) in F.
  - destruct cw; exact F.
  - eapply dirn_nz; eauto.
  - split; [eapply dirn_nz; eauto|]. eapply link_rays; eauto.
  - split; [eapply dirn_nz; eauto|]. eapply link_rays; eauto.
  - eapply link_rays; eauto.
Qed.

(** ** C21: size of the contours returned. *)
Theorem C21_min_area g clean r cw simplify min_area vis ps c : extract_pieces g clean r cw simplify min_area vis = Some ps ->
  In c (outer_contours ps) \/ In c (hole_contours ps) ->
  (3 <= length c)%nat /\ (min_area <> 0 -> 2 * min_area <= Z.abs (area2 c)).
Proof.
  intros H I.
  assert (K : forall fuel k vis ps, extract_loop g clean fuel r cw simplify min_area k vis = Some ps ->
    forall p, In p ps -> p_valid p = true -> is_valid min_area (p_contour p) = true).
  { clear. induction fuel as [|fuel IH]; intros k vis ps H p I V; simpl in H; destruct (length vis <=? k)%nat; try discriminate;
      try (injection H as <-; destruct I).
    destruct (is_visited vis k); [eapply IH; eauto|]. destruct (find_left_top_link g k vis) as [lt|]; [|discriminate].
    destruct (nth_error (g_links g) lt) as [link|]; [|discriminate]. destruct (get_contour _ _ _ _ _) as [[[raw used] vis']|]; [|discriminate].
    destruct (clean simplify raw) as [cc m]. destruct (extract_loop _ _ _ _ _ _ _ _ vis') as [ps'|] eqn:E; [|discriminate].
    injection H as <-. destruct I as [<-|I]; [exact V|]. eapply IH; eauto. }
  assert (V : is_valid min_area c = true).
  { unfold outer_contours, hole_contours in I. destruct I as [I|I]; apply in_map_iff in I as (p & <- & I); apply filter_In in I as [I Vp];
      apply andb_true_iff in Vp as [Vp _]; eapply K; eauto. }
  unfold is_valid in V. destruct (length c <? 3)%nat eqn:L; [discriminate|]. apply Nat.ltb_ge in L. split; auto.
  intro N. destruct (Z.eqb_spec min_area 0); [contradiction|]. apply Z.leb_le in V. rewrite Z.shiftr_div_pow2 in V by lia.
  change (2 ^ 1) with 2 in V. pose proof (Z.div_mod (Z.abs (area2 c)) 2). pose proof (Z.mod_pos_bound (Z.abs (area2 c)) 2). lia.
Qed.

(** ** C23: filtering by area. *)
(** If no contour is too small, a positive [min_area] changes nothing. *)
Theorem C23_nothing_small_partial g clean r cw simplify min_area vis ps : 
  extract_pieces g clean r cw simplify 0 vis = Some ps ->
  (forall p, In p ps -> (3 <= length (p_contour p))%nat /\ 2 * min_area <= Z.abs (area2 (p_contour p))) ->
  extract_pieces g clean r cw simplify min_area vis = Some ps.
Proof.
  unfold extract_pieces. intros H V.
  assert (K : forall fuel k vis ps, extract_loop g clean fuel r cw simplify 0 k vis = Some ps ->
    (forall p, In p ps -> (3 <= length (p_contour p))%nat /\ 2 * min_area <= Z.abs (area2 (p_contour p))) ->
    extract_loop g clean fuel r cw simplify min_area k vis = Some ps); [|apply K; auto].
  clear H V. induction fuel as [|fuel IH]; intros k vis' ps' H V; cbn [extract_loop] in *; destruct (length vis' <=? k)%nat; auto; try discriminate.
  clear vis ps. rename vis' into vis, ps' into ps.
  destruct (is_visited vis k); [apply IH; auto|]. destruct (find_left_top_link g k vis) as [lt|]; [|discriminate].
  destruct (nth_error (g_links g) lt) as [link|]; [|discriminate]. destruct (get_contour _ _ _ _ _) as [[[raw used] vis']|]; [|discriminate].
  destruct (clean simplify raw) as [cc m].
  destruct (extract_loop g clean fuel r cw simplify 0 _ vis') as [ps'|] eqn:E; [|discriminate]. injection H as <-.
  destruct (V _ (or_introl eq_refl)) as [L B]. simpl in L, B.
  assert (V1 : is_valid 0 cc = true) by (unfold is_valid; rewrite (proj2 (Nat.ltb_ge _ _) L); auto).
  assert (V2 : is_valid min_area cc = true).
  { unfold is_valid. rewrite (proj2 (Nat.ltb_ge _ _) L). destruct (min_area =? 0); auto. apply Z.leb_le.
    rewrite Z.shiftr_div_pow2 by lia. change (2 ^ 1) with 2. apply Z.div_le_lower_bound; lia. }
  rewrite V1 in *. rewrite V2. rewrite (IH _ _ _ E); auto. intros p I. apply V. right; auto.
Qed.

(** The full claim is false: three triangles share their leftmost vertex; the two upper ones
    are smaller than 10, the lowest has area 150.  With [min_area = 10] it is reported as a
    hole and no outer contour is left. *)
Definition tri3 : input :=
  [([Pt 0 0; Pt 1 (-300); Pt 2 (-300)], Subject); ([Pt 0 0; Pt 5 0; Pt 5 1], Subject); ([Pt 0 0; Pt 6 5; Pt 6 6], Subject)].
Definition tri3_links : list link := result_links NonZero RSubject (sort_merge (input_segments tri3)).
Definition keep (simplify : bool) (c : list pt) : list pt * bool := (c, false).
Definition tri3_run (min_area : Z) : option (list (list pt) * list (list pt)) :=
  match graph_new tri3_links (sorted_ends tri3_links) with
  | Some g => match extract_pieces g keep RSubject false false min_area (repeat false (length tri3_links)) with
              | Some ps => Some (outer_contours ps, hole_contours ps)
              | None => None
              end
  | None => None
  end.
Theorem C23_large_contour_lost_refuted :
  planar (map sx (sort_merge (input_segments tri3))) /\
  let t := [Pt 2 (-300); Pt 0 0; Pt 1 (-300)] in
  Z.abs (area2 t) / 2 = 150 /\
  (exists outer, tri3_run 0 = Some (outer, []) /\ In t outer) /\
  exists hole, tri3_run 10 = Some ([], [hole]).
Proof.
  split; [apply planarb_ok; vm_compute; reflexivity|]. cbv zeta. split; [vm_compute; reflexivity|]. split.
  - eexists. split; [vm_compute; reflexivity|]. vm_compute. auto.
  - eexists. vm_compute. reflexivity.
Qed.

(** ** Examples: the hypotheses hold for the arrangement of [Properties01]. *)
Lemma sorted_ends_ok links : ends_ok links (sorted_ends links).
Proof.
  split.
  - unfold sorted_ends. apply isort_perm.
  - apply (isort_sorted (fun e f : nat * pt => pt_leb (snd e) (snd f))).
    + intros [i a] [j b]. simpl. apply pt_leb_total.
    + intros [i a] [j b] [k c]. simpl. apply pt_leb_trans.
Qed.
Example C18_example : exists ps,
  match graph_new (result_links EvenOdd RDifference ex_segs) (sorted_ends (result_links EvenOdd RDifference ex_segs)) with
  | Some g => extract_pieces g keep RDifference false false 0 (repeat false 8) = Some ps /\
      length (outer_contours ps) = 1%nat /\ length (hole_contours ps) = 1%nat /\ length (g_nodes g) = 8%nat
  | None => False end.
Proof. eexists. vm_compute. auto. Qed.
