(** * C46: slicing shapes by lines.

    [shape_contours items] are the contours of the shapes, [moves items] the lines (C26).  The region is the set of points inside the
    shapes by the fill rule.  The links of the string graph are the pieces into which contours and lines cut each other; bits 0 and 1 of
    the fill of a link tell whether the region lies above (left of) and below (right of) it (C27). *)
From Verif Require Import Base Spec QLib ModelSegm SegmProofs MergeProofs PlanarGeo PlanarSum ModelFill ModelFilter FillProofs FillCorrect
  ModelCross CrossProofs CrossPoint MarksProofs CoreResults Properties01 ModelSplit SplitProofs SplitPlanar SplitPass BinsProofs SplitApply SplitLoop SplitFlags
  ModelFrag ModelOverlay OverlayProofs FragProofs GridCover Properties02 ModelGraph GraphProofs ModelExtract ExtractProofs ContourResults Rotation NextLink Properties03
  MoveLemma SectorLemma Sides WalkSides Orient ModelBind BindProofs BindSweep Nest Properties04 Properties05 ModelString StringProofs StringResults StringMain Properties07
  AreaWind ModelSlice SliceNext SliceWalk SliceLoops SliceMain SliceString SliceNest SliceShapes SliceFinal.
From Coq Require Import Permutation.
Open Scope Z_scope.

(** ** Specification *)
Definition above (l : link) : bool := N.testbit (l_fill l) 0.
Definition beneath (l : link) : bool := N.testbit (l_fill l) 1.
(** the step runs along the link, in either direction *)
Definition along (d : pt * pt) (l : link) : Prop := d = (l_a l, l_b l) \/ d = (l_b l, l_a l).
(** a simple polygon all of whose edges are links with the region on at least one side *)
Definition region_polygon (links : list link) (c : list pt) : Prop :=
  NoDup c /\ (3 <= length c)%nat /\ forall d, In d (edges c) -> exists l, In l links /\ (above l = true \/ beneath l = true) /\ along d l.
Definition passes (c : list pt) (l : link) : Prop := exists d, In d (edges c) /\ along d l.
(** different shapes lie on the two sides of the link *)
Definition separated (shapes : list (list (list pt))) (l : link) : Prop :=
  exists k1 k2 sh1 sh2, k1 <> k2 /\ nth_error shapes k1 = Some sh1 /\ nth_error shapes k2 = Some sh2 /\
    forall q, inside_seg (l_seg l) q -> near (fun d => covers sh1 (top_side (l_seg l) q d) /\ covers sh2 (bottom_side (l_seg l) q d)).
(** The shapes are cut along the links inside the region, exactly where the cut closes: a link with the region on both sides separates
    two shapes if and only if it lies on a polygon of such links.  (The others, loose ends and bridges, cut off nothing.) *)
Definition cut_along (links : list link) (shapes : list (list (list pt))) : Prop :=
  forall l, In l links -> above l = true -> beneath l = true -> (separated shapes l <-> exists c, region_polygon links c /\ passes c l).
(** the contract of [is_clockwise_ordered] of [i_shape]: the sign of the area *)
Definition cw_ok (cw_ordered : list pt -> bool) : Prop := forall c, (area2 c < 0 -> cw_ordered c = true) /\ (0 < area2 c -> cw_ordered c = false).

(** ** Proofs *)
Definition data (l : link) : pt * pt * fill_t := (l_a l, l_b l, l_fill l).
Lemma go_data links g pts : graph_of links g pts -> map data (g_links g) = map data links.
Proof.
  intro G. apply nth_ext with (d := (Pt 0 0, Pt 0 0, 0%N)) (d' := (Pt 0 0, Pt 0 0, 0%N)); [rewrite !map_length; apply (go_len _ _ _ G)|].
  intros n L. rewrite map_length, (go_len _ _ _ G) in L. apply nth_error_Some in L. destruct (nth_error links n) as [l|] eqn:E; [|congruence].
  destruct (go_link _ _ _ G n l E) as (l' & E' & X1 & X2 & X3 & _). erewrite (nth_error_nth (map data (g_links g))); [|apply map_nth_error; exact E'].
  erewrite nth_error_nth; [|apply map_nth_error; exact E]. unfold data. congruence.
Qed.
Lemma ROk_inj {X} (a b : X) : ROk a = ROk b -> a = b. Proof. congruence. Qed.
Lemma data_in links links' l : map data links = map data links' -> In l links -> exists l', In l' links' /\ data l' = data l.
Proof. intros E I. apply (in_map data) in I. rewrite E in I. apply in_map_iff in I as (l' & X & I). eauto. Qed.
Lemma data_polygon links links' c : map data links = map data links' -> region_polygon links c -> region_polygon links' c.
Proof.
  intros E (N & L & H). split; auto. split; auto. intros d Id. destruct (H d Id) as (l & Il & S & Al). destruct (data_in _ _ _ E Il) as (l' & Il' & D). exists l'.
  unfold data in D. injection D as D1 D2 D3. split; auto. unfold above, beneath, along in *. rewrite D1, D2, D3. auto.
Qed.
Lemma data_cut links links' shapes : map data links = map data links' -> cut_along links shapes -> cut_along links' shapes.
Proof.
  intros E H l Il A B. destruct (data_in _ _ _ (eq_sym E) Il) as (l' & Il' & D). unfold data in D. injection D as D1 D2 D3.
  assert (Es : l_seg l = l_seg l') by (unfold l_seg; congruence).
  assert (H' := H l' Il'). unfold above, beneath in *. rewrite D3 in H'. specialize (H' A B). unfold separated in *. rewrite Es. rewrite H'.
  unfold passes, along. rewrite D1, D2. split; intros (c & R & X); exists c; split; auto; [apply (data_polygon links)|apply (data_polygon links')]; auto.
Qed.

Lemma ke_one (g : graph) c e : NoDup c -> (3 <= length c)%nat -> In (sa e, sb e) (edges c) \/ In (sb e, sa e) (edges c) -> ke c e <> 0.
Proof.
  intros ND L3 I. set (F1 := repeat 0%N (length (g_links g))). assert (L1 : length F1 = length (g_links g)) by apply repeat_length.
  assert (Nd := simple_edges g F1 L1 c ND). pose proof (cnt_nonneg c (sa e, sb e)). pose proof (cnt_nonneg c (sb e, sa e)). unfold ke. destruct I as [I|I].
  - pose proof (proj2 (cnt_in _ _) I). pose proof (simple_no_flip g F1 L1 _ _ ND L3 I) as X. unfold flip in X. cbn [fst snd] in X. rewrite <- cnt_in in X. lia.
  - pose proof (proj2 (cnt_in _ _) I). pose proof (simple_no_flip g F1 L1 _ _ ND L3 I) as X. unfold flip in X. cbn [fst snd] in X. rewrite <- cnt_in in X. lia.
Qed.

Section Graph.
  Variables (g : graph) (pts : list pt).
  Hypothesis G : graph_wf g pts.
  Hypothesis P : links_planar (g_links g).
  Hypothesis NDp : NoDup pts.
  Hypothesis Srt : forall i j, (i <= j)%nat -> valid g j -> ~ pt_lt (sa (seg g j)) (sa (seg g i)).
  Variable kR : xseg -> Z.
  Hypothesis BR : balanced (ch (ges g) kR).
  Hypothesis HT : forall i, valid g i -> top (ges g) kR (seg g i) = bz (N.testbit (l_fill (lk g i)) 0) /\ bot (ges g) kR (seg g i) = bz (N.testbit (l_fill (lk g i)) 1).
  Variable R : qpt -> bool.
  Hypothesis HR : forall q, wind (ch (ges g) kR) q = bz (R q).
  Variable cwo : list pt -> bool.
  Hypothesis Hcw : cw_ok cwo.
  Notation links := (g_links g).
  Notation F0 := (slice_fills links).

  Lemma used_sides u : used g F0 u <-> valid g u /\ (above (lk g u) = true \/ beneath (lk g u) = true).
  Proof.
    split.
    - intros [V N]. split; auto. rewrite (fill_lk g u V) in N. unfold above, beneath. destruct (N.testbit (l_fill (lk g u)) 0) eqn:A; auto. destruct (N.testbit (l_fill (lk g u)) 1) eqn:B; auto.
      exfalso. apply N. apply N.bits_inj. intro n. rewrite N.land_spec, N.bits_0. destruct n as [|[p|p|]]; simpl N.testbit at 2; rewrite ?A, ?B, ?andb_false_r; auto; destruct p; rewrite ?andb_false_r; auto.
    - intros [V [A|B]].
      + apply (av_used g F0 (L0 g) (u, true)). rewrite (av_lk g u true V). exact A.
      + apply (av_used g F0 (L0 g) (u, false)). rewrite (av_lk g u false V). exact B.
  Qed.
  Lemma graph_slice dbg clockwise : exists shapes, slice_shapes g cwo dbg clockwise 0 = Some shapes /\
    shapes_ok (sign_of clockwise) R shapes /\ Forall (region_polygon links) (concat shapes) /\ cut_along links shapes.
  Proof.
    destruct (slice_shapes_spec g pts G P NDp Srt kR BR HT R HR cwo Hcw clockwise dbg) as (ps & spurs & shapes & _ & H & _ & Fs & Ok & Pe & Sp & Us & Nb & Nr).
    exists shapes. split; auto. split; auto. rewrite Forall_forall in Fs.
    assert (Rp : forall c, In c (concat shapes) -> region_polygon links c).
    { intros c Ic. destruct (Fs c Ic) as [N L]. split; auto. split; auto. intros d Id. destruct (Us c Ic d Id) as (u & Uu & E). apply used_sides in Uu as [V S].
      exists (lk g u). split; [eapply nth_error_In; apply (lk_nth g u V)|]. split; auto. unfold along. change (l_a (lk g u)) with (sa (seg g u)). change (l_b (lk g u)) with (sb (seg g u)).
      rewrite <- E. destruct (us_cases d) as [[X _]|[X _]]; auto. }
    split; [apply Forall_forall; auto|]. intros l Il Al Bl. apply In_nth_error in Il as (i & Ei). destruct (lk_eq g i l Ei) as [El V].
    assert (Es : l_seg l = seg g i) by (rewrite <- El; reflexivity). pose proof (seg_in g i V) as Ig. pose proof (am_wf _ (g_ambient g P) _ Ig) as W.
    assert (Nd : NoDup (flat_map (left_edges clockwise) (concat shapes) ++ flat_map both_ways spurs)) by (apply (Permutation_NoDup (Permutation_sym Pe)); apply (inner_nodup g pts G P)).
    assert (Inn : In (sa (seg g i), sb (seg g i)) (inner_sides links) /\ In (sb (seg g i), sa (seg g i)) (inner_sides links)).
    { rewrite <- Es. unfold above, beneath in *. split; apply in_flat_map; exists l; (split; [eapply nth_error_In; eauto|]); rewrite Al, Bl; simpl; auto. }
    assert (Sides : (In (sa (seg g i), sb (seg g i)) (flat_map (left_edges clockwise) (concat shapes)) /\ In (sb (seg g i), sa (seg g i)) (flat_map (left_edges clockwise) (concat shapes))) \/
                    ((exists d, In d spurs /\ us d = seg g i) /\ ~ In (sa (seg g i), sb (seg g i)) (flat_map (left_edges clockwise) (concat shapes)) /\ ~ In (sb (seg g i), sa (seg g i)) (flat_map (left_edges clockwise) (concat shapes)))).
    { assert (Bw : forall x, In x (flat_map both_ways spurs) -> In (flip x) (flat_map both_ways spurs) /\ exists d, In d spurs /\ us d = us x).
      { intros x Ix. apply in_flat_map in Ix as (d & Id & Ix). split; [apply in_flat_map; exists d; split; auto|exists d; split; auto].
        - destruct Ix as [<-|[<-|[]]]; [right; left; auto|left; symmetry; apply flip_flip].
        - destruct Ix as [<-|[<-|[]]]; auto. symmetry. apply us_swap. }
      assert (Dj : forall x, In x (flat_map both_ways spurs) -> ~ In x (flat_map (left_edges clockwise) (concat shapes))).
      { intros x I1 I2. revert I1 I2 Nd. generalize (flat_map both_ways spurs), (flat_map (left_edges clockwise) (concat shapes)). clear. intros b a I1 I2 Nd. induction a as [|y a IH]; [destruct I2|].
        inversion Nd as [|? ? N1 N2]; subst. destruct I2 as [->|I2]; [apply N1; apply in_or_app; auto|auto]. }
      assert (Sp2 : forall x, In x (flat_map both_ways spurs) -> us x = seg g i -> (exists d, In d spurs /\ us d = seg g i) /\ ~ In x (flat_map (left_edges clockwise) (concat shapes)) /\ ~ In (flip x) (flat_map (left_edges clockwise) (concat shapes))).
      { intros x Ix Ex. destruct (Bw x Ix) as [If (d & Id & Ed)]. split; [exists d; split; auto; congruence|]. split; apply Dj; auto. }
      destruct Inn as [I1 I2]. apply (Permutation_in _ (Permutation_sym Pe)) in I1. apply (Permutation_in _ (Permutation_sym Pe)) in I2. apply in_app_or in I1. apply in_app_or in I2.
      destruct I1 as [I1|I1]; [destruct I2 as [I2|I2]; [left; auto|]|].
      - right. destruct (Sp2 _ I2 (us_r _ W)) as (X1 & X2 & X3). unfold flip in X3. cbn [fst snd] in X3. auto.
      - right. destruct (Sp2 _ I1 (us_l _ W)) as (X1 & X2 & X3). unfold flip in X3. cbn [fst snd] in X3. auto. }
    assert (Loc : forall x, In x (flat_map (left_edges clockwise) (concat shapes)) -> exists k sh, nth_error shapes k = Some sh /\ In x (flat_map (left_edges clockwise) sh)).
    { intros x Ix. apply in_flat_map in Ix as (c & Ic & Ix). apply in_concat in Ic as (sh & Ish & Ic). apply In_nth_error in Ish as (k & Ek). exists k, sh. split; auto. apply in_flat_map. eauto. }
    split.
    - intros (k1 & k2 & sh1 & sh2 & Nk & E1 & E2 & Cov). rewrite Es in Cov. destruct Sides as [[I1 _]|(_ & N1 & N2)].
      + apply in_flat_map in I1 as (c & Ic & I1). exists c. split; auto. unfold passes, along. rewrite <- El. change (l_a (lk g i)) with (sa (seg g i)). change (l_b (lk g i)) with (sb (seg g i)).
        unfold left_edges in I1. destruct clockwise; [|eauto]. apply (Permutation_in _ (edges_rev c)) in I1. apply in_map_iff in I1 as (d & Ed & Id). exists d. split; auto. right.
        destruct d as [p q]. unfold BindSweep.swap in Ed. cbn [fst snd] in Ed. congruence.
      + exfalso. destruct (mid_inside _ W) as (q & Hq). assert (Nt : ~ sh_top g clockwise sh1 i /\ ~ sh_bot g clockwise sh1 i).
        { split; intro X; [apply N1|apply N2]; apply in_flat_map in X as (c & Ic & X); apply in_flat_map; exists c; split; auto; apply in_concat; exists sh1; split; auto; eapply nth_error_In; eauto. }
        destruct (Nr k1 sh1 i q E1 V Hq) as (_ & _ & X). specialize (X (proj1 Nt) (proj2 Nt)).
        destruct (near_ex _ (near_and _ _ X (Cov q Hq))) as (d & _ & Iff & C1 & C2). destruct Ok as (_ & Dj & _). apply (Dj k1 k2 sh1 sh2 (bottom_side (seg g i) q d)); auto. split; auto. apply Iff. auto.
    - intros (c & (ND & L3 & Hc) & (d & Id & Ad)). destruct Sides as [[I1 I2]|((d' & Id' & Ed') & _)].
      + destruct (Loc _ I1) as (k1 & sh1 & E1 & T1). destruct (Loc _ I2) as (k2 & sh2 & E2 & T2). exists k1, k2, sh1, sh2.
        split; [intros ->; assert (sh2 = sh1) by congruence; subst sh2; eapply Nb; eauto|]. split; auto. split; auto. rewrite Es. intros q Hq.
        destruct (Nr k1 sh1 i q E1 V Hq) as (X1 & _). destruct (Nr k2 sh2 i q E2 V Hq) as (_ & X2 & _). apply near_and; auto.
      + exfalso. assert (On : on_links g c).
        { intros x Ix. destruct (Hc x Ix) as (l' & Il' & _ & Al'). apply In_nth_error in Il' as (j & Ej). destruct (lk_eq g j l' Ej) as [El' Vj]. exists j. split; auto. unfold along in Al'. rewrite <- El' in Al'. exact Al'. }
        apply (ke_one g c (seg g i) ND L3).
        * unfold along in Ad. rewrite <- El in Ad. change (l_a (lk g i)) with (sa (seg g i)) in Ad. change (l_b (lk g i)) with (sb (seg g i)) in Ad. destruct Ad as [-> | ->]; auto.
        * rewrite <- Ed'. apply (Sp d' Id'); [apply (ke_balanced g P F0 (L0 g)); auto|]. intros u Vu Nu. apply used_sides. split; auto.
          assert (X : In (sa (seg g u), sb (seg g u)) (edges c) \/ In (sb (seg g u), sa (seg g u)) (edges c)).
          { pose proof (cnt_nonneg c (sa (seg g u), sb (seg g u))). pose proof (cnt_nonneg c (sb (seg g u), sa (seg g u))). unfold ke in Nu. rewrite <- !cnt_in. lia. }
          assert (Y : exists x, In x (edges c) /\ us x = seg g u).
          { pose proof (am_wf _ (g_ambient g P) _ (seg_in g u Vu)) as Wu. destruct X as [X|X]; eexists; (split; [exact X|]); [apply us_l|apply us_r]; auto. }
          destruct Y as (x & Ix & Ex). destruct (Hc x Ix) as (l' & Il' & S' & Al'). apply In_nth_error in Il' as (j & Ej). destruct (lk_eq g j l' Ej) as [El' Vj].
          assert (j = u); [|subst; auto]. apply (seg_inj g P); auto. rewrite <- Ex. pose proof (am_wf _ (g_ambient g P) _ (seg_in g j Vj)) as Wj.
          unfold along in Al'. rewrite <- El' in Al'. change (l_a (lk g j)) with (sa (seg g j)) in Al'. change (l_b (lk g j)) with (sb (seg g j)) in Al'. destruct Al' as [-> | ->]; symmetry; [apply us_l|apply us_r]; auto.
  Qed.
End Graph.

Section WithContracts.
  Variable layout_new : Z -> Z -> nat -> option (Z -> nat).
  Hypothesis Lay : layout_ok layout_new.
  Variable query : list (nat * xseg) -> Z * Z -> Z -> list (nat * xseg).
  Hypothesis Qry : query_ok query.
  Variable tree_new : Z * Z -> bool.
  Variable sort_ends : list link -> list (nat * pt).
  Hypothesis Ends : forall links, ends_ok links (sort_ends links).
  Variable cw_ordered : list pt -> bool.
  Hypothesis Hcw : cw_ok cw_ordered.
  Notation splitI fuel solver items := (split_segments layout_new query tree_new fuel solver (string_segments items)).
  Notation merged items := (sort_merge (string_segments items)).
  Notation slice := (slice_by layout_new query tree_new sort_ends cw_ordered).

  Lemma slice_arr arr fr dbg clockwise : SplitLoop.inv arr -> planar (map sx arr) -> balanced (chain_of ssubj arr) ->
    let links := build_links (fun _ => true) arr (ModelFill.fill_string fr arr) in
    exists g shapes, graph_new links (sort_ends links) = Some g /\ slice_shapes g cw_ordered dbg clockwise 0 = Some shapes /\
      shapes_ok (sign_of clockwise) (fun q => inside fr (wind (chain_of ssubj arr) q)) shapes /\
      Forall (region_polygon links) (concat shapes) /\ cut_along links shapes.
  Proof.
    intros I P B links. pose proof (s_wf arr I) as Wf. pose proof (s_sr arr I) as Sr. pose proof (s_ok arr I) as Ok.
    destruct (string_links_sorted arr Wf Sr P B Ok (fun _ => true) fr) as (L1 & L2 & _). fold links in L1, L2.
    destruct (graph_spec links (sort_ends links) L1 L2 (Ends links)) as (g & pts & H & G). exists g.
    destruct (graph_slice g pts (s_gw arr I P B fr g pts G) (s_planar arr I P B fr g pts G) (s_nodup arr fr g pts G) (s_sorted arr I P B fr g pts G)
      (kreg arr fr) (kreg_balanced arr I P B fr g pts G) (kreg_sides arr I P B fr g pts G) (fun q => inside fr (wind (chain_of ssubj arr) q)) (kreg_wind arr I P B fr g pts G) cw_ordered Hcw dbg clockwise) as (shapes & S & Sok & Rp & Cut).
    exists shapes. pose proof (go_data _ _ _ G) as D. split; auto. split; auto. split; auto. split.
    - rewrite Forall_forall in *. intros c Ic. apply (data_polygon (g_links g)); auto.
    - apply (data_cut (g_links g)); auto.
  Qed.

  (** Whatever the splitting into a planar graph does (rounding included): once the graph exists slicing cannot fail or loop for ever, the
      shapes it returns tile the region enclosed by the (rounded) contours, each is an outer contour with its holes, and they are cut
      exactly along the lines that close. *)
  Theorem C46_slice fuel solver dbg fr clockwise items links : string_bounded items -> no_grid solver (length (merged items)) ->
    (forall arr, splitI fuel solver items = Done arr -> length arr = 2%nat -> strategy solver = StList) ->
    string_links layout_new query tree_new fuel solver fr items = ROk links ->
    exists arr shapes, (string_segments items <> [] -> splitI fuel solver items = Done arr) /\ map l_seg links = map sx arr /\
      slice fuel solver dbg fr clockwise 0 items = ROk shapes /\
      shapes_ok (sign_of clockwise) (fun q => inside fr (wind (chain_of ssubj arr) q)) shapes /\
      Forall (region_polygon links) (concat shapes) /\ cut_along links shapes.
  Proof.
    intros B N L2 H. unfold slice_by. rewrite H. unfold string_links, build_string in H.
    assert (Main : forall arr, SplitLoop.inv arr -> planar (map sx arr) -> balanced (chain_of ssubj arr) -> links = build_links (fun _ => true) arr (ModelFill.fill_string fr arr) ->
      exists shapes, map l_seg links = map sx arr /\
        match graph_new links (sort_ends links) with None => RPanic | Some g => match slice_shapes g cw_ordered dbg clockwise 0 with None => RPanic | Some shapes => ROk shapes end end = ROk shapes /\
      shapes_ok (sign_of clockwise) (fun q => inside fr (wind (chain_of ssubj arr) q)) shapes /\
      Forall (region_polygon links) (concat shapes) /\ cut_along links shapes).
    { intros arr I P Bal E. destruct (slice_arr arr fr dbg clockwise I P Bal) as (g & shapes & H1 & H2 & H3). rewrite <- E in *. exists shapes. rewrite H1, H2. split; auto.
      rewrite E, (s_links arr I P Bal fr), map_map. apply map_ext. intro s. unfold l_seg. cbn [l_a l_b]. destruct (sx s); auto. }
    destruct (string_segments items) as [|s0 l0] eqn:Es.
    { injection H as <-. destruct (Main []) as (shapes & X); auto.
      - constructor; constructor.
      - intros s t [].
      - intro v. reflexivity.
      - exists [], shapes. split; auto. congruence. }
    rewrite <- Es in *. destruct (splitI fuel solver items) as [arr| |] eqn:Sp; try discriminate.
    destruct (string_done layout_new Lay query Qry tree_new fuel solver items arr B N Sp) as (I & P & Bal).
    assert (P' : planar (map sx arr)) by (destruct P as [P|[P1 P2]]; auto; exfalso; apply P2; eapply L2; eauto).
    destruct (Main arr I P' Bal) as (shapes & X); [apply ROk_inj; rewrite <- H; destruct arr; reflexivity|]. exists arr, shapes. split; auto.
  Qed.

  (** When no crossing is rounded: the shapes tile the region of the input, every point of every line lies on a link of that line, and the
      region is cut along those links exactly where they close. *)
  Theorem C46_slice_exact fuel solver dbg fr clockwise items : string_bounded items -> Forall open_contour (shape_contours items) ->
    no_grid solver (length (merged items)) -> exact_crossings (map sx (merged items)) ->
    (merged items <> [] \/ is_list_split solver 0 = true) ->
    (is_list_split solver 2 = true \/ length (merged items) <> 2%nat) ->
    exists links shapes, string_links layout_new query tree_new (S fuel) solver fr items = ROk links /\
      slice (S fuel) solver dbg fr clockwise 0 items = ROk shapes /\
      shapes_ok (sign_of clockwise) (fun q => inside fr (contours_wind (shape_contours items) q)) shapes /\
      Forall (region_polygon links) (concat shapes) /\ cut_along links shapes /\
      (forall m q, In m (moves items) -> fst m <> snd m -> on_seg (XS (fst m) (snd m)) q ->
         exists l, In l links /\ on_seg (l_seg l) q /\ on_seg (XS (fst m) (snd m)) (qof (l_a l)) /\ on_seg (XS (fst m) (snd m)) (qof (l_b l))) /\
      (forall l q, In l links -> inside_seg (l_seg l) q ->
         near (fun d => above l = inside fr (contours_wind (shape_contours items) (top_side (l_seg l) q d)) /\
                        beneath l = inside fr (contours_wind (shape_contours items) (bottom_side (l_seg l) q d)))).
  Proof.
    intros B Op N Ex NE L2.
    destruct (string_exact layout_new Lay query Qry tree_new fuel solver items B N Ex NE L2) as (arr & Sp & I & P & Bal & F & Wd).
    destruct (C27_flags_exact layout_new Lay query Qry tree_new fuel solver fr items B Op N Ex NE L2) as (links & HL & Fl).
    assert (EL : links = build_links (fun _ => true) arr (ModelFill.fill_string fr arr)).
    { unfold string_links, build_string in HL. destruct (string_segments items) as [|s0 l0] eqn:Es.
      - assert (arr = []).
        { destruct arr as [|a ar]; auto. exfalso. unfold split_segments, solver_split in Sp. simpl sort_merge in Sp. simpl length in Sp.
          destruct NE as [NE|NE]; [apply NE; try rewrite Es; reflexivity|]. rewrite NE in Sp. discriminate. }
        subst arr. injection HL as <-. reflexivity.
      - rewrite <- Es in *. rewrite Sp in HL. apply ROk_inj. rewrite <- HL. destruct arr; reflexivity. }
    destruct (slice_arr arr fr dbg clockwise I P Bal) as (g & shapes & H1 & H2 & (S1 & S2 & S3) & H4 & H5). rewrite <- EL in *. exists links, shapes.
    split; auto. split; [unfold slice_by; rewrite HL, H1, H2; auto|]. split; [|split; [|split; [|split]]]; auto.
    - split; auto. split; auto. intro q. rewrite S3, Wd, string_wind; auto. tauto.
    - intros m q Im Nm Om. pose proof (inv_wf _ I) as Wf. destruct (piece_dirs_moves items arr F Wf) as [_ MP]. destruct (MP m q Im Nm Om) as (s & e & Is & He & (R1 & R2 & _) & Os).
      exists (Lk 0 (sa (sx s)) 0 (sb (sx s)) (string_fill (inside fr (botsum bool vals (map as_bool arr) true (as_bool s) + ssubj (sc s))) (inside fr (botsum bool vals (map as_bool arr) true (as_bool s))) (N.testbit (sclip (sc s)) 0) (N.testbit (sclip (sc s)) 1))).
      split; [rewrite EL, (s_links arr I P Bal fr); apply in_map_iff; eauto|]. unfold l_seg. cbn [l_a l_b].
      assert (Ee : e = (sa (sx s), sb (sx s)) \/ e = (sb (sx s), sa (sx s))).
      { unfold piece_dirs in He. apply in_app_or in He as [He|He]; [destruct (backb (sc s))|destruct (forwb (sc s))]; try (destruct He; fail); destruct He as [<-|[]]; auto. }
      split; [destruct (sx s); auto|]. destruct Ee as [-> | ->]; cbn [fst snd] in *; auto.
  Qed.
End WithContracts.

(** ** Concrete cases *)
Definition cw_area (c : list pt) : bool := area2 c <? 0.
Example cw_area_ok : cw_ok cw_area.
Proof. intro c. unfold cw_area. split; intro H; [apply Z.ltb_lt|apply Z.ltb_ge]; lia. Qed.
Definition box (a b c d : Z) : list pt := [Pt a b; Pt c b; Pt c d; Pt a d].
Definition slice_ex (min_area : Z) (items : list item) := slice_by lay4 qry (fun _ => true) sorted_ends cw_area 1 (mk_solver StAuto) true NonZero false min_area items.
(** a square with two holes; one line joins the holes, a second cuts the square through both, a third is a loose end *)
Definition sl_items : list item :=
  [SContour (box 0 0 36 20); SContour (rev (box 4 4 16 16)); SContour (rev (box 20 4 32 16)); SLine (Pt 16 10) (Pt 20 10); SLine (Pt 10 (-4)) (Pt 10 4); SLine (Pt 26 4) (Pt 26 0); SLine (Pt 34 10) (Pt 35 11)].
Example sl_bounded : string_bounded sl_items. Proof. repeat constructor. Qed.
Example sl_open : Forall open_contour (shape_contours sl_items).
Proof. repeat (constructor; [left; discriminate|]). constructor. Qed.
Example sl_exact : exact_crossings (map sx (sort_merge (string_segments sl_items))).
Proof. apply exactb_ok. vm_compute. reflexivity. Qed.
Example sl_grid : no_grid (mk_solver StAuto) (length (sort_merge (string_segments sl_items))).
Proof. left. vm_compute. reflexivity. Qed.
Example sl_result : slice_ex 0 sl_items =
  ROk [[[Pt 10 0; Pt 10 4; Pt 4 4; Pt 4 16; Pt 16 16; Pt 16 10; Pt 20 10; Pt 20 16; Pt 32 16; Pt 32 4; Pt 26 4; Pt 26 0; Pt 36 0; Pt 36 20; Pt 0 20; Pt 0 0]];
       [[Pt 26 0; Pt 26 4; Pt 20 4; Pt 20 10; Pt 16 10; Pt 16 4; Pt 10 4; Pt 10 0]]].
Proof. vm_compute. reflexivity. Qed.
(** the hypotheses of the theorems are met *)
Example sl_slice := C46_slice_exact lay4 lay4_ok qry qry_ok (fun _ => true) sorted_ends sorted_ends_ok cw_area cw_area_ok 0 (mk_solver StAuto) true NonZero false sl_items
  sl_bounded sl_open sl_grid sl_exact (or_intror eq_refl) (or_introl eq_refl).
Definition polygonb (links : list link) (c : list pt) : bool :=
  forallb (fun d => existsb (fun l => (above l || beneath l) && ((pt_eqb (fst d) (l_a l) && pt_eqb (snd d) (l_b l)) || (pt_eqb (fst d) (l_b l) && pt_eqb (snd d) (l_a l)))) links) (edges c).
Lemma polygonb_ok links c : NoDup c -> (3 <= length c)%nat -> polygonb links c = true -> region_polygon links c.
Proof.
  intros N L H. split; auto. split; auto. intros d Id. unfold polygonb in H. rewrite forallb_forall in H. specialize (H d Id). apply existsb_exists in H as (l & Il & H). exists l. split; auto.
  apply andb_true_iff in H as [H1 H2]. apply orb_true_iff in H1. split; auto. unfold along. destruct d as [p q]. cbn [fst snd] in H2. apply orb_true_iff in H2 as [H2|H2]; apply andb_true_iff in H2 as [X Y]; apply pt_eqb_eq in X; apply pt_eqb_eq in Y; subst; auto.
Qed.
(** a line inside the region on a polygon, so a cut *)
Example sl_links : exists links, string_links lay4 qry (fun _ => true) 1 (mk_solver StAuto) NonZero sl_items = ROk links /\
  exists l, In l links /\ above l = true /\ beneath l = true /\ exists c, region_polygon links c /\ passes c l.
Proof.
  eexists. split; [vm_compute; reflexivity|]. exists (Lk 0 (Pt 10 0) 0 (Pt 10 4) 7%N). split; [repeat (first [left; reflexivity | right])|]. split; [reflexivity|]. split; [reflexivity|].
  exists [Pt 26 0; Pt 26 4; Pt 20 4; Pt 20 10; Pt 16 10; Pt 16 4; Pt 10 4; Pt 10 0]. split.
  - apply polygonb_ok; [|simpl; lia|vm_compute; reflexivity]. repeat (constructor; [intro X; simpl in X; repeat destruct X as [X|X]; try discriminate X; auto|]). constructor.
  - exists (Pt 10 4, Pt 10 0). split; [|right; reflexivity]. simpl. tauto.
Qed.
(** [min_area] of the slice: only the loops that are cut off the walk are measured, and against the wrong value (C29): with the bound 10 the
    hole of area 144 is lost and its points are covered *)
Definition ma_items : list item := [SContour (box 0 0 36 20); SContour (rev (box 4 4 16 16)); SContour (rev (box 20 4 32 16)); SLine (Pt 16 10) (Pt 20 10)].
Theorem C46_min_area_refuted : exists shapes, slice_ex 10 ma_items = ROk shapes /\
  let q := (inject_Z 25, inject_Z 10) in
  inside NonZero (contours_wind (shape_contours ma_items) q) = false /\ (exists sh, In sh shapes /\ covers sh q) /\
  area2 (box 20 4 32 16) = 2 * 144.
Proof.
  eexists. split; [vm_compute; reflexivity|]. split; [vm_compute; reflexivity|]. split; [|vm_compute; reflexivity].
  eexists. split; [left; reflexivity|]. split; [vm_compute; discriminate|]. intros h [<-|[]]. intro X. apply X. vm_compute. reflexivity.
Qed.
(** The lines are not the only cuts: where contours overlap, their edges inside the region cut it as well, so "slicing" two overlapping
    squares by no line at all gives three shapes (their union would be one). *)
Definition ov_items : list item := [SContour (box 0 0 10 10); SContour (box 5 5 15 15)].
Theorem C46_only_lines_refuted : moves ov_items = [] /\ exists sh1 sh2 sh3, slice_ex 0 ov_items = ROk [sh1; sh2; sh3].
Proof. split; [reflexivity|]. do 3 eexists. vm_compute. reflexivity. Qed.

Print Assumptions C46_slice.
Print Assumptions C46_slice_exact.
Print Assumptions C46_min_area_refuted.
Print Assumptions C46_only_lines_refuted.
