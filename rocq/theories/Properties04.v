(** * Property theorems, part 4: direction and nesting of the output contours, and the region
    they enclose (C20 at the level of contours, C37). *)
From Verif Require Import Base Spec QLib ModelSegm SegmProofs MergeProofs PlanarGeo PlanarSum ModelFill ModelFilter FillProofs FillCorrect
  ModelCross CrossProofs CoreResults Properties01 ModelSplit SplitProofs SplitPlanar SplitPass BinsProofs SplitApply SplitLoop
  ModelFrag ModelOverlay OverlayProofs FragProofs GridCover Properties02
  ModelGraph GraphProofs ModelExtract ExtractProofs ContourResults Rotation NextLink Properties03
  MoveLemma SectorLemma Sides WalkSides Orient.
Open Scope Z_scope.

(** ** gluing *)
Section Glue.
  Variable segs : list (segment cntB).
  Hypothesis A : arrangement segs.
  Variables (fr : FillRule) (r : OverlayRule) (inc0 : fill_t -> bool) (g : graph) (pts : list pt).
  Notation links := (kept inc0 fr segs).
  Notation inc := (fun l => is_included r (l_fill l)).
  Hypothesis G : graph_of links g pts.
  Hypothesis Fi : filter inc links = result_links fr r segs.

  Definition coef (l : link) : Z := if is_included r (l_fill l) then (if is_fill_top r (l_fill l) then 1 else -1) else 0.
  Lemma glue_planar : links_planar (g_links g).
  Proof. eapply graph_planar; eauto. Qed.
  Notation P := glue_planar.
  Lemma glue_wf : graph_wf g pts.
  Proof. exact (graph_of_wf _ _ _ (blinks_wf segs A fr inc0) G). Qed.
  Lemma glue_nodup : NoDup pts.
  Proof.
    pose proof (go_sorted _ _ _ G) as S. clear - S. induction S as [|p l S IH F]; constructor; auto.
    intro I. rewrite Forall_forall in F. specialize (F p I). eapply pt_lt_irrefl; eauto.
  Qed.
  Lemma glue_link i : valid g i -> exists l, nth_error links i = Some l /\ l_seg l = seg g i /\ l_fill l = l_fill (lk g i).
  Proof.
    intro V. assert (L : (i < length links)%nat) by (rewrite <- (go_len _ _ _ G); auto).
    apply nth_error_Some in L. destruct (nth_error links i) as [l|] eqn:E; [|congruence]. exists l. split; auto.
    destruct (go_link _ _ _ G i l E) as (l' & H & B1 & B2 & B3 & _). rewrite (lk_nth g i V) in H. injection H as H.
    unfold seg. rewrite H. unfold l_seg. split; congruence.
  Qed.
  Lemma glue_sorted : forall i j, (i <= j)%nat -> valid g j -> ~ pt_lt (sa (seg g j)) (sa (seg g i)).
  Proof.
    intros i j Lij Vj. assert (Vi : valid g i) by (unfold valid in *; lia).
    destruct (Nat.eq_dec i j) as [->|N]; [apply pt_lt_irrefl|].
    destruct (glue_link i Vi) as (l & Hl & <- & _). destruct (glue_link j Vj) as (m & Hm & <- & _).
    pose proof (blinks_sorted segs A fr inc0) as S. clear - S Hl Hm Lij N. revert i j l m Hl Hm Lij N.
    induction S as [|x ls S IH F]; intros i j l m Hl Hm Lij N; [destruct i; discriminate|].
    destruct j as [|j]; [lia|]. destruct i as [|i].
    - injection Hl as <-. simpl in Hm. apply nth_error_In in Hm. rewrite Forall_forall in F. apply F in Hm. simpl.
      intro X. unfold pt_leb in Hm. apply orb_true_iff in Hm as [Hm|Hm]; [apply pt_ltb_lt in Hm|apply pt_eqb_eq in Hm; rewrite Hm in X]; [|eapply pt_lt_irrefl; eauto].
      eapply pt_lt_irrefl, pt_lt_trans; eauto.
    - simpl in *. apply (IH i j l m); auto; lia.
  Qed.
  Lemma glue_sum (F : xseg -> Z -> Z) : (forall e, F e 0 = 0) ->
    zsum (fun e => F e (kx g (fun i => coef (lk g i)) e)) (ges g) =
    zsum (fun l => F (l_seg l) (if is_fill_top r (l_fill l) then 1 else -1)) (result_links fr r segs).
  Proof.
    intro F0. rewrite <- Fi, zsum_filter.
    assert (E : ges g = map l_seg links /\ map (lk g) (seq 0 (length (g_links g))) = g_links g).
    { split.
      - unfold ges. apply (nth_ext _ _ (XS (Pt 0 0) (Pt 0 0)) (XS (Pt 0 0) (Pt 0 0))); [rewrite !map_length; apply (go_len _ _ _ G)|].
        intros i Li. rewrite map_length in Li. destruct (glue_link i Li) as (l & Hl & El & _).
        assert (E1 : nth_error (map l_seg (g_links g)) i = Some (seg g i)) by (rewrite nth_error_map, (lk_nth g i Li); auto).
        assert (E2 : nth_error (map l_seg links) i = Some (seg g i)) by (rewrite nth_error_map, Hl; simpl; congruence).
        rewrite (nth_error_nth _ _ _ E1), (nth_error_nth _ _ _ E2). auto.
      - apply (nth_ext _ _ (lk g O) (Lk 0 (Pt 0 0) 0 (Pt 0 0) 0%N)); [rewrite map_length, seq_length; auto|].
        intros i Li. rewrite map_length, seq_length in Li. rewrite map_nth, seq_nth by auto. auto. }
    rewrite (ges_seq g), zsum_map.
    transitivity (zsum (fun i => F (seg g i) (coef (lk g i))) (seq 0 (length (g_links g)))).
    { apply zsum_ext. intros i Ii. apply in_seq in Ii. rewrite (kx_seg g P) by (unfold valid; lia). auto. }
    rewrite (go_len _ _ _ G).
    assert (K : forall n m, (n + m = length links)%nat ->
      zsum (fun i => F (seg g i) (coef (lk g i))) (seq n m) =
      zsum (fun l => if is_included r (l_fill l) then F (l_seg l) (if is_fill_top r (l_fill l) then 1 else -1) else 0) (skipn n links)).
    { intros n m. revert n. induction m as [|m IH]; intros n L.
      - rewrite Nat.add_0_r in L. rewrite L, skipn_all. reflexivity.
      - assert (V : valid g n) by (unfold valid; rewrite (go_len _ _ _ G); lia).
        destruct (glue_link n V) as (l & Hl & El & Ef).
        assert (Sk : skipn n links = l :: skipn (S n) links).
        { clear - Hl. revert Hl. generalize links as ls. induction n as [|n IH]; intros [|x ls] Hl; try discriminate; simpl in *; [congruence|]. rewrite (IH _ Hl). auto. }
        rewrite Sk. cbn [seq]. rewrite !zsum_cons, (IH (S n)) by lia. f_equal. unfold coef. rewrite <- Ef, El. destruct (is_included r (l_fill l)); auto. }
    rewrite (K O (length links)) by lia. reflexivity.
  Qed.

  Notation R q := (bool_op r (inside fr (wind (subj_chain segs) q)) (inside fr (wind (clip_chain segs) q))).
  Variables (clean : bool -> list pt -> list pt * bool) (clockwise simplify : bool) (min_area : Z) (ps : list piece).
  Hypothesis H : extract_pieces g clean r clockwise simplify min_area (flags inc links) = Some ps.
  Hypothesis Va : forall p, In p ps -> (exists q, contour_wind (p_raw p) q <> 0) -> p_valid p = true.

  Lemma glue_oriented :
    (forall q, pieces_wind ps q = main_dir clockwise * bz (R q)) /\
    forall ps1 p ps2, ps = ps1 ++ p :: ps2 ->
      (forall q, contour_wind (p_raw p) q = 0 \/ contour_wind (p_raw p) q = piece_dir clockwise (p_hole p)) /\
      (exists q, contour_wind (p_raw p) q = piece_dir clockwise (p_hole p)) /\
      (forall q, contour_wind (p_raw p) q <> 0 -> pieces_wind ps1 q = if p_hole p then main_dir clockwise else 0).
  Proof.
    set (kR := fun i => coef (lk g i)).
    assert (Len : length (flags inc links) = length (g_links g)) by (unfold flags; rewrite map_length; symmetry; apply (go_len _ _ _ G)).
    assert (NV : forall i, valid g i -> not_visited (flags inc links) i = is_included r (l_fill (lk g i))).
    { intros i V. destruct (glue_link i V) as (l & Hl & _ & <-). apply (flags_visited inc links i l Hl). }
    assert (KR : forall i, valid g i -> if not_visited (flags inc links) i then kR i = 1 \/ kR i = -1 else kR i = 0).
    { intros i V. rewrite (NV i V). unfold kR, coef. destruct (is_included r _); auto. destruct (is_fill_top r _); auto. }
    assert (WRb : forall q, wind (ch (ges g) (kx g kR)) q = bz (R q)).
    { intro q. rewrite <- (region_signed segs A fr r q). fold (result_links fr r segs). unfold wind, ch, link_chain. rewrite !zsum_map. cbn [fst snd].
      apply (glue_sum (fun e k => if under e q then k else 0)). intro e. destruct (under e q); auto. }
    assert (BR : balanced (ch (ges g) (kx g kR))).
    { intro v. rewrite <- (links_balanced segs A fr r v). fold (result_links fr r segs). unfold boundary, ch, link_chain. rewrite !zsum_map. cbn [fst snd].
      apply (glue_sum (fun e k => k * (bz (pt_eqb (sb e) v) - bz (pt_eqb (sa e) v)))). intro e. lia. }
    assert (WR : forall q, wind (ch (ges g) (kx g kR)) q = 0 \/ wind (ch (ges g) (kx g kR)) q = 1).
    { intro q. rewrite WRb. destruct (R q); auto. }
    assert (KT : forall i, valid g i -> not_visited (flags inc links) i = true -> kR i = if is_fill_top r (l_fill (lk g i)) then 1 else -1).
    { intros i V U. rewrite (NV i V) in U. unfold kR, coef. rewrite U. auto. }
    pose proof (ginv_start g P kR (flags inc links) KR BR WR) as GI.
    assert (Ev : all_even g (flags inc links)).
    { eapply flags_even; [exact G|]. intro v. rewrite Fi. apply result_even; auto. }
    assert (FU : forall q, wind (ch (ges g) (kx g (fU kR (flags inc links)))) q = wind (ch (ges g) (kx g kR)) q).
    { intro q. unfold wind, ch. rewrite !zsum_map. cbn [fst snd]. apply zsum_ext. intros e I. apply (in_seg g) in I as (i & V & ->). rewrite !(kx_seg g P) by auto.
      unfold fU. pose proof (KR i V) as K. destruct (not_visited (flags inc links) i); auto. rewrite K. destruct (under _ _); auto. }
    destruct (extract_oriented g pts glue_wf P glue_nodup glue_sorted kR (flags inc links) KR BR WR clean r clockwise simplify min_area KT _ 0 _ _ GI Ev Len
      (fun i _ => Nat.le_0_l i) H Va) as [S1 S2].
    split.
    - intro q. rewrite S1, FU, WRb. auto.
    - intros ps1 p ps2 E. destruct (S2 ps1 p ps2 E) as (X1 & X2 & X3). split; auto. split; auto. intros q Nz. specialize (X3 q Nz). rewrite FU in X3. lia.
  Qed.
End Glue.

(** ** Specification *)
(** the contour winds exactly once, in direction [d] (1: counter-clockwise), around the points
    it encloses, and it does enclose points *)
Definition turns (d : Z) (c : list pt) : Prop :=
  (forall q, contour_wind c q = 0 \/ contour_wind c q = d) /\ exists q, contour_wind c q = d.
Definition encloses (c : list pt) (q : qpt) : Prop := contour_wind c q <> 0.
(** contract of the two contour clean-up functions of [i_shape] (dropping repeated points, and
    points on the line through their neighbours): no winding number changes *)
Definition clean_ok (clean : bool -> list pt -> list pt * bool) : Prop :=
  forall b c q, contour_wind (fst (clean b c)) q = contour_wind c q.
(** the sign of the requested main direction *)
Definition sign_of (clockwise : bool) : Z := if clockwise then -1 else 1.

Lemma short_contour c q : (length c < 3)%nat -> contour_wind c q = 0.
Proof.
  destruct c as [|a [|b [|d c]]]; simpl; intro L; try lia; unfold contour_wind, edges; simpl; rewrite ?zsum_cons, ?zsum_nil.
  - reflexivity.
  - rewrite edge_wind_refl. reflexivity.
  - rewrite (edge_wind_anti q a b). lia.
Qed.

Section Pieces.
  Variables (clean : bool -> list pt -> list pt * bool) (clockwise simplify : bool) (min_area : Z) (ps : list piece).
  Hypothesis Cl : clean_ok clean.
  Hypothesis Fp : Forall (fun p => p_contour p = fst (clean simplify (p_raw p)) /\ p_valid p = is_valid min_area (p_contour p)) ps.
  Hypothesis All : min_area = 0 \/ forall p, In p ps -> p_valid p = true.

  Lemma pw p : In p ps -> forall q, contour_wind (p_contour p) q = contour_wind (p_raw p) q.
  Proof. intros I q. rewrite Forall_forall in Fp. destruct (Fp p I) as [-> _]. apply Cl. Qed.
  Lemma pv p : In p ps -> (exists q, contour_wind (p_raw p) q <> 0) -> p_valid p = true.
  Proof.
    intros I (q & Nz). destruct All as [M|V]; [|auto]. rewrite <- (pw p I q) in Nz. rewrite Forall_forall in Fp. destruct (Fp p I) as [_ ->].
    unfold is_valid. destruct (Nat.ltb_spec (length (p_contour p)) 3) as [L|L]; [exfalso; apply Nz; apply short_contour; auto|]. rewrite M. auto.
  Qed.

  Variable R : qpt -> bool.
  Hypothesis O : (forall q, pieces_wind ps q = main_dir clockwise * bz (R q)) /\
    forall ps1 p ps2, ps = ps1 ++ p :: ps2 ->
      (forall q, contour_wind (p_raw p) q = 0 \/ contour_wind (p_raw p) q = piece_dir clockwise (p_hole p)) /\
      (exists q, contour_wind (p_raw p) q = piece_dir clockwise (p_hole p)) /\
      (forall q, contour_wind (p_raw p) q <> 0 -> pieces_wind ps1 q = if p_hole p then main_dir clockwise else 0).
  Notation d := (sign_of clockwise).

  Lemma pt_turns p : In p ps -> turns (piece_dir clockwise (p_hole p)) (p_contour p) /\ p_valid p = true.
  Proof.
    intro I. destruct (in_split _ _ I) as (l1 & l2 & E). destruct O as [_ O2]. destruct (O2 l1 p l2 E) as (X1 & X2 & _). split; [split|].
    - intro q. rewrite pw by auto. apply X1.
    - destruct X2 as (q & X2). exists q. rewrite pw by auto. auto.
    - apply pv; auto. destruct X2 as (q & X2). exists q. rewrite X2. unfold piece_dir, main_dir. destruct (p_hole p), clockwise; discriminate.
  Qed.
  Lemma outer_in c : In c (outer_contours ps) <-> exists p, In p ps /\ p_hole p = false /\ p_contour p = c.
  Proof.
    unfold outer_contours. rewrite in_map_iff. split.
    - intros (p & E & I). apply filter_In in I as [I B]. apply andb_true_iff in B as [_ B]. apply negb_true_iff in B. eauto.
    - intros (p & I & B & E). exists p. split; auto. apply filter_In. split; auto. rewrite (proj2 (pt_turns p I)), B. auto.
  Qed.
  Lemma hole_in c : In c (hole_contours ps) <-> exists p, In p ps /\ p_hole p = true /\ p_contour p = c.
  Proof.
    unfold hole_contours. rewrite in_map_iff. split.
    - intros (p & E & I). apply filter_In in I as [I B]. apply andb_true_iff in B as [_ B]. eauto.
    - intros (p & I & B & E). exists p. split; auto. apply filter_In. split; auto. rewrite (proj2 (pt_turns p I)), B. auto.
  Qed.
  Lemma pieces_sum q : contours_wind (outer_contours ps) q + contours_wind (hole_contours ps) q = d * bz (R q).
  Proof.
    destruct O as [O1 _]. change d with (main_dir clockwise). rewrite <- (O1 q). unfold contours_wind, outer_contours, hole_contours, pieces_wind.
    rewrite !zsum_map, !zsum_filter, <- zsum_plus. apply zsum_ext. intros p I. rewrite (proj2 (pt_turns p I)), (pw p I). destruct (p_hole p); simpl; lia.
  Qed.
  Lemma pieces_dirs : Forall (turns d) (outer_contours ps) /\ Forall (turns (- d)) (hole_contours ps).
  Proof.
    split; apply Forall_forall; intros c I.
    - apply outer_in in I as (p & I & B & <-). pose proof (proj1 (pt_turns p I)) as T. rewrite B in T. exact T.
    - apply hole_in in I as (p & I & B & <-). pose proof (proj1 (pt_turns p I)) as T. rewrite B in T. exact T.
  Qed.
  Lemma zsum_pos {X} (f : X -> Z) l : 0 < zsum f l -> exists x, In x l /\ 0 < f x.
  Proof.
    induction l as [|x l IH]; [rewrite zsum_nil; lia|]. rewrite zsum_cons. intro L. destruct (Z_lt_le_dec 0 (f x)) as [P|P]; [exists x; simpl; auto|].
    destruct IH as (y & I & Py); [lia|]. exists y. simpl; auto.
  Qed.
  (** before a contour: its enclosed points are covered by the earlier contours if it is a hole, free if it is not *)
  Lemma hole_covered h q : In h (hole_contours ps) -> encloses h q -> exists c, In c (outer_contours ps) /\ encloses c q.
  Proof.
    intros I N. apply hole_in in I as (p & I & B & <-). unfold encloses in N. rewrite (pw p I) in N.
    destruct (in_split _ _ I) as (l1 & l2 & E). destruct O as [_ O2]. destruct (O2 l1 p l2 E) as (_ & _ & X). specialize (X q N). rewrite B in X.
    unfold pieces_wind in X.
    destruct (zsum_pos (fun x => main_dir clockwise * contour_wind (p_raw x) q) l1) as (x & Ix & Px).
    { rewrite zsum_mult, X. destruct clockwise; simpl; lia. }
    assert (Ixp : In x ps) by (rewrite E; apply in_or_app; auto). destruct (pt_turns x Ixp) as [[T _] _].
    assert (Nh : p_hole x = false).
    { specialize (T q). rewrite (pw x Ixp) in T. destruct (p_hole x); auto. exfalso. unfold piece_dir in T. destruct T as [T|T]; rewrite T in Px; unfold main_dir in Px; destruct clockwise; simpl in Px; lia. }
    exists (p_contour x). split; [apply outer_in; eauto|]. unfold encloses. rewrite (pw x Ixp). intro Z0. rewrite Z0 in Px. lia.
  Qed.
  Lemma first_outer : ps <> [] -> outer_contours ps <> [].
  Proof.
    intros N E. destruct ps as [|p l] eqn:Ep; [congruence|]. rewrite <- Ep in *. clear N.
    assert (I : In p ps) by (rewrite Ep; simpl; auto).
    destruct (p_hole p) eqn:B.
    - destruct O as [_ O2]. destruct (O2 [] p l Ep) as (_ & (q & Eq) & X). rewrite B in Eq.
      assert (Nz : contour_wind (p_raw p) q <> 0) by (rewrite Eq; unfold piece_dir, main_dir; destruct clockwise; discriminate).
      specialize (X q Nz). rewrite B in X. unfold pieces_wind, main_dir in X. rewrite zsum_nil in X. destruct clockwise; discriminate.
    - assert (X : In (p_contour p) (outer_contours ps)) by (apply outer_in; eauto). rewrite E in X. destruct X.
  Qed.
End Pieces.

(** ** C37 and C20 for the contours of an arrangement.  [min_area = 0], or no contour is discarded. *)
Theorem C37_direction segs fr r ends clean clockwise simplify min_area : arrangement segs -> clean_ok clean -> ends_ok (result_links fr r segs) ends ->
  exists g ps, graph_new (result_links fr r segs) ends = Some g /\
    extract_pieces g clean r clockwise simplify min_area (repeat false (length (result_links fr r segs))) = Some ps /\
    (min_area = 0 \/ (forall p, In p ps -> p_valid p = true) ->
      Forall (turns (sign_of clockwise)) (outer_contours ps) /\
      Forall (turns (- sign_of clockwise)) (hole_contours ps) /\
      (forall h q, In h (hole_contours ps) -> encloses h q -> exists c, In c (outer_contours ps) /\ encloses c q) /\
      (result_links fr r segs <> [] -> outer_contours ps <> []) /\
      forall q, contours_wind (outer_contours ps) q + contours_wind (hole_contours ps) q =
        sign_of clockwise * bz (bool_op r (inside fr (wind (subj_chain segs) q)) (inside fr (wind (clip_chain segs) q)))).
Proof.
  intros A Cl E. destruct (blinks_graph segs A fr _ ends E) as (g & pts & H & G). fold (result_links fr r segs) in *.
  set (inc := fun l => is_included r (l_fill l)).
  assert (Al : forall l, In l (result_links fr r segs) -> inc l = true).
  { intros l I. apply blinks_in in I as (s & f & _ & If & ->). exact If. }
  assert (Fi : filter inc (result_links fr r segs) = result_links fr r segs).
  { revert Al. generalize (result_links fr r segs). induction l as [|x l IH]; intro Al; auto. simpl. rewrite (Al x) by (simpl; auto). f_equal. apply IH. intros; apply Al; simpl; auto. }
  assert (Ff : flags inc (result_links fr r segs) = repeat false (length (result_links fr r segs))).
  { rewrite <- flags_all. unfold flags. apply map_ext_in. intros l I. rewrite (Al l I). auto. }
  destruct (pieces_spec (result_links fr r segs) g pts inc clean r clockwise simplify min_area G (blinks_wf segs A fr _)) as (ps & P1 & P2 & P3 & P4 & P5).
  { intro v. rewrite Fi. apply result_even; auto. }
  rewrite <- Ff. exists g, ps. split; auto. split; auto. intro V.
  assert (Fp : Forall (fun p => p_contour p = fst (clean simplify (p_raw p)) /\ p_valid p = is_valid min_area (p_contour p)) ps).
  { eapply Forall_impl; [|exact P2]. cbv beta. tauto. }
  pose proof (glue_oriented segs A fr r (is_included r) g pts G Fi clean clockwise simplify min_area ps P1 (pv clean simplify min_area ps Cl Fp V)) as O.
  destruct (pieces_dirs clean clockwise simplify min_area ps Cl Fp V _ O) as [D1 D2].
  split; auto. split; auto. split; [|split].
  - intros h q. apply (hole_covered clean clockwise simplify min_area ps Cl Fp V _ O).
  - intro N. apply (first_outer clean clockwise simplify min_area ps Cl Fp V _ O).
    intro Ep. subst ps. destruct (result_links fr r segs) as [|l ls] eqn:El; [congruence|].
    apply (P5 (fun p I => match I with end) 0%nat l); auto. apply Al; simpl; auto.
  - intro q. apply (pieces_sum clean clockwise simplify min_area ps Cl Fp V _ O).
Qed.

(** the same for a reused graph *)
Theorem C37_direction_graph segs fr r ends clean clockwise simplify min_area : arrangement segs -> clean_ok clean ->
  let links := kept is_included_filler fr segs in
  ends_ok links ends ->
  exists g ps, graph_new links ends = Some g /\
    extract_pieces g clean r clockwise simplify min_area (filter_by_rule r links) = Some ps /\
    (min_area = 0 \/ (forall p, In p ps -> p_valid p = true) ->
      Forall (turns (sign_of clockwise)) (outer_contours ps) /\
      Forall (turns (- sign_of clockwise)) (hole_contours ps) /\
      (forall h q, In h (hole_contours ps) -> encloses h q -> exists c, In c (outer_contours ps) /\ encloses c q) /\
      forall q, contours_wind (outer_contours ps) q + contours_wind (hole_contours ps) q =
        sign_of clockwise * bz (bool_op r (inside fr (wind (subj_chain segs) q)) (inside fr (wind (clip_chain segs) q)))).
Proof.
  intros A Cl links E. destruct (blinks_graph segs A fr _ ends E) as (g & pts & H & G). fold links in G, H.
  set (inc := fun l => is_included r (l_fill l)).
  assert (Fi : filter inc links = result_links fr r segs) by (apply graph_reuse; auto).
  destruct (pieces_spec links g pts inc clean r clockwise simplify min_area G (blinks_wf segs A fr _)) as (ps & P1 & P2 & P3 & P4 & P5).
  { intro v. rewrite Fi. apply result_even; auto. }
  exists g, ps. split; auto. split; [exact P1|]. intro V.
  assert (Fp : Forall (fun p => p_contour p = fst (clean simplify (p_raw p)) /\ p_valid p = is_valid min_area (p_contour p)) ps).
  { eapply Forall_impl; [|exact P2]. cbv beta. tauto. }
  pose proof (glue_oriented segs A fr r is_included_filler g pts G Fi clean clockwise simplify min_area ps P1 (pv clean simplify min_area ps Cl Fp V)) as O.
  destruct (pieces_dirs clean clockwise simplify min_area ps Cl Fp V _ O) as [D1 D2].
  split; auto. split; auto. split.
  - intros h q. apply (hole_covered clean clockwise simplify min_area ps Cl Fp V _ O).
  - intro q. apply (pieces_sum clean clockwise simplify min_area ps Cl Fp V _ O).
Qed.

(** ** C20 for whole runs: contours in, contours out *)
Section WithContracts.
  Variable layout_new : Z -> Z -> nat -> option (Z -> nat).
  Hypothesis Lay : layout_ok layout_new.
  Variable query : list (nat * xseg) -> Z * Z -> Z -> list (nat * xseg).
  Hypothesis Qry : query_ok query.
  Variable tree_new : Z * Z -> bool.
  Notation split_input fuel solver adds := (split_segments layout_new query tree_new fuel solver (input_segments adds)).
  Notation merged adds := (sort_merge (input_segments adds)).

  Lemma overlay_arrangement fuel solver adds r fr ls : bounded_input adds -> no_grid solver (length (merged adds)) ->
    overlay_links layout_new query tree_new fuel solver r fr (input_segments adds) = ROk ls ->
    exists segs, (input_segments adds <> [] -> split_input fuel solver adds = Done segs) /\ arrangement segs /\ ls = result_links fr r segs.
  Proof.
    intros B N H. unfold overlay_links, build_boolean in H.
    assert (A0 : arrangement []).
    { constructor; try (intros ? []; fail); try (intro v; reflexivity); [constructor|intros ? ? []|constructor]. }
    destruct (input_segments adds) as [|s0 l0] eqn:E0.
    { injection H as <-. exists []. split; [tauto|]. auto. }
    rewrite <- E0 in *. destruct (split_input fuel solver adds) as [segs| |] eqn:ES; try discriminate.
    destruct (C14_planar_partial layout_new Lay query Qry tree_new _ _ _ _ B N ES) as [_ A].
    exists segs. split; auto. split; auto. destruct segs as [|s1 l1]; injection H as <-; auto.
  Qed.

  (** Contours given, contours returned: around every point they wind once in total (in the
      requested direction) if the point is in the result region, and not at all otherwise. *)
  Theorem C20_contours_exact fuel solver adds r fr clean clockwise simplify : bounded_input adds -> no_grid solver (length (merged adds)) ->
    Forall (fun a => open_contour (fst a)) adds -> merged adds <> [] -> exact_crossings (map sx (merged adds)) -> clean_ok clean ->
    exists ls, overlay_links layout_new query tree_new (S fuel) solver r fr (input_segments adds) = ROk ls /\
      forall ends, ends_ok ls ends -> exists g ps, graph_new ls ends = Some g /\
        extract_pieces g clean r clockwise simplify 0 (repeat false (length ls)) = Some ps /\
        Forall (turns (sign_of clockwise)) (outer_contours ps) /\
        Forall (turns (- sign_of clockwise)) (hole_contours ps) /\
        forall q, contours_wind (outer_contours ps) q + contours_wind (hole_contours ps) q =
          if bool_op r (inside fr (contours_wind (operand Subject adds) q)) (inside fr (contours_wind (operand Clip adds) q))
          then sign_of clockwise else 0.
  Proof.
    intros B N O NE Ex Cl. destruct (merged_balanced adds) as [BS BC].
    destruct (split_exact layout_new Lay query Qry tree_new (input_segments adds) (input_inv adds B) BS BC solver fuel N Ex (or_introl NE)) as (out & H & W1 & W2).
    assert (WS : forall q, wind (subj_chain out) q = contours_wind (operand Subject adds) q).
    { intro q. rewrite W1. unfold subj_chain at 1. rewrite sort_merge_wind by (reflexivity || (intros [? ?]; simpl; lia)). apply input_wind_subj; auto. }
    assert (WC : forall q, wind (clip_chain out) q = contours_wind (operand Clip adds) q).
    { intro q. rewrite W2. unfold clip_chain at 1. rewrite sort_merge_wind by (reflexivity || (intros [? ?]; simpl; lia)). apply input_wind_clip; auto. }
    destruct (C20_region_exact layout_new Lay query Qry tree_new fuel solver adds r fr B N O NE Ex) as (ls & Hl & _).
    exists ls. split; auto. intros ends E.
    destruct (overlay_arrangement _ _ _ _ _ _ B N Hl) as (segs & Hs & A & ->).
    assert (S : segs = out) by (rewrite Hs in H; [injection H; auto|intro X; apply NE; rewrite X; reflexivity]). subst segs.
    destruct (C37_direction out fr r ends clean clockwise simplify 0 A Cl E) as (g & ps & Hg & Hp & D). destruct (D (or_introl eq_refl)) as (D1 & D2 & _ & _ & D3).
    exists g, ps. split; auto. split; auto. split; auto. split; auto. intro q. rewrite D3, WS, WC. destruct (bool_op _ _ _); simpl; lia.
  Qed.

  (** with rounding: the same relative to the contours after splitting *)
  Theorem C20_contours_split fuel solver adds r fr clean clockwise simplify ls ends : bounded_input adds -> no_grid solver (length (merged adds)) ->
    clean_ok clean -> overlay_links layout_new query tree_new fuel solver r fr (input_segments adds) = ROk ls -> ends_ok ls ends ->
    exists segs g ps, (input_segments adds <> [] -> split_input fuel solver adds = Done segs) /\ graph_new ls ends = Some g /\
      extract_pieces g clean r clockwise simplify 0 (repeat false (length ls)) = Some ps /\
      Forall (turns (sign_of clockwise)) (outer_contours ps) /\
      Forall (turns (- sign_of clockwise)) (hole_contours ps) /\
      forall q, contours_wind (outer_contours ps) q + contours_wind (hole_contours ps) q =
        if bool_op r (inside fr (wind (subj_chain segs) q)) (inside fr (wind (clip_chain segs) q)) then sign_of clockwise else 0.
  Proof.
    intros B N Cl Hl E. destruct (overlay_arrangement _ _ _ _ _ _ B N Hl) as (segs & Hs & A & ->).
    destruct (C37_direction segs fr r ends clean clockwise simplify 0 A Cl E) as (g & ps & Hg & Hp & D). destruct (D (or_introl eq_refl)) as (D1 & D2 & _ & _ & D3).
    exists segs, g, ps. split; auto. split; auto. split; auto. split; auto. split; auto. intro q. rewrite D3. destruct (bool_op _ _ _); simpl; lia.
  Qed.
End WithContracts.

(** ** Instances of the contract on cleaning *)
Example keep_ok : clean_ok keep.
Proof. intros b c q. reflexivity. Qed.
(** drop the points that lie on the line through their neighbours (one pass, the first point stays) *)
Fixpoint drop_line (a : pt) (l : list pt) : list pt :=
  match l with
  | b :: ((d :: _) as r) => if cross3 a b d =? 0 then drop_line a r else b :: drop_line b r
  | _ => l
  end.
Definition clean_line (simplify : bool) (c : list pt) : list pt * bool :=
  match c with
  | a :: l => if simplify then (a :: drop_line a l, negb (length (drop_line a l) =? length l)%nat) else (c, false)
  | [] => (c, false)
  end.
Example clean_line_ok : clean_ok clean_line.
Proof.
  intros b c q. destruct c as [|a l]; [reflexivity|]. destruct b; [|reflexivity]. cbn [clean_line fst].
  unfold contour_wind, edges.
  assert (K : forall n l a z, (length l <= n)%nat ->
    zsum (edge_wind q) (combine (a :: drop_line a l) (drop_line a l ++ [z])) = zsum (edge_wind q) (combine (a :: l) (l ++ [z]))).
  { clear. induction n as [|n IH]; intros [|b [|d l]] a z L; try reflexivity; simpl in L; try lia.
    assert (U : drop_line a (b :: d :: l) = if cross3 a b d =? 0 then drop_line a (d :: l) else b :: drop_line b (d :: l)) by reflexivity.
    rewrite U. clear U. destruct (Z.eqb_spec (cross3 a b d) 0) as [E|E].
    - rewrite IH by (simpl; lia). cbn [app combine]. rewrite !zsum_cons. pose proof (edge_wind_collinear q a b d E). lia.
    - specialize (IH (d :: l) b z ltac:(simpl; lia)). revert IH. generalize (drop_line b (d :: l)). intros m IH.
      change (edge_wind q (a, b) + zsum (edge_wind q) (combine (b :: m) (m ++ [z])) = edge_wind q (a, b) + zsum (edge_wind q) (combine (b :: d :: l) ((d :: l) ++ [z]))). lia. }
  apply (K (length l)). auto.
Qed.

(** ** C37 is false if small contours are discarded: three triangles as in [C23_large_contour_lost_refuted];
    the only contour returned is a hole without an outer contour, and it runs counter-clockwise although
    the main direction is counter-clockwise. *)
Theorem C37_hole_without_outer_refuted :
  planar (map sx (sort_merge (input_segments tri3))) /\ clean_ok keep /\
  exists h q, tri3_run 10 = Some ([], [h]) /\ encloses h q /\ contour_wind h q = 1.
Proof.
  split; [apply planarb_ok; vm_compute; reflexivity|]. split; [apply keep_ok|].
  eexists. exists (1%Q, (-200)%Q). split; [vm_compute; reflexivity|]. split; [intro X; vm_compute in X; discriminate|]. vm_compute. reflexivity.
Qed.
(** Note that the contour lost is an outer contour of the answer for [min_area = 0]. *)

(** ** Example: a square with a square hole; both directions. *)
Example C37_example : exists o h o' h',
  match graph_new (result_links EvenOdd RDifference ex_segs) (sorted_ends (result_links EvenOdd RDifference ex_segs)) with
  | Some g =>
      match extract_pieces g clean_line RDifference false true 0 (repeat false 8), extract_pieces g clean_line RDifference true true 0 (repeat false 8) with
      | Some ps, Some ps' => outer_contours ps = [o] /\ hole_contours ps = [h] /\ outer_contours ps' = [o'] /\ hole_contours ps' = [h']
      | _, _ => False
      end
  | None => False end /\ area2 o > 0 /\ area2 h < 0 /\ area2 o' < 0 /\ area2 h' > 0.
Proof. do 4 eexists. split; [vm_compute; auto|]. vm_compute. auto. Qed.

Print Assumptions C37_direction.
Print Assumptions C20_contours_exact.
