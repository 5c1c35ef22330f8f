(** * C41: from the segments of a stroke or an offset to contours and shapes.

    The segments are those of C33, C34: a list of segments with a weight 1 or -1, balanced in every vertex.  A point
    belongs to the answer if the segments wind around it a positive number of times. *)
From Coq Require Import Qround Qabs.
From Verif Require Import Base Spec QLib ModelSegm SegmProofs MergeProofs PlanarGeo PlanarSum ModelFill ModelFilter FillProofs FillCorrect
  ModelCross CrossProofs CrossPoint CoreResults Properties01 ModelSplit SplitProofs SplitPlanar SplitPass BinsProofs SplitApply SplitLoop
  ModelFrag ModelOverlay OverlayProofs FragProofs GridCover Properties02
  ModelGraph GraphProofs ModelExtract ExtractProofs ContourResults Rotation NextLink Properties03
  MoveLemma SectorLemma Sides WalkSides Orient Properties04 ModelBind BindProofs BindSweep Nest Properties05 Natural ModelOffset OffsetProofs MeshProofs Properties09.
Open Scope Z_scope.

(** ** Specification *)
(** a segment the overlay can work with: its two ends are different, in order, and its coordinates are below 2^30 *)
Definition fit (s : segment cntO) : Prop := pt_lt (sa (sx s)) (sb (sx s)) /\ bounded (sx s) /\ osubj (sc s) <> 0.
(** the point belongs to the area of the stroke or offset *)
Definition area (segs : list (segment cntO)) (q : qpt) : bool := 0 <? wind (chain_of osubj segs) q.
Definition outers (bps : list (piece * bool)) : list (list pt) := outer_contours (map fst bps).
Definition holes (bps : list (piece * bool)) : list (list pt) := hole_contours (map fst bps).
(** the contours make up the area [R]: outer contours run in the direction [d], holes against it and inside an outer
    contour, and around every point the contours wind once in total if it belongs to the area and not at all otherwise *)
Definition contours_of (d : Z) (R : qpt -> bool) (os hs : list (list pt)) : Prop :=
  Forall (turns d) os /\ Forall (turns (- d)) hs /\
  (forall h q, In h hs -> encloses h q -> exists c, In c os /\ encloses c q) /\
  forall q, contours_wind os q + contours_wind hs q = if R q then d else 0.

Notation all_links segs := (build_all_links segs (fill_solve add_and_fill_offset segs)).
Notation unb := (smap unbold).

Lemma filter_all_links segs : arrangement segs -> filter (fun l => is_included RSubject (l_fill l)) (kept (fun _ => true) Positive segs) = result_links Positive RSubject segs.
Proof.
  intros A. unfold result_links, build_links. generalize (combine segs (fill_boolean Positive segs)). induction l as [|[s f] l IH]; [reflexivity|].
  cbn [filter map snd mk_link fst l_fill]. destruct (is_included RSubject f); cbn [map]; rewrite IH; reflexivity.
Qed.

Lemma nth_error_ext' {X} (l m : list X) : (forall i, nth_error l i = nth_error m i) -> l = m.
Proof.
  revert m. induction l as [|x l IH]; intros [|y m] H; auto; [specialize (H O); discriminate|specialize (H O); discriminate|].
  pose proof (H O) as H0. injection H0 as ->. f_equal. apply IH. intro i. apply (H (S i)).
Qed.

Section Extract.
  Variable segs : list (segment cntO).
  Hypothesis A : arrangement (map unb segs).
  Variables (ends : list (nat * pt)) (clean : bool -> list pt -> list pt * bool) (clockwise : bool).
  Hypothesis E : ends_ok (all_links segs) ends.
  Notation links := (all_links segs).

  Lemma offset_graph : exists g pts pts', graph_new links ends = Some g /\ graph_wf g pts /\ graph_of (kept (fun _ => true) Positive (map unb segs)) (gmask g) pts' /\ graph_of links g pts.
  Proof.
    pose proof (offset_links_mask segs A) as Em.
    assert (E' : ends_ok (kept (fun _ => true) Positive (map unb segs)) ends) by (rewrite <- Em; apply ends_mask; auto).
    destruct (blinks_graph (map unb segs) A Positive _ ends E') as (g' & pts' & H' & G').
    pose proof (blinks_wf (map unb segs) A Positive (fun _ => true)) as W. pose proof (blinks_sorted (map unb segs) A Positive (fun _ => true)) as S.
    rewrite <- Em in W, S, H'.
    assert (W0 : Forall (fun l => pt_lt (l_a l) (l_b l)) links) by (rewrite Forall_map in W; exact W).
    assert (S0 : StronglySorted (fun l m => pt_leb (l_a l) (l_a m) = true) links).
    { clear - S. revert S. generalize links. induction l as [|x l IH]; intro S; constructor; inversion S as [|? ? S1 F]; subst; auto. rewrite Forall_map in F. exact F. }
    destruct (graph_spec links ends S0 W0 E) as (g & pts & H & G). exists g, pts, pts'. split; auto. split; [eapply graph_of_wf; eauto|]. split; auto.
    rewrite graph_mask, H in H'. injection H' as <-. exact G'.
  Qed.
  Lemma offset_flags : filter_by_rule RSubject links = flags (fun l => is_included RSubject (l_fill l)) (kept (fun _ => true) Positive (map unb segs)).
  Proof. rewrite <- flags_mask, (offset_links_mask segs A). reflexivity. Qed.
  Lemma graph_flags g pts : graph_of links g pts -> filter_by_rule RSubject (g_links g) = filter_by_rule RSubject links.
  Proof.
    intro G. unfold filter_by_rule. apply nth_error_ext'. intro i. rewrite !nth_error_map. destruct (nth_error links i) as [l|] eqn:Hl.
    - destruct (go_link _ _ _ G i l Hl) as (l' & H & _ & _ & F & _). rewrite H. cbn [option_map]. rewrite F. reflexivity.
    - apply nth_error_None in Hl. rewrite <- (go_len _ _ _ G) in Hl. apply nth_error_None in Hl. rewrite Hl. reflexivity.
  Qed.

  Lemma R_area q : bool_op RSubject (inside Positive (wind (subj_chain (map unb segs)) q)) (inside Positive (wind (clip_chain (map unb segs)) q)) = area segs q.
  Proof. rewrite unbold_subj. reflexivity. Qed.

  (** Extraction from the split segments: it never fails; the contours are closed walks along the links, no link is used
      twice; and if every contour found has a bold link (and none is too small), they make up the area. *)
  Theorem C41_extract min_area : clean_ok clean -> exists g bps, graph_new links ends = Some g /\
    offset_pieces g clean clockwise min_area = Some bps /\
    Forall (fun bp => closed_walk links (p_raw (fst bp)) (p_used (fst bp)) /\ p_used (fst bp) <> [] /\
      (snd bp = true <-> exists i s, In i (p_used (fst bp)) /\ nth_error segs i = Some s /\ obold (sc s) = true) /\
      p_contour (fst bp) = fst (clean true (p_raw (fst bp))) /\ p_valid (fst bp) = snd bp && is_valid min_area (p_contour (fst bp))) bps /\
    NoDup (concat (map (fun bp => p_used (fst bp)) bps)) /\
    (min_area = 0 \/ (forall bp, In bp bps -> p_valid (fst bp) = true) -> Forall (fun bp => snd bp = true) bps ->
      contours_of (sign_of clockwise) (area segs) (outers bps) (holes bps)).
  Proof.
    intro Cl. destruct offset_graph as (g & pts & pts' & Hg & Wg & G' & G). exists g.
    assert (Ff : filter_by_rule RSubject (g_links g) = flags (fun l => is_included RSubject (l_fill l)) (kept (fun _ => true) Positive (map unb segs))).
    { rewrite (graph_flags g pts G), offset_flags. reflexivity. }
    pose proof (filter_all_links _ A) as Fi.
    assert (Ev : all_even g (filter_by_rule RSubject (g_links g))).
    { change (all_even (gmask g) (filter_by_rule RSubject (g_links g))). rewrite Ff. eapply flags_even; [exact G'|]. intro v. rewrite Fi. apply result_even; auto. }
    unfold offset_pieces. set (vis := filter_by_rule RSubject (g_links g)) in *.
    destruct (offset_spec g pts clean clockwise min_area Wg (S (2 * length vis)) 0 vis Ev) as (bps & H & F & N & _).
    { unfold vis, filter_by_rule. apply map_length. }
    { pose proof (ucount_le vis). lia. }
    exists bps. split; auto. split; auto. split; [|split; auto].
    { eapply Forall_impl; [|exact F]. cbv beta zeta. intros [p b] (F1 & F0 & F2 & F3). cbn [fst snd] in *. split; [|split; [exact F0|split; auto]].
      - eapply Forall2_impl; [|exact F1]. intros e i Ei. exact (edge_is_of links g pts e i G Ei).
      - rewrite F2. unfold used_bold. rewrite existsb_exists. split.
        + intros (i & Ii & Bi). exists i. destruct (nth_error (g_links g) i) as [l'|] eqn:Hl'; [|discriminate].
          destruct (nth_error links i) as [l|] eqn:Hl.
          * destruct (go_link _ _ _ G i l Hl) as (l2 & H2 & _ & _ & Fl & _). rewrite Hl' in H2. injection H2 as <-.
            destruct (offset_links_bold segs A i l Hl) as (s & Hs & _ & Bs). exists s. split; auto. split; auto. rewrite <- Bs. unfold is_bold in *. rewrite <- Fl. exact Bi.
          * apply nth_error_None in Hl. rewrite <- (go_len _ _ _ G) in Hl. apply nth_error_None in Hl. congruence.
        + intros (i & s & Ii & Hs & Bs). exists i. split; auto. assert (Lt : (i < length links)%nat).
          { unfold build_all_links. rewrite map_length, combine_length, (offset_fill_length segs), Nat.min_id. apply nth_error_Some. congruence. }
          apply nth_error_Some in Lt. destruct (nth_error links i) as [l|] eqn:Hl; [|congruence].
          destruct (go_link _ _ _ G i l Hl) as (l2 & H2 & _ & _ & Fl & _). rewrite H2. destruct (offset_links_bold segs A i l Hl) as (s' & Hs' & _ & Bs').
          rewrite Hs in Hs'. injection Hs' as <-. unfold is_bold in *. rewrite Fl, Bs'. exact Bs. }
    intros V Bo.
    pose proof (offset_is_extract g clean clockwise min_area _ _ _ _ H Bo) as Hx.
    assert (Fp : Forall (fun p => p_contour p = fst (clean true (p_raw p)) /\ p_valid p = is_valid min_area (p_contour p)) (map fst bps)).
    { rewrite Forall_map. rewrite Forall_forall in *. intros bp I. destruct (F bp I) as (_ & _ & _ & F3 & F4). rewrite (Bo bp I) in F4. auto. }
    assert (V' : min_area = 0 \/ (forall p, In p (map fst bps) -> p_valid p = true)).
    { destruct V as [V|V]; auto. right. intros p I. apply in_map_iff in I as (bp & <- & I). auto. }
    rewrite Ff in Hx.
    pose proof (glue_oriented (map unb segs) A Positive RSubject (fun _ => true) (gmask g) pts' G' Fi clean clockwise true min_area (map fst bps) Hx
      (pv clean true min_area _ Cl Fp V')) as O.
    destruct (pieces_dirs clean clockwise true min_area _ Cl Fp V' _ O) as [D1 D2].
    unfold contours_of, outers, holes. split; auto. split; auto. split.
    - intros h q. apply (hole_covered clean clockwise true min_area _ Cl Fp V' _ O).
    - intro q. rewrite (pieces_sum clean clockwise true min_area _ Cl Fp V' _ O q). rewrite R_area. destruct (area segs q); simpl; lia.
  Qed.
  (** if all segments are bold, so are all contours *)
  Lemma all_bold min_area g bps : Forall (fun s => obold (sc s) = true) segs -> graph_new links ends = Some g -> offset_pieces g clean clockwise min_area = Some bps -> clean_ok clean ->
    Forall (fun bp => snd bp = true) bps.
  Proof.
    intros B Hg H Cl. destruct (C41_extract min_area Cl) as (g' & bps' & Hg' & H' & F & _). rewrite Hg in Hg'. injection Hg' as <-. rewrite H in H'. injection H' as <-.
    eapply Forall_impl; [|exact F]. cbv beta. intros [p b] (W & Ne & [_ Bi] & _). cbn [fst snd] in *. apply Bi. destruct W as [|e i es u We W]; [congruence|].
    exists i. destruct We as (l & Hl & _). destruct (offset_links_bold segs A i l Hl) as (s & Hs & _ & _). exists s. split; [left; auto|]. split; auto.
    rewrite Forall_forall in B. apply B. eapply nth_error_In; eauto.
  Qed.
End Extract.

(** ** Whole runs *)
Lemma fit_wf segs : Forall fit segs -> Forall (fun s => wf_xseg (sx s)) (map unb segs) /\ Forall (fun s => wc_not_empty (sc s) = true) (map unb segs) /\ Forall (fun s => bounded (sx s)) (map unb segs).
Proof.
  intro F. rewrite !Forall_map. rewrite !Forall_forall in *. split; [|split]; intros s I; destruct (F s I) as (H1 & H2 & H3); auto.
  cbn. rewrite orb_false_r. destruct (Z.eqb_spec (osubj (sc s)) 0); [contradiction|reflexivity].
Qed.
Lemma fit_inv segs : Forall fit segs -> SplitLoop.inv (sort_merge (map unb segs)).
Proof.
  intro F. destruct (fit_wf segs F) as (F1 & F2 & F3). constructor.
  - apply sort_merge_sorted.
  - apply (sort_merge_elems wf_xseg). exact F1.
  - apply sort_merge_nonempty. exact F2.
  - apply sort_merge_ok, Forall_forall. simpl. auto.
  - apply (sort_merge_elems bounded). exact F3.
Qed.
Lemma sort_merge_unb segs : sort_merge (map unb segs) = map unb (sort_merge segs).
Proof. apply sort_merge_smap; [exact unbold_add|exact unbold_ne]. Qed.
Lemma merged_unb_balanced segs : balanced (chain_of osubj segs) -> balanced (subj_chain (sort_merge (map unb segs))) /\ balanced (clip_chain (sort_merge (map unb segs))).
Proof.
  intro B. split; intro v; unfold subj_chain, clip_chain; rewrite sort_merge_boundary by (reflexivity || (intros [? ?]; simpl; lia)).
  - change (boundary (subj_chain (map unb segs)) v = 0). rewrite unbold_subj. apply B.
  - apply unbold_clip_balanced.
Qed.

(** everything bold stays bold *)
Definition embold (c : cntO) : cntO := CO (osubj c) true.
Lemma embold_all l : map (smap embold) l = l <-> Forall (fun s => obold (sc s) = true) l.
Proof.
  induction l as [|[x [n b]] l IH]; [split; constructor|]. split; intro H.
  - injection H as H1 H2. constructor; [cbn; congruence|apply IH; auto].
  - inversion H as [|? ? H1 H2]; subst. cbn in H1. subst b. cbn [map]. f_equal. apply IH; auto.
Qed.

Section Runs.
  Variable layout_new : Z -> Z -> nat -> option (Z -> nat).
  Hypothesis Lay : layout_ok layout_new.
  Variable query : list (nat * xseg) -> Z * Z -> Z -> list (nat * xseg).
  Hypothesis Q : query_ok query.
  Variable tree_new : Z * Z -> bool.
  Notation splitS := (split_segments layout_new query tree_new).

  Lemma split_bold fuel solver (segs out : list (segment cntO)) : Forall (fun s => obold (sc s) = true) segs -> splitS fuel solver segs = Done out -> Forall (fun s => obold (sc s) = true) out.
  Proof.
    intros B H. pose proof (split_smap embold) as N. specialize (N (fun _ _ => eq_refl) (fun _ => eq_refl) (fun _ => eq_refl) layout_new query tree_new fuel solver segs).
    rewrite (proj2 (embold_all segs) B), H in N. cbn [omap] in N. injection N as N. apply embold_all. auto.
  Qed.

  (** one run: the links are built from split segments that form an arrangement *)
  Lemma offset_run fuel solver segs ls : Forall fit segs -> balanced (chain_of osubj segs) -> no_grid solver (length (sort_merge segs)) ->
    offset_links layout_new query tree_new fuel solver segs = ROk ls ->
    exists out, (segs <> [] -> splitS fuel solver segs = Done out) /\ (segs = [] -> out = []) /\ arrangement (map unb out) /\ ls = all_links out.
  Proof.
    intros F B N H. assert (A0 : arrangement (map unb [])).
    { constructor; try (intros ? []; fail); try (intro v; reflexivity); [constructor|intros ? ? []|constructor]. }
    destruct segs as [|s0 l0].
    { cbn in H. injection H as <-. exists []. split; [tauto|]. auto. }
    unfold offset_links in H. set (segs := s0 :: l0) in *.
    destruct (splitS fuel solver segs) as [out| |] eqn:ES; try discriminate. exists out. split; auto. split; [discriminate|].
    destruct (merged_unb_balanced segs B) as [BS BC].
    pose proof (split_smap unbold unbold_add unbold_inv unbold_ne layout_new query tree_new fuel solver segs) as Nat. rewrite ES in Nat. cbn [omap] in Nat.
    destruct (split_done layout_new Lay query Q tree_new (map unb segs) (fit_inv segs F) BS BC fuel solver _ ltac:(rewrite sort_merge_unb, map_length; exact N) Nat) as (A & _).
    split; auto. destruct out; injection H as <-; auto.
  Qed.

  (** The area of a stroke or offset as contours, when all crossings are exact (have integer coordinates): one round of splitting
      is enough, extraction never fails, and if every contour found has a bold link (always, if all segments are bold), outer
      contours run in the requested direction, holes against it and inside, and together they wind once around exactly the points
      around which the segments given wind a positive number of times. *)
  Theorem C41_offset_exact fuel solver segs clean clockwise min_area : Forall fit segs -> balanced (chain_of osubj segs) -> no_grid solver (length (sort_merge segs)) ->
    (sort_merge segs <> [] \/ is_list_split solver 0 = true) -> exact_crossings (map sx (sort_merge segs)) -> clean_ok clean ->
    exists ls, offset_links layout_new query tree_new (S fuel) solver segs = ROk ls /\
      forall ends, ends_ok ls ends -> exists g bps, graph_new ls ends = Some g /\ offset_pieces g clean clockwise min_area = Some bps /\
        (Forall (fun s => obold (sc s) = true) segs -> Forall (fun bp => snd bp = true) bps) /\
        (min_area = 0 \/ (forall bp, In bp bps -> p_valid (fst bp) = true) -> Forall (fun bp => snd bp = true) bps -> contours_of (sign_of clockwise) (area segs) (outers bps) (holes bps)).
  Proof.
    intros F B N NE Ex Cl. destruct (merged_unb_balanced segs B) as [BS BC].
    assert (X : exists ls, offset_links layout_new query tree_new (S fuel) solver segs = ROk ls /\
      forall out, (segs <> [] -> splitS (S fuel) solver segs = Done out) -> (segs = [] -> out = []) -> forall q, wind (chain_of osubj out) q = wind (chain_of osubj segs) q).
    { destruct segs as [|s0 l0]. { exists []. split; auto. intros out _ E q. rewrite E; auto. }
      unfold offset_links. set (segs := s0 :: l0) in *.
      destruct (split_exact layout_new Lay query Q tree_new (map unb segs) (fit_inv segs F) BS BC solver fuel) as (out & H & WS & _).
      { rewrite sort_merge_unb, map_length. exact N. }
      { rewrite sort_merge_unb, map_sx_smap. exact Ex. }
      { rewrite sort_merge_unb. destruct NE as [NE|NE]; auto. left. intro E. apply map_eq_nil in E. auto. }
      pose proof (split_smap unbold unbold_add unbold_inv unbold_ne layout_new query tree_new (S fuel) solver segs) as Nat. rewrite H in Nat.
      destruct (splitS (S fuel) solver segs) as [o| |] eqn:ES; try discriminate. cbn [omap] in Nat. injection Nat as ->.
      exists (all_links o). split; [destruct o; auto|]. intros out E _ q. specialize (E ltac:(discriminate)). injection E as <-.
      specialize (WS q). rewrite unbold_subj in WS. rewrite WS. unfold subj_chain. rewrite sort_merge_wind by (reflexivity || (intros [? ?]; simpl; lia)).
      change (wind (subj_chain (map unb segs)) q = wind (chain_of osubj segs) q). rewrite unbold_subj. reflexivity. }
    destruct X as (ls & H & W). exists ls. split; auto. intros ends E.
    destruct (offset_run _ _ _ _ F B N H) as (out & Hs & H0 & A & ->). specialize (W out Hs H0).
    destruct (C41_extract out A ends clean clockwise E min_area Cl) as (g & bps & Hg & Hp & _ & _ & D). exists g, bps. split; auto. split; auto. split.
    - intro Bo. eapply (all_bold out A ends clean clockwise E min_area); eauto. destruct segs as [|s0 l0]; [rewrite H0; auto|]. eapply split_bold; [exact Bo|]. apply Hs. discriminate.
    - intros V Bp. destruct (D V Bp) as (D1 & D2 & D3 & D4). split; auto. split; auto. split; auto. intro q. rewrite D4. unfold area. rewrite W. reflexivity.
  Qed.

  (** with rounding: the same relative to the segments after splitting *)
  Theorem C41_offset_split fuel solver segs clean clockwise ls ends : Forall fit segs -> balanced (chain_of osubj segs) -> no_grid solver (length (sort_merge segs)) ->
    clean_ok clean -> offset_links layout_new query tree_new fuel solver segs = ROk ls -> ends_ok ls ends ->
    exists out g bps, (segs <> [] -> splitS fuel solver segs = Done out) /\ graph_new ls ends = Some g /\ offset_pieces g clean clockwise 0 = Some bps /\
      (Forall (fun s => obold (sc s) = true) segs -> Forall (fun bp => snd bp = true) bps) /\
      (Forall (fun bp => snd bp = true) bps -> contours_of (sign_of clockwise) (area out) (outers bps) (holes bps)).
  Proof.
    intros F B N Cl H E. destruct (offset_run _ _ _ _ F B N H) as (out & Hs & H0 & A & ->).
    destruct (C41_extract out A ends clean clockwise E 0 Cl) as (g & bps & Hg & Hp & _ & _ & D). exists out, g, bps. split; auto. split; auto. split; auto. split; auto.
    intro Bo. eapply (all_bold out A ends clean clockwise E 0); eauto. destruct segs as [|s0 l0]; [rewrite H0; auto|]. eapply split_bold; [exact Bo|]. apply Hs. discriminate.
  Qed.
End Runs.

(** ** Strokes: every segment is bold, so the extraction gives the whole area *)
Section StrokeBold.
  Variable F : FloatOps.
  Variable to_int : fp F -> pt.
  Notation bold l := (Forall (fun s : segment cntO => obold (sc s) = true) l).
  Lemma bold_ab_bold a b : obold (sc (bold_ab a b)) = true.
  Proof. unfold bold_ab. destruct (pt_ltb a b); reflexivity. Qed.
  Lemma add_segment_bold a b : bold (ModelMesh.add_segment F to_int a b).
  Proof. unfold ModelMesh.add_segment. destruct (pt_eqb _ _); repeat constructor. apply bold_ab_bold. Qed.
  Lemma push_ne_bold a b : bold (push_ne a b).
  Proof. unfold push_ne. destruct (pt_eqb _ _); repeat constructor. apply bold_ab_bold. Qed.
  Lemma arc_bold rot c r k : forall v a l, bold (arc_loop F to_int (fun a b => bold_ab b a) rot c r k v a l).
  Proof.
    induction k as [|k IH]; intros v a l; cbn [arc_loop]; destruct (pt_eqb _ _); auto; constructor; auto; apply bold_ab_bold.
  Qed.
  Lemma tops_bold s0 s1 : bold (join_top F to_int s0 s1) /\ bold (join_bot F to_int s0 s1).
  Proof. split; apply add_segment_bold. Qed.
  Lemma stroke_join_bold r j s0 s1 : bold (stroke_join F to_int r j s0 s1).
  Proof.
    destruct (tops_bold s0 s1) as [T B]. destruct j as [|a|a]; cbn [stroke_join].
    - unfold bevel_join. apply Forall_app; auto.
    - unfold miter_join. cbv zeta. destruct (n_lt F (n_abs F _) _); [apply Forall_app; auto|]. destruct (n_lt F (p_dot F _ _) _).
      + destruct (n_lt F (lit F 0) _); destruct (pt_eqb _ _); auto; rewrite !Forall_app; repeat split; auto using push_ne_bold.
      + destruct (n_lt F (lit F 0) _); apply Forall_app; split; auto; destruct (sharp _ _ _ _ _ _); repeat constructor; apply bold_ab_bold.
    - unfold sround_join. cbv zeta. destruct (n_lt F _ (p_dot F _ _)); [apply Forall_app; auto|]. destruct (n_lt F (lit F 0) _); apply Forall_app; split; auto; apply arc_bold.
  Qed.
  Lemma cap_bold rot c ps : forall a l, bold (cap_loop F to_int rot c ps a l).
  Proof. induction ps as [|p ps IH]; intros a l; cbn [cap_loop]; cbv zeta; constructor; auto using bold_ab_bold. Qed.
  Lemma section_bold s : bold (add_section F to_int s).
  Proof. unfold add_section. repeat constructor; apply bold_ab_bold. Qed.
  Lemma open_loop_bold style rest : forall s0 ip0, bold (open_loop F to_int (stroke_builder_new F to_int style) s0 ip0 rest).
  Proof.
    induction rest as [|p r IH]; intros s0 ip0; cbn [open_loop]; cbv zeta; [apply cap_bold|]. destruct (pt_eqb _ _); auto. rewrite !Forall_app.
    split; [apply stroke_join_bold|]. split; [apply section_bold|apply IH].
  Qed.
  Lemma closed_loop_bold style path start : forall fuel s0 i l, closed_loop F to_int fuel (stroke_builder_new F to_int style) path start s0 i = Some l -> bold l.
  Proof.
    induction fuel as [|fuel IH]; intros s0 i l H; cbn [closed_loop] in H; destruct i as [i|]; try discriminate.
    - injection H as <-. apply stroke_join_bold.
    - destruct (nth_error path i) as [p|]; [|discriminate]. cbv zeta in H. destruct (closed_loop _ _ _ _ _ _ _ _) as [r|] eqn:E; [|discriminate]. injection H as <-.
      apply Forall_app. split; [apply stroke_join_bold|]. apply Forall_cons; [apply bold_ab_bold|]. apply Forall_cons; [apply bold_ab_bold|eapply IH; eauto].
    - injection H as <-. apply stroke_join_bold.
  Qed.
  Lemma stroke_build_bold style closed path l : stroke_build F to_int (stroke_builder_new F to_int style) closed path = Some l -> bold l.
  Proof.
    unfold stroke_build. destruct closed.
    - unfold closed_segments. destruct (length path <? 2)%nat; [intro H; injection H as <-; constructor|]. destruct (next_unique_point _ _ _ _ _) as [i1|]; [|intro H; injection H as <-; constructor].
      destruct (nth_error path _) as [p0|]; [|discriminate]. destruct (nth_error path i1) as [p1|]; [|discriminate]. cbv zeta.
      destruct (closed_loop _ _ _ _ _ _ _ _) as [r|] eqn:E; [|discriminate]. intro H. injection H as <-. apply Forall_cons; [apply bold_ab_bold|]. apply Forall_cons; [apply bold_ab_bold|eapply closed_loop_bold; eauto].
    - unfold open_segments. destruct path as [|p0 [|p1 rest]]; try discriminate. destruct (first_other _ _ _ _) as [[p r]|]; intro H; injection H as <-; [|constructor].
      apply Forall_app. split; [apply cap_bold|]. apply Forall_cons; [apply bold_ab_bold|]. apply Forall_cons; [apply bold_ab_bold|apply open_loop_bold].
  Qed.
  Lemma stroke_bold style jc cc closed paths segs : stroke_segments F to_int style jc cc closed paths = Some segs -> bold segs.
  Proof.
    unfold stroke_segments. destruct paths as [|p paths]; [intro H; injection H as <-; constructor|]. destruct (stroke_capacity _ _ _ _ _); [|discriminate].
    generalize (p :: paths). clear. intro paths. revert segs. induction paths as [|p paths IH]; intros segs H; cbn [map concat_opt] in H; [injection H as <-; constructor|].
    destruct (stroke_build _ _ _ _ p) as [l|] eqn:E; [|discriminate]. destruct (concat_opt _) as [r|] eqn:E2; [|discriminate]. injection H as <-. apply Forall_app.
    split; [eapply stroke_build_bold; eauto|apply IH; auto].
  Qed.
End StrokeBold.
Lemma proper_fit segs : Forall proper segs -> Forall (fun s => sa (sx s) <> sb (sx s) /\ bounded (sx s)) segs -> Forall fit segs.
Proof.
  rewrite !Forall_forall. intros P H s I. destruct (H s I) as [N B]. unfold fit. destruct (P s I) as [[E L]|[E L]].
  - split; [exact L|]. split; [exact B|lia].
  - split; [|split; [exact B|lia]]. destruct (pt_total (sa (sx s)) (sb (sx s))) as [[X|X]|X]; auto; contradiction.
Qed.

Lemma stroke_segments_proper F (to_int : fp F -> pt) style jc cc closed paths segs : stroke_segments F to_int style jc cc closed paths = Some segs -> balanced (chain_of osubj segs) /\ Forall proper segs.
Proof.
  unfold stroke_segments. destruct paths as [|p paths]; [intro H; injection H as <-; split; [intro v; reflexivity|constructor]|]. destruct (stroke_capacity _ _ _ _ _); [|discriminate].
  generalize (p :: paths). clear. intro paths. revert segs. induction paths as [|p paths IH]; intros segs H; cbn [map concat_opt] in H; [injection H as <-; split; [intro v; reflexivity|constructor]|].
  destruct (stroke_build _ _ _ _ p) as [l|] eqn:E; [|discriminate]. destruct (concat_opt _) as [r|] eqn:E2; [|discriminate]. injection H as <-.
  destruct (IH r eq_refl) as [B P].
  assert (X : balanced (chain_of osubj l) /\ Forall proper l).
  { destruct closed.
    - destruct (C34_closed F to_int style p) as (l' & Hl & Al & Bl & _). rewrite Hl in E. injection E as <-. auto.
    - destruct p as [|p0 [|p1 x]]; [discriminate E|discriminate E|]. destruct (C34_open F to_int style p0 (p1 :: x)) as (l' & Hl & Al & Bl & _); [discriminate|].
      rewrite Hl in E. injection E as <-. auto. }
  split; [apply app_balanced; tauto|apply Forall_app; tauto].
Qed.

Section Strokes.
  Variable layout_new : Z -> Z -> nat -> option (Z -> nat).
  Hypothesis Lay : layout_ok layout_new.
  Variable query : list (nat * xseg) -> Z * Z -> Z -> list (nat * xseg).
  Hypothesis Q : query_ok query.
  Variable tree_new : Z * Z -> bool.

  (** Strokes: the contours of the area swept by the segments of C34.  Whether two ends of a segment coincide after rounding
      must be checked: see [C34_degenerate_refuted]. *)
  Theorem C41_stroke_exact F (to_int : fp F -> pt) style jc cc closed paths segs fuel solver clean clockwise :
    stroke_segments F to_int style jc cc closed paths = Some segs ->
    Forall (fun s => sa (sx s) <> sb (sx s) /\ bounded (sx s)) segs -> no_grid solver (length (sort_merge segs)) ->
    (sort_merge segs <> [] \/ is_list_split solver 0 = true) -> exact_crossings (map sx (sort_merge segs)) -> clean_ok clean ->
    exists ls, offset_links layout_new query tree_new (S fuel) solver segs = ROk ls /\
      forall ends, ends_ok ls ends -> exists g bps, graph_new ls ends = Some g /\ offset_pieces g clean clockwise 0 = Some bps /\
        contours_of (sign_of clockwise) (area segs) (outers bps) (holes bps).
  Proof.
    intros H Fi N NE Ex Cl. destruct (stroke_segments_proper _ _ _ _ _ _ _ _ H) as [B P]. pose proof (proper_fit _ P Fi) as Ft.
    destruct (C41_offset_exact layout_new Lay query Q tree_new fuel solver segs clean clockwise 0 Ft B N NE Ex Cl) as (ls & Hl & D). exists ls. split; auto.
    intros ends E. destruct (D ends E) as (g & bps & Hg & Hp & Bo & R). exists g, bps. split; auto. split; auto. apply R; auto. apply Bo. eapply stroke_bold; eauto.
  Qed.
  Theorem C41_stroke_split F (to_int : fp F -> pt) style jc cc closed paths segs fuel solver clean clockwise ls ends :
    stroke_segments F to_int style jc cc closed paths = Some segs ->
    Forall (fun s => sa (sx s) <> sb (sx s) /\ bounded (sx s)) segs -> no_grid solver (length (sort_merge segs)) -> clean_ok clean ->
    offset_links layout_new query tree_new fuel solver segs = ROk ls -> ends_ok ls ends ->
    exists out g bps, (segs <> [] -> split_segments layout_new query tree_new fuel solver segs = Done out) /\ graph_new ls ends = Some g /\ offset_pieces g clean clockwise 0 = Some bps /\
      contours_of (sign_of clockwise) (area out) (outers bps) (holes bps).
  Proof.
    intros H Fi N Cl Hl E. destruct (stroke_segments_proper _ _ _ _ _ _ _ _ H) as [B P]. pose proof (proper_fit _ P Fi) as Ft.
    destruct (C41_offset_split layout_new Lay query Q tree_new fuel solver segs clean clockwise ls ends Ft B N Cl Hl E) as (out & g & bps & Hs & Hg & Hp & Bo & R).
    exists out, g, bps. split; auto. split; auto. split; auto. apply R, Bo. eapply stroke_bold; eauto.
  Qed.
  (** Offsets of one contour: the same, if every contour found has a bold link and (with a minimal area) none is too small. *)
  Theorem C41_outline_exact F (to_int : fp F -> pt) radius join path segs fuel solver clean clockwise min_area :
    outline_segments F to_int radius join path = Some segs ->
    Forall (fun s => sa (sx s) <> sb (sx s) /\ bounded (sx s)) segs -> no_grid solver (length (sort_merge segs)) ->
    (sort_merge segs <> [] \/ is_list_split solver 0 = true) -> exact_crossings (map sx (sort_merge segs)) -> clean_ok clean ->
    exists ls, offset_links layout_new query tree_new (S fuel) solver segs = ROk ls /\
      forall ends, ends_ok ls ends -> exists g bps, graph_new ls ends = Some g /\ offset_pieces g clean clockwise min_area = Some bps /\
        (min_area = 0 \/ (forall bp, In bp bps -> p_valid (fst bp) = true) -> Forall (fun bp => snd bp = true) bps -> contours_of (sign_of clockwise) (area segs) (outers bps) (holes bps)).
  Proof.
    intros H Fi N NE Ex Cl. destruct (C33_outline F to_int radius join path) as (segs' & H' & _ & P & B & _). rewrite H in H'. injection H' as <-.
    pose proof (proper_fit _ P Fi) as Ft.
    destruct (C41_offset_exact layout_new Lay query Q tree_new fuel solver segs clean clockwise min_area Ft B N NE Ex Cl) as (ls & Hl & D). exists ls. split; auto.
    intros ends E. destruct (D ends E) as (g & bps & Hg & Hp & _ & R). exists g, bps. auto.
  Qed.
End Strokes.

(** ** Examples: the hypotheses hold and the answer is what one expects *)
Definition off_run (segs : list (segment cntO)) (clockwise : bool) (min_area : Z) : option (list (list pt) * list (list pt) * list bool) :=
  match offset_links lay4 qry (fun _ => true) 5 (mk_solver StAuto) segs with
  | ROk ls => match graph_new ls (sorted_ends ls) with
     | Some g => option_map (fun bps => (outers bps, holes bps, map snd bps)) (offset_pieces g clean_line clockwise min_area)
     | None => None end
  | _ => None end.
Definition boundedb (s : xseg) : bool :=
  forallb (fun p => (Z.abs (px p) <? 2 ^ 30) && (Z.abs (py p) <? 2 ^ 30)) [sa s; sb s].
Lemma boundedb_ok s : boundedb s = true -> bounded s.
Proof.
  unfold boundedb. cbn [forallb]. rewrite !andb_true_iff, !Z.ltb_lt. intros (A & B & _). unfold bounded, bounded_pt. lia.
Qed.
(** a closed square stroked with width 4 *)
Definition ring_paths : list (list (Q * Q)) := [[(0, 0); (20, 0); (20, 20); (0, 20)]]%Q.
Definition ring_segs : list (segment cntO) := match stroke_segments QF q_round q_style 2 3 true ring_paths with Some s => s | None => [] end.
Example C41_hypotheses : stroke_segments QF q_round q_style 2 3 true ring_paths = Some ring_segs /\
  Forall (fun s => sa (sx s) <> sb (sx s) /\ bounded (sx s)) ring_segs /\ no_grid (mk_solver StAuto) (length (sort_merge ring_segs)) /\
  sort_merge ring_segs <> [] /\ exact_crossings (map sx (sort_merge ring_segs)) /\ clean_ok clean_line.
Proof.
  split; [vm_compute; reflexivity|]. split.
  { assert (H : forallb (fun s => negb (degenerate s) && boundedb (sx s)) ring_segs = true) by (vm_compute; reflexivity).
    rewrite forallb_forall in H. apply Forall_forall. intros s I. specialize (H s I). apply andb_true_iff in H as [H1 H2]. split; [|apply boundedb_ok; auto].
    apply negb_true_iff in H1. intro E. unfold degenerate in H1. rewrite (proj2 (pt_eqb_eq _ _) E) in H1. discriminate. }
  split; [vm_compute; auto|]. split; [vm_compute; discriminate|]. split; [apply exactb_ok; vm_compute; reflexivity|apply clean_line_ok].
Qed.
Example C41_example : off_run ring_segs false 0 =
  Some ([[Pt (-2) 20; Pt (-2) 0; Pt 0 (-2); Pt 20 (-2); Pt 22 0; Pt 22 20; Pt 20 22; Pt 0 22]], [[Pt 2 2; Pt 2 18; Pt 18 18; Pt 18 2]], [true; true]).
Proof. vm_compute. reflexivity. Qed.
Example C41_area : area ring_segs (1, 1)%Q = true /\ area ring_segs (3, 3)%Q = false /\ area ring_segs (- (1 # 1), 5)%Q = true /\ area ring_segs (30, 3)%Q = false.
Proof. vm_compute. auto. Qed.
Example C41_outline_example : off_run (match outline_segments QF q_round (-2)%Q (Bevel QF) [(0, 0); (10, 0); (10, 10); (0, 10)]%Q with Some s => s | None => [] end) false 1 =
  Some ([[Pt (-2) 10; Pt (-2) 0; Pt 0 (-2); Pt 10 (-2); Pt 12 0; Pt 12 10; Pt 10 12; Pt 0 12]], [], [true]).
Proof. vm_compute. reflexivity. Qed.

(** ** Segments of length zero: extraction runs forever.
    A stroke with the custom cap of [C34_degenerate_refuted].  The zero-length segment appears twice in the list of links of its
    node and is not part of the result; the walk finds no link to go on with, takes link 0, and from then on goes round and round,
    pushing points. *)
Fixpoint still_walking (g : graph) (n : nat) (clockwise : bool) (link_id node_id last : nat) (vis : list bool) : Prop :=
  node_id <> last /\
  match n with
  | O => True
  | S n' => exists nd i l, nth_error (g_nodes g) node_id = Some nd /\ next_link g link_id node_id clockwise nd vis = Some i /\ nth_error (g_links g) i = Some l /\
      still_walking g n' clockwise i (if (l_aid l =? node_id)%nat then l_bid l else l_aid l) last (visit i vis)
  end.
Definition cap_style : stroke_style QF := SS QF 4%Q (Butt QF) (Custom QF [(0, -1); (1, 0); (0, 1)]%Q) (Bevel QF).
Theorem C41_endless_refuted : exists segs ls g lt l,
  stroke_segments QF q_round cap_style 2 5 false [[(0, 0); (10, 0)]]%Q = Some segs /\
  offset_links lay4 qry (fun _ => true) 5 (mk_solver StAuto) segs = ROk ls /\ graph_new ls (sorted_ends ls) = Some g /\
  let vis := filter_by_rule RSubject (g_links g) in
  is_visited vis 0 = false /\ find_left_top_link g 0 vis = Some lt /\ nth_error (g_links g) lt = Some l /\
  let dir := Bool.eqb (N.land (l_fill l) SUBJ_TOP =? SUBJ_TOP)%N false in
  let sd := start_path dir l lt in
  forall n, still_walking g n dir (sd_link sd) (sd_node sd) (sd_last sd) (visit (sd_link sd) vis).
Proof.
  eexists. eexists. eexists. eexists. eexists. split; [vm_compute; reflexivity|]. split; [vm_compute; reflexivity|]. split; [vm_compute; reflexivity|].
  cbv zeta. split; [vm_compute; reflexivity|]. split; [vm_compute; reflexivity|]. split; [vm_compute; reflexivity|].
  match goal with |- forall n, still_walking ?g' n _ _ _ _ _ => set (g := g') end.
  set (v1 := [true; true; false; true; true; true; true]).
  assert (K : forall n, still_walking g n true 0 0 1 v1 /\ still_walking g n true 1 2 1 v1).
  { induction n as [|n [IH1 IH2]]; [split; (split; [discriminate|exact Logic.I])|]. split.
    - split; [discriminate|]. exists (Bridge 0 1), 1%nat. eexists. split; [reflexivity|]. split; [reflexivity|]. split; [reflexivity|]. exact IH2.
    - split; [discriminate|]. eexists. exists O. eexists. split; [reflexivity|]. split; [vm_compute; reflexivity|]. split; [reflexivity|]. exact IH1. }
  intro n. change (still_walking g n true 0 0 1 [true; false; false; true; true; true; true]).
  destruct n as [|n]; (split; [discriminate|]); [exact Logic.I|]. exists (Bridge 0 1), 1%nat. eexists. split; [reflexivity|]. split; [reflexivity|]. split; [reflexivity|]. apply K.
Qed.

(** ** Contours of weak segments only are dropped, and what follows a dropped contour can be lost:
    the three triangles of [C23_large_contour_lost_refuted], the upper two weak.  The third one, all bold, is returned as a hole
    without an outer contour. *)
Definition ring_of (bold : bool) (c : list pt) : list (segment cntO) := map (fun e : pt * pt => (if bold then bold_ab else weak_ab) (fst e) (snd e)) (edges c).
Definition weak_tris : list (segment cntO) := ring_of true [Pt 0 0; Pt 1 (-300); Pt 2 (-300)] ++ ring_of false [Pt 0 0; Pt 5 0; Pt 5 1] ++ ring_of false [Pt 0 0; Pt 6 5; Pt 6 6].
Theorem C41_weak_refuted : Forall fit weak_tris /\ planar (map sx (sort_merge weak_tris)) /\
  exists h, off_run weak_tris false 0 = Some ([], [h], [false; false; true]).
Proof.
  split.
  { assert (H : forallb (fun s => pt_ltb (sa (sx s)) (sb (sx s)) && boundedb (sx s) && negb (osubj (sc s) =? 0)) weak_tris = true) by (vm_compute; reflexivity).
    rewrite forallb_forall in H. apply Forall_forall. intros s I. specialize (H s I). rewrite !andb_true_iff in H. destruct H as [[H1 H2] H3].
    split; [apply pt_ltb_lt; auto|]. split; [apply boundedb_ok; auto|]. apply negb_true_iff, Z.eqb_neq in H3. exact H3. }
  split; [apply planarb_ok; vm_compute; reflexivity|]. eexists. vm_compute. reflexivity.
Qed.
