(** * C45 with rounding, continued: outlines of several contours, holes included, and where the edges of the answer run.

    [C45_stroke_near] and [C45_single_near] say what region the answer covers away from the segments drawn.  Here: no edge of the answer is far from
    them either, whichever contours are thrown away, and the outline of a whole shape, whose contours are offset one by one and then united, covers
    the region of C45 away from all the segments drawn. *)
From Coq Require Import Qround Qabs.
From Verif Require Import Base Spec QLib ModelSegm SegmProofs MergeProofs PlanarGeo PlanarSum ModelFill ModelFilter FillProofs FillCorrect
  ModelCross CrossProofs CrossPoint MarksProofs CoreResults Properties01 ModelSplit SplitProofs SplitPlanar SplitPass BinsProofs SplitApply SplitLoop
  ModelFrag ModelOverlay OverlayProofs FragProofs GridCover Properties02
  ModelGraph GraphProofs ModelExtract ExtractProofs ContourResults Rotation NextLink Properties03
  MoveLemma SectorLemma Sides WalkSides Orient Properties04 ModelBind BindProofs BindSweep Nest Properties05 Natural ModelOffset OffsetProofs ModelMesh MeshProofs Properties09
  SplitNear InputCover Properties15 Properties10 ModelOutline Properties13 OffsetNear Properties19 OverlayNear OffsetEdges.
From Coq Require Import Lqa.
Open Scope Z_scope.

(** ** Specification *)
(** no point of an edge of the contours is outside [N] *)
Definition edges_at (N : qpt -> Prop) (cs : list (list pt)) : Prop :=
  forall c e q, In c cs -> In e (edges c) -> on_seg (XS (fst e) (snd e)) q -> N q.

Section Near.
  Variable layout_new : Z -> Z -> nat -> option (Z -> nat).
  Hypothesis Lay : layout_ok layout_new.
  Variable query : list (nat * xseg) -> Z * Z -> Z -> list (nat * xseg).
  Hypothesis Q : query_ok query.
  Variable tree_new : Z * Z -> bool.
  Variable sort_ends : list link -> list (nat * pt).
  Hypothesis Sort : forall ls, ends_ok ls (sort_ends ls).
  Variable clean : bool -> list pt -> list pt * bool.
  Hypothesis Cl : clean_ok clean.
  Hypothesis Ce : clean_edges clean.
  Variables (n : nat) (solver : Solver) (dbg : bool).
  Variable F : FloatOps.
  Variable to_int : fp F -> pt.
  Variable int_len : num F -> Z.
  Variable int_area : list (fp F) -> Z.
  Variables (outer inner : num F) (join : line_join F).
  Notation d := (moved (precision solver) n).
  Notation custom := (outline_custom layout_new query tree_new sort_ends clean (S n) solver dbg F to_int int_area outer inner join).

  (** the point is at most [e] away from a segment drawn for the path *)
  Definition near_path (e : Z) (radius : num F) (path : list (fp F)) (q : qpt) : Prop :=
    exists segs, outline_segments F to_int radius (join_normalize F join) path = Some segs /\ near_segs e segs q.
  (** ... for one of the paths that are offset *)
  Definition near_drawn (e : Z) (paths : list (list (fp F))) (q : qpt) : Prop :=
    exists path, In path paths /\
      (is_outer F int_area path = true /\ near_path e (n_neg F outer) path q \/ is_inner F int_area path = true /\ near_path e inner (rev path) q).

  (** no segment of length zero, and the list or tree split *)
  Definition fit_path (radius : num F) (path : list (fp F)) : Prop :=
    forall segs, outline_segments F to_int radius (join_normalize F join) path = Some segs ->
      Forall (fun s => sa (sx s) <> sb (sx s) /\ bounded (sx s)) segs /\ no_grid solver (length (sort_merge segs)).
  (** every contour found for the path has a bold link and is kept *)
  Definition kept_path (radius : num F) (path : list (fp F)) (clockwise : bool) (min_area : Z) : Prop :=
    forall segs ls g bps, outline_segments F to_int radius (join_normalize F join) path = Some segs ->
      offset_links layout_new query tree_new (S n) solver segs = ROk ls -> graph_new ls (sort_ends ls) = Some g -> offset_pieces g clean clockwise min_area = Some bps ->
      Forall (fun bp => snd bp = true /\ (min_area = 0 \/ p_valid (fst bp) = true)) bps.
  Definition fit_paths (paths : list (list (fp F))) : Prop :=
    Forall (fun path => (is_outer F int_area path = true -> fit_path (n_neg F outer) path) /\ (is_inner F int_area path = true -> fit_path inner (rev path))) paths.
  Definition kept_paths (paths : list (list (fp F))) : Prop :=
    Forall (fun path => (is_outer F int_area path = true -> kept_path (n_neg F outer) path false 0) /\ (is_inner F int_area path = true -> kept_path inner (rev path) false 0)) paths.
  (** the contours of the offsets are fit for the overlay at the end *)
  Definition fit_contours (contours : list (list pt)) : Prop :=
    Forall open_contour contours /\ no_grid solver (length (sort_merge (input_segments (map (fun c => (c, Subject)) contours)))).
  Definition kept_contours (contours : list (list pt)) (clockwise : bool) (min_area : Z) : Prop :=
    forall ls g ps, overlay_links layout_new query tree_new (S n) solver RSubject Positive (input_segments (map (fun c => (c, Subject)) contours)) = ROk ls ->
      graph_new ls (sort_ends ls) = Some g ->
      extract_pieces g clean RSubject clockwise true min_area (repeat false (length ls)) = Some ps -> min_area = 0 \/ Forall (fun p => p_valid p = true) ps.

  (** ** One path *)
  Lemma one_edges radius path clockwise min_area shapes : fit_path radius path ->
    outline_one layout_new query tree_new sort_ends clean (S n) solver dbg F to_int radius (join_normalize F join) path clockwise min_area = ROk shapes ->
    edges_at (near_path d radius path) (concat shapes) /\ forall c p, In c (concat shapes) -> In p c -> bounded_pt p.
  Proof.
    intros Ft H. unfold outline_one in H. destruct (outline_segments F to_int radius (join_normalize F join) path) as [segs|] eqn:Es; [|discriminate].
    cbn [of_opt rbind] in H. destruct (Ft segs Es) as (Fi & N).
    destruct (C33_outline F to_int radius (join_normalize F join) path) as (l & Hl' & _ & P & B & _). rewrite Es in Hl'. injection Hl' as <-.
    destruct (offset_links _ _ _ _ _ _) as [ls| |] eqn:Hl; try discriminate. cbn [rbind] in H.
    destruct (graph_new ls (sort_ends ls)) as [g|] eqn:Hg; [|discriminate]. cbn [of_opt rbind] in H. destruct (offset_shapes _ _ _ _ _) as [sh|] eqn:Ho; [|discriminate]. injection H as <-.
    destruct (offset_shapes_edges layout_new Lay query Q tree_new sort_ends Sort clean Cl Ce n solver dbg segs clockwise min_area ls g sh (proper_fit _ P Fi) B N Hl Hg Ho) as [E V].
    split; auto. intros c e q Ic Ie Oq. exists segs. split; auto. eapply E; eauto.
  Qed.
  Lemma one_region radius path clockwise min_area shapes : fit_path radius path -> kept_path radius path clockwise min_area ->
    outline_one layout_new query tree_new sort_ends clean (S n) solver dbg F to_int radius (join_normalize F join) path clockwise min_area = ROk shapes ->
    shapes_at (sign_of clockwise) (fun q => ~ near_path d radius path q) (covered F to_int join radius path) shapes.
  Proof.
    intros Ft Kp H. unfold outline_one in H. destruct (outline_segments F to_int radius (join_normalize F join) path) as [segs|] eqn:Es; [|discriminate].
    cbn [of_opt rbind] in H. destruct (Ft segs Es) as (Fi & N). destruct (offset_links _ _ _ _ _ _) as [ls| |] eqn:Hl; try discriminate. cbn [rbind] in H.
    destruct (C41_outline_near layout_new Lay query Q tree_new F to_int _ _ path segs n solver clean clockwise min_area ls (sort_ends ls) Es Fi N Cl Hl (Sort ls)) as (g & bps & Hg & Hp & R).
    rewrite Hg in H. cbn [of_opt rbind] in H. pose proof (Kp segs ls g bps Es Hl Hg Hp) as Bo. rewrite Forall_forall in Bo.
    assert (R' : contours_at (sign_of clockwise) (away (inject_Z d) segs) (area segs) (outers bps) (holes bps)).
    { apply R; [|apply Forall_forall; intros bp I; apply Bo; auto]. destruct (Z.eq_dec min_area 0) as [Em|Em]; auto. right. intros bp I. destruct (Bo bp I) as [_ [X|X]]; auto. }
    unfold offset_shapes in H. rewrite Hp in H. destruct (anchors_of dbg clockwise 0 (map fst bps)) as [[an srt]|]; [|discriminate].
    destruct (join_sorted_holes _ _ _ _ _) as [sh|] eqn:Ej; [|discriminate]. cbn [of_opt] in H. injection H as <-.
    destruct (join_grouped _ _ _ _ _ _ Ej) as [G0 G1]. fold (outers bps) in G0, G1. fold (holes bps) in G0.
    destruct (grouped_at _ _ _ _ _ sh G0 G1 R' (sign_ne _)) as (S1 & S2 & S3). split; auto. split; auto. intros q A. unfold covered. rewrite Es. apply S3. apply away_near. intro X. apply A. exists segs. auto.
  Qed.

  Notation in_range shapes := (forall c p, In c (concat shapes) -> In p c -> bounded_pt p).
  Lemma stroke_drawn style jc cc closed clockwise paths segs shapes : stroke_segments F to_int style jc cc closed paths = Some segs ->
    Forall (fun s => sa (sx s) <> sb (sx s) /\ bounded (sx s)) segs -> no_grid solver (length (sort_merge segs)) ->
    stroke_custom layout_new query tree_new sort_ends clean (S n) solver dbg F to_int int_len style jc cc closed clockwise paths = ROk shapes ->
    edges_at (near_segs d segs) (concat shapes) /\ in_range shapes.
  Proof.
    intros Es Fi N H. unfold stroke_custom in H. destruct paths as [|p0 paths]; [injection H as <-; split; intros ? ? ?; contradiction|].
    destruct (_ <=? 1); [injection H as <-; split; intros ? ? ?; contradiction|]. rewrite Es in H. cbn [of_opt rbind] in H.
    destruct (stroke_segments_proper _ _ _ _ _ _ _ _ Es) as [B P].
    destruct (offset_links _ _ _ _ _ _) as [ls| |] eqn:Hl; try discriminate. cbn [rbind] in H.
    destruct (graph_new ls (sort_ends ls)) as [g|] eqn:Hg; [|discriminate]. cbn [of_opt rbind] in H. destruct (offset_shapes _ _ _ _ _) as [sh|] eqn:Ho; [|discriminate]. injection H as <-.
    exact (offset_shapes_edges layout_new Lay query Q tree_new sort_ends Sort clean Cl Ce n solver dbg segs clockwise 0 ls g sh (proper_fit _ P Fi) B N Hl Hg Ho).
  Qed.
  Lemma single_drawn clockwise min_area path shapes : (is_outer F int_area path = true -> fit_path (n_neg F outer) path) ->
    custom clockwise min_area [path] = ROk shapes -> edges_at (near_path d (n_neg F outer) path) (concat shapes) /\ in_range shapes.
  Proof.
    intros Ft H. cbn [outline_custom] in H. destruct (-1 <=? int_area path) eqn:E; [injection H as <-; split; intros ? ? ?; contradiction|].
    eapply one_edges; eauto. apply Ft. unfold is_outer. apply Z.leb_gt in E. apply Z.ltb_lt. lia.
  Qed.
  (** No edge of the answer is farther than [moved] from a segment drawn, whatever contours are thrown away. *)
  Theorem C45_stroke_edges style jc cc closed clockwise paths segs shapes : stroke_segments F to_int style jc cc closed paths = Some segs ->
    Forall (fun s => sa (sx s) <> sb (sx s) /\ bounded (sx s)) segs -> no_grid solver (length (sort_merge segs)) ->
    stroke_custom layout_new query tree_new sort_ends clean (S n) solver dbg F to_int int_len style jc cc closed clockwise paths = ROk shapes ->
    edges_at (near_segs d segs) (concat shapes).
  Proof. intros Es Fi N H. exact (proj1 (stroke_drawn _ _ _ _ _ _ _ _ Es Fi N H)). Qed.
  Theorem C45_single_edges clockwise min_area path shapes : (is_outer F int_area path = true -> fit_path (n_neg F outer) path) ->
    custom clockwise min_area [path] = ROk shapes -> edges_at (near_path d (n_neg F outer) path) (concat shapes).
  Proof. intros Ft H. exact (proj1 (single_drawn _ _ _ _ Ft H)). Qed.

  (** ** The contours of all the offsets *)
  Lemma rev_edge c e q : In e (edges (rev c)) -> on_seg (XS (fst e) (snd e)) q -> exists e', In e' (edges c) /\ on_seg (XS (fst e') (snd e')) q.
  Proof.
    intros I Oq. apply (Permutation_in _ (edges_rev c)) in I. apply in_map_iff in I as (e' & <- & I). exists e'. split; auto. unfold swap in Oq. cbn [fst snd] in Oq.
    apply on_seg_swap in Oq. exact Oq.
  Qed.
  Lemma near_cons e path paths q : near_drawn e paths q -> near_drawn e (path :: paths) q.
  Proof. intros (p & Ip & H). exists p. split; [right|]; auto. Qed.
  Lemma contours_edges : forall paths contours, fit_paths paths ->
    outline_contours layout_new query tree_new sort_ends clean (S n) solver dbg F to_int int_area outer inner (join_normalize F join) paths = ROk contours ->
    edges_at (near_drawn d paths) contours /\ forall c p, In c contours -> In p c -> bounded_pt p.
  Proof.
    induction paths as [|path paths IH]; intros contours Ft H.
    { injection H as <-. split; intros ? ? ?; [intros []|contradiction]. }
    inversion Ft as [|? ? [Co Ci] Ft']; subst. cbn [outline_contours] in H. unfold is_outer, is_inner in Co, Ci.
    destruct (Z.abs (int_area path) <=? 1) eqn:E1.
    { destruct (IH contours Ft' H) as [A B]. split; auto. intros c e q Ic Ie Oq. apply near_cons. eapply A; eauto. }
    apply Z.leb_gt in E1. destruct (int_area path <? 0) eqn:E2.
    - apply Z.ltb_lt in E2. assert (E3 : (int_area path <? -1) = true) by (apply Z.ltb_lt; lia).
      destruct (outline_one _ _ _ _ _ _ _ _ _ _ _ _ _ _ _) as [shapes| |] eqn:Eo; try discriminate. cbn [rbind] in H.
      destruct (outline_contours _ _ _ _ _ _ _ _ _ _ _ _ _ _ _) as [r| |] eqn:Er; try discriminate. cbn [rbind] in H. injection H as <-.
      destruct (one_edges _ _ _ _ _ (Co E3) Eo) as [A1 B1]. destruct (IH r Ft' eq_refl) as [A2 B2]. split.
      + intros c e q Ic Ie Oq. apply in_app_iff in Ic as [Ic|Ic]; [|apply near_cons; eapply A2; eauto]. exists path. split; [left; auto|]. left. split; [exact E3|]. eapply A1; eauto.
      + intros c p Ic. apply in_app_iff in Ic as [Ic|Ic]; eauto.
    - apply Z.ltb_ge in E2. assert (E3 : (1 <? int_area path) = true) by (apply Z.ltb_lt; lia).
      destruct (outline_one _ _ _ _ _ _ _ _ _ _ _ _ _ _ _) as [shapes| |] eqn:Eo; try discriminate. cbn [rbind] in H.
      destruct (outline_contours _ _ _ _ _ _ _ _ _ _ _ _ _ _ _) as [r| |] eqn:Er; try discriminate. cbn [rbind] in H. injection H as <-.
      destruct (one_edges _ _ _ _ _ (Ci E3) Eo) as [A1 B1]. destruct (IH r Ft' eq_refl) as [A2 B2]. split.
      + intros c e q Ic Ie Oq. apply in_app_iff in Ic as [Ic|Ic]; [|apply near_cons; eapply A2; eauto]. exists path. split; [left; auto|]. right. split; [exact E3|].
        apply in_map_iff in Ic as (c' & <- & Ic). destruct (rev_edge _ _ _ Ie Oq) as (e' & Ie' & Oq'). eapply A1; eauto.
      + intros c p Ic Ip. apply in_app_iff in Ic as [Ic|Ic]; [|eauto]. apply in_map_iff in Ic as (c' & <- & Ic). apply in_rev in Ip. eauto.
  Qed.
  Lemma contours_region : forall paths contours, fit_paths paths -> kept_paths paths ->
    outline_contours layout_new query tree_new sort_ends clean (S n) solver dbg F to_int int_area outer inner (join_normalize F join) paths = ROk contours ->
    forall q, ~ near_drawn d paths q ->
    contours_wind contours q = count (fun path => is_outer F int_area path && covered F to_int join (n_neg F outer) path q) paths - count (fun path => is_inner F int_area path && covered F to_int join inner (rev path) q) paths.
  Proof.
    induction paths as [|path paths IH]; intros contours Ft Kp H q A.
    { injection H as <-. reflexivity. }
    inversion Ft as [|? ? [Co Ci] Ft']; subst. inversion Kp as [|? ? [Ko Ki] Kp']; subst. cbn [outline_contours] in H. rewrite !count_cons. unfold is_outer, is_inner in *.
    assert (A' : ~ near_drawn d paths q) by (intro X; apply A; apply near_cons; auto).
    destruct (Z.abs (int_area path) <=? 1) eqn:E1.
    { apply Z.leb_le in E1. replace (int_area path <? -1) with false by (symmetry; apply Z.ltb_ge; lia). replace (1 <? int_area path) with false by (symmetry; apply Z.ltb_ge; lia).
      cbn [andb]. rewrite (IH contours Ft' Kp' H q A'). lia. }
    apply Z.leb_gt in E1. destruct (int_area path <? 0) eqn:E2.
    - apply Z.ltb_lt in E2. assert (E3 : (int_area path <? -1) = true) by (apply Z.ltb_lt; lia). replace (1 <? int_area path) with false by (symmetry; apply Z.ltb_ge; lia).
      destruct (outline_one _ _ _ _ _ _ _ _ _ _ _ _ _ _ _) as [shapes| |] eqn:Eo; try discriminate. cbn [rbind] in H.
      destruct (outline_contours _ _ _ _ _ _ _ _ _ _ _ _ _ _ _) as [r| |] eqn:Er; try discriminate. cbn [rbind] in H. injection H as <-.
      destruct (one_region _ _ _ _ _ (Co E3) (Ko E3) Eo) as (_ & _ & W). rewrite contours_app, W, (IH r Ft' Kp' eq_refl q A').
      + rewrite E3. cbn [andb sign_of]. destruct (covered F to_int join (n_neg F outer) path q); lia.
      + intro X. apply A. exists path. split; [left; auto|]. left. split; auto.
    - apply Z.ltb_ge in E2. assert (E3 : (1 <? int_area path) = true) by (apply Z.ltb_lt; lia). replace (int_area path <? -1) with false by (symmetry; apply Z.ltb_ge; lia).
      destruct (outline_one _ _ _ _ _ _ _ _ _ _ _ _ _ _ _) as [shapes| |] eqn:Eo; try discriminate. cbn [rbind] in H.
      destruct (outline_contours _ _ _ _ _ _ _ _ _ _ _ _ _ _ _) as [r| |] eqn:Er; try discriminate. cbn [rbind] in H. injection H as <-.
      destruct (one_region _ _ _ _ _ (Ci E3) (Ki E3) Eo) as (_ & _ & W). rewrite contours_app, contours_rev, W, (IH r Ft' Kp' eq_refl q A').
      + rewrite E3. cbn [andb sign_of]. destruct (covered F to_int join inner (rev path) q); lia.
      + intro X. apply A. exists path. split; [left; auto|]. right. split; auto.
  Qed.

  (** ** The overlay at the end *)
  Lemma d_pos : (0 <= inject_Z d)%Q.
  Proof. change 0%Q with (inject_Z 0). rewrite <- Zle_Qle. rewrite <- drift_moved. apply drift_pos. Qed.
  Lemma near_drawn_mono e e' paths q : e <= e' -> near_drawn e paths q -> near_drawn e' paths q.
  Proof.
    intros L (path & Ip & H). exists path. split; auto. assert (L' : (inject_Z e <= inject_Z e')%Q) by (rewrite <- Zle_Qle; auto).
    destruct H as [[E (segs & Es & s & Is & W)]|[E (segs & Es & s & Is & W)]]; [left|right]; (split; auto); exists segs; (split; auto); exists s; (split; auto); eapply within_mono; eauto.
  Qed.
  (** near a contour of an offset, hence near a segment drawn *)
  Lemma near_twice paths contours q : edges_at (near_drawn d paths) contours -> near_input d (map (fun c => (c, Subject)) contours) q -> near_drawn (2 * d) paths q.
  Proof.
    intros E (c & t & e & Ic & Ie & W). apply in_map_iff in Ic as (c' & X & Ic). injection X as -> _. destruct W as (t0 & T & X & Y).
    (* the foot of [q] on the edge *)
    set (m := (qx (fst e) + t0 * (qx (snd e) - qx (fst e)), qy (fst e) + t0 * (qy (snd e) - qy (fst e)))%Q).
    destruct (E c e m Ic Ie) as (path & Ip & H).
    { exists t0. split; auto. split; reflexivity. }
    assert (K : forall segs, near_segs d segs m -> @near_segs cntO (2 * d) segs q).
    { intros segs (s & Is & (u & U & X' & Y')). exists s. split; auto. exists u. split; auto. replace (2 * d) with (d + d) by lia. rewrite inject_Z_plus.
      unfold m in X', Y'. cbn [fst snd] in X', Y'. clear - X Y X' Y'. rewrite Qabs_le_iff in X, Y, X', Y'. split; apply Qabs_le_iff; lra. }
    exists path. split; auto. destruct H as [[E1 (segs & Es & Hs)]|[E1 (segs & Es & Hs)]]; [left|right]; (split; auto); exists segs; auto.
  Qed.
  Lemma bounded_adds contours : (forall c p, In c contours -> In p c -> bounded_pt p) -> bounded_input (map (fun c => (c, Subject)) contours).
  Proof. intro B. unfold bounded_input. apply Forall_map. apply Forall_forall. intros c Ic. cbn [fst]. apply Forall_forall. intros p Ip. destruct (B c p Ic Ip). lia. Qed.
  Lemma final_edges contours clockwise min_area shapes : (forall c p, In c contours -> In p c -> bounded_pt p) -> fit_contours contours ->
    positive_overlay layout_new query tree_new sort_ends clean (S n) solver dbg clockwise min_area contours = ROk shapes ->
    edges_at (near_input d (map (fun c => (c, Subject)) contours)) (concat shapes) /\ in_range shapes.
  Proof.
    intros B [O N] H. unfold positive_overlay in H. destruct (overlay_links _ _ _ _ _ _ _ _) as [ls| |] eqn:Hl; try discriminate. cbn [rbind] in H.
    destruct (graph_new ls (sort_ends ls)) as [g|] eqn:Hg; [|discriminate]. cbn [of_opt rbind] in H. destruct (extract_shapes _ _ _ _ _ _ _ _) as [sh|] eqn:Hx; [|discriminate]. injection H as <-.
    eapply overlay_shapes_links; eauto using bounded_adds. apply Forall_map. exact O.
  Qed.
  Lemma final_region contours clockwise min_area shapes : (forall c p, In c contours -> In p c -> bounded_pt p) -> fit_contours contours -> kept_contours contours clockwise min_area ->
    positive_overlay layout_new query tree_new sort_ends clean (S n) solver dbg clockwise min_area contours = ROk shapes ->
    shapes_at (sign_of clockwise) (fun q => ~ near_input d (map (fun c => (c, Subject)) contours) q) (fun q => 0 <? contours_wind contours q) shapes.
  Proof.
    intros B [O N] V H. unfold positive_overlay in H. set (adds := map (fun c => (c, Subject)) contours) in *.
    destruct (operand_subject contours) as [Os Oc]. fold adds in Os, Oc.
    assert (O' : Forall (fun a => open_contour (fst a)) adds) by (unfold adds; apply Forall_map; exact O).
    destruct (overlay_links _ _ _ _ _ _ _ _) as [ls| |] eqn:Hl; try discriminate. cbn [rbind] in H.
    destruct (overlay_near layout_new Lay query Q tree_new n solver adds RSubject Positive ls (bounded_adds _ B) N O' Hl) as (segs & A & -> & W & _).
    destruct (C37_direction segs Positive RSubject (sort_ends _) clean clockwise true min_area A Cl (Sort _)) as (g & ps & Hg & Hp & D).
    rewrite Hg in H. cbn [of_opt rbind] in H. specialize (V _ g ps Hl Hg Hp).
    destruct D as (D1 & D2 & D3 & _ & D4). { destruct V as [V|V]; [auto|right]. intros p I. rewrite Forall_forall in V. auto. }
    unfold extract_shapes in H. rewrite Hp in H. destruct (anchors_of dbg clockwise 0 ps) as [[an srt]|]; [|discriminate].
    destruct (join_sorted_holes _ _ _ _ _) as [sh|] eqn:Ej; [|discriminate]. cbn [of_opt] in H. injection H as <-.
    destruct (join_grouped _ _ _ _ _ _ Ej) as [G0 G1].
    eapply grouped_at; eauto using sign_ne. split; auto. split; auto. split; auto. split.
    - intro q. rewrite D4. exists (bool_op RSubject (inside Positive (wind (subj_chain segs) q)) (inside Positive (wind (clip_chain segs) q))). destruct (bool_op _ _ _); cbn [bz]; lia.
    - intros q Aq. rewrite D4, W by exact Aq. unfold wanted. rewrite Os. cbn [bool_op inside]. destruct (0 <? contours_wind contours q); cbn [bz]; lia.
  Qed.

  (** Any number of contours: away from the segments drawn, the points that more offsets of outer contours than offsets of holes cover. *)
  Theorem C45_several_near clockwise min_area paths shapes : (2 <= length paths)%nat -> fit_paths paths -> kept_paths paths ->
    (forall contours, outline_contours layout_new query tree_new sort_ends clean (S n) solver dbg F to_int int_area outer inner (join_normalize F join) paths = ROk contours ->
       fit_contours contours /\ kept_contours contours clockwise min_area) ->
    custom clockwise min_area paths = ROk shapes ->
    shapes_at (sign_of clockwise) (fun q => ~ near_drawn (2 * d) paths q) (outline_region F to_int int_area outer inner join paths) shapes.
  Proof.
    intros L Ft Kp Cc H. destruct paths as [|p0 [|p1 paths]]; try (simpl in L; lia). cbn [outline_custom] in H. set (ps := p0 :: p1 :: paths) in *.
    destruct (outline_contours _ _ _ _ _ _ _ _ _ _ _ _ _ _ ps) as [contours| |] eqn:Ec; try discriminate. cbn [rbind] in H.
    destruct (Cc _ eq_refl) as [Fc Kc]. destruct (contours_edges ps contours Ft Ec) as [Ed B].
    destruct (final_region contours clockwise min_area shapes B Fc Kc H) as (S1 & S2 & S3). split; auto. split; auto. intros q Aq. rewrite S3 by (intro X; apply Aq; eapply near_twice; eauto).
    rewrite (contours_region ps contours Ft Kp Ec q). 
    - unfold outline_region. destruct (0 <? _) eqn:E1, (_ <? _) eqn:E2 in |- *; auto; rewrite ?Z.ltb_lt, ?Z.ltb_ge in *; lia.
    - intro X. apply Aq. eapply near_drawn_mono; [|exact X]. pose proof d_pos as P. change 0%Q with (inject_Z 0) in P. rewrite <- Zle_Qle in P. lia.
  Qed.
  Lemma several_drawn clockwise min_area paths shapes : (2 <= length paths)%nat -> fit_paths paths ->
    (forall contours, outline_contours layout_new query tree_new sort_ends clean (S n) solver dbg F to_int int_area outer inner (join_normalize F join) paths = ROk contours -> fit_contours contours) ->
    custom clockwise min_area paths = ROk shapes -> edges_at (near_drawn (2 * d) paths) (concat shapes) /\ in_range shapes.
  Proof.
    intros L Ft Cc H. destruct paths as [|p0 [|p1 paths]]; try (simpl in L; lia). cbn [outline_custom] in H. set (ps := p0 :: p1 :: paths) in *.
    destruct (outline_contours _ _ _ _ _ _ _ _ _ _ _ _ _ _ ps) as [contours| |] eqn:Ec; try discriminate. cbn [rbind] in H.
    destruct (contours_edges ps contours Ft Ec) as [Ed B]. destruct (final_edges contours clockwise min_area shapes B (Cc _ eq_refl) H) as [E R]. split; auto.
    intros c e q Ic Ie Oq. eapply near_twice; [exact Ed|]. eapply E; eauto.
  Qed.
  (** and no edge of the answer is farther than twice [moved] from a segment drawn, whatever contours are thrown away *)
  Theorem C45_several_edges clockwise min_area paths shapes : (2 <= length paths)%nat -> fit_paths paths ->
    (forall contours, outline_contours layout_new query tree_new sort_ends clean (S n) solver dbg F to_int int_area outer inner (join_normalize F join) paths = ROk contours -> fit_contours contours) ->
    custom clockwise min_area paths = ROk shapes -> edges_at (near_drawn (2 * d) paths) (concat shapes).
  Proof. intros L Ft Cc H. exact (proj1 (several_drawn _ _ _ _ L Ft Cc H)). Qed.
End Near.

(** ** Examples *)
(** a tilted square with a triangle as a hole, both offset by 5: the sides of the triangle, moved inwards, do not cross in points of the grid *)
Definition skew_paths : list (list (Q * Q)) := [[(0, 0); (100, 17); (83, 117); (- (17 # 1), 100)]; [(30, 30); (40, 83); (71, 47)]]%Q.
Definition skew_contours : list (list pt) := [[Pt (-18) 105; Pt (-22) 99; Pt (-5) (-1); Pt 1 (-5); Pt 101 12; Pt 105 18; Pt 88 118; Pt 82 122]; [Pt 62 49; Pt 37 39; Pt 43 72]].
Definition skew_run (fuel : nat) : run (list (list (list pt))) :=
  outline_custom lay4 qry (fun _ => true) sorted_ends keep fuel (mk_solver StAuto) true QF q_round q_area 5%Q 5%Q (Bevel QF) false 1 skew_paths.
Example C45_several_runs : moved (precision (mk_solver StAuto)) 1 = 2 /\ skew_run 1 = RFuel /\
  skew_run 2 = ROk [[[Pt (-18) 105; Pt (-22) 99; Pt (-5) (-1); Pt 1 (-5); Pt 101 12; Pt 105 18; Pt 88 118; Pt 82 122]; [Pt 37 39; Pt 43 72; Pt 62 49]]] /\
  outline_contours lay4 qry (fun _ => true) sorted_ends keep 2 (mk_solver StAuto) true QF q_round q_area 5%Q 5%Q (join_normalize QF (Bevel QF)) skew_paths = ROk skew_contours /\
  option_map (fun segs => exactb (map sx (sort_merge segs))) (outline_segments QF q_round 5%Q (join_normalize QF (Bevel QF)) (rev (nth 1 skew_paths []))) = Some false /\
  map (outline_region QF q_round q_area 5%Q 5%Q (Bevel QF) skew_paths) [(1, 1); (35, 35); (45, 55); (- (12 # 1), 60); (120, 5)]%Q = [true; true; false; true; false].
Proof. repeat (split; [vm_compute; reflexivity|]). vm_compute. reflexivity. Qed.
Example C45_edges_contract : clean_ok keep /\ clean_edges keep.
Proof. split; [intros b c q; reflexivity|intros b c e q I O; exists e; auto]. Qed.
Definition fit_check (radius : Q) (path : list (Q * Q)) : bool :=
  match outline_segments QF q_round radius (join_normalize QF (Bevel QF)) path with
  | None => true
  | Some segs => forallb (fun s => negb (degenerate s) && boundedb (sx s)) segs && is_list_split (mk_solver StAuto) (length (sort_merge segs))
  end.
Lemma fit_check_ok radius path : fit_check radius path = true -> fit_path (mk_solver StAuto) QF q_round (Bevel QF) radius path.
Proof.
  unfold fit_check, fit_path. intros H segs E. rewrite E in H. apply andb_true_iff in H as [H L]. split; [|left; exact L].
  rewrite forallb_forall in H. apply Forall_forall. intros s I. specialize (H s I). apply andb_true_iff in H as [H0 H1]. split; [|apply boundedb_ok; auto].
  apply negb_true_iff in H0. intro X. unfold degenerate in H0. rewrite (proj2 (pt_eqb_eq _ _) X) in H0. discriminate.
Qed.
Definition kept_check (fuel : nat) (radius : Q) (path : list (Q * Q)) (clockwise : bool) (min_area : Z) : bool :=
  match outline_segments QF q_round radius (join_normalize QF (Bevel QF)) path with
  | None => true
  | Some segs =>
      match offset_links lay4 qry (fun _ => true) fuel (mk_solver StAuto) segs with
      | ROk ls => match graph_new ls (sorted_ends ls) with
                  | Some g => match offset_pieces g keep clockwise min_area with
                              | Some bps => forallb (fun bp => snd bp && p_valid (fst bp)) bps
                              | None => true end
                  | None => true end
      | _ => true end
  end.
Lemma kept_check_ok n radius path clockwise min_area : kept_check (S n) radius path clockwise min_area = true ->
  kept_path lay4 qry (fun _ => true) sorted_ends keep n (mk_solver StAuto) QF q_round (Bevel QF) radius path clockwise min_area.
Proof.
  unfold kept_check, kept_path. intros H segs ls g bps E Hl Hg Hp. rewrite E, Hl, Hg, Hp in H. rewrite forallb_forall in H. apply Forall_forall. intros bp I. apply H, andb_true_iff in I. tauto.
Qed.
Example C45_several_hypotheses :
  fit_paths (mk_solver StAuto) QF q_round q_area 5%Q 5%Q (Bevel QF) skew_paths /\
  kept_paths lay4 qry (fun _ => true) sorted_ends keep 1 (mk_solver StAuto) QF q_round q_area 5%Q 5%Q (Bevel QF) skew_paths /\
  fit_contours (mk_solver StAuto) skew_contours /\
  kept_contours lay4 qry (fun _ => true) sorted_ends keep 1 (mk_solver StAuto) skew_contours false 1.
Proof.
  split; [|split; [|split]].
  - constructor; [|constructor; [|constructor]]; (split; intro H; try (vm_compute in H; discriminate)); apply fit_check_ok; vm_compute; reflexivity.
  - constructor; [|constructor; [|constructor]]; (split; intro H; try (vm_compute in H; discriminate)); apply kept_check_ok; vm_compute; reflexivity.
  - split; [repeat constructor; discriminate|]. left. vm_compute. reflexivity.
  - intros ls g ps Hl Hg Hp. right. vm_compute in Hl. injection Hl as <-. vm_compute in Hg. injection Hg as <-. vm_compute in Hp. injection Hp as <-. repeat constructor.
Qed.
Print Assumptions C45_stroke_edges.
Print Assumptions C45_single_edges.
Print Assumptions C45_several_near.
Print Assumptions C45_several_edges.
