(** * C48: the floating point interface.

    Contours with floating point coordinates are put on an integer grid, the integer overlay runs, and the result is taken back to
    floating point numbers.  The theorems say what comes back in terms of the contours that were given. *)
From Verif Require Import Base Spec QLib ModelSegm SegmProofs MergeProofs PlanarGeo PlanarSum ModelFill ModelFilter FillProofs FillCorrect
  ModelCross CrossProofs CrossPoint MarksProofs CoreResults Properties01 ModelSplit SplitProofs SplitPlanar SplitPass BinsProofs SplitApply SplitLoop
  ModelFrag ModelOverlay OverlayProofs FragProofs GridCover Properties02
  ModelGraph GraphProofs ModelExtract ExtractProofs ContourResults Rotation NextLink Properties03
  MoveLemma SectorLemma Sides WalkSides Orient Properties04 ModelBind BindProofs BindSweep Nest Properties05 SplitNear InputCover Properties15
  ModelFloat FloatSpace FloatProofs OverlayNear FloatMain.
From Coq Require Import Lqa Qabs Qround.
Open Scope Z_scope.

(** ** Iterating over a resource *)
(** Whatever is passed as subject, clip, shape or string (a contour, a list of contours, a list of shapes; empty contours and empty
    shapes included), the iterator yields every contour exactly once, in order, stops, and reads nothing out of bounds. *)
Theorem C48_paths calls res : (length (paths_of res) < calls)%nat -> iter_paths calls res = Some (paths_of res).
Proof. apply iter_ok. Qed.

(** ** Specification *)
(** the region asked for: [A] and [B] are the contours of the two operands, as they were given *)
Definition asked (r : OverlayRule) (fr : FillRule) (A B : list (list qpt)) (q : qpt) : bool :=
  bool_op r (inside fr (qcontours_wind A q)) (inside fr (qcontours_wind B q)).
(** how far the result may be off: snapping to the grid, [n] passes of splitting, the way back, the clean-up *)
Definition slack (s kappa delta eta : Q) (p : Precision) (n : nat) : Q := (s * kappa + s * inject_Z (moved p n) + delta + eta)%Q.
(** a filled point of a shape: inside of the first contour, not inside of a hole *)
Definition qencloses (c : list qpt) (q : qpt) : Prop := qcontour_wind c q <> 0.
Definition qcovers (sh : list (list qpt)) (q : qpt) : Prop :=
  match sh with [] => False | o :: holes => qencloses o q /\ Forall (fun h => ~ qencloses h q) holes end.

(** ** Proofs *)
Definition tag (t : ShapeType) (cs : list (list qpt)) : list (list qpt * ShapeType) := map (fun c => (c, t)) cs.
Lemma tag_fst t cs : map fst (tag t cs) = cs.
Proof. unfold tag. rewrite map_map. apply map_id. Qed.
Lemma fold_add cs t : forall o, fold_left (fun o c => unsafe_add_contour o c t) cs o = FOverlay (fo_input o ++ snap (fo_adapter o) (tag t cs)) (fo_adapter o).
Proof.
  induction cs as [|c cs IH]; intro o; cbn [fold_left].
  - unfold snap. simpl. rewrite app_nil_r. destruct o; auto.
  - rewrite IH. unfold unsafe_add_contour. cbn [fo_input fo_adapter]. rewrite <- app_assoc. reflexivity.
Qed.
Lemma snap_app a l m : snap a (l ++ m) = snap a l ++ snap a m. Proof. apply map_app. Qed.
Lemma foperand_app t l m : foperand t (l ++ m) = foperand t l ++ foperand t m.
Proof. unfold foperand. rewrite filter_app, map_app. auto. Qed.
Lemma foperand_tag_s cs : foperand Subject (tag Subject cs) = cs /\ foperand Clip (tag Subject cs) = [].
Proof. unfold foperand, tag. split; induction cs as [|c cs IH]; auto. cbn [map filter snd fst]. f_equal; auto. Qed.
Lemma foperand_tag_c cs : foperand Clip (tag Clip cs) = cs /\ foperand Subject (tag Clip cs) = [].
Proof. unfold foperand, tag. split; induction cs as [|c cs IH]; auto. cbn [map filter snd fst]. f_equal; auto. Qed.

Section Resources.
  Variables (with_iter : list qpt -> adapter) (calls : nat).
  Lemma subj_clip_spec subj clip : (length (paths_of subj) < calls)%nat -> (length (paths_of clip) < calls)%nat ->
    with_subj_and_clip with_iter calls subj clip =
      let a := with_iter (concat (paths_of subj ++ paths_of clip)) in Some (FOverlay (snap a (tag Subject (paths_of subj) ++ tag Clip (paths_of clip))) a).
  Proof.
    intros L M. unfold with_subj_and_clip, unsafe_add_source. rewrite !iter_ok by auto. cbn [option_map]. rewrite !fold_add. cbn [fo_input fo_adapter app]. rewrite snap_app. auto.
  Qed.
  Lemma subj_spec subj : (length (paths_of subj) < calls)%nat ->
    with_subj with_iter calls subj = let a := with_iter (concat (paths_of subj)) in Some (FOverlay (snap a (tag Subject (paths_of subj))) a).
  Proof. intros L. unfold with_subj, unsafe_add_source. rewrite !iter_ok by auto. cbn [option_map]. rewrite fold_add. auto. Qed.
End Resources.

Section WithContracts.
  Variable layout_new : Z -> Z -> nat -> option (Z -> nat).
  Hypothesis Lay : layout_ok layout_new.
  Variable query : list (nat * xseg) -> Z * Z -> Z -> list (nat * xseg).
  Hypothesis Qry : query_ok query.
  Variable tree_new : Z * Z -> bool.
  Variable sort_ends : list link -> list (nat * pt).
  Hypothesis Sort : forall ls, ends_ok ls (sort_ends ls).
  Variable clean : bool -> list pt -> list pt * bool.
  Hypothesis Cl : clean_ok clean.
  Hypothesis Ce : clean_edges clean.
  Variable with_iter : list qpt -> adapter.
  Variable float_clean : adapter -> list (list (list qpt)) -> list (list (list qpt)).
  Variables (calls n : nat) (dbg : bool).
  Notation run_custom := (float_overlay_custom layout_new query tree_new sort_ends clean float_clean (S n) dbg).

  (** What is assumed about two operands [subj], [clip] and about the libraries: the adapter [i_float] builds for their points keeps its
      promise; no contour starts and ends in the same cell (see [C48_closing_point_refuted]); the input is not so large that the grid
      of fragments is used. *)
  Record usable (solver : Solver) (f : contour_filter) (fadds : list (list qpt * ShapeType)) (s : Q) (o : qpt) (kappa delta eta : Q) : Prop := {
    u_adapter : adapter_ok (with_iter (concat (map fst fadds))) s o kappa delta (concat (map fst fadds));
    u_open : Forall (fun c => open_contour (map (float_to_int (with_iter (concat (map fst fadds)))) c)) (map fst fadds);
    u_grid : no_grid solver (length (sort_merge (input_segments (snap (with_iter (concat (map fst fadds))) fadds))));
    u_area : (f_min_area f == 0)%Q;
    u_eta : (0 <= eta)%Q;
    u_clean : f_clean f = true -> float_clean_ok float_clean (with_iter (concat (map fst fadds))) eta }.

  Section Adds.
    Variables (solver : Solver) (f : contour_filter) (fadds : list (list qpt * ShapeType)) (s : Q) (o : qpt) (kappa delta eta : Q).
    Hypothesis U : usable solver f fadds s o kappa delta eta.
    Notation a := (with_iter (concat (map fst fadds))).
    Notation reg r fr q := (bool_op r (inside fr (qcontours_wind (foperand Subject fadds) q)) (inside fr (qcontours_wind (foperand Clip fadds) q))).

    Lemma usable_open : Forall (fun x => open_contour (fst x)) (snap a fadds).
    Proof.
      pose proof (u_open _ _ _ _ _ _ _ _ U) as H. rewrite Forall_forall in *. intros x I. apply in_map_iff in I as (y & <- & I). cbn [fst]. apply H. apply in_map. auto.
    Qed.
    Lemma custom_near r fr clockwise out : run_custom (FOverlay (snap a fadds) a) r fr clockwise f solver = ROk out ->
      exists shapes, result_near n solver (snap a fadds) r fr clockwise shapes /\ out = float_result float_clean a f shapes.
    Proof.
      unfold float_overlay_custom. cbn [fo_input fo_adapter]. rewrite (ok_zero _ _ _ _ _ _ (u_adapter _ _ _ _ _ _ _ _ U)) by apply (u_area _ _ _ _ _ _ _ _ U).
      intro H. destruct (overlay_custom _ _ _ _ _ _ _ _ _ _ _ _ _ _) as [shapes| |] eqn:E; try discriminate. cbn [fbind] in H. exists shapes. split; [|congruence].
      eapply overlay_custom_near; eauto.
      - eapply snap_bounded, (u_adapter _ _ _ _ _ _ _ _ U).
      - apply (u_grid _ _ _ _ _ _ _ _ U).
      - apply usable_open.
    Qed.
    Lemma graph_shapes_near r fr clockwise g out : into_graph layout_new query tree_new sort_ends (S n) (FOverlay (snap a fadds) a) fr solver = ROk g ->
      graph_shapes clean float_clean dbg g r clockwise f = ROk out ->
      exists shapes, result_near n solver (snap a fadds) r fr clockwise shapes /\ out = float_result float_clean a f shapes.
    Proof.
      unfold into_graph, graph_shapes. cbn [fo_input fo_adapter]. intros Hg H.
      destruct (graph_links _ _ _ _ _ _ _) as [ls| |] eqn:E; try discriminate. cbn [fbind] in Hg.
      destruct (graph_new ls (sort_ends ls)) as [gr|] eqn:Eg; [|discriminate]. cbn [fbind fopt] in Hg.
      assert (g = FGraph ls gr a) by congruence. subst g. cbn [fg_adapter fg_links fg_graph] in H.
      rewrite (ok_zero _ _ _ _ _ _ (u_adapter _ _ _ _ _ _ _ _ U)) in H by apply (u_area _ _ _ _ _ _ _ _ U).
      destruct (extract_shapes _ _ _ _ _ _ _ _) as [shapes|] eqn:Ex; [|discriminate]. cbn [fbind fopt] in H. exists shapes. split; [|congruence].
      eapply graph_near; eauto.
      - eapply snap_bounded, (u_adapter _ _ _ _ _ _ _ _ U).
      - apply (u_grid _ _ _ _ _ _ _ _ U).
      - apply usable_open.
    Qed.
    Lemma near_wind r fr clockwise shapes q : result_near n solver (snap a fadds) r fr clockwise shapes ->
      far_from (slack s kappa delta eta (precision solver) n) (map fst fadds) q ->
      qcontours_wind (concat (float_result float_clean a f shapes)) q = if reg r fr q then sign_of clockwise else 0.
    Proof.
      intros R Fq. eapply float_near; eauto.
      - apply (u_adapter _ _ _ _ _ _ _ _ U).
      - apply (u_clean _ _ _ _ _ _ _ _ U).
      - apply (u_eta _ _ _ _ _ _ _ _ U).
    Qed.
    Lemma near_edges r fr clockwise shapes c e q : f_clean f = false -> result_near n solver (snap a fadds) r fr clockwise shapes ->
      In c (concat (float_result float_clean a f shapes)) -> In e (ring c) -> qwithin 0 (fst e) (snd e) q ->
      close_to (slack s kappa delta 0 (precision solver) n) (map fst fadds) q.
    Proof. unfold float_result. intros -> R Ic Ie W. eapply float_edges_near; eauto. apply (u_adapter _ _ _ _ _ _ _ _ U). Qed.
  End Adds.

  (** ** [FloatOverlay::overlay_custom] *)
  (** The contours returned run once around every point of the region asked for, in the direction asked for, and not around any other
      point, except for points close to an edge given. *)
  Theorem C48_overlay subj clip ov r fr clockwise f solver out s o kappa delta eta q :
    (length (paths_of subj) < calls)%nat -> (length (paths_of clip) < calls)%nat ->
    usable solver f (tag Subject (paths_of subj) ++ tag Clip (paths_of clip)) s o kappa delta eta ->
    with_subj_and_clip with_iter calls subj clip = Some ov -> run_custom ov r fr clockwise f solver = ROk out ->
    far_from (slack s kappa delta eta (precision solver) n) (paths_of subj ++ paths_of clip) q ->
    qcontours_wind (concat out) q = if asked r fr (paths_of subj) (paths_of clip) q then sign_of clockwise else 0.
  Proof.
    intros Ls Lc U Ho H Fq. rewrite subj_clip_spec in Ho by auto. cbv zeta in Ho.
    set (fadds := tag Subject (paths_of subj) ++ tag Clip (paths_of clip)) in *.
    assert (E : map fst fadds = paths_of subj ++ paths_of clip) by (unfold fadds; rewrite map_app, !tag_fst; auto).
    rewrite <- E in Ho, Fq. injection Ho as <-.
    destruct (custom_near _ _ _ _ _ _ _ _ U _ _ _ _ H) as (shapes & R & ->). rewrite (near_wind _ _ _ _ _ _ _ _ U _ _ _ _ _ R Fq).
    unfold asked, fadds. rewrite !foperand_app. destruct (foperand_tag_s (paths_of subj)) as [-> ->]. destruct (foperand_tag_c (paths_of clip)) as [-> ->].
    rewrite app_nil_r. reflexivity.
  Qed.
  (** ** [SingleFloatOverlay::overlay]: default solver and filter, [f32] or [f64] *)
  Theorem C48_single bits subj clip r fr out s o kappa delta eta q :
    (length (paths_of subj) < calls)%nat -> (length (paths_of clip) < calls)%nat ->
    usable auto (Filter 0 true (bits <=? 32)%nat) (tag Subject (paths_of subj) ++ tag Clip (paths_of clip)) s o kappa delta eta ->
    single_overlay layout_new query tree_new sort_ends clean with_iter float_clean calls (S n) dbg bits subj clip r fr = ROk out ->
    far_from (slack s kappa delta eta (precision auto) n) (paths_of subj ++ paths_of clip) q ->
    qcontours_wind (concat out) q = if asked r fr (paths_of subj) (paths_of clip) q then 1 else 0.
  Proof.
    intros Ls Lc U H Fq. unfold single_overlay in H. destruct (with_subj_and_clip with_iter calls subj clip) as [ov|] eqn:E; [|discriminate].
    rewrite (C48_overlay subj clip ov r fr false (Filter 0 true (bits <=? 32)%nat) auto out s o kappa delta eta q); auto.
  Qed.
  (** ** [SimplifyShape]: a region equal to the input under the fill rule, up to the same slack *)
  Theorem C48_simplify subj fr clockwise min_area solver out s o kappa delta eta q : (length (paths_of subj) < calls)%nat ->
    usable solver (Filter min_area true true) (tag Subject (paths_of subj)) s o kappa delta eta ->
    simplify_shape layout_new query tree_new sort_ends clean with_iter float_clean calls (S n) dbg subj fr clockwise min_area solver = ROk out ->
    far_from (slack s kappa delta eta (precision solver) n) (paths_of subj) q ->
    qcontours_wind (concat out) q = if inside fr (qcontours_wind (paths_of subj) q) then sign_of clockwise else 0.
  Proof.
    intros Ls U H Fq. unfold simplify_shape in H. rewrite subj_spec in H by auto. cbv zeta in H.
    set (fadds := tag Subject (paths_of subj)) in *. assert (E : map fst fadds = paths_of subj) by apply tag_fst. rewrite <- E in H, Fq.
    destruct (custom_near _ _ _ _ _ _ _ _ U _ _ _ _ H) as (shapes & R & ->). rewrite (near_wind _ _ _ _ _ _ _ _ U _ _ _ _ _ R Fq).
    unfold fadds. destruct (foperand_tag_s (paths_of subj)) as [-> ->]. reflexivity.
  Qed.
  (** ** [FloatOverlayGraph]: one graph, every rule *)
  Theorem C48_graph subj clip ov g r fr clockwise f solver out s o kappa delta eta q :
    (length (paths_of subj) < calls)%nat -> (length (paths_of clip) < calls)%nat ->
    usable solver f (tag Subject (paths_of subj) ++ tag Clip (paths_of clip)) s o kappa delta eta ->
    with_subj_and_clip with_iter calls subj clip = Some ov -> into_graph layout_new query tree_new sort_ends (S n) ov fr solver = ROk g ->
    graph_shapes clean float_clean dbg g r clockwise f = ROk out ->
    far_from (slack s kappa delta eta (precision solver) n) (paths_of subj ++ paths_of clip) q ->
    qcontours_wind (concat out) q = if asked r fr (paths_of subj) (paths_of clip) q then sign_of clockwise else 0.
  Proof.
    intros Ls Lc U Ho Hg H Fq. rewrite subj_clip_spec in Ho by auto. cbv zeta in Ho.
    set (fadds := tag Subject (paths_of subj) ++ tag Clip (paths_of clip)) in *.
    assert (E : map fst fadds = paths_of subj ++ paths_of clip) by (unfold fadds; rewrite map_app, !tag_fst; auto).
    rewrite <- E in Ho, Fq. injection Ho as <-.
    destruct (graph_shapes_near _ _ _ _ _ _ _ _ U _ _ _ _ _ Hg H) as (shapes & R & ->). rewrite (near_wind _ _ _ _ _ _ _ _ U _ _ _ _ _ R Fq).
    unfold asked, fadds. rewrite !foperand_app. destruct (foperand_tag_s (paths_of subj)) as [-> ->]. destruct (foperand_tag_c (paths_of clip)) as [-> ->].
    rewrite app_nil_r. reflexivity.
  Qed.
  (** ** The shapes ([simplify_contour] and [clean_result] off, counter-clockwise): they make up the region and do not overlap *)
  Theorem C48_shapes subj clip ov r fr f solver out s o kappa delta eta q :
    (length (paths_of subj) < calls)%nat -> (length (paths_of clip) < calls)%nat ->
    usable solver f (tag Subject (paths_of subj) ++ tag Clip (paths_of clip)) s o kappa delta eta ->
    dedup_ok clean -> f_simplify f = false -> f_clean f = false ->
    with_subj_and_clip with_iter calls subj clip = Some ov -> run_custom ov r fr false f solver = ROk out ->
    far_from (slack s kappa delta 0 (precision solver) n) (paths_of subj ++ paths_of clip) q ->
    ((exists sh, In sh out /\ qcovers sh q) <-> asked r fr (paths_of subj) (paths_of clip) q = true) /\
    forall k k' sh sh', k <> k' -> nth_error out k = Some sh -> nth_error out k' = Some sh' -> ~ (qcovers sh q /\ qcovers sh' q).
  Proof.
    intros Ls Lc U De Fs Fc Ho H Fq. rewrite subj_clip_spec in Ho by auto. cbv zeta in Ho.
    set (fadds := tag Subject (paths_of subj) ++ tag Clip (paths_of clip)) in *.
    assert (E : map fst fadds = paths_of subj ++ paths_of clip) by (unfold fadds; rewrite map_app, !tag_fst; auto).
    rewrite <- E in Ho, Fq. injection Ho as <-. set (a := with_iter (concat (map fst fadds))) in *.
    assert (Ok : adapter_ok a s o kappa delta (concat (map fst fadds))) by apply (u_adapter _ _ _ _ _ _ _ _ U).
    unfold float_overlay_custom in H. cbn [fo_input fo_adapter] in H. rewrite (ok_zero _ _ _ _ _ _ Ok) in H by apply (u_area _ _ _ _ _ _ _ _ U).
    rewrite Fs in H. destruct (overlay_custom _ _ _ _ _ _ _ _ _ _ _ _ _ _) as [shapes| |] eqn:Eo; try discriminate. cbn [fbind] in H.
    unfold float_result in H. rewrite Fc in H. assert (Eout : out = to_float a shapes) by congruence. subst out.
    assert (Bd : bounded_input (snap a fadds)) by (eapply snap_bounded; eauto). pose proof (u_grid _ _ _ _ _ _ _ _ U) as Ng. pose proof (usable_open _ _ _ _ _ _ _ _ U) as Op. fold a in Ng, Op.
    assert (R : result_near n solver (snap a fadds) r fr false shapes) by (eapply overlay_custom_near; eauto).
    destruct (overlay_shapes_near layout_new Lay query Qry tree_new n solver _ Bd Ng Op sort_ends Sort clean r fr dbg shapes De Eo) as [Dj Cv].
    assert (Fd : far_from (s * kappa + s * inject_Z (moved (precision solver) n) + delta) (map fst fadds) q) by (eapply far_mono; [|exact Fq]; unfold slack; lra).
    assert (Nn : ~ near_input (moved (precision solver) n) (snap a fadds) (unplace s o q)).
    { intro N. destruct (near_float a s o kappa delta fadds Ok _ q N) as (c1 & e1 & I1 & I2 & W). apply (Fd c1 e1 I1 I2). eapply qwithin_mono; [|exact W]. pose proof (ok_d _ _ _ _ _ _ Ok). lra. }
    assert (Nk : far_from (s * kappa) (map fst fadds) q).
    { eapply far_mono; [|exact Fd]. pose proof (ok_d _ _ _ _ _ _ Ok). pose proof (ok_s _ _ _ _ _ _ Ok).
      assert (0 <= s * inject_Z (moved (precision solver) n))%Q.
      { apply Qmult_le_0_compat; [lra|]. change 0%Q with (inject_Z 0). rewrite <- Zle_Qle. rewrite <- drift_moved. apply drift_pos. }
      lra. }
    assert (K : forall sh, In sh shapes -> (qcovers (map (map (int_to_float a)) sh) q <-> covers sh (unplace s o q))).
    { intros [|c hs] Is; [reflexivity|]. cbn [map qcovers covers]. unfold qencloses, encloses.
      assert (Ec : forall c', In c' (c :: hs) -> qcontour_wind (map (int_to_float a) c') q = contour_wind c' (unplace s o q)).
      { intros c' Ic. apply (float_contour a s o kappa delta fadds Ok n solver r fr false shapes R q c' Fd). apply in_concat. eauto. }
      rewrite (Ec c) by (simpl; auto). rewrite Forall_forall. split; intros [P1 P2]; split; auto.
      - intros h Ih. rewrite <- (Ec h) by (simpl; auto). apply P2, in_map, Ih.
      - intros h Ih. apply in_map_iff in Ih as (h' & <- & Ih). rewrite (Ec h') by (simpl; auto). apply P2, Ih. }
    split.
    - assert (W : asked r fr (paths_of subj) (paths_of clip) q = wanted r fr (snap a fadds) (unplace s o q)).
      { unfold asked, wanted. rewrite !(snap_operand a s o kappa delta fadds Ok) by auto. unfold fadds. rewrite !foperand_app.
        destruct (foperand_tag_s (paths_of subj)) as [-> ->]. destruct (foperand_tag_c (paths_of clip)) as [-> ->]. rewrite app_nil_r. reflexivity. }
      rewrite W, <- (Cv _ Nn). unfold to_float. split.
      + intros (sh & Is & Cs). apply in_map_iff in Is as (sh' & <- & Is). exists sh'. split; auto. apply K; auto.
      + intros (sh & Is & Cs). exists (map (map (int_to_float a)) sh). split; [apply (in_map (map (map (int_to_float a)))); auto|]. apply K; auto.
    - intros k k' sh sh' Nk' E1 E2 [C1 C2]. unfold to_float in E1, E2. rewrite nth_error_map in E1, E2.
      destruct (nth_error shapes k) as [x|] eqn:X1; [|discriminate]. destruct (nth_error shapes k') as [x'|] eqn:X2; [|discriminate]. cbn [option_map] in E1, E2.
      injection E1 as <-. injection E2 as <-. apply (Dj k k' x x' (unplace s o q) Nk' X1 X2). split; [apply K|apply K]; auto; eapply nth_error_In; eauto.
  Qed.
  (** ** Every edge returned is close to an edge given ([clean_result] off) *)
  Theorem C48_edges subj clip ov r fr clockwise f solver out s o kappa delta eta c e q :
    (length (paths_of subj) < calls)%nat -> (length (paths_of clip) < calls)%nat ->
    usable solver f (tag Subject (paths_of subj) ++ tag Clip (paths_of clip)) s o kappa delta eta -> f_clean f = false ->
    with_subj_and_clip with_iter calls subj clip = Some ov -> run_custom ov r fr clockwise f solver = ROk out ->
    In c (concat out) -> In e (ring c) -> qwithin 0 (fst e) (snd e) q ->
    close_to (slack s kappa delta 0 (precision solver) n) (paths_of subj ++ paths_of clip) q.
  Proof.
    intros Ls Lc U Fc Ho H Ic Ie W. rewrite subj_clip_spec in Ho by auto. cbv zeta in Ho.
    set (fadds := tag Subject (paths_of subj) ++ tag Clip (paths_of clip)) in *.
    assert (E : map fst fadds = paths_of subj ++ paths_of clip) by (unfold fadds; rewrite map_app, !tag_fst; auto).
    rewrite <- E in Ho |- *. injection Ho as <-.
    destruct (custom_near _ _ _ _ _ _ _ _ U _ _ _ _ H) as (shapes & R & ->). eapply near_edges; eauto.
  Qed.
End WithContracts.

(** ** The contracts can be met *)
(** a grid with cells of size 1/8; a coordinate goes to the nearest grid line *)
Definition grid8 : adapter :=
  Adapter (fun p => Pt (Qfloor (fst p * 8 + (1 # 2))) (Qfloor (snd p * 8 + (1 # 2))))
          (fun i => (qx i * (1 # 8), qy i * (1 # 8))%Q)
          (fun x => Qfloor (x * 64)).
Lemma round_near x : (Qabs (0 + (1 # 8) * inject_Z (Qfloor (x * 8 + (1 # 2))) - x) <= (1 # 8) * (1 # 2))%Q.
Proof.
  pose proof (Qfloor_le (x * 8 + (1 # 2))). pose proof (Qlt_floor (x * 8 + (1 # 2))) as L. rewrite inject_Z_plus in L. change (inject_Z 1) with 1%Q in L.
  apply Qabs_le_iff. split; lra.
Qed.
Lemma grid8_ok pts : (forall p, In p pts -> (- (100000000 # 1) < fst p < 100000000 # 1 /\ - (100000000 # 1) < snd p < 100000000 # 1)%Q) -> adapter_ok grid8 (1 # 8) (0, 0)%Q (1 # 2) 0 pts.
Proof.
  intro R. assert (K : forall x, (- (100000000 # 1) < x < 100000000 # 1)%Q -> - 2 ^ 30 < Qfloor (x * 8 + (1 # 2)) < 2 ^ 30).
  { intros x [A B]. change (2 ^ 30)%Z with 1073741824. pose proof (Qfloor_le (x * 8 + (1 # 2))). pose proof (Qlt_floor (x * 8 + (1 # 2))) as L.
    rewrite inject_Z_plus in L. change (inject_Z 1) with 1%Q in L. split; rewrite Zlt_Qlt.
    - rewrite inject_Z_opp. change (inject_Z 1073741824) with (1073741824 # 1)%Q. lra.
    - change (inject_Z 1073741824) with (1073741824 # 1)%Q. lra. }
  constructor; [lra|lra|lra| | | |].
  - intros p I. unfold place, close, grid8, qx, qy. cbn [fst snd float_to_int px py]. split; apply round_near.
  - intros p I. destruct (R p I). cbn [float_to_int grid8 px py]. split; apply K; auto.
  - intros i _ _. unfold place, close, grid8. cbn [fst snd int_to_float]. split; apply Qabs_le_iff; split; lra.
  - intros x E. cbn [sqr_float_to_int grid8]. rewrite E. reflexivity.
Qed.
Lemma keep_edges : clean_edges keep.
Proof. intros b c e q I O. exists e. auto. Qed.
Lemma leave_clean a eta : float_clean_ok (fun _ x => x) a eta.
Proof. intros shapes q _. reflexivity. Qed.

(** ** Examples *)
(** evaluate a distance claim: no edge of the contours is within the distance *)
Ltac far :=
  let c := fresh in let e := fresh in let Ic := fresh in let Ie := fresh in let X := fresh in let Y := fresh in
  intros c e Ic Ie (? & ? & X & Y); rewrite Qabs_le_iff in X, Y; cbv beta iota delta [paths_of app concat] in Ic;
  repeat (destruct Ic as [Ic|Ic]; [subst c; cbv beta iota delta [ring combine app] in Ie; repeat (destruct Ie as [Ie|Ie]; [subst e; cbn [fst snd] in *; lra|]); destruct Ie|]);
  destruct Ic.
Definition fl_subj : resource := Contour [(0, 0); (10 # 1, 0); (10 # 1, 10 # 1); (0, 10 # 1)]%Q.
Definition fl_clip : resource := Shapes [[[(51 # 10, 52 # 10); (151 # 10, 57 # 10); (149 # 10, 16 # 1); (41 # 10, 158 # 10)]%Q]; []].
Definition fl_adds := tag Subject (paths_of fl_subj) ++ tag Clip (paths_of fl_clip).
Definition fl_run (r : OverlayRule) : run (list (list (list qpt))) :=
  match with_subj_and_clip (fun _ => grid8) 5 fl_subj fl_clip with
  | Some ov => float_overlay_custom lay4 qry (fun _ => true) sorted_ends keep (fun _ x => x) 2 true ov r NonZero false (Filter 0 false false) auto
  | None => RPanic
  end.
Example C48_example :
  usable (fun _ => grid8) (fun _ x => x) auto (Filter 0 false false) fl_adds (1 # 8) (0, 0)%Q (1 # 2) 0 0 /\
  fl_run RIntersect = ROk [[[(80 # 8, 80 # 8); (37 # 8, 80 # 8); (41 # 8, 42 # 8); (80 # 8, 44 # 8)]%Q]] /\
  fl_run RDifference = ROk [[[(0 # 8, 80 # 8); (0 # 8, 0 # 8); (80 # 8, 0 # 8); (80 # 8, 44 # 8); (41 # 8, 42 # 8); (37 # 8, 80 # 8)]%Q]] /\
  (slack (1 # 8) (1 # 2) 0 0 (precision auto) 1 == 5 # 16)%Q /\
  far_from (5 # 16) (paths_of fl_subj ++ paths_of fl_clip) (7 # 1, 7 # 1)%Q /\ asked RIntersect NonZero (paths_of fl_subj) (paths_of fl_clip) (7 # 1, 7 # 1)%Q = true /\
  far_from (5 # 16) (paths_of fl_subj ++ paths_of fl_clip) (2 # 1, 2 # 1)%Q /\ asked RIntersect NonZero (paths_of fl_subj) (paths_of fl_clip) (2 # 1, 2 # 1)%Q = false.
Proof.
  split.
  { constructor.
    - apply grid8_ok. intros p I. vm_compute in I. repeat (destruct I as [<-|I]; [cbn [fst snd]; lra|]). destruct I.
    - apply Forall_forall. intros c I. vm_compute in I. repeat (destruct I as [<-|I]; [left; vm_compute; discriminate|]). destruct I.
    - left. reflexivity.
    - reflexivity.
    - lra.
    - discriminate. }
  split; [vm_compute; reflexivity|]. split; [vm_compute; reflexivity|]. split; [reflexivity|].
  split; [unfold fl_subj, fl_clip; far|]. split; [reflexivity|]. split; [unfold fl_subj, fl_clip; far|reflexivity].
Qed.
(** all contracts together *)
Example C48_contracts : layout_ok lay4 /\ query_ok qry /\ (forall ls, ends_ok ls (sorted_ends ls)) /\ clean_ok keep /\ clean_edges keep /\ dedup_ok keep /\ float_clean_ok (fun _ x => x) grid8 0.
Proof.
  split; [apply lay4_ok|]. split; [apply qry_ok|]. split; [apply sorted_ends_ok|]. split; [intros b c q; reflexivity|]. split; [apply keep_edges|]. split; [intros c _; reflexivity|].
  apply leave_clean.
Qed.
(** ** The first and the last point in the same cell *)
(** A contour whose last point is so close to its first point that both are put on the same grid point (or is equal to it) loses its first
    vertex: here a third of the quadrilateral is missing from its own simplification.  All other assumptions of [C48_simplify] hold. *)
Definition shut : list qpt := [(0, 0); (10 # 1, 1 # 1); (11 # 1, 12 # 1); (3 # 1, 7 # 1); (1 # 100, 1 # 100)]%Q.
Theorem C48_closing_point_refuted :
  adapter_ok grid8 (1 # 8) (0, 0)%Q (1 # 2) 0 (concat (paths_of (Contour shut))) /\
  simplify_shape lay4 qry (fun _ => true) sorted_ends keep (fun _ => grid8) (fun _ x => x) 5 2 true (Contour shut) NonZero false 0 auto =
    ROk [[[(88 # 8, 96 # 8); (24 # 8, 56 # 8); (80 # 8, 8 # 8)]%Q]] /\
  let q := (3 # 1, 2 # 1)%Q in
  far_from (slack (1 # 8) (1 # 2) 0 0 (precision auto) 1) [shut] q /\ inside NonZero (qcontours_wind [shut] q) = true /\
  qcontours_wind [[(88 # 8, 96 # 8); (24 # 8, 56 # 8); (80 # 8, 8 # 8)]%Q] q = 0.
Proof.
  split; [|split; [vm_compute; reflexivity|]].
  - apply grid8_ok. intros p I. vm_compute in I. repeat (destruct I as [<-|I]; [cbn [fst snd]; lra|]). destruct I.
  - cbv zeta. split; [|split; vm_compute; reflexivity]. intros c e Ic Ie (t & T & X & Y).
    assert (E : (slack (1 # 8) (1 # 2) 0 0 (precision auto) 1 == 5 # 16)%Q) by reflexivity. rewrite E in X, Y. rewrite Qabs_le_iff in X, Y.
    destruct Ic as [<-|[]]. cbv beta iota delta [ring combine app shut] in Ie. repeat (destruct Ie as [Ie|Ie]; [subst e; cbn [fst snd] in *; lra|]). destruct Ie.
Qed.

Print Assumptions C48_paths.
Print Assumptions C48_overlay.
Print Assumptions C48_single.
Print Assumptions C48_simplify.
Print Assumptions C48_graph.
Print Assumptions C48_shapes.
Print Assumptions C48_edges.
Print Assumptions C48_closing_point_refuted.
