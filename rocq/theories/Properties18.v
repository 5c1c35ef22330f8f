(** * C50: clipping lines by shapes and slicing shapes by lines, with floating point coordinates.

    [paths_of shape], [paths_of lines] are the contours and the paths given, [fmoves paths] the lines from each point of a path to the
    next.  [qcontours_wind]: winding number of contours with rational coordinates (FloatSpace.v). *)
From Verif Require Import Base Spec QLib ModelSegm SegmProofs MergeProofs PlanarGeo PlanarSum ModelFill ModelFilter FillProofs FillCorrect
  ModelCross CrossProofs CrossPoint MarksProofs CoreResults Properties01 ModelSplit SplitProofs SplitPlanar SplitPass BinsProofs SplitApply SplitLoop SplitFlags
  ModelFrag ModelOverlay OverlayProofs FragProofs GridCover Properties02 ModelGraph GraphProofs ModelExtract ExtractProofs ContourResults Rotation NextLink Properties03
  MoveLemma SectorLemma Sides WalkSides Orient ModelBind BindProofs BindSweep Nest Properties04 Properties05 ModelString StringProofs StringResults StringMain Properties07
  AreaWind ModelSlice SliceNext SliceWalk SliceLoops SliceMain SliceString SliceNest SliceShapes SliceFinal Properties14
  SplitNear InputCover Properties15 ModelFloat FloatSpace FloatProofs OverlayNear FloatMain Properties16 Rounds StringNear Properties17 FloatString.
From Coq Require Import Lqa Qabs Qround.
Open Scope Z_scope.

(** ** Specification *)
(** inside the shapes *)
Definition in_shapes (fr : FillRule) (shape : resource) (q : qpt) : bool := inside fr (qcontours_wind (paths_of shape) q).
(** what clipping keeps *)
Definition clip_wants (fr : FillRule) (cr : ClipRule) (shape : resource) (q : qpt) : bool := if cr_invert cr then negb (in_shapes fr shape q) else in_shapes fr shape q.
(** snapping to the grid and [n] passes of splitting; then the way back *)
Definition reach_grid (s kappa : Q) (solver : Solver) (n : nat) : Q := (s * kappa + s * inject_Z (moved (precision solver) n))%Q.
(** no edge of the shapes and no line within [d] *)
Definition far_both (d : Q) (shape lines : resource) (q : qpt) : Prop := far_from d (paths_of shape) q /\ forall w, In w (fmoves (paths_of lines)) -> ~ qwithin d (fst w) (snd w) q.

Section WithContracts.
  Variable layout_new : Z -> Z -> nat -> option (Z -> nat).
  Hypothesis Lay : layout_ok layout_new.
  Variable query : list (nat * xseg) -> Z * Z -> Z -> list (nat * xseg).
  Hypothesis Qry : query_ok query.
  Variable tree_new : Z * Z -> bool.
  Variable sort_ends : list link -> list (nat * pt).
  Hypothesis Ends : forall links, ends_ok links (sort_ends links).
  Variable cw_ordered : list pt -> bool.
  Hypothesis Hcw : cw_ok cw_ordered.
  Variable with_iter : list qpt -> adapter.
  Variable float_clean : adapter -> list (list (list qpt)) -> list (list (list qpt)).
  Variables (calls n : nat) (dbg : bool).

  (** What is assumed about the input and the libraries (as in C48): the adapter keeps its promise, no contour starts and ends in the same
      cell, the grid of fragments is not used, and splitting does not stop early (C14). *)
  Record usable_strings (solver : Solver) (shape lines : resource) (s : Q) (o : qpt) (kappa delta : Q) : Prop := {
    us_shape : (length (paths_of shape) < calls)%nat;
    us_lines : (length (paths_of lines) < calls)%nat;
    us_adapter : adapter_ok (with_iter (concat (paths_of shape ++ paths_of lines))) s o kappa delta (concat (paths_of shape ++ paths_of lines));
    us_open : Forall (fun c => open_contour (map (float_to_int (with_iter (concat (paths_of shape ++ paths_of lines)))) c)) (paths_of shape);
    us_grid : no_grid solver (length (sort_merge (string_segments (grid_items (with_iter (concat (paths_of shape ++ paths_of lines))) (paths_of shape) (paths_of lines)))));
    us_two : forall arr, split_segments layout_new query tree_new (S n) solver (string_segments (grid_items (with_iter (concat (paths_of shape ++ paths_of lines))) (paths_of shape) (paths_of lines))) = Done arr ->
      length arr = 2%nat -> strategy solver = StList }.

  Section Input.
    Variables (solver : Solver) (shape lines : resource) (s : Q) (o : qpt) (kappa delta : Q).
    Hypothesis U : usable_strings solver shape lines s o kappa delta.
    Notation a := (with_iter (concat (paths_of shape ++ paths_of lines))).
    Notation items := (grid_items a (paths_of shape) (paths_of lines)).
    Notation D := (inject_Z (moved (precision solver) n)).
    Let Ok := us_adapter _ _ _ _ _ _ _ U.

    Lemma us_items_open : Forall open_contour (shape_contours items).
    Proof. rewrite items_contours. apply Forall_map. exact (us_open _ _ _ _ _ _ _ U). Qed.
    Lemma us_bounded : string_bounded items. Proof. eapply items_bounded; exact Ok. Qed.
    Lemma arr_bounded arr : split_segments layout_new query tree_new (S n) solver (string_segments items) = Done arr -> forall x, In x arr -> bounded (sx x).
    Proof.
      intros Sp x Ix. destruct (string_done layout_new Lay query Qry tree_new (S n) solver items arr us_bounded (us_grid _ _ _ _ _ _ _ U) Sp) as (I & _ & _).
      pose proof (inv_bd _ I) as F. rewrite Forall_forall in F. auto.
    Qed.

    (** ** [clip_by] *)
    (** Every piece returned runs within reach of a line given; away from the edges of the shapes it lies where the rule wants it; and
        every point of a line at which the rule wants it, away from the edges, has a point of the output within reach.  (A line is lost if
        both its ends are put on the same grid point.) *)
    Theorem C50_clip fr cr out : clip_by layout_new query tree_new sort_ends with_iter calls (S n) lines shape fr cr solver = ROk out ->
      (forall e, In e (fmoves out) -> exists m, In m (fmoves (paths_of lines)) /\
         qwithin (reach_grid s kappa solver n + delta) (fst m) (snd m) (fst e) /\ qwithin (reach_grid s kappa solver n + delta) (fst m) (snd m) (snd e)) /\
      (forall e q d, In e (fmoves out) -> qwithin 0 (fst e) (snd e) q -> (reach_grid s kappa solver n + delta < d)%Q -> far_from d (paths_of shape) q -> clip_wants fr cr shape q = true) /\
      (forall m q d, In m (fmoves (paths_of lines)) -> float_to_int a (fst m) <> float_to_int a (snd m) -> qwithin 0 (fst m) (snd m) q ->
         (2 * reach_grid s kappa solver n < d)%Q -> far_from d (paths_of shape) q -> clip_wants fr cr shape q = true ->
         exists e q', In e (fmoves out) /\ qwithin 0 (fst e) (snd e) q' /\ close (reach_grid s kappa solver n + delta) q q').
    Proof.
      unfold clip_by. rewrite strings_spec by apply U. cbv zeta. unfold float_clip_lines. cbn [fs_items fs_adapter].
      destruct (clip_string_lines _ _ _ _ _ _ _ _ _) as [paths| |] eqn:E; try discriminate. cbn [fbind]. intro H. assert (out = map (map (int_to_float a)) paths) by congruence. subst out. clear H.
      destruct (C49_clip layout_new Lay query Qry tree_new sort_ends Ends n solver fr cr items paths us_bounded us_items_open (us_grid _ _ _ _ _ _ _ U) (us_two _ _ _ _ _ _ _ U) E) as (A & B & C).
      destruct (C26_clip_lines layout_new Lay query Qry tree_new sort_ends Ends (S n) solver fr cr items paths us_bounded (us_grid _ _ _ _ _ _ _ U) (us_two _ _ _ _ _ _ _ U) E) as (_ & _ & arr & Sp & _ & St & _).
      assert (Bd : forall e, In e (flat_map steps paths) -> bounded_pt (fst e) /\ bounded_pt (snd e)).
      { intros e Ie. destruct (string_segments items) as [|s0 l0] eqn:Es.
        - exfalso. unfold clip_string_lines, build_string in E. rewrite Es in E. cbv in E. assert (paths = []) by congruence. subst paths. destruct Ie.
        - rewrite <- Es in *. destruct (St e Ie) as (x & Ix & He). destruct (arr_bounded arr (Sp ltac:(rewrite Es; discriminate)) x Ix) as [B1 B2].
          destruct (dirs_ends x e He) as [-> | ->]; cbn [fst snd]; auto. }
      split; [|split].
      - exact (fclip_near a s o kappa delta (paths_of shape) (paths_of lines) Ok n solver paths Bd A).
      - exact (fclip_sound a s o kappa delta (paths_of shape) (paths_of lines) Ok n solver fr cr paths Bd B).
      - exact (fclip_complete a s o kappa delta (paths_of shape) (paths_of lines) Ok n solver fr cr paths Bd C).
    Qed.

    (** ** [slice_custom_by] *)
    Lemma slice_grid fr clockwise f out : (f_min_area f == 0)%Q ->
      slice_custom_by layout_new query tree_new sort_ends cw_ordered with_iter float_clean calls (S n) dbg shape lines fr clockwise f solver = ROk out ->
      exists links shapes, string_links layout_new query tree_new (S n) solver fr items = ROk links /\ out = float_result float_clean a f shapes /\ cut_along links shapes /\
        Forall (shape_ok (sign_of clockwise)) shapes /\
        (forall k k' sh sh' q, k <> k' -> nth_error shapes k = Some sh -> nth_error shapes k' = Some sh' -> ~ (covers sh q /\ covers sh' q)) /\
        (forall q, ~ near_contour (reachable solver n) items q -> ((exists sh, In sh shapes /\ covers sh q) <-> is_inside fr items q = true)) /\
        (forall c e q, In c (concat shapes) -> In e (edges c) -> on_seg (XS (fst e) (snd e)) q -> near_contour (reachable solver n) items q \/ near_line (reachable solver n) items q) /\
        (forall c p, In c (concat shapes) -> In p c -> bounded_pt p).
    Proof.
      intros Ma. unfold slice_custom_by. rewrite strings_spec by apply U. cbv zeta. cbn [fs_items fs_adapter]. rewrite (ok_zero _ _ _ _ _ _ Ok) by auto.
      destruct (slice_by _ _ _ _ _ _ _ _ _ _ _ _) as [shapes| |] eqn:E; try discriminate. cbn [fbind]. intro H. assert (out = float_result float_clean a f shapes) by congruence. subst out. clear H.
      destruct (string_links layout_new query tree_new (S n) solver fr items) as [links| |] eqn:El; try (unfold slice_by in E; rewrite El in E; discriminate).
      destruct (C49_slice layout_new Lay query Qry tree_new sort_ends Ends cw_ordered Hcw n solver dbg fr clockwise items links us_bounded us_items_open (us_grid _ _ _ _ _ _ _ U) (us_two _ _ _ _ _ _ _ U) El)
        as (shapes' & E' & So & Dj & Cv & Rp & Cut & Nr & _). rewrite E in E'. assert (shapes' = shapes) by congruence. subst shapes'.
      destruct (C46_slice layout_new Lay query Qry tree_new sort_ends Ends cw_ordered Hcw (S n) solver dbg fr clockwise items links us_bounded (us_grid _ _ _ _ _ _ _ U) (us_two _ _ _ _ _ _ _ U) El) as (arr & _ & Sp & Es & _).
      assert (Lb : forall l, In l links -> bounded_pt (l_a l) /\ bounded_pt (l_b l)).
      { intros l Il. destruct (string_segments items) as [|s0 l0] eqn:E0.
        - exfalso. unfold string_links, build_string in El. rewrite E0 in El. assert (links = []) by congruence. subst links. destruct Il.
        - rewrite <- E0 in *. specialize (Sp ltac:(rewrite E0; discriminate)). apply (in_map l_seg) in Il. rewrite Es in Il. apply in_map_iff in Il as (x & Ex & Ix).
          destruct (arr_bounded arr Sp x Ix) as [B1 B2]. rewrite Ex in B1, B2. auto. }
      rewrite Forall_forall in Rp. exists links, shapes. split; auto. split; auto. split; auto. split; auto. split; auto. split; auto. split.
      - intros c e q Ic Ie Oq. destruct (Rp c Ic) as (_ & _ & Hc). destruct (Hc e Ie) as (l & Il & _ & Al). apply (Nr l q Il). unfold l_seg. destruct Al as [-> | ->]; cbn [fst snd] in Oq; auto. apply on_seg_swap. exact Oq.
      - intros c p Ic Ip. destruct (Rp c Ic) as (_ & _ & Hc). assert (exists e, In e (edges c) /\ fst e = p) as (e & Ie & <-).
        { destruct c as [|x c]; [destruct Ip|]. apply edge_starts; auto. rewrite app_length. simpl. lia. }
        destruct (Hc e Ie) as (l & Il & _ & Al). destruct (Lb l Il). destruct Al as [-> | ->]; auto.
    Qed.
    (** The contours returned run once around every point inside the shapes, in the direction asked for, and around no other point, except
        for points close to an edge or a line.  Which lines cut the shapes apart is decided on the grid (C46). *)
    Theorem C50_slice fr clockwise f out eta : (f_min_area f == 0)%Q -> (0 <= eta)%Q -> (f_clean f = true -> float_clean_ok float_clean a eta) ->
      slice_custom_by layout_new query tree_new sort_ends cw_ordered with_iter float_clean calls (S n) dbg shape lines fr clockwise f solver = ROk out ->
      (forall q, far_both (reach_grid s kappa solver n + delta + eta) shape lines q -> qcontours_wind (concat out) q = if in_shapes fr shape q then sign_of clockwise else 0) /\
      exists links shapes, string_links layout_new query tree_new (S n) solver fr items = ROk links /\ out = float_result float_clean a f shapes /\ cut_along links shapes.
    Proof.
      intros Ma Eta Fc H. destruct (slice_grid fr clockwise f out Ma H) as (links & shapes & El & -> & Cut & So & Dj & Cv & Nr & Bd). split; [|eauto].
      intros q F. exact (sl_near a s o kappa delta (paths_of shape) (paths_of lines) Ok n solver fr clockwise shapes Nr Bd So Dj Cv float_clean f eta q Fc Eta F).
    Qed.
    (** The shapes ([clean_result] off): they make up the region, do not overlap, and their edges are close to edges or lines given. *)
    Theorem C50_slice_shapes fr clockwise f out : (f_min_area f == 0)%Q -> f_clean f = false ->
      slice_custom_by layout_new query tree_new sort_ends cw_ordered with_iter float_clean calls (S n) dbg shape lines fr clockwise f solver = ROk out ->
      (forall q, far_both (reach_grid s kappa solver n + delta) shape lines q ->
         ((exists sh, In sh out /\ qcovers sh q) <-> in_shapes fr shape q = true) /\
         forall k k' sh sh', k <> k' -> nth_error out k = Some sh -> nth_error out k' = Some sh' -> ~ (qcovers sh q /\ qcovers sh' q)) /\
      (forall c e q, In c (concat out) -> In e (ring c) -> qwithin 0 (fst e) (snd e) q ->
         close_to (reach_grid s kappa solver n + delta) (paths_of shape) q \/ exists w, In w (fmoves (paths_of lines)) /\ qwithin (reach_grid s kappa solver n + delta) (fst w) (snd w) q).
    Proof.
      intros Ma Fc H. destruct (slice_grid fr clockwise f out Ma H) as (links & shapes & El & -> & Cut & So & Dj & Cv & Nr & Bd). unfold float_result. rewrite Fc. split.
      - intros q F. assert (K : forall sh, In sh shapes -> (qcovers (map (map (int_to_float a)) sh) q <-> covers sh (unplace s o q))).
        { intros [|c hs] Is; [reflexivity|]. cbn [map qcovers covers]. unfold qencloses, encloses.
          assert (Ec : forall c', In c' (c :: hs) -> qcontour_wind (map (int_to_float a) c') q = contour_wind c' (unplace s o q)).
          { intros c' Ic. apply (sl_contour a s o kappa delta (paths_of shape) (paths_of lines) Ok n solver shapes Nr Bd c' q F). apply in_concat. eauto. }
          rewrite (Ec c) by (simpl; auto). rewrite Forall_forall. split; intros [P1 P2]; split; auto.
          - intros h Ih. rewrite <- (Ec h) by (simpl; auto). apply P2, in_map, Ih.
          - intros h Ih. apply in_map_iff in Ih as (h' & <- & Ih). rewrite (Ec h') by (simpl; auto). apply P2, Ih. }
        split.
        + unfold in_shapes. rewrite <- (sl_inside a s o kappa delta (paths_of shape) (paths_of lines) Ok n solver fr shapes Cv q F). unfold to_float. split.
          * intros (sh & Is & Cs). apply in_map_iff in Is as (sh' & <- & Is). exists sh'. split; auto. apply K; auto.
          * intros (sh & Is & Cs). exists (map (map (int_to_float a)) sh). split; [apply (in_map (map (map (int_to_float a)))); auto|]. apply K; auto.
        + intros k k' sh sh' Nk' E1 E2 [C1 C2]. unfold to_float in E1, E2. rewrite nth_error_map in E1, E2.
          destruct (nth_error shapes k) as [x|] eqn:X1; [|discriminate]. destruct (nth_error shapes k') as [x'|] eqn:X2; [|discriminate]. cbn [option_map] in E1, E2.
          injection E1 as <-. injection E2 as <-. apply (Dj k k' x x' (unplace s o q) Nk' X1 X2). split; [apply K|apply K]; auto; eapply nth_error_In; eauto.
      - intros c e q Ic Ie W. pose proof (sl_edges a s o kappa delta (paths_of shape) (paths_of lines) Ok n solver shapes Nr Bd c e q 0 Ic Ie W) as X.
        apply (close_any_mono _ _ _ (reach_grid s kappa solver n + delta)) in X; [exact X|]. unfold reach_grid, reachable. lra.
    Qed.
  End Input.
End WithContracts.

(** ** Examples *)
(** a frame with a hole; a path of two lines and one more line, on the grid with cells of size 1/8 (C48) *)
Definition fs_shape : resource := Contours [[(0, 0); (201 # 10, 3 # 10); (207 # 10, 203 # 10); (1 # 10, 199 # 10)]; [(6 # 1, 6 # 1); (57 # 10, 14 # 1); (141 # 10, 139 # 10); (14 # 1, 61 # 10)]]%Q.
Definition fs_lines : resource := Contours [[(- (4 # 1), 37 # 10); (24 # 1, 153 # 10); (3 # 1, 153 # 10)]; [(101 # 10, 101 # 10); (113 # 10, 24 # 1)]]%Q.
Example fs_usable : usable_strings lay4 qry (fun _ => true) (fun _ => grid8) 5 1 auto fs_shape fs_lines (1 # 8) (0, 0)%Q (1 # 2) 0.
Proof.
  constructor.
  - simpl. lia.
  - simpl. lia.
  - apply grid8_ok. intros p I. vm_compute in I. repeat (destruct I as [<-|I]; [cbn [fst snd]; lra|]). destruct I.
  - apply Forall_forall. intros c I. vm_compute in I. repeat (destruct I as [<-|I]; [left; vm_compute; discriminate|]). destruct I.
  - left. vm_compute. reflexivity.
  - intros arr H L. exfalso. vm_compute in H. injection H as <-. discriminate.
Qed.
Example fs_clip : clip_by lay4 qry (fun _ => true) sorted_ends (fun _ => grid8) 5 2 fs_lines fs_shape NonZero (CR false false) auto =
  ROk [[(0 # 8, 43 # 8); (48 # 8, 63 # 8)]; [(164 # 8, 122 # 8); (84 # 8, 122 # 8); (24 # 8, 122 # 8)]; [(83 # 8, 111 # 8); (84 # 8, 122 # 8); (87 # 8, 161 # 8)]; [(113 # 8, 89 # 8); (164 # 8, 111 # 8)]]%Q.
Proof. vm_compute. reflexivity. Qed.
Example fs_clip_ok := C50_clip lay4 lay4_ok qry qry_ok (fun _ => true) sorted_ends sorted_ends_ok (fun _ => grid8) 5 1 auto fs_shape fs_lines _ _ _ _ fs_usable NonZero (CR false false) _ fs_clip.
Example fs_slice : exists sh1 sh2 sh3 sh4, slice_custom_by lay4 qry (fun _ => true) sorted_ends cw_area (fun _ => grid8) (fun _ x => x) 5 2 true fs_shape fs_lines NonZero false (Filter 0 true false) auto = ROk [sh1; sh2; sh3; sh4].
Proof. do 4 eexists. vm_compute. reflexivity. Qed.
Example fs_slice_ok out H := C50_slice lay4 lay4_ok qry qry_ok (fun _ => true) sorted_ends sorted_ends_ok cw_area cw_area_ok (fun _ => grid8) (fun _ x => x) 5 1 true auto fs_shape fs_lines _ _ _ _ fs_usable
  NonZero false (Filter 0 true false) out 0 (Qeq_refl _) (Qle_refl _) (fun X => ltac:(discriminate X)) H.
(** a point of the first line inside the frame, far enough from its edges; a point inside, far from lines and edges *)
Example fs_points : (reach_grid (1 # 8) (1 # 2) auto 1 == 5 # 16)%Q /\
  (let q := (3 # 1, 66 # 10)%Q in qwithin 0 (- (4 # 1), 37 # 10)%Q (24 # 1, 153 # 10)%Q q /\ far_from (3 # 4) (paths_of fs_shape) q /\ clip_wants NonZero (CR false false) fs_shape q = true) /\
  (let q := (18 # 1, 18 # 1)%Q in far_both (5 # 16) fs_shape fs_lines q /\ in_shapes NonZero fs_shape q = true).
Proof.
  split; [vm_compute; reflexivity|]. split; cbv zeta.
  - split; [exists (1 # 4)%Q; split; [lra|]; cbn [fst snd]; split; apply Qabs_le_iff; split; lra|]. split; [unfold fs_shape; far|vm_compute; reflexivity].
  - split; [|vm_compute; reflexivity]. split; [unfold fs_shape; far|]. intros w Iw (t & T & X & Y). rewrite Qabs_le_iff in X, Y. cbv beta iota delta [fmoves flat_map paths_of fs_lines windows2 app] in Iw.
    repeat (destruct Iw as [Iw|Iw]; [subst w; cbn [fst snd] in *; lra|]). destruct Iw.
Qed.

Print Assumptions C50_clip.
Print Assumptions C50_slice.
Print Assumptions C50_slice_shapes.
