(** * Property theorems, part 33: shapes of whole runs with rounding, for every option, when contours do not touch (C40, C47, C48). *)
From Verif Require Import Base Spec QLib ModelSegm SegmProofs MergeProofs PlanarGeo PlanarSum ModelFill ModelFilter FillProofs FillCorrect
  ModelCross CrossProofs CrossPoint CoreResults Properties01 ModelSplit SplitProofs SplitPlanar SplitPass BinsProofs SplitApply SplitLoop
  ModelFrag ModelOverlay OverlayProofs FragProofs GridCover Properties02
  ModelGraph GraphProofs ModelExtract ExtractProofs ContourResults Rotation NextLink Properties03
  MoveLemma SectorLemma Sides WalkSides Orient Properties04 ModelBind BindProofs BindSweep Thin Nest Properties05 Properties29 AreaMono Fewer Apart Properties30
  Masked Kept KeptShapes Properties31 SplitNear InputCover Properties15
  ModelFloat FloatSpace FloatProofs OverlayNear FloatMain Properties16.
From Coq Require Import Permutation Lqa Qabs Qround.
Open Scope Z_scope.

Section WithContracts.
  Variable layout_new : Z -> Z -> nat -> option (Z -> nat).
  Hypothesis Lay : layout_ok layout_new.
  Variable query : list (nat * xseg) -> Z * Z -> Z -> list (nat * xseg).
  Hypothesis Qry : query_ok query.
  Variable tree_new : Z * Z -> bool.
  Notation merged adds := (sort_merge (input_segments adds)).
  Notation split_input fuel solver adds := (split_segments layout_new query tree_new fuel solver (input_segments adds)).

  (** a minimal area, with rounding: the region of the contours of the split input *)
  Theorem C40_min_area_split_partial fuel solver adds r fr clean clockwise simplify dbg min_area ls ends : bounded_input adds -> no_grid solver (length (merged adds)) ->
    clean_ok clean -> simplify_ok clean -> dedup_ok clean -> overlay_links layout_new query tree_new fuel solver r fr (input_segments adds) = ROk ls -> ends_ok ls ends -> apart ls ->
    0 <= min_area ->
    exists segs g ps shapes, (input_segments adds <> [] -> split_input fuel solver adds = Done segs) /\ graph_new ls ends = Some g /\
      extract_pieces g clean r clockwise simplify 0 (repeat false (length ls)) = Some ps /\
      (forall q, contours_wind (outer_contours ps ++ hole_contours ps) q =
         sign_of clockwise * bz (bool_op r (inside fr (wind (subj_chain segs) q)) (inside fr (wind (clip_chain segs) q)))) /\
      extract_shapes dbg g clean r clockwise simplify min_area (repeat false (length ls)) = Some shapes /\
      grouped (filter (big min_area) (outer_contours ps)) (filter (big min_area) (hole_contours ps)) shapes /\
      shapes_ok (sign_of clockwise) (fun q => negb (contours_wind (left_over min_area ps) q =? 0)) shapes.
  Proof.
    intros B N Ck Si De Hl E Ap M. destruct (overlay_arrangement layout_new Lay query Qry tree_new _ _ _ _ _ _ B N Hl) as (segs & Hs & A & ->).
    destruct (C40_min_area_partial segs fr r ends clean clockwise simplify dbg min_area A E Ck Si De Ap M) as (g & ps & shapes & H).
    exists segs, g, ps, shapes. split; auto.
  Qed.

  (** However much was rounded: away from the edges given, the shapes are the region asked for, for either direction, simplified or not. *)
  Theorem C47_shapes_apart n solver adds r fr clean clockwise simplify dbg ls ends : bounded_input adds -> no_grid solver (length (merged adds)) ->
    Forall (fun a => open_contour (fst a)) adds -> clean_ok clean -> simplify_ok clean -> dedup_ok clean ->
    overlay_links layout_new query tree_new (S n) solver r fr (input_segments adds) = ROk ls -> ends_ok ls ends -> apart ls ->
    exists g shapes, graph_new ls ends = Some g /\
      extract_shapes dbg g clean r clockwise simplify 0 (repeat false (length ls)) = Some shapes /\ Forall (shape_ok (sign_of clockwise)) shapes /\
      (forall k k' sh sh' q, k <> k' -> nth_error shapes k = Some sh -> nth_error shapes k' = Some sh' -> ~ (covers sh q /\ covers sh' q)) /\
      forall q, ~ near_input (moved (precision solver) n) adds q -> ((exists sh, In sh shapes /\ covers sh q) <-> wanted r fr adds q = true).
  Proof.
    intros B N O Ck Si De H E Ap. destruct (overlay_near layout_new Lay query Qry tree_new n solver adds r fr ls B N O H) as (segs & A & -> & W & _).
    destruct (C40_shapes_apart_partial segs fr r ends clean clockwise simplify dbg A E Ck Si De Ap) as (g & shapes & Hg & Hx & Ok & Dj & C).
    exists g, shapes. split; auto. split; auto. split; auto. split; auto. intros q Hq. rewrite C, W by auto. tauto.
  Qed.

  (** and with a minimal area: the contours found are those of the region asked for, and those that are large enough are grouped into
      shapes that make up what they bound *)
  Theorem C47_min_area n solver adds r fr clean clockwise simplify dbg min_area ls ends : bounded_input adds -> no_grid solver (length (merged adds)) ->
    Forall (fun a => open_contour (fst a)) adds -> clean_ok clean -> simplify_ok clean -> dedup_ok clean ->
    overlay_links layout_new query tree_new (S n) solver r fr (input_segments adds) = ROk ls -> ends_ok ls ends -> apart ls -> 0 <= min_area ->
    exists g ps shapes, graph_new ls ends = Some g /\
      extract_pieces g clean r clockwise simplify 0 (repeat false (length ls)) = Some ps /\
      (forall q, ~ near_input (moved (precision solver) n) adds q ->
         contours_wind (outer_contours ps ++ hole_contours ps) q = if wanted r fr adds q then sign_of clockwise else 0) /\
      extract_shapes dbg g clean r clockwise simplify min_area (repeat false (length ls)) = Some shapes /\
      grouped (filter (big min_area) (outer_contours ps)) (filter (big min_area) (hole_contours ps)) shapes /\
      shapes_ok (sign_of clockwise) (fun q => negb (contours_wind (left_over min_area ps) q =? 0)) shapes.
  Proof.
    intros B N O Ck Si De H E Ap M. destruct (overlay_near layout_new Lay query Qry tree_new n solver adds r fr ls B N O H) as (segs & A & -> & W & _).
    destruct (C40_min_area_partial segs fr r ends clean clockwise simplify dbg min_area A E Ck Si De Ap M) as (g & ps & shapes & Hg & Hp & D & Hx & Gr & Ok).
    exists g, ps, shapes. split; auto. split; auto. split; auto. intros q Hq. rewrite D, W by auto. destruct (wanted r fr adds q); cbn [bz]; lia.
  Qed.

  Variable sort_ends : list link -> list (nat * pt).
  Hypothesis Sort : forall ls, ends_ok ls (sort_ends ls).
  Variable clean : bool -> list pt -> list pt * bool.
  Hypothesis Cl : clean_ok clean.
  Hypothesis Ce : clean_edges clean.
  Lemma overlay_shapes_apart n solver adds r fr clockwise simplify dbg shapes : bounded_input adds -> no_grid solver (length (merged adds)) ->
    Forall (fun a => open_contour (fst a)) adds -> simplify_ok clean -> dedup_ok clean ->
    (forall ls, overlay_links layout_new query tree_new (S n) solver r fr (input_segments adds) = ROk ls -> apart ls) ->
    overlay_custom layout_new query tree_new sort_ends clean (S n) dbg adds r fr clockwise simplify 0 solver = ROk shapes ->
    (forall k k' sh sh' q, k <> k' -> nth_error shapes k = Some sh -> nth_error shapes k' = Some sh' -> ~ (covers sh q /\ covers sh' q)) /\
    forall q, ~ near_input (moved (precision solver) n) adds q -> ((exists sh, In sh shapes /\ covers sh q) <-> wanted r fr adds q = true).
  Proof.
    intros B N O Si De Ap H. unfold overlay_custom in H.
    destruct (overlay_links layout_new query tree_new (S n) solver r fr (input_segments adds)) as [ls| |] eqn:EL; try discriminate. cbn [fbind] in H.
    destruct (C47_shapes_apart n solver adds r fr clean clockwise simplify dbg ls _ B N O Cl Si De EL (Sort ls) (Ap _ eq_refl)) as (g & shapes' & Hg & Hx & _ & Dj & C).
    rewrite Hg in H. cbn [fbind fopt] in H. rewrite Hx in H. cbn [fopt] in H. assert (shapes' = shapes) by congruence. subst shapes'. auto.
  Qed.

  (** the floating point interface, for the default options (clean-up of the result off) *)
  Variable with_iter : list qpt -> adapter.
  Variable float_clean : adapter -> list (list (list qpt)) -> list (list (list qpt)).
  Variables (calls n : nat) (dbg : bool).
  Notation run_custom := (float_overlay_custom layout_new query tree_new sort_ends clean float_clean (S n) dbg).
  Notation usable := (usable with_iter float_clean).
  Theorem C48_shapes_apart subj clip ov r fr clockwise f solver out s o kappa delta eta q :
    (length (paths_of subj) < calls)%nat -> (length (paths_of clip) < calls)%nat ->
    usable solver f (tag Subject (paths_of subj) ++ tag Clip (paths_of clip)) s o kappa delta eta ->
    simplify_ok clean -> dedup_ok clean -> f_clean f = false ->
    with_subj_and_clip with_iter calls subj clip = Some ov -> run_custom ov r fr clockwise f solver = ROk out ->
    (forall ls, overlay_links layout_new query tree_new (S n) solver r fr (input_segments (fo_input ov)) = ROk ls -> apart ls) ->
    far_from (slack s kappa delta 0 (precision solver) n) (paths_of subj ++ paths_of clip) q ->
    ((exists sh, In sh out /\ qcovers sh q) <-> asked r fr (paths_of subj) (paths_of clip) q = true) /\
    forall k k' sh sh', k <> k' -> nth_error out k = Some sh -> nth_error out k' = Some sh' -> ~ (qcovers sh q /\ qcovers sh' q).
  Proof.
    intros Ls Lc U Si De Fc Ho H Ap Fq. rewrite subj_clip_spec in Ho by auto. cbv zeta in Ho.
    set (fadds := tag Subject (paths_of subj) ++ tag Clip (paths_of clip)) in *.
    assert (E : map fst fadds = paths_of subj ++ paths_of clip) by (unfold fadds; rewrite map_app, !tag_fst; auto).
    rewrite <- E in Ho, Fq. injection Ho as <-. set (a := with_iter (concat (map fst fadds))) in *.
    assert (Ok : adapter_ok a s o kappa delta (concat (map fst fadds))) by apply (u_adapter _ _ _ _ _ _ _ _ _ _ U).
    unfold float_overlay_custom in H. cbn [fo_input fo_adapter] in H. rewrite (ok_zero _ _ _ _ _ _ Ok) in H by apply (u_area _ _ _ _ _ _ _ _ _ _ U).
    cbn [fo_input] in Ap. destruct (overlay_custom _ _ _ _ _ _ _ _ _ _ _ _ _ _) as [shapes| |] eqn:Eo; try discriminate. cbn [fbind] in H.
    unfold float_result in H. rewrite Fc in H. assert (Eout : out = to_float a shapes) by congruence. subst out.
    assert (Bd : bounded_input (snap a fadds)) by (eapply snap_bounded; eauto). pose proof (u_grid _ _ _ _ _ _ _ _ _ _ U) as Ng. pose proof (usable_open _ _ _ _ _ _ _ _ _ _ U) as Op. fold a in Ng, Op.
    assert (R : result_near n solver (snap a fadds) r fr clockwise shapes) by (eapply overlay_custom_near; eauto).
    destruct (overlay_shapes_apart n solver (snap a fadds) r fr clockwise (f_simplify f) dbg shapes Bd Ng Op Si De Ap Eo) as [Dj Cv].
    assert (Fd : far_from (s * kappa + s * inject_Z (moved (precision solver) n) + delta) (map fst fadds) q) by (eapply far_mono; [|exact Fq]; unfold slack; lra).
    assert (Nn : ~ near_input (moved (precision solver) n) (snap a fadds) (unplace s o q)).
    { intro N. destruct (near_float a s o kappa delta fadds Ok _ q N) as (c1 & e1 & I1 & I2 & W). apply (Fd c1 e1 I1 I2). eapply qwithin_mono; [|exact W]. pose proof (ok_d _ _ _ _ _ _ Ok). lra. }
    assert (Nk : far_from (s * kappa) (map fst fadds) q).
    { eapply far_mono; [|exact Fd]. pose proof (ok_d _ _ _ _ _ _ Ok). pose proof (ok_s _ _ _ _ _ _ Ok).
      assert (0 <= s * inject_Z (moved (precision solver) n))%Q.
      { apply Qmult_le_0_compat; [lra|]. change 0%Q with (inject_Z 0). rewrite <- Zle_Qle. rewrite <- drift_moved. apply drift_pos. }
      lra. }
    assert (K : forall sh, In sh shapes -> (qcovers (map (map (int_to_float a)) sh) q <-> covers sh (unplace s o q))).
    { intros [|c hs] Is; [reflexivity|]. cbn [map qcovers covers]. unfold qencloses, encloses.
      assert (Ec : forall c', In c' (c :: hs) -> qcontour_wind (map (int_to_float a) c') q = contour_wind c' (unplace s o q)).
      { intros c' Ic. apply (float_contour a s o kappa delta fadds Ok n solver r fr clockwise shapes R q c' Fd). apply in_concat. eauto. }
      rewrite (Ec c) by (simpl; auto). rewrite Forall_forall. split; intros [P1 P2]; split; auto.
      - intros h Ih. rewrite <- (Ec h) by (simpl; auto). apply P2, in_map, Ih.
      - intros h Ih. apply in_map_iff in Ih as (h' & <- & Ih). rewrite (Ec h') by (simpl; auto). apply P2, Ih. }
    split.
    - assert (W : asked r fr (paths_of subj) (paths_of clip) q = wanted r fr (snap a fadds) (unplace s o q)).
      { unfold asked, wanted. rewrite !(snap_operand a s o kappa delta fadds Ok) by auto. unfold fadds. rewrite !foperand_app.
        destruct (foperand_tag_s (paths_of subj)) as [-> ->]. destruct (foperand_tag_c (paths_of clip)) as [-> ->]. rewrite app_nil_r. reflexivity. }
      rewrite W, <- (Cv _ Nn). unfold to_float. split.
      + intros (sh & Is & Cs). apply in_map_iff in Is as (sh' & <- & Is). exists sh'. split; auto. apply K; auto.
      + intros (sh & Is & Cs). exists (map (map (int_to_float a)) sh). split; [apply (in_map (map (map (int_to_float a)))); auto|]. apply K; auto.
    - intros k k' sh sh' Nk' E1 E2 [C1 C2]. unfold to_float in E1, E2. rewrite nth_error_map in E1, E2.
      destruct (nth_error shapes k) as [x|] eqn:X1; [|discriminate]. destruct (nth_error shapes k') as [x'|] eqn:X2; [|discriminate]. cbn [option_map] in E1, E2.
      injection E1 as <-. injection E2 as <-. apply (Dj k k' x x' (unplace s o q) Nk' X1 X2). split; [apply K|apply K]; auto; eapply nth_error_In; eauto.
  Qed.
End WithContracts.

(** ** Examples: the clean-up that drops the points on straight lines meets all contracts *)
Lemma collinear_cover a b d q : cross3 a b d = 0 -> on_seg (XS a d) q -> on_seg (XS a b) q \/ on_seg (XS b d) q.
Proof.
  intros E (t & T & X & Y). cbn [sa sb] in X, Y. destruct (pt_eq_dec a d) as [->|N].
  - left. exists 0%Q. cbn [sa sb]. split; [lra|]. split; [rewrite X|rewrite Y]; ring.
  - destruct (collinear_param a b d N E) as (u & U1 & U2).
    destruct (Qlt_le_dec u t) as [L|L].
    + destruct (Qlt_le_dec u 1) as [L1|L1]; [|lra]. right. exists ((t - u) / (1 - u))%Q. cbn [sa sb]. split; [split|split].
      * apply Qle_shift_div_l; lra.
      * apply Qle_shift_div_r; lra.
      * rewrite X, U1. field. lra.
      * rewrite Y, U2. field. lra.
    + left. destruct (Qlt_le_dec 0 u) as [L1|L1].
      * exists (t / u)%Q. cbn [sa sb]. split; [split|split].
        -- apply Qle_shift_div_l; lra.
        -- apply Qle_shift_div_r; lra.
        -- rewrite X, U1. field. lra.
        -- rewrite Y, U2. field. lra.
      * assert (t == 0)%Q by lra. exists 0%Q. cbn [sa sb]. split; [lra|]. split; [rewrite X|rewrite Y]; rewrite H; ring.
Qed.
Example clean_line_edges : clean_edges clean_line.
Proof.
  intros s c e q I O. destruct c as [|a l]; [exists e; auto|]. destruct s; [|exists e; auto]. cbn [clean_line fst] in I. unfold edges in *.
  assert (K : forall n l a z e q, (length l <= n)%nat -> In e (combine (a :: drop_line a l) (drop_line a l ++ [z])) -> on_seg (XS (fst e) (snd e)) q ->
    exists e', In e' (combine (a :: l) (l ++ [z])) /\ on_seg (XS (fst e') (snd e')) q).
  { clear. induction n as [|n IH]; intros [|b [|d l]] a z e q L I O; try (exists e; split; [exact I|exact O]); simpl in L; try lia.
    assert (U : drop_line a (b :: d :: l) = if cross3 a b d =? 0 then drop_line a (d :: l) else b :: drop_line b (d :: l)) by reflexivity.
    rewrite U in I. clear U. destruct (Z.eqb_spec (cross3 a b d) 0) as [E|E].
    - destruct (IH (d :: l) a z e q ltac:(simpl; lia) I O) as (e' & [<-|I'] & O').
      + cbn [fst snd] in O'. destruct (collinear_cover a b d q E O') as [O1|O1]; [exists (a, b)|exists (b, d)]; (split; [simpl; auto|exact O1]).
      + exists e'. split; auto. right. right. exact I'.
    - destruct I as [<-|I]; [exists (a, b); split; [left; reflexivity|exact O]|].
      destruct (IH (d :: l) b z e q ltac:(simpl; lia) I O) as (e' & I' & O'). exists e'. split; auto. right. exact I'. }
  apply (K (length l) l a a e q); auto.
Qed.

Example C47_apart_contracts : clean_ok clean_line /\ simplify_ok clean_line /\ dedup_ok clean_line /\ clean_edges clean_line.
Proof. split; [apply clean_line_ok|]. split; [apply clean_line_simplify|]. split; [apply clean_line_dedup|apply clean_line_edges]. Qed.
(** the two quadrilaterals of [C47_example], with crossings that are rounded: for all three rules the links are apart *)
Definition big_links (r : OverlayRule) : option (list link) :=
  match overlay_links lay4 qry (fun _ => true) 2 (mk_solver StAuto) r NonZero (input_segments big_adds) with ROk ls => Some ls | _ => None end.
Example C47_shapes_apart_example :
  bounded_input big_adds /\ no_grid (mk_solver StAuto) (length (sort_merge (input_segments big_adds))) /\ Forall (fun a => open_contour (fst a)) big_adds /\
  Forall (fun r => exists ls, big_links r = Some ls /\ apart ls) [RIntersect; RUnion; RDifference] /\
  ~ near_input 2 big_adds (700 # 1, 700 # 1)%Q /\ wanted RIntersect NonZero big_adds (700 # 1, 700 # 1)%Q = true.
Proof.
  split; [repeat constructor|]. split; [left; reflexivity|]. split; [repeat constructor; discriminate|].
  split; [repeat constructor; (eexists; split; [vm_compute; reflexivity|apply apartb_ok; vm_compute; reflexivity])|].
  split; [not_near|reflexivity].
Qed.
(** the floating point example [C48_example], simplified and with the other direction *)
Definition fl_ov : option float_overlay := with_subj_and_clip (fun _ => grid8) 5 fl_subj fl_clip.
Definition fl_simplified (r : OverlayRule) : run (list (list (list qpt))) :=
  match fl_ov with
  | Some ov => float_overlay_custom lay4 qry (fun _ => true) sorted_ends clean_line (fun _ x => x) 2 true ov r NonZero true (Filter 0 true false) auto
  | None => RPanic
  end.
Example C48_shapes_apart_example :
  usable (fun _ => grid8) (fun _ x => x) auto (Filter 0 true false) fl_adds (1 # 8) (0, 0)%Q (1 # 2) 0 0 /\
  fl_simplified RIntersect = ROk [[[(37 # 8, 80 # 8); (80 # 8, 80 # 8); (80 # 8, 44 # 8); (41 # 8, 42 # 8)]%Q]] /\
  (exists ov, fl_ov = Some ov /\ forall ls, overlay_links lay4 qry (fun _ => true) 2 auto RIntersect NonZero (input_segments (fo_input ov)) = ROk ls -> apart ls) /\
  far_from (slack (1 # 8) (1 # 2) 0 0 (precision auto) 1) (paths_of fl_subj ++ paths_of fl_clip) (7 # 1, 7 # 1)%Q /\
  asked RIntersect NonZero (paths_of fl_subj) (paths_of fl_clip) (7 # 1, 7 # 1)%Q = true.
Proof.
  destruct C48_example as (U & _ & _ & Sl & F & As & _).
  split; [destruct U as [U1 U2 U3 U4 U5 U6]; constructor; auto|]. split; [vm_compute; reflexivity|].
  split; [|split; [|exact As]].
  - assert (K : exists ov, fl_ov = Some ov /\ exists ls, overlay_links lay4 qry (fun _ => true) 2 auto RIntersect NonZero (input_segments (fo_input ov)) = ROk ls /\ apartb ls = true).
    { eexists. split; [vm_compute; reflexivity|]. eexists. split; [vm_compute; reflexivity|]. vm_compute. reflexivity. }
    destruct K as (ov & E & ls & E' & Ap). exists ov. split; [exact E|]. intros ls' E2. rewrite E' in E2. injection E2 as <-. apply apartb_ok, Ap.
  - refine (far_mono _ _ _ _ _ F). rewrite Sl. lra.
Qed.

Print Assumptions C40_min_area_split_partial.
Print Assumptions C47_shapes_apart.
Print Assumptions C47_min_area.
Print Assumptions C48_shapes_apart.
