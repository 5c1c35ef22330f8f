(** * C45: the outline of a whole shape, outer contours and holes together.

    A contour of area below -1 (twice the area, in grid units; the sign of [i_shape]) is an outer contour, one of area above 1 a hole,
    anything else is ignored.  [covered] is the area of the offset of one contour as in C41. *)
From Coq Require Import Qround Qabs.
From Verif Require Import Base Spec QLib ModelSegm SegmProofs MergeProofs PlanarGeo PlanarSum ModelFill ModelFilter FillProofs FillCorrect
  ModelCross CrossProofs CrossPoint CoreResults Properties01 ModelSplit SplitProofs SplitPlanar SplitPass BinsProofs SplitApply SplitLoop
  ModelFrag ModelOverlay OverlayProofs FragProofs GridCover Properties02
  ModelGraph GraphProofs ModelExtract ExtractProofs ContourResults Rotation NextLink Properties03
  MoveLemma SectorLemma Sides WalkSides Orient Properties04 ModelBind BindProofs BindSweep Nest Properties05 Natural ModelOffset OffsetProofs MeshProofs Properties09 Properties10 ModelOutline.
Open Scope Z_scope.

(** ** Specification *)
(** shapes that make up the region [R]: each starts with an outer contour, which runs in the direction [d], the others are holes and run
    against it, and all contours together wind once around every point of the region and not at all around every other point *)
Definition shapes_of (d : Z) (R : qpt -> bool) (shapes : list (list (list pt))) : Prop :=
  Forall (fun sh => exists o hs, sh = o :: hs /\ turns d o /\ Forall (turns (- d)) hs) shapes /\
  forall q, contours_wind (concat shapes) q = if R q then d else 0.
Definition count {X} (f : X -> bool) (l : list X) : Z := Z.of_nat (length (filter f l)).

Lemma contours_app l m q : contours_wind (l ++ m) q = contours_wind l q + contours_wind m q.
Proof. unfold contours_wind. apply zsum_app. Qed.
Lemma contours_perm l m q : Permutation l m -> contours_wind l q = contours_wind m q.
Proof. unfold contours_wind. apply zsum_perm. Qed.
Lemma contours_rev l q : contours_wind (map (@rev pt) l) q = - contours_wind l q.
Proof. unfold contours_wind. rewrite zsum_map. induction l as [|c l IH]; [reflexivity|]. rewrite !zsum_cons, IH, contour_wind_rev. lia. Qed.
Lemma grouped_concat {X} (os hs : list X) shapes : grouped os hs shapes -> Permutation (concat shapes) (os ++ hs).
Proof.
  intros [H P]. revert hs P. revert os H. induction shapes as [|sh shapes IH]; intros os H hs P.
  - destruct os; [|discriminate]. cbn in *. exact P.
  - destruct os as [|o os]; [discriminate|]. cbn [map] in H. injection H as Hh Ht. destruct sh as [|o' t]; [discriminate|]. injection Hh as ->.
    cbn [concat map List.tl app] in *. apply perm_skip. rewrite (IH os Ht _ (Permutation_refl _)). rewrite <- P. rewrite !app_assoc. apply Permutation_app_tail. apply Permutation_app_comm.
Qed.

Lemma grouped_shapes d R os hs shapes : (os <> [] -> grouped os hs shapes) -> (os = [] -> shapes = []) -> contours_of d R os hs -> d <> 0 -> shapes_of d R shapes.
Proof.
  intros G0 G1 (To & Th & E & W) D.
  assert (G : grouped os hs shapes).
  { destruct os as [|o os]; [|apply G0; discriminate]. rewrite (G1 eq_refl). destruct hs as [|h hs]; [split; constructor|].
    inversion Th as [|? ? [_ (q & Hq)] _]; subst. destruct (E h q) as (c & [] & _); [simpl; auto|]. unfold encloses. lia. }
  split.
  - destruct G as [Gh Gp]. clear G0 G1 W E. rewrite <- Gp in Th. clear Gp. revert os Gh To Th. induction shapes as [|sh shapes IH]; intros os Gh To Th; [constructor|].
    destruct os as [|o os]; [discriminate|]. cbn [map] in Gh. injection Gh as Hh Ht. destruct sh as [|o' t]; [discriminate|]. injection Hh as ->.
    cbn [map concat List.tl] in Th. apply Forall_app in Th as [T1 T2]. inversion To; subst. constructor; [eauto|]. eapply IH; eauto.
  - intro q. rewrite (contours_perm _ _ q (grouped_concat _ _ _ G)), contours_app. apply W.
Qed.
Lemma join_grouped dbg os hs an cw shapes : join_sorted_holes dbg (map (fun c => [c]) os) hs an cw = Some shapes -> (os <> [] -> grouped os hs shapes) /\ (os = [] -> shapes = []).
Proof.
  intro H. split; [intro N; exact (C22_join_sorted dbg os hs an cw shapes N H)|]. intros ->. cbn in H. injection H as <-. reflexivity.
Qed.

Section Several.
  Variable layout_new : Z -> Z -> nat -> option (Z -> nat).
  Hypothesis Lay : layout_ok layout_new.
  Variable query : list (nat * xseg) -> Z * Z -> Z -> list (nat * xseg).
  Hypothesis Q : query_ok query.
  Variable tree_new : Z * Z -> bool.
  Variable sort_ends : list link -> list (nat * pt).
  Hypothesis Sort : forall ls, ends_ok ls (sort_ends ls).
  Variable clean : bool -> list pt -> list pt * bool.
  Hypothesis Cl : clean_ok clean.
  Variables (fuel : nat) (solver : Solver) (dbg : bool).
  Variable F : FloatOps.
  Variable to_int : fp F -> pt.
  Variable int_area : list (fp F) -> Z.
  Variables (outer inner : num F) (join : line_join F).
  Notation custom := (outline_custom layout_new query tree_new sort_ends clean (S fuel) solver dbg F to_int int_area outer inner join).

  (** the point is inside the offset of the path *)
  Definition covered (radius : num F) (path : list (fp F)) (q : qpt) : bool :=
    match outline_segments F to_int radius (join_normalize F join) path with Some segs => area segs q | None => false end.
  Definition is_outer (path : list (fp F)) : bool := int_area path <? -1.
  Definition is_inner (path : list (fp F)) : bool := 1 <? int_area path.
  (** the region of the outline: more outer contours than holes cover the point *)
  Definition outline_region (paths : list (list (fp F))) (q : qpt) : bool :=
    count (fun path => is_inner path && covered inner (rev path) q) paths <? count (fun path => is_outer path && covered (n_neg F outer) path q) paths.

  (** the conditions of C41 for one path: no segment of length zero, crossings exact, every contour found has a bold link, none is discarded as too small *)
  Definition clear_offset (radius : num F) (path : list (fp F)) (clockwise : bool) (min_area : Z) : Prop :=
    forall segs, outline_segments F to_int radius (join_normalize F join) path = Some segs ->
      Forall (fun s => sa (sx s) <> sb (sx s) /\ bounded (sx s)) segs /\ no_grid solver (length (sort_merge segs)) /\
      (sort_merge segs <> [] \/ is_list_split solver 0 = true) /\ exact_crossings (map sx (sort_merge segs)) /\
      forall ls g bps, offset_links layout_new query tree_new (S fuel) solver segs = ROk ls -> graph_new ls (sort_ends ls) = Some g -> offset_pieces g clean clockwise min_area = Some bps ->
        Forall (fun bp => snd bp = true /\ (min_area = 0 \/ p_valid (fst bp) = true)) bps.
  (** the same for the contours of the offsets, which are the input of the final overlay *)
  Definition clear_contours (contours : list (list pt)) (clockwise : bool) (min_area : Z) : Prop :=
    let adds := map (fun c => (c, Subject)) contours in
    bounded_input adds /\ Forall open_contour contours /\ no_grid solver (length (sort_merge (input_segments adds))) /\ sort_merge (input_segments adds) <> [] /\ exact_crossings (map sx (sort_merge (input_segments adds))) /\
    forall ls g ps, overlay_links layout_new query tree_new (S fuel) solver RSubject Positive (input_segments adds) = ROk ls -> graph_new ls (sort_ends ls) = Some g ->
      extract_pieces g clean RSubject clockwise true min_area (repeat false (length ls)) = Some ps -> min_area = 0 \/ Forall (fun p => p_valid p = true) ps.

  Lemma sign_ne clockwise : sign_of clockwise <> 0. Proof. destruct clockwise; discriminate. Qed.
  Lemma one_path radius path clockwise min_area shapes : clear_offset radius path clockwise min_area ->
    outline_one layout_new query tree_new sort_ends clean (S fuel) solver dbg F to_int radius (join_normalize F join) path clockwise min_area = ROk shapes ->
    shapes_of (sign_of clockwise) (covered radius path) shapes.
  Proof.
    intros Cr H. unfold outline_one in H. destruct (outline_segments F to_int radius (join_normalize F join) path) as [segs|] eqn:Es; [|discriminate].
    cbn [of_opt rbind] in H. destruct (Cr segs Es) as (Fi & N & NE & Ex & Bo).
    destruct (C41_outline_exact layout_new Lay query Q tree_new F to_int radius _ path segs fuel solver clean clockwise min_area Es Fi N NE Ex Cl) as (ls & Hl & D).
    destruct (D _ (Sort ls)) as (g & bps & Hg & Hp & R). rewrite Hl in H. cbn [rbind] in H. rewrite Hg in H. cbn [of_opt rbind] in H.
    specialize (Bo ls g bps Hl Hg Hp). rewrite Forall_forall in Bo.
    assert (R' : contours_of (sign_of clockwise) (area segs) (outers bps) (holes bps)).
    { apply R; [|apply Forall_forall; intros bp I; apply Bo; auto]. destruct (Z.eq_dec min_area 0) as [E|E]; auto. right. intros bp I. destruct (Bo bp I) as [_ [X|X]]; auto. }
    unfold offset_shapes in H. rewrite Hp in H. destruct (anchors_of dbg clockwise 0 (map fst bps)) as [[an srt]|]; [|discriminate]. 
    destruct (join_sorted_holes _ _ _ _ _) as [sh|] eqn:Ej; [|discriminate]. cbn [of_opt] in H. injection H as <-.
    destruct (join_grouped _ _ _ _ _ _ Ej) as [G0 G1]. fold (outers bps) in G0, G1. fold (holes bps) in G0.
    assert (S : shapes_of (sign_of clockwise) (area segs) sh) by (eapply grouped_shapes; eauto using sign_ne).
    destruct S as [S1 S2]. split; auto. intro q. unfold covered. rewrite Es. apply S2.
  Qed.
  Lemma count_cons {X} (f : X -> bool) x l : count f (x :: l) = (if f x then 1 else 0) + count f l.
  Proof. unfold count. cbn [filter]. destruct (f x); cbn [length]; lia. Qed.
  Lemma several_paths : forall paths contours,
    Forall (fun path => (is_outer path = true -> clear_offset (n_neg F outer) path false 0) /\ (is_inner path = true -> clear_offset inner (rev path) false 0)) paths ->
    outline_contours layout_new query tree_new sort_ends clean (S fuel) solver dbg F to_int int_area outer inner (join_normalize F join) paths = ROk contours ->
    forall q, contours_wind contours q = count (fun path => is_outer path && covered (n_neg F outer) path q) paths - count (fun path => is_inner path && covered inner (rev path) q) paths.
  Proof.
    induction paths as [|path paths IH]; intros contours Cr H q.
    { injection H as <-. reflexivity. }
    inversion Cr as [|? ? [Co Ci] Cr']; subst. cbn [outline_contours] in H. rewrite !count_cons. unfold is_outer, is_inner in *.
    destruct (Z.abs (int_area path) <=? 1) eqn:E1.
    { apply Z.leb_le in E1. replace (int_area path <? -1) with false by (symmetry; apply Z.ltb_ge; lia). replace (1 <? int_area path) with false by (symmetry; apply Z.ltb_ge; lia).
      cbn [andb]. rewrite (IH contours Cr' H q). lia. }
    apply Z.leb_gt in E1. destruct (int_area path <? 0) eqn:E2.
    - apply Z.ltb_lt in E2. assert (E3 : (int_area path <? -1) = true) by (apply Z.ltb_lt; lia). replace (1 <? int_area path) with false by (symmetry; apply Z.ltb_ge; lia). rewrite E3 in *.
      destruct (outline_one _ _ _ _ _ _ _ _ _ _ _ _ _ _ _) as [shapes| |] eqn:Eo; try discriminate. cbn [rbind] in H.
      destruct (outline_contours _ _ _ _ _ _ _ _ _ _ _ _ _ _ _) as [r| |] eqn:Er; try discriminate. cbn [rbind] in H. injection H as <-.
      destruct (one_path _ _ _ _ _ (Co eq_refl) Eo) as [_ W]. rewrite contours_app, W, (IH r Cr' eq_refl q). cbn [andb sign_of]. destruct (covered (n_neg F outer) path q); lia.
    - apply Z.ltb_ge in E2. assert (E3 : (1 <? int_area path) = true) by (apply Z.ltb_lt; lia). replace (int_area path <? -1) with false by (symmetry; apply Z.ltb_ge; lia). rewrite E3 in *.
      destruct (outline_one _ _ _ _ _ _ _ _ _ _ _ _ _ _ _) as [shapes| |] eqn:Eo; try discriminate. cbn [rbind] in H.
      destruct (outline_contours _ _ _ _ _ _ _ _ _ _ _ _ _ _ _) as [r| |] eqn:Er; try discriminate. cbn [rbind] in H. injection H as <-.
      destruct (one_path _ _ _ _ _ (Ci eq_refl) Eo) as [_ W]. rewrite contours_app, contours_rev, W, (IH r Cr' eq_refl q). cbn [andb sign_of]. destruct (covered inner (rev path) q); lia.
  Qed.
  Lemma operand_subject contours : operand Subject (map (fun c => (c, Subject)) contours) = contours /\ operand Clip (map (fun c => (c, Subject)) contours) = [].
  Proof. unfold operand. induction contours as [|c l [IH1 IH2]]; [auto|]. split; cbn [map filter snd fst]; [f_equal; exact IH1|exact IH2]. Qed.
  Lemma final_overlay contours clockwise min_area shapes : (contours = [] \/ clear_contours contours clockwise min_area) ->
    positive_overlay layout_new query tree_new sort_ends clean (S fuel) solver dbg clockwise min_area contours = ROk shapes ->
    shapes_of (sign_of clockwise) (fun q => 0 <? contours_wind contours q) shapes.
  Proof.
    intros [->|(B & O & N & NE & Ex & V)] H.
    - unfold positive_overlay in H. cbn [map input_segments flat_map overlay_links] in H. unfold overlay_links, build_boolean in H. cbn [rbind] in H.
      destruct (Sort []) as [P _]. apply Permutation_sym, Permutation_nil in P. rewrite P in H. cbn in H. injection H as <-. split; [constructor|]. reflexivity.
    - unfold positive_overlay in H. set (adds := map (fun c => (c, Subject)) contours) in *.
      destruct (operand_subject contours) as [Os Oc]. fold adds in Os, Oc.
      assert (O' : Forall (fun a => open_contour (fst a)) adds) by (unfold adds; apply Forall_map; exact O).
      destruct (C20_region_exact layout_new Lay query Q tree_new fuel solver adds RSubject Positive B N O' NE Ex) as (ls & Hl & _). rewrite Hl in H. cbn [rbind] in H.
      destruct (merged_balanced adds) as [BS BC].
      destruct (split_exact layout_new Lay query Q tree_new (input_segments adds) (input_inv adds B) BS BC solver fuel N Ex (or_introl NE)) as (out & Hs & W1 & _).
      destruct (overlay_arrangement layout_new Lay query Q tree_new _ _ _ _ _ _ B N Hl) as (segs & Hs' & A & El).
      assert (NI : input_segments adds <> []) by (intro E; apply NE; rewrite E; reflexivity).
      specialize (Hs' NI). rewrite Hs in Hs'. injection Hs' as <-. subst ls.
      destruct (C37_direction out Positive RSubject (sort_ends _) clean clockwise true min_area A Cl (Sort _)) as (g & ps & Hg & Hp & D).
      rewrite Hg in H. cbn [of_opt rbind] in H. specialize (V _ g ps Hl Hg Hp).
      destruct D as (D1 & D2 & D3 & _ & D4). { destruct V as [V|V]; [auto|right]. intros p I. rewrite Forall_forall in V. auto. }
      unfold extract_shapes in H. rewrite Hp in H. destruct (anchors_of dbg clockwise 0 ps) as [[an srt]|]; [|discriminate].
      destruct (join_sorted_holes _ _ _ _ _) as [sh|] eqn:Ej; [|discriminate]. cbn [of_opt] in H. injection H as <-.
      destruct (join_grouped _ _ _ _ _ _ Ej) as [G0 G1].
      eapply grouped_shapes; eauto using sign_ne. split; auto. split; auto. split; auto. intro q. rewrite D4.
      assert (Ws : wind (subj_chain out) q = contours_wind contours q).
      { rewrite W1. unfold subj_chain at 1. rewrite sort_merge_wind by (reflexivity || (intros [? ?]; simpl; lia)). transitivity (contours_wind (operand Subject adds) q); [apply input_wind_subj; auto|rewrite Os; reflexivity]. }
      rewrite Ws. cbn [bool_op inside]. destruct (0 <? contours_wind contours q); cbn [bz]; lia.
  Qed.

  (** One contour: nothing unless it is an outer contour, and then its offset. *)
  Theorem C45_single clockwise min_area path shapes : (is_outer path = true -> clear_offset (n_neg F outer) path clockwise min_area) ->
    custom clockwise min_area [path] = ROk shapes ->
    shapes_of (sign_of clockwise) (fun q => is_outer path && covered (n_neg F outer) path q) shapes.
  Proof.
    intros Cr H. cbn [outline_custom] in H. unfold is_outer in *. destruct (-1 <=? int_area path) eqn:E.
    - apply Z.leb_le in E. injection H as <-. replace (int_area path <? -1) with false by (symmetry; apply Z.ltb_ge; lia). split; [constructor|]. reflexivity.
    - apply Z.leb_gt in E. assert (E3 : (int_area path <? -1) = true) by (apply Z.ltb_lt; lia). rewrite E3 in *. cbn [andb]. eapply one_path; eauto.
  Qed.
  (** Any number of contours: the points that more offsets of outer contours than offsets of holes cover. *)
  Theorem C45_several clockwise min_area paths shapes : (2 <= length paths)%nat ->
    Forall (fun path => (is_outer path = true -> clear_offset (n_neg F outer) path false 0) /\ (is_inner path = true -> clear_offset inner (rev path) false 0)) paths ->
    (forall contours, outline_contours layout_new query tree_new sort_ends clean (S fuel) solver dbg F to_int int_area outer inner (join_normalize F join) paths = ROk contours ->
       contours = [] \/ clear_contours contours clockwise min_area) ->
    custom clockwise min_area paths = ROk shapes ->
    shapes_of (sign_of clockwise) (outline_region paths) shapes.
  Proof.
    intros L Cr Cc H. destruct paths as [|p0 [|p1 paths]]; try (simpl in L; lia). cbn [outline_custom] in H. set (ps := p0 :: p1 :: paths) in *.
    destruct (outline_contours _ _ _ _ _ _ _ _ _ _ _ _ _ _ ps) as [contours| |] eqn:Ec; try discriminate. cbn [rbind] in H.
    destruct (final_overlay contours clockwise min_area shapes (Cc _ eq_refl) H) as [S1 S2]. split; auto. intro q. rewrite S2, (several_paths ps contours Cr Ec q). unfold outline_region.
    rewrite (Z.ltb_antisym). rewrite Z.ltb_antisym. destruct (_ <=? _) eqn:E1, (_ <=? _) eqn:E2 in |- *; auto; rewrite ?Z.leb_le, ?Z.leb_gt in *; lia.
  Qed.

  (** Strokes of any number of paths: nothing if half the width is at most one unit of the grid, otherwise the area of C41, every contour of it kept *)
  Variable int_len : num F -> Z.
  Theorem C45_stroke style jc cc closed clockwise paths shapes :
    (forall segs, stroke_segments F to_int style jc cc closed paths = Some segs ->
      Forall (fun s => sa (sx s) <> sb (sx s) /\ bounded (sx s)) segs /\ no_grid solver (length (sort_merge segs)) /\
      (sort_merge segs <> [] \/ is_list_split solver 0 = true) /\ exact_crossings (map sx (sort_merge segs))) ->
    stroke_custom layout_new query tree_new sort_ends clean (S fuel) solver dbg F to_int int_len style jc cc closed clockwise paths = ROk shapes ->
    let thin := Z.abs (int_len (from_f64 F (d_mul F (d_lit F (1 # 2)) (to_f64 F (st_width F style))))) <=? 1 in
    shapes_of (sign_of clockwise) (fun q => negb thin && match stroke_segments F to_int style jc cc closed paths with Some segs => area segs q | None => false end) shapes.
  Proof.
    intros Cr H thin. subst thin. unfold stroke_custom in H. destruct paths as [|p0 paths].
    { injection H as <-. split; [constructor|]. intro q. cbn. rewrite andb_false_r. reflexivity. }
    set (ps := p0 :: paths) in *. destruct (_ <=? 1).
    { injection H as <-. split; [constructor|]. reflexivity. }
    cbn [negb andb]. destruct (stroke_segments F to_int style jc cc closed ps) as [segs|] eqn:Es; [|discriminate]. destruct (Cr segs eq_refl) as (Fi & N & NE & Ex).
    cbn [of_opt rbind] in H.
    destruct (C41_stroke_exact layout_new Lay query Q tree_new F to_int style jc cc closed ps segs fuel solver clean clockwise Es Fi N NE Ex Cl) as (ls & Hl & D).
    rewrite Hl in H. cbn [rbind] in H. destruct (D _ (Sort ls)) as (g & bps & Hg & Hp & R). rewrite Hg in H. cbn [of_opt rbind] in H.
    unfold offset_shapes in H. rewrite Hp in H. destruct (anchors_of dbg clockwise 0 (map fst bps)) as [[an srt]|]; [|discriminate].
    destruct (join_sorted_holes _ _ _ _ _) as [sh|] eqn:Ej; [|discriminate]. cbn [of_opt] in H. injection H as <-.
    destruct (join_grouped _ _ _ _ _ _ Ej) as [G0 G1]. fold (outers bps) in G0, G1. fold (holes bps) in G0.
    eapply grouped_shapes; eauto using sign_ne.
  Qed.
End Several.

(** ** A case that meets the hypotheses: a square of side 20 with a square hole of side 8, both offset by 2 *)
Definition frame_paths : list (list (Q * Q)) := [[(0, 0); (20, 0); (20, 20); (0, 20)]; [(6, 6); (6, 14); (14, 14); (14, 6)]]%Q.
Definition q_area (path : list (Q * Q)) : Z := - area2 (map q_round path).
Definition frame_run (clockwise : bool) (min_area : Z) : run (list (list (list pt))) :=
  outline_custom lay4 qry (fun _ => true) sorted_ends clean_line 5 (mk_solver StAuto) true QF q_round q_area 2%Q 2%Q (Bevel QF) clockwise min_area frame_paths.
Example C45_example : frame_run false 1 =
  ROk [[[Pt (-2) 20; Pt (-2) 0; Pt 0 (-2); Pt 20 (-2); Pt 22 0; Pt 22 20; Pt 20 22; Pt 0 22]; [Pt 8 8; Pt 8 12; Pt 12 12; Pt 12 8]]].
Proof. vm_compute. reflexivity. Qed.
Definition clear_check (radius : Q) (path : list (Q * Q)) (clockwise : bool) (min_area : Z) : bool :=
  match outline_segments QF q_round radius (join_normalize QF (Bevel QF)) path with
  | None => true
  | Some segs =>
      forallb (fun s => negb (degenerate s) && boundedb (sx s)) segs && negb (length (sort_merge segs) =? 0)%nat && exactb (map sx (sort_merge segs)) &&
      match offset_links lay4 qry (fun _ => true) 5 (mk_solver StAuto) segs with
      | ROk ls => match graph_new ls (sorted_ends ls) with
                  | Some g => match offset_pieces g clean_line clockwise min_area with
                              | Some bps => forallb (fun bp => snd bp && p_valid (fst bp)) bps
                              | None => true end
                  | None => true end
      | _ => true end
  end.
Lemma clear_check_ok radius path clockwise min_area : clear_check radius path clockwise min_area = true ->
  (forall segs, outline_segments QF q_round radius (join_normalize QF (Bevel QF)) path = Some segs -> no_grid (mk_solver StAuto) (length (sort_merge segs))) ->
  clear_offset lay4 qry (fun _ => true) sorted_ends clean_line 4 (mk_solver StAuto) QF q_round (Bevel QF) radius path clockwise min_area.
Proof.
  unfold clear_check, clear_offset. intros H N segs E. specialize (N segs E). rewrite E in H. rewrite !andb_true_iff in H. destruct H as [[[H1 H2] H3] H4].
  split.
  { rewrite forallb_forall in H1. apply Forall_forall. intros s I. specialize (H1 s I). apply andb_true_iff in H1 as [H0 H1]. split; [|apply boundedb_ok; auto].
    apply negb_true_iff in H0. intro X. unfold degenerate in H0. rewrite (proj2 (pt_eqb_eq _ _) X) in H0. discriminate. }
  split; [exact N|]. split; [left; intro X; rewrite X in H2; discriminate|]. split; [apply exactb_ok; auto|].
  intros ls g bps Hl Hg Hp. rewrite Hl, Hg, Hp in H4. rewrite forallb_forall in H4. apply Forall_forall. intros bp I. apply H4, andb_true_iff in I. tauto.
Qed.
Example C45_hypotheses :
  Forall (fun path => (is_outer QF q_area path = true -> clear_offset lay4 qry (fun _ => true) sorted_ends clean_line 4 (mk_solver StAuto) QF q_round (Bevel QF) (n_neg QF 2%Q) path false 0) /\
    (is_inner QF q_area path = true -> clear_offset lay4 qry (fun _ => true) sorted_ends clean_line 4 (mk_solver StAuto) QF q_round (Bevel QF) 2%Q (rev path) false 0)) frame_paths /\
  (forall contours, outline_contours lay4 qry (fun _ => true) sorted_ends clean_line 5 (mk_solver StAuto) true QF q_round q_area 2%Q 2%Q (join_normalize QF (Bevel QF)) frame_paths = ROk contours ->
    clear_contours lay4 qry (fun _ => true) sorted_ends clean_line 4 (mk_solver StAuto) contours false 1) /\
  map (outline_region QF q_round q_area 2%Q 2%Q (Bevel QF) frame_paths) [(1, 1); (7, 7); (10, 10); (- (1 # 1), 5); (30, 5)]%Q = [true; true; false; true; false].
Proof.
  split; [|split].
  - constructor; [|constructor; [|constructor]]; (split; [intro H; try (vm_compute in H; discriminate)|intro H; try (vm_compute in H; discriminate)]); apply clear_check_ok; try (vm_compute; reflexivity);
    intros segs E; vm_compute in E; injection E as <-; vm_compute; auto.
  - intros contours E. assert (E' : contours = [[Pt (-2) 20; Pt (-2) 0; Pt 0 (-2); Pt 20 (-2); Pt 22 0; Pt 22 20; Pt 20 22; Pt 0 22]; [Pt 12 12; Pt 12 8; Pt 8 8; Pt 8 12]]) by (vm_compute in E; injection E as <-; reflexivity).
    rewrite E'. split; [repeat constructor|]. split; [repeat constructor; discriminate|]. split; [vm_compute; auto|]. split; [vm_compute; discriminate|]. split; [apply exactb_ok; vm_compute; reflexivity|].
    intros ls g ps Hl Hg Hp. right. vm_compute in Hl. injection Hl as <-. vm_compute in Hg. injection Hg as <-. vm_compute in Hp. injection Hp as <-. repeat constructor.
  - vm_compute. reflexivity.
Qed.
(** two crossing strokes of width 4, and one that is too thin *)
Definition cross_paths : list (list (Q * Q)) := [[(0, 0); (20, 0)]; [(10, - (10 # 1)); (10, 10)]]%Q.
Definition bar_style (w : Q) : stroke_style QF := SS QF w (Butt QF) (Butt QF) (Bevel QF).
Definition cross_run (w : Q) (clockwise : bool) : run (list (list (list pt))) :=
  stroke_custom lay4 qry (fun _ => true) sorted_ends clean_line 5 (mk_solver StAuto) true QF q_round Qceiling (bar_style w) 2 3 false clockwise cross_paths.
Example C45_stroke_example : cross_run 4%Q false =
  ROk [[[Pt 0 2; Pt 0 (-2); Pt 8 (-2); Pt 8 (-10); Pt 12 (-10); Pt 12 (-2); Pt 20 (-2); Pt 20 2; Pt 12 2; Pt 12 10; Pt 8 10; Pt 8 2]]] /\ cross_run 2%Q false = ROk [].
Proof. vm_compute. auto. Qed.
Example C45_stroke_hypotheses : forall segs, stroke_segments QF q_round (bar_style 4%Q) 2 3 false cross_paths = Some segs ->
      Forall (fun s => sa (sx s) <> sb (sx s) /\ bounded (sx s)) segs /\ no_grid (mk_solver StAuto) (length (sort_merge segs)) /\
      (sort_merge segs <> [] \/ is_list_split (mk_solver StAuto) 0 = true) /\ exact_crossings (map sx (sort_merge segs)).
Proof.
  intros segs E. assert (H : forallb (fun s => negb (degenerate s) && boundedb (sx s)) segs = true /\ no_grid (mk_solver StAuto) (length (sort_merge segs)) /\
    exactb (map sx (sort_merge segs)) = true /\ is_list_split (mk_solver StAuto) 0 = true) by (vm_compute in E; injection E as <-; vm_compute; auto).
  destruct H as (H & N & Ex & L). split; [|split; auto; split; auto; apply exactb_ok; auto].
  rewrite forallb_forall in H. apply Forall_forall. intros s I. specialize (H s I). apply andb_true_iff in H as [H1 H2]. split; [|apply boundedb_ok; auto].
  apply negb_true_iff in H1. intro X. unfold degenerate in H1. rewrite (proj2 (pt_eqb_eq _ _) X) in H1. discriminate.
Qed.
Print Assumptions C45_stroke.
Print Assumptions C45_several.
Print Assumptions C45_single.
