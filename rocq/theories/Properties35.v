(** * Property theorems, part 35: the shapes of strokes and offsets (C41, C45) when contours of the answer do not touch.

    [C45_stroke_near] and [C45_single_near] add up the winding numbers of all contours of the answer.  If no two of its contours touch, and none
    touches itself, more can be said, as in C40: each hole lies in the shape it is put in, no two shapes overlap, and a point belongs to
    one of the shapes iff it belongs to the area. *)
From Coq Require Import Qround Qabs.
From Verif Require Import Base Spec QLib ModelSegm SegmProofs MergeProofs PlanarGeo PlanarSum ModelFill ModelFilter FillProofs FillCorrect
  ModelCross CrossProofs CrossPoint MarksProofs CoreResults Properties01 ModelSplit SplitProofs SplitPlanar SplitPass BinsProofs SplitApply SplitLoop
  ModelFrag ModelOverlay OverlayProofs FragProofs GridCover Properties02
  ModelGraph GraphProofs ModelExtract ExtractProofs ContourResults Rotation NextLink Properties03
  MoveLemma SectorLemma Sides WalkSides Orient Properties04 ModelBind BindProofs BindSweep Thin Nest Properties05 Natural ModelOffset OffsetProofs ModelMesh MeshProofs Properties09
  SplitNear InputCover Properties15 Properties10 ModelOutline Properties13 OffsetNear Properties19 Properties29 OverlayNear FloatMain AreaMono Fewer Apart Properties30
  Masked Kept KeptShapes Properties31 Properties33 OffsetEdges Properties22.
Open Scope Z_scope.

(** ** Specification *)
(** links with the area on exactly one side *)
Definition border (ls : list link) : list link := filter (fun l => is_included RSubject (l_fill l)) ls.
(** the shapes do not overlap, and at the points [A] they make up the area [R] *)
Definition shapes_apart (A : qpt -> Prop) (R : qpt -> bool) (shapes : list (list (list pt))) : Prop :=
  (forall k k' sh sh' q, k <> k' -> nth_error shapes k = Some sh -> nth_error shapes k' = Some sh' -> ~ (covers sh q /\ covers sh' q)) /\
  forall q, A q -> ((exists sh, In sh shapes /\ covers sh q) <-> R q = true).

Lemma border_mask ls : border (LM ls) = LM (border ls).
Proof. unfold border. induction ls as [|l ls IH]; [reflexivity|]. cbn [map filter]. rewrite included_mask. destruct (is_included RSubject (l_fill l)); cbn [map]; rewrite IH; reflexivity. Qed.

(** [C40_shapes_apart_partial] with a minimal area that no contour found falls short of *)
Lemma result_shapes_apart segs fr r ends clean clockwise simplify min_area dbg : arrangement segs -> ends_ok (result_links fr r segs) ends ->
  clean_ok clean -> simplify_ok clean -> dedup_ok clean -> apart (result_links fr r segs) ->
  exists g ps, graph_new (result_links fr r segs) ends = Some g /\
    extract_pieces g clean r clockwise simplify min_area (repeat false (length (result_links fr r segs))) = Some ps /\
    (min_area = 0 \/ (forall p, In p ps -> p_valid p = true) ->
     exists shapes, extract_shapes dbg g clean r clockwise simplify min_area (repeat false (length (result_links fr r segs))) = Some shapes /\
       shapes_ok (sign_of clockwise) (fun q => bool_op r (inside fr (wind (subj_chain segs) q)) (inside fr (wind (clip_chain segs) q))) shapes).
Proof.
  intros A E Ck Si De Ap. destruct (blinks_graph segs A fr _ ends E) as (g & pts & H & G). fold (result_links fr r segs) in *.
  set (inc := fun l => is_included r (l_fill l)).
  assert (Al : forall l, In l (result_links fr r segs) -> inc l = true).
  { intros l I. apply blinks_in in I as (s & f & _ & If & ->). exact If. }
  assert (Fi : filter inc (result_links fr r segs) = result_links fr r segs).
  { revert Al. generalize (result_links fr r segs). induction l as [|x l IH]; intro Al; auto. simpl. rewrite (Al x) by (simpl; auto). f_equal. apply IH. intros; apply Al; simpl; auto. }
  assert (Ff : flags inc (result_links fr r segs) = repeat false (length (result_links fr r segs))).
  { rewrite <- flags_all. unfold flags. apply map_ext_in. intros l I. rewrite (Al l I). auto. }
  destruct (pieces_spec (result_links fr r segs) g pts inc clean r clockwise simplify min_area G (blinks_wf segs A fr _)) as (ps & P1 & P2 & _).
  { intro v. rewrite Fi. apply result_even; auto. }
  destruct (C18_extraction segs fr r ends clean clockwise simplify min_area A E) as (g' & ps' & Hg' & Hp' & W & _). rewrite H in Hg'. injection Hg' as <-.
  rewrite <- Ff in *. rewrite P1 in Hp'. injection Hp' as <-. exists g, ps. split; auto. split; auto. intro V.
  destruct (glue_any segs A fr r (is_included r) g pts G Fi clean clockwise simplify min_area ps P1) with (dbg := dbg) as (shapes & Hs & Gr & Ok).
  - intros p I Nz. destruct V as [M|V]; [|auto]. rewrite Forall_forall in P2. destruct (P2 p I) as (_ & Ec & Ev). eapply valid_pieces; eauto.
  - destruct simplify.
    + right. split; auto.
    + left. intros p I. apply De. eapply walk_distinct; [|apply W; auto]. apply blinks_wf; auto.
  - right. exact Ap.
  - exists shapes. split; auto. apply shapes_covers; auto. destruct clockwise; discriminate.
Qed.

Lemma offset_shapes_extract g clean dbg cw ma bps : offset_pieces g clean cw ma = Some bps -> Forall (fun bp => snd bp = true) bps ->
  offset_shapes g clean dbg cw ma = extract_shapes dbg (gmask g) clean RSubject cw true ma (filter_by_rule RSubject (g_links g)).
Proof.
  intros H B. unfold offset_shapes, extract_shapes. rewrite H. unfold offset_pieces in H. cbv zeta in H. unfold extract_pieces.
  rewrite (offset_is_extract g clean cw ma _ _ _ _ H B). reflexivity.
Qed.

Section Extract.
  Variable segs : list (segment cntO).
  Hypothesis A : arrangement (map unb segs).
  Variables (ends : list (nat * pt)) (clean : bool -> list pt -> list pt * bool) (clockwise dbg : bool).
  Hypothesis E : ends_ok (all_links segs) ends.
  Lemma apart_mask : apart (border (all_links segs)) -> apart (result_links Positive RSubject (map unb segs)).
  Proof.
    intro Ap. rewrite <- (filter_all_links _ A), <- (offset_links_mask segs A). fold (border (LM (all_links segs))). rewrite border_mask.
    intros v l l' l'' I I' I'' T T' T''. apply in_map_iff in I as (m & <- & I). apply in_map_iff in I' as (m' & <- & I'). apply in_map_iff in I'' as (m'' & <- & I'').
    destruct (Ap v m m' m'' I I' I'' T T' T'') as [H|[H|H]]; subst; auto.
  Qed.
  Theorem C41_shapes_apart min_area : clean_ok clean -> simplify_ok clean -> apart (border (all_links segs)) ->
    exists g bps, graph_new (all_links segs) ends = Some g /\ offset_pieces g clean clockwise min_area = Some bps /\
      (min_area = 0 \/ (forall bp, In bp bps -> p_valid (fst bp) = true) -> Forall (fun bp => snd bp = true) bps ->
       exists shapes, offset_shapes g clean dbg clockwise min_area = Some shapes /\
         shapes_ok (sign_of clockwise) (area segs) shapes).
  Proof.
    intros Ck Si Ap. destruct (offset_graph segs A ends E) as (g & pts & pts' & Hg & Wg & G' & G).
    destruct (C41_extract segs A ends clean clockwise E min_area Ck) as (g0 & bps & Hg0 & Hp & _). rewrite Hg in Hg0. injection Hg0 as <-.
    exists g, bps. split; auto. split; auto. intros V Bo. rewrite (offset_shapes_extract g clean dbg clockwise min_area bps Hp Bo).
    assert (Ff : filter_by_rule RSubject (g_links g) = flags (fun l => is_included RSubject (l_fill l)) (kept (fun _ => true) Positive (map unb segs))).
    { rewrite (graph_flags segs g pts G), (offset_flags segs A). reflexivity. }
    pose proof (filter_all_links _ A) as Fi. rewrite Ff.
    destruct (pieces_spec _ (gmask g) pts' (fun l => is_included RSubject (l_fill l)) clean RSubject clockwise true min_area G' (blinks_wf _ A Positive _)) as (ps & P1 & P2 & Sp).
    { intro v. rewrite Fi. apply result_even; auto. }
    destruct (glue_any (map unb segs) A Positive RSubject (fun _ => true) (gmask g) pts' G' Fi clean clockwise true min_area ps P1) with (dbg := dbg) as (shapes & Hs & Gr & Ok).
    - intros p I Nz. destruct V as [M|V].
      + rewrite Forall_forall in P2. destruct (P2 p I) as (_ & Ec & Ev). eapply valid_pieces; eauto.
      + assert (Eq : Some ps = Some (map fst bps)).
        { rewrite <- P1, <- Ff. unfold extract_pieces. unfold offset_pieces in Hp. cbv zeta in Hp. apply (offset_is_extract g clean clockwise min_area _ _ _ _ Hp Bo). }
        injection Eq as ->. apply in_map_iff in I as (bp & <- & I). auto.
    - right. split; [exact Si|]. left. apply apart_mask, Ap.
    - right. apply apart_mask, Ap.
    - exists shapes. split; [exact Hs|]. apply shapes_covers in Ok; [|destruct clockwise; discriminate]. destruct Ok as (O1 & O2 & O3).
      split; [exact O1|]. split; [exact O2|]. intro q. rewrite <- (R_area segs q). apply O3.
  Qed.
  (** A minimal area: the contours found are those of the whole area; those that are large enough are grouped into shapes that do not
      overlap and cover what the contours left enclose. *)
  Theorem C41_min_area_apart min_area : clean_ok clean -> simplify_ok clean -> dedup_ok clean -> apart (border (all_links segs)) -> 0 <= min_area ->
    exists g all found, graph_new (all_links segs) ends = Some g /\ offset_pieces g clean clockwise 0 = Some all /\ offset_pieces g clean clockwise min_area = Some found /\
      (Forall (fun bp => snd bp = true) all -> Forall (fun bp => snd bp = true) found ->
         (forall q, contours_wind (outers all ++ holes all) q = if area segs q then sign_of clockwise else 0) /\
         exists shapes, offset_shapes g clean dbg clockwise min_area = Some shapes /\
           grouped (filter (big min_area) (outers all)) (filter (big min_area) (holes all)) shapes /\
           shapes_ok (sign_of clockwise) (fun q => negb (contours_wind (left_over min_area (map fst all)) q =? 0)) shapes).
  Proof.
    intros Ck Si De Ap M. destruct (offset_graph segs A ends E) as (g & pts & pts' & Hg & Wg & G' & G).
    destruct (C41_extract segs A ends clean clockwise E 0 Ck) as (g0 & bps & Hg0 & Hp & _). rewrite Hg in Hg0. injection Hg0 as <-.
    destruct (C41_extract segs A ends clean clockwise E min_area Ck) as (g0 & found & Hg0 & Hf & _). rewrite Hg in Hg0. injection Hg0 as <-.
    exists g, bps, found. split; auto. split; auto. split; auto. intros Bo Bf. rewrite (offset_shapes_extract g clean dbg clockwise min_area found Hf Bf).
    assert (Ff : filter_by_rule RSubject (g_links g) = flags (fun l => is_included RSubject (l_fill l)) (kept (fun _ => true) Positive (map unb segs))).
    { rewrite (graph_flags segs g pts G), (offset_flags segs A). reflexivity. }
    pose proof (filter_all_links _ A) as Fi.
    assert (P1 : extract_pieces (gmask g) clean RSubject clockwise true 0 (flags (fun l => is_included RSubject (l_fill l)) (kept (fun _ => true) Positive (map unb segs))) = Some (map fst bps)).
    { rewrite <- Ff. unfold extract_pieces. unfold offset_pieces in Hp. cbv zeta in Hp. apply (offset_is_extract g clean clockwise 0 _ _ _ _ Hp Bo). }
    rewrite Ff.
    destruct (glue_left (map unb segs) A Positive RSubject (fun _ => true) (gmask g) pts' G' Fi (apart_mask Ap) clean clockwise true min_area (map fst bps) M Ck Si De P1 dbg) as (shapes & Hs & Gr & Rg & Ok).
    split.
    - intro q. unfold outers, holes. rewrite Rg, (R_area segs q). destruct (area segs q); cbn [bz]; lia.
    - exists shapes. split; [exact Hs|]. split; auto. apply shapes_covers; [destruct clockwise; discriminate|]. unfold left_over. rewrite filter_app. exact Ok.
  Qed.
End Extract.

Section Near.
  Variable layout_new : Z -> Z -> nat -> option (Z -> nat).
  Hypothesis Lay : layout_ok layout_new.
  Variable query : list (nat * xseg) -> Z * Z -> Z -> list (nat * xseg).
  Hypothesis Q : query_ok query.
  Variable tree_new : Z * Z -> bool.
  Variable clean : bool -> list pt -> list pt * bool.
  Hypothesis Cl : clean_ok clean.
  Hypothesis Si : simplify_ok clean.

  (** any segments, however much is rounded *)
  Theorem C41_offset_apart n solver segs clockwise dbg min_area ls ends : Forall fit segs -> balanced (chain_of osubj segs) -> no_grid solver (length (sort_merge segs)) ->
    offset_links layout_new query tree_new (S n) solver segs = ROk ls -> ends_ok ls ends -> apart (border ls) ->
    exists g bps, graph_new ls ends = Some g /\ offset_pieces g clean clockwise min_area = Some bps /\
      (Forall (fun s => obold (sc s) = true) segs -> Forall (fun bp => snd bp = true) bps) /\
      (min_area = 0 \/ (forall bp, In bp bps -> p_valid (fst bp) = true) -> Forall (fun bp => snd bp = true) bps -> exists shapes, offset_shapes g clean dbg clockwise min_area = Some shapes /\ Forall (shape_ok (sign_of clockwise)) shapes /\
         shapes_apart (away (inject_Z (moved (precision solver) n)) segs) (area segs) shapes).
  Proof.
    intros F B N H E Ap. destruct (offset_run layout_new Lay query Q tree_new _ _ _ _ F B N H) as (out & Hs & H0 & A & ->).
    destruct (C41_shapes_apart out A ends clean clockwise dbg E min_area Cl Si Ap) as (g & bps & Hg & Hp & D). exists g, bps. split; auto. split; auto. split.
    - intro Bo. eapply (all_bold out A ends clean clockwise E min_area); eauto. destruct segs as [|s0 l0]; [rewrite H0; auto|]. eapply split_bold; [exact Bo|]. apply Hs. discriminate.
    - intros V Bp. destruct (D V Bp) as (shapes & Hx & O1 & O2 & O3). exists shapes. split; [exact Hx|]. split; [exact O1|]. split; [exact O2|].
      intros q Aw. rewrite O3. destruct segs as [|s0 l0]; [rewrite H0 by reflexivity; tauto|].
      rewrite (offset_area_near layout_new Lay query Q tree_new n solver (s0 :: l0) out q); auto; [tauto|]. apply Hs. discriminate.
  Qed.
  (** crossings on the grid: the area itself, at every point *)
  Theorem C41_offset_apart_exact fuel solver segs clockwise dbg : Forall fit segs -> balanced (chain_of osubj segs) -> no_grid solver (length (sort_merge segs)) ->
    sort_merge segs <> [] \/ is_list_split solver 0 = true -> exact_crossings (map sx (sort_merge segs)) ->
    exists ls, offset_links layout_new query tree_new (S fuel) solver segs = ROk ls /\ forall ends, ends_ok ls ends -> apart (border ls) ->
      exists g bps, graph_new ls ends = Some g /\ offset_pieces g clean clockwise 0 = Some bps /\
        (Forall (fun s => obold (sc s) = true) segs -> Forall (fun bp => snd bp = true) bps) /\
        (Forall (fun bp => snd bp = true) bps -> exists shapes, offset_shapes g clean dbg clockwise 0 = Some shapes /\ shapes_ok (sign_of clockwise) (area segs) shapes).
  Proof.
    intros F B N NE Ex. destruct (merged_unb_balanced segs B) as [BS BC].
    assert (X : exists ls, offset_links layout_new query tree_new (S fuel) solver segs = ROk ls /\
      forall out, (segs <> [] -> split_segments layout_new query tree_new (S fuel) solver segs = Done out) -> (segs = [] -> out = []) -> forall q, wind (chain_of osubj out) q = wind (chain_of osubj segs) q).
    { destruct segs as [|s0 l0]. { exists []. split; auto. intros out _ E q. rewrite E; auto. }
      unfold offset_links. set (segs := s0 :: l0) in *.
      destruct (split_exact layout_new Lay query Q tree_new (map unb segs) (fit_inv segs F) BS BC solver fuel) as (out & H & WS & _).
      { rewrite sort_merge_unb, map_length. exact N. }
      { rewrite sort_merge_unb, map_sx_smap. exact Ex. }
      { rewrite sort_merge_unb. destruct NE as [NE|NE]; auto. left. intro E. apply map_eq_nil in E. auto. }
      pose proof (split_smap unbold unbold_add unbold_inv unbold_ne layout_new query tree_new (S fuel) solver segs) as Nat. rewrite H in Nat.
      destruct (split_segments layout_new query tree_new (S fuel) solver segs) as [o| |] eqn:ES; try discriminate. cbn [omap] in Nat. injection Nat as ->.
      exists (all_links o). split; [destruct o; auto|]. intros out E _ q. specialize (E ltac:(discriminate)). injection E as <-.
      specialize (WS q). rewrite unbold_subj in WS. rewrite WS. unfold subj_chain. rewrite sort_merge_wind by (reflexivity || (intros [? ?]; simpl; lia)).
      change (wind (subj_chain (map unb segs)) q = wind (chain_of osubj segs) q). rewrite unbold_subj. reflexivity. }
    destruct X as (ls & H & W). exists ls. split; auto. intros ends E Ap.
    destruct (offset_run layout_new Lay query Q tree_new _ _ _ _ F B N H) as (out & Hs & H0 & A & ->). specialize (W out Hs H0).
    destruct (C41_shapes_apart out A ends clean clockwise dbg E 0 Cl Si Ap) as (g & bps & Hg & Hp & D). exists g, bps. split; auto. split; auto. split.
    - intro Bo. eapply (all_bold out A ends clean clockwise E 0); eauto. destruct segs as [|s0 l0]; [rewrite H0; auto|]. eapply split_bold; [exact Bo|]. apply Hs. discriminate.
    - intro Bp. destruct (D (or_introl eq_refl) Bp) as (shapes & Hx & O1 & O2 & O3). exists shapes. split; [exact Hx|]. split; [exact O1|]. split; [exact O2|].
      intro q. rewrite O3. unfold area. rewrite W. tauto.
  Qed.

  (** with a minimal area *)
  Hypothesis De : dedup_ok clean.
  Theorem C41_offset_min_area n solver segs clockwise dbg min_area ls ends : Forall fit segs -> balanced (chain_of osubj segs) -> no_grid solver (length (sort_merge segs)) ->
    offset_links layout_new query tree_new (S n) solver segs = ROk ls -> ends_ok ls ends -> apart (border ls) -> 0 <= min_area ->
    exists g all found, graph_new ls ends = Some g /\ offset_pieces g clean clockwise 0 = Some all /\ offset_pieces g clean clockwise min_area = Some found /\
      (Forall (fun s => obold (sc s) = true) segs -> Forall (fun bp => snd bp = true) all /\ Forall (fun bp => snd bp = true) found) /\
      (Forall (fun bp => snd bp = true) all -> Forall (fun bp => snd bp = true) found ->
         (forall q, away (inject_Z (moved (precision solver) n)) segs q -> contours_wind (outers all ++ holes all) q = if area segs q then sign_of clockwise else 0) /\
         exists shapes, offset_shapes g clean dbg clockwise min_area = Some shapes /\
           grouped (filter (big min_area) (outers all)) (filter (big min_area) (holes all)) shapes /\
           shapes_ok (sign_of clockwise) (fun q => negb (contours_wind (left_over min_area (map fst all)) q =? 0)) shapes).
  Proof.
    intros F B N H E Ap M. destruct (offset_run layout_new Lay query Q tree_new _ _ _ _ F B N H) as (out & Hs & H0 & A & ->).
    destruct (C41_min_area_apart out A ends clean clockwise dbg E min_area Cl Si De Ap M) as (g & all & found & Hg & Hp & Hf & D). exists g, all, found. split; auto. split; auto. split; auto. split.
    - intro Bo. assert (Bo' : Forall (fun s => obold (sc s) = true) out).
      { destruct segs as [|s0 l0]; [rewrite H0; auto|]. eapply split_bold; [exact Bo|]. apply Hs. discriminate. }
      split; [eapply (all_bold out A ends clean clockwise E 0)|eapply (all_bold out A ends clean clockwise E min_area)]; eauto.
    - intros Ba Bf. destruct (D Ba Bf) as (D1 & D2). split; [|exact D2]. intros q Aw. rewrite D1. destruct segs as [|s0 l0]; [rewrite H0 by reflexivity; reflexivity|].
      rewrite (offset_area_near layout_new Lay query Q tree_new n solver (s0 :: l0) out q); auto. apply Hs. discriminate.
  Qed.

  Variable sort_ends : list link -> list (nat * pt).
  Hypothesis Sort : forall ls, ends_ok ls (sort_ends ls).
  Variables (n : nat) (solver : Solver) (dbg : bool).
  Variable F : FloatOps.
  Variable to_int : fp F -> pt.
  Lemma shapes_apart_nil A (R : qpt -> bool) : (forall q, R q = false) -> shapes_apart A R [].
  Proof. intro H. split; [intros [|k] k' sh sh' q _ E; discriminate|]. intros q _. rewrite H. split; [intros (? & [] & _)|discriminate]. Qed.
  (** The shapes of a stroke, however much is rounded: they do not overlap, and away from the segments drawn they make up the
      area of the stroke. *)
  Variable int_len : num F -> Z.
  Theorem C45_stroke_apart style jc cc closed clockwise paths segs shapes : stroke_segments F to_int style jc cc closed paths = Some segs ->
    Forall (fun s => sa (sx s) <> sb (sx s) /\ bounded (sx s)) segs -> no_grid solver (length (sort_merge segs)) ->
    (forall ls, offset_links layout_new query tree_new (S n) solver segs = ROk ls -> apart (border ls)) ->
    stroke_custom layout_new query tree_new sort_ends clean (S n) solver dbg F to_int int_len style jc cc closed clockwise paths = ROk shapes ->
    let thin := Z.abs (int_len (from_f64 F (d_mul F (d_lit F (1 # 2)) (to_f64 F (st_width F style))))) <=? 1 in
    Forall (shape_ok (sign_of clockwise)) shapes /\
    shapes_apart (away (inject_Z (moved (precision solver) n)) segs) (fun q => negb thin && area segs q) shapes.
  Proof.
    intros Es Fi N Ap H thin. subst thin. unfold stroke_custom in H. destruct paths as [|p0 paths].
    { cbn in Es. injection Es as <-. injection H as <-. split; [constructor|]. apply shapes_apart_nil. intro q. cbn. apply andb_false_r. }
    set (ps := p0 :: paths) in *. destruct (_ <=? 1).
    { injection H as <-. split; [constructor|]. apply shapes_apart_nil. reflexivity. }
    cbn [negb andb]. rewrite Es in H. cbn [of_opt rbind] in H.
    destruct (offset_links _ _ _ _ _ _) as [ls| |] eqn:Hl; try discriminate. cbn [rbind] in H. specialize (Ap ls eq_refl).
    destruct (stroke_segments_proper _ _ _ _ _ _ _ _ Es) as [B P]. pose proof (proper_fit _ P Fi) as Ft.
    destruct (C41_offset_apart n solver segs clockwise dbg 0 ls (sort_ends ls) Ft B N Hl (Sort ls) Ap) as (g & bps & Hg & Hp & Bo & R).
    destruct R as (sh & Hx & O1 & O2); [auto|apply Bo; eapply stroke_bold; eauto|].
    rewrite Hg in H. cbn [of_opt rbind] in H. rewrite Hx in H. cbn [of_opt] in H. injection H as <-. auto.
  Qed.
  (** the same when the crossings are grid points: the area itself, and the run does not fail *)
  Theorem C45_stroke_apart_exact style jc cc closed clockwise paths segs : paths <> [] -> stroke_segments F to_int style jc cc closed paths = Some segs ->
    Forall (fun s => sa (sx s) <> sb (sx s) /\ bounded (sx s)) segs -> no_grid solver (length (sort_merge segs)) ->
    sort_merge segs <> [] \/ is_list_split solver 0 = true -> exact_crossings (map sx (sort_merge segs)) ->
    1 < Z.abs (int_len (from_f64 F (d_mul F (d_lit F (1 # 2)) (to_f64 F (st_width F style))))) ->
    (forall ls, offset_links layout_new query tree_new (S n) solver segs = ROk ls -> apart (border ls)) ->
    exists shapes, stroke_custom layout_new query tree_new sort_ends clean (S n) solver dbg F to_int int_len style jc cc closed clockwise paths = ROk shapes /\
      shapes_ok (sign_of clockwise) (area segs) shapes.
  Proof.
    intros NP Es Fi N NE Ex Th Ap. destruct (stroke_segments_proper _ _ _ _ _ _ _ _ Es) as [B P]. pose proof (proper_fit _ P Fi) as Ft.
    destruct (C41_offset_apart_exact n solver segs clockwise dbg Ft B N NE Ex) as (ls & Hl & D).
    destruct (D (sort_ends ls) (Sort ls) (Ap ls Hl)) as (g & bps & Hg & Hp & Bo & R).
    destruct R as (sh & Hx & O). { apply Bo. eapply stroke_bold; eauto. }
    exists sh. split; [|exact O]. unfold stroke_custom. destruct paths as [|p0 paths]; [congruence|].
    destruct (Z.leb_spec (Z.abs (int_len (from_f64 F (d_mul F (d_lit F (1 # 2)) (to_f64 F (st_width F style)))))) 1) as [L|L]; [lia|].
    rewrite Es. cbn [of_opt rbind]. rewrite Hl. cbn [of_opt rbind]. rewrite Hg. cbn [of_opt rbind]. rewrite Hx. reflexivity.
  Qed.

  (** The offset of one contour, if every contour found has a bold link and none is too small. *)
  Variable int_area : list (fp F) -> Z.
  Variables (outer inner : num F) (join : line_join F).
  Theorem C45_single_apart clockwise min_area path segs shapes : outline_segments F to_int (n_neg F outer) (join_normalize F join) path = Some segs ->
    Forall (fun s => sa (sx s) <> sb (sx s) /\ bounded (sx s)) segs -> no_grid solver (length (sort_merge segs)) ->
    (forall ls g bps, offset_links layout_new query tree_new (S n) solver segs = ROk ls -> graph_new ls (sort_ends ls) = Some g -> offset_pieces g clean clockwise min_area = Some bps ->
        Forall (fun bp => snd bp = true /\ (min_area = 0 \/ p_valid (fst bp) = true)) bps) ->
    (forall ls, offset_links layout_new query tree_new (S n) solver segs = ROk ls -> apart (border ls)) ->
    outline_custom layout_new query tree_new sort_ends clean (S n) solver dbg F to_int int_area outer inner join clockwise min_area [path] = ROk shapes ->
    Forall (shape_ok (sign_of clockwise)) shapes /\
    shapes_apart (away (inject_Z (moved (precision solver) n)) segs) (fun q => (int_area path <? -1) && area segs q) shapes.
  Proof.
    intros Es Fi N Bo Ap H. cbn [outline_custom] in H. destruct (-1 <=? int_area path) eqn:E.
    - apply Z.leb_le in E. injection H as <-. replace (int_area path <? -1) with false by (symmetry; apply Z.ltb_ge; lia). split; [constructor|]. apply shapes_apart_nil. reflexivity.
    - apply Z.leb_gt in E. assert (E3 : (int_area path <? -1) = true) by (apply Z.ltb_lt; lia). rewrite E3 in *. cbn [andb].
      unfold outline_one in H. rewrite Es in H. cbn [of_opt rbind] in H. destruct (offset_links _ _ _ _ _ _) as [ls| |] eqn:Hl; try discriminate. cbn [rbind] in H.
      destruct (C33_outline F to_int (n_neg F outer) (join_normalize F join) path) as (l & Hl' & _ & P & B & _). rewrite Hl' in Es. injection Es as ->. pose proof (proper_fit _ P Fi) as Ft.
      destruct (C41_offset_apart n solver segs clockwise dbg min_area ls (sort_ends ls) Ft B N Hl (Sort ls) (Ap ls eq_refl)) as (g & bps & Hg & Hp & _ & R).
      specialize (Bo ls g bps eq_refl Hg Hp). rewrite Forall_forall in Bo. destruct R as (sh & Hx & O1 & O2).
      { destruct (Z.eq_dec min_area 0) as [Em|Em]; auto. right. intros bp I. destruct (Bo bp I) as [_ [X|X]]; auto. }
      { apply Forall_forall. intros bp I. apply Bo, I. }
      rewrite Hg in H. cbn [of_opt rbind] in H. rewrite Hx in H. cbn [of_opt] in H. injection H as <-. auto.
  Qed.

  (** The offset of several contours: the last run puts the contours of the single offsets together. *)
  Hypothesis Ce : clean_edges clean.
  Theorem C45_several_apart clockwise min_area paths shapes : (2 <= length paths)%nat -> fit_paths solver F to_int int_area outer inner join paths ->
    kept_paths layout_new query tree_new sort_ends clean n solver F to_int int_area outer inner join paths ->
    (forall contours, outline_contours layout_new query tree_new sort_ends clean (S n) solver dbg F to_int int_area outer inner (join_normalize F join) paths = ROk contours ->
       fit_contours solver contours /\ kept_contours layout_new query tree_new sort_ends clean n solver contours clockwise min_area /\
       forall ls, overlay_links layout_new query tree_new (S n) solver RSubject Positive (input_segments (map (fun c => (c, Subject)) contours)) = ROk ls -> apart ls) ->
    outline_custom layout_new query tree_new sort_ends clean (S n) solver dbg F to_int int_area outer inner join clockwise min_area paths = ROk shapes ->
    Forall (shape_ok (sign_of clockwise)) shapes /\
    shapes_apart (fun q => ~ near_drawn F to_int int_area outer inner join (2 * moved (precision solver) n) paths q) (outline_region F to_int int_area outer inner join paths) shapes.
  Proof.
    intros L Ft Kp Cc H. destruct paths as [|p0 [|p1 paths]]; try (simpl in L; lia). cbn [outline_custom] in H. set (ps := p0 :: p1 :: paths) in *.
    destruct (outline_contours _ _ _ _ _ _ _ _ _ _ _ _ _ _ ps) as [contours| |] eqn:Ec; try discriminate. cbn [rbind] in H.
    destruct (Cc _ eq_refl) as ([O N] & Kc & Ap).
    destruct (contours_edges layout_new Lay query Q tree_new sort_ends Sort clean Cl Ce n solver dbg F to_int int_area outer inner join ps contours Ft Ec) as [Ed B].
    unfold positive_overlay in H. destruct (operand_subject contours) as [Os Oc]. set (adds := map (fun c => (c, Subject)) contours) in *.
    assert (O' : Forall (fun a => open_contour (fst a)) adds) by (unfold adds; apply Forall_map; exact O).
    destruct (overlay_links _ _ _ _ _ _ _ _) as [ls| |] eqn:Hl; try discriminate. cbn [rbind] in H.
    specialize (Ap ls eq_refl). specialize (Kc ls). fold adds in Kc.
    destruct (overlay_near layout_new Lay query Q tree_new n solver adds RSubject Positive ls (bounded_adds _ B) N O' Hl) as (segs & A & -> & W & _).
    destruct (result_shapes_apart segs Positive RSubject (sort_ends _) clean clockwise true min_area dbg A (Sort _) Cl Si De Ap) as (g & pcs & Hg & Hp & D).
    destruct D as (sh & Hx & O1 & O2 & O3). { destruct (Kc g pcs Hl Hg Hp) as [X|X]; [auto|right]. rewrite Forall_forall in X. exact X. }
    rewrite Hg in H. cbn [of_opt rbind] in H. rewrite Hx in H. cbn [of_opt] in H. injection H as <-. split; [exact O1|]. split; [exact O2|].
    intros q Aq. rewrite O3, W by (intro X; apply Aq; eapply near_twice; eauto). unfold wanted. rewrite Os. cbn [bool_op inside].
    rewrite (contours_region layout_new Lay query Q tree_new sort_ends Sort clean Cl n solver dbg F to_int int_area outer inner join ps contours Ft Kp Ec q).
    - unfold outline_region. rewrite Z.ltb_lt, Z.ltb_lt. split; intro; lia.
    - intro X. apply Aq. eapply near_drawn_mono; [|exact X]. pose proof (d_pos n solver) as P. change 0%Q with (inject_Z 0) in P. rewrite <- Zle_Qle in P. lia.
  Qed.
  (** The same for a minimal area: [contours] (of the separate offsets) and [all] are what is found without one. *)
  Theorem C45_single_min_area clockwise min_area path segs shapes : outline_segments F to_int (n_neg F outer) (join_normalize F join) path = Some segs ->
    Forall (fun s => sa (sx s) <> sb (sx s) /\ bounded (sx s)) segs -> no_grid solver (length (sort_merge segs)) -> 0 <= min_area ->
    (forall ls g bps m, m = 0 \/ m = min_area -> offset_links layout_new query tree_new (S n) solver segs = ROk ls -> graph_new ls (sort_ends ls) = Some g ->
        offset_pieces g clean clockwise m = Some bps -> Forall (fun bp => snd bp = true) bps) ->
    (forall ls, offset_links layout_new query tree_new (S n) solver segs = ROk ls -> apart (border ls)) ->
    outline_custom layout_new query tree_new sort_ends clean (S n) solver dbg F to_int int_area outer inner join clockwise min_area [path] = ROk shapes ->
    if int_area path <? -1 then
      exists os hs, (forall q, away (inject_Z (moved (precision solver) n)) segs q -> contours_wind (os ++ hs) q = if area segs q then sign_of clockwise else 0) /\
        grouped (filter (big min_area) os) (filter (big min_area) hs) shapes /\
        shapes_ok (sign_of clockwise) (fun q => negb (contours_wind (filter (big min_area) (os ++ hs)) q =? 0)) shapes
    else shapes = [].
  Proof.
    intros Es Fi N M Bo Ap H. cbn [outline_custom] in H. destruct (-1 <=? int_area path) eqn:E.
    - apply Z.leb_le in E. injection H as <-. destruct (Z.ltb_spec (int_area path) (-1)); [lia|reflexivity].
    - apply Z.leb_gt in E. destruct (Z.ltb_spec (int_area path) (-1)); [|lia].
      unfold outline_one in H. rewrite Es in H. cbn [of_opt rbind] in H. destruct (offset_links _ _ _ _ _ _) as [ls| |] eqn:Hl; try discriminate. cbn [rbind] in H.
      destruct (C33_outline F to_int (n_neg F outer) (join_normalize F join) path) as (l & Hl' & _ & P & B & _). rewrite Hl' in Es. injection Es as ->. pose proof (proper_fit _ P Fi) as Ft.
      destruct (C41_offset_min_area n solver segs clockwise dbg min_area ls (sort_ends ls) Ft B N Hl (Sort ls) (Ap ls eq_refl) M) as (g & all & found & Hg & Hp & Hf & _ & R).
      destruct R as (R1 & sh & Hx & G & O).
      { apply (Bo ls g all 0); auto. }
      { apply (Bo ls g found min_area); auto. }
      rewrite Hg in H. cbn [of_opt rbind] in H. rewrite Hx in H. cbn [of_opt] in H. injection H as <-. exists (outers all), (holes all). auto.
  Qed.
  Theorem C45_several_min_area clockwise min_area paths shapes : (2 <= length paths)%nat -> fit_paths solver F to_int int_area outer inner join paths -> 0 <= min_area ->
    kept_paths layout_new query tree_new sort_ends clean n solver F to_int int_area outer inner join paths ->
    (forall contours, outline_contours layout_new query tree_new sort_ends clean (S n) solver dbg F to_int int_area outer inner (join_normalize F join) paths = ROk contours ->
       fit_contours solver contours /\
       forall ls, overlay_links layout_new query tree_new (S n) solver RSubject Positive (input_segments (map (fun c => (c, Subject)) contours)) = ROk ls -> apart ls) ->
    outline_custom layout_new query tree_new sort_ends clean (S n) solver dbg F to_int int_area outer inner join clockwise min_area paths = ROk shapes ->
    exists os hs, (forall q, ~ near_drawn F to_int int_area outer inner join (2 * moved (precision solver) n) paths q ->
        contours_wind (os ++ hs) q = if outline_region F to_int int_area outer inner join paths q then sign_of clockwise else 0) /\
      grouped (filter (big min_area) os) (filter (big min_area) hs) shapes /\
      shapes_ok (sign_of clockwise) (fun q => negb (contours_wind (filter (big min_area) (os ++ hs)) q =? 0)) shapes.
  Proof.
    intros L Ft M Kp Cc H. destruct paths as [|p0 [|p1 paths]]; try (simpl in L; lia). cbn [outline_custom] in H. set (ps := p0 :: p1 :: paths) in *.
    destruct (outline_contours _ _ _ _ _ _ _ _ _ _ _ _ _ _ ps) as [contours| |] eqn:Ec; try discriminate. cbn [rbind] in H.
    destruct (Cc _ eq_refl) as [[O N] Ap].
    destruct (contours_edges layout_new Lay query Q tree_new sort_ends Sort clean Cl Ce n solver dbg F to_int int_area outer inner join ps contours Ft Ec) as [Ed B].
    unfold positive_overlay in H. destruct (operand_subject contours) as [Os Oc]. set (adds := map (fun c => (c, Subject)) contours) in *.
    assert (O' : Forall (fun a => open_contour (fst a)) adds) by (unfold adds; apply Forall_map; exact O).
    destruct (overlay_links _ _ _ _ _ _ _ _) as [ls| |] eqn:Hl; try discriminate. cbn [rbind] in H.
    destruct (C47_min_area layout_new Lay query Q tree_new n solver adds RSubject Positive clean clockwise true dbg min_area ls (sort_ends ls) (bounded_adds _ B) N O' Cl Si De Hl (Sort ls) (Ap ls eq_refl) M)
      as (g & all & sh & Hg & Hp & O1 & Hx & O2 & O3).
    rewrite Hg in H. cbn [of_opt rbind] in H. rewrite Hx in H. cbn [of_opt] in H. injection H as <-. exists (outer_contours all), (hole_contours all). split; [|split; [exact O2|exact O3]].
    intros q Aq. rewrite O1 by (intro X; apply Aq; eapply near_twice; eauto). unfold wanted. rewrite Os. cbn [bool_op inside].
    rewrite (contours_region layout_new Lay query Q tree_new sort_ends Sort clean Cl n solver dbg F to_int int_area outer inner join ps contours Ft Kp Ec q).
    - unfold outline_region. destruct (Z.ltb_spec 0 (count (fun path => is_outer F int_area path && covered F to_int join (n_neg F outer) path q) ps - count (fun path => is_inner F int_area path && covered F to_int join inner (rev path) q) ps)) as [X|X];
        destruct (Z.ltb_spec (count (fun path => is_inner F int_area path && covered F to_int join inner (rev path) q) ps) (count (fun path => is_outer F int_area path && covered F to_int join (n_neg F outer) path q) ps)); lia || reflexivity.
    - intro X. apply Aq. eapply near_drawn_mono; [|exact X]. pose proof (d_pos n solver) as P. change 0%Q with (inject_Z 0) in P. rewrite <- Zle_Qle in P. lia.
  Qed.
End Near.

(** ** Examples *)
(** The stroke of two crossing bars (crossings on the grid), the bent stroke and the offset of a square with a hole, simplified. *)
Definition links_of (segs : list (segment cntO)) (fuel : nat) : run (list link) := offset_links lay4 qry (fun _ => true) fuel (mk_solver StAuto) segs.
Definition border_apart (segs : list (segment cntO)) (fuel : nat) : bool := match links_of segs fuel with ROk ls => apartb (border ls) | _ => true end.
Lemma border_apart_ok segs fuel : border_apart segs fuel = true -> forall ls, links_of segs fuel = ROk ls -> apart (border ls).
Proof. unfold border_apart. intros H ls E. rewrite E in H. apply apartb_ok, H. Qed.
Definition cross_segs : list (segment cntO) := match stroke_segments QF q_round (bar_style 4%Q) 2 3 false cross_paths with Some l => l | None => [] end.
Definition skew_line_run : run (list (list (list pt))) :=
  outline_custom lay4 qry (fun _ => true) sorted_ends clean_line 2 (mk_solver StAuto) true QF q_round q_area 5%Q 5%Q (Bevel QF) false 0 skew_paths.
Example C45_apart_strokes : stroke_segments QF q_round (bar_style 4%Q) 2 3 false cross_paths = Some cross_segs /\
  (forall ls, links_of cross_segs 5 = ROk ls -> apart (border ls)) /\
  cross_run 4%Q false = ROk [[[Pt 0 2; Pt 0 (-2); Pt 8 (-2); Pt 8 (-10); Pt 12 (-10); Pt 12 (-2); Pt 20 (-2); Pt 20 2; Pt 12 2; Pt 12 10; Pt 8 10; Pt 8 2]]] /\
  (1 < Z.abs (Qceiling (from_f64 QF (d_mul QF (d_lit QF (1 # 2)) (to_f64 QF (st_width QF (bar_style 4%Q))))))) /\
  (forall ls, links_of bent_segs 2 = ROk ls -> apart (border ls)) /\
  bent_run 2 = ROk [[[Pt 43 93; Pt (-17) 13; Pt 17 (-13); Pt 64 50; Pt 127 3; Pt 144 (-10); Pt 170 24; Pt 153 37; Pt 73 97]]].
Proof.
  split; [vm_compute; reflexivity|]. split; [apply border_apart_ok; vm_compute; reflexivity|]. split; [vm_compute; reflexivity|]. split; [vm_compute; reflexivity|].
  split; [apply border_apart_ok; vm_compute; reflexivity|vm_compute; reflexivity].
Qed.
Definition kept_line (fuel : nat) (radius : Q) (path : list (Q * Q)) (clockwise : bool) : bool :=
  match outline_segments QF q_round radius (join_normalize QF (Bevel QF)) path with
  | None => true
  | Some segs => match links_of segs fuel with
                 | ROk ls => match graph_new ls (sorted_ends ls) with
                             | Some g => match offset_pieces g clean_line clockwise 0 with Some bps => forallb (fun bp => snd bp) bps | None => true end
                             | None => true end
                 | _ => true end
  end.
Lemma kept_line_ok n radius path clockwise : kept_line (S n) radius path clockwise = true ->
  kept_path lay4 qry (fun _ => true) sorted_ends clean_line n (mk_solver StAuto) QF q_round (Bevel QF) radius path clockwise 0.
Proof.
  unfold kept_line, links_of, kept_path. intros H segs ls g bps E Hl Hg Hp. rewrite E, Hl, Hg, Hp in H. rewrite forallb_forall in H. apply Forall_forall. intros bp I. split; [apply H, I|auto].
Qed.
Example C45_apart_several :
  fit_paths (mk_solver StAuto) QF q_round q_area 5%Q 5%Q (Bevel QF) skew_paths /\
  kept_paths lay4 qry (fun _ => true) sorted_ends clean_line 1 (mk_solver StAuto) QF q_round q_area 5%Q 5%Q (Bevel QF) skew_paths /\
  outline_contours lay4 qry (fun _ => true) sorted_ends clean_line 2 (mk_solver StAuto) true QF q_round q_area 5%Q 5%Q (join_normalize QF (Bevel QF)) skew_paths = ROk skew_contours /\
  fit_contours (mk_solver StAuto) skew_contours /\
  (exists ls, overlay_links lay4 qry (fun _ => true) 2 (mk_solver StAuto) RSubject Positive (input_segments (map (fun c => (c, Subject)) skew_contours)) = ROk ls /\ apart ls) /\
  skew_line_run = ROk [[[Pt (-18) 105; Pt (-22) 99; Pt (-5) (-1); Pt 1 (-5); Pt 101 12; Pt 105 18; Pt 88 118; Pt 82 122]; [Pt 37 39; Pt 43 72; Pt 62 49]]].
Proof.
  split; [exact (proj1 C45_several_hypotheses)|]. split.
  { constructor; [|constructor; [|constructor]]; (split; intro H; try (vm_compute in H; discriminate)); apply kept_line_ok; vm_compute; reflexivity. }
  split; [vm_compute; reflexivity|]. split; [exact (proj1 (proj2 (proj2 C45_several_hypotheses)))|]. split.
  { eexists. split; [vm_compute; reflexivity|apply apartb_ok; vm_compute; reflexivity]. }
  vm_compute. reflexivity.
Qed.
(** with a minimal area of 1000 the hole (area 382) is filled *)
Example C45_min_area_example :
  outline_custom lay4 qry (fun _ => true) sorted_ends clean_line 2 (mk_solver StAuto) true QF q_round q_area 5%Q 5%Q (Bevel QF) false 1000 skew_paths =
    ROk [[[Pt (-18) 105; Pt (-22) 99; Pt (-5) (-1); Pt 1 (-5); Pt 101 12; Pt 105 18; Pt 88 118; Pt 82 122]]] /\
  big 1000 [Pt 37 39; Pt 43 72; Pt 62 49] = false /\ clean_ok clean_line /\ simplify_ok clean_line /\ dedup_ok clean_line /\ clean_edges clean_line.
Proof. split; [vm_compute; reflexivity|]. split; [vm_compute; reflexivity|]. exact C47_apart_contracts. Qed.
Print Assumptions C45_stroke_apart.
Print Assumptions C45_stroke_apart_exact.
Print Assumptions C45_single_apart.
Print Assumptions C45_several_apart.
Print Assumptions C45_single_min_area.
Print Assumptions C45_several_min_area.
