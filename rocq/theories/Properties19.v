(** * C41, C45 with rounding: strokes and offsets whose crossings are not grid points.

    [C41_stroke_exact], [C41_outline_exact] and C45 ask for crossings on the grid.  Without that, the answer is still the area of the stroke or offset
    at every point that is not close to one of the segments drawn (C33, C34): no closer than the distance by which rounding and snapping may move
    points, as in C47. *)
From Coq Require Import Qround Qabs.
From Verif Require Import Base Spec QLib ModelSegm SegmProofs MergeProofs PlanarGeo PlanarSum ModelFill ModelFilter FillProofs FillCorrect
  ModelCross CrossProofs CrossPoint MarksProofs CoreResults Properties01 ModelSplit SplitProofs SplitPlanar SplitPass BinsProofs SplitApply SplitLoop
  ModelFrag ModelOverlay OverlayProofs FragProofs GridCover Properties02
  ModelGraph GraphProofs ModelExtract ExtractProofs ContourResults Rotation NextLink Properties03
  MoveLemma SectorLemma Sides WalkSides Orient Properties04 ModelBind BindProofs BindSweep Nest Properties05 Natural ModelOffset OffsetProofs ModelMesh MeshProofs Properties09
  SplitNear InputCover Properties15 Properties10 ModelOutline Properties13 OffsetNear.
Open Scope Z_scope.

(** ** Specification *)
(** [contours_of] and [shapes_of] of C41 and C45, where the region is only looked at in the points [A] *)
Definition contours_at (d : Z) (A : qpt -> Prop) (R : qpt -> bool) (os hs : list (list pt)) : Prop :=
  Forall (turns d) os /\ Forall (turns (- d)) hs /\
  (forall h q, In h hs -> encloses h q -> exists c, In c os /\ encloses c q) /\
  (forall q, exists b : bool, contours_wind os q + contours_wind hs q = if b then d else 0) /\
  forall q, A q -> contours_wind os q + contours_wind hs q = if R q then d else 0.
Definition shapes_at (d : Z) (A : qpt -> Prop) (R : qpt -> bool) (shapes : list (list (list pt))) : Prop :=
  Forall (fun sh => exists o hs, sh = o :: hs /\ turns d o /\ Forall (turns (- d)) hs) shapes /\
  (forall q, exists b : bool, contours_wind (concat shapes) q = if b then d else 0) /\
  forall q, A q -> contours_wind (concat shapes) q = if R q then d else 0.

Lemma contours_weaken d (A : qpt -> Prop) R R' os hs : contours_of d R os hs -> (forall q, A q -> R q = R' q) -> contours_at d A R' os hs.
Proof. intros (H1 & H2 & H3 & H4) E. split; auto. split; auto. split; auto. split; [eauto|]. intros q Aq. rewrite <- E; auto. Qed.
Lemma shapes_weaken d (A : qpt -> Prop) R R' shapes : shapes_of d R shapes -> (forall q, A q -> R q = R' q) -> shapes_at d A R' shapes.
Proof. intros (H1 & H2) E. split; auto. split; [eauto|]. intros q Aq. rewrite <- E; auto. Qed.

Section Near.
  Variable layout_new : Z -> Z -> nat -> option (Z -> nat).
  Hypothesis Lay : layout_ok layout_new.
  Variable query : list (nat * xseg) -> Z * Z -> Z -> list (nat * xseg).
  Hypothesis Q : query_ok query.
  Variable tree_new : Z * Z -> bool.

  (** any segments; [n] passes of the split loop move points by at most [moved (precision solver) n] *)
  Theorem C41_offset_near n solver segs clean clockwise min_area ls ends : Forall fit segs -> balanced (chain_of osubj segs) -> no_grid solver (length (sort_merge segs)) ->
    clean_ok clean -> offset_links layout_new query tree_new (S n) solver segs = ROk ls -> ends_ok ls ends ->
    exists g bps, graph_new ls ends = Some g /\ offset_pieces g clean clockwise min_area = Some bps /\
      (Forall (fun s => obold (sc s) = true) segs -> Forall (fun bp => snd bp = true) bps) /\
      (min_area = 0 \/ (forall bp, In bp bps -> p_valid (fst bp) = true) -> Forall (fun bp => snd bp = true) bps ->
        contours_at (sign_of clockwise) (away (inject_Z (moved (precision solver) n)) segs) (area segs) (outers bps) (holes bps)).
  Proof.
    intros F B N Cl H E. destruct (offset_run layout_new Lay query Q tree_new _ _ _ _ F B N H) as (out & Hs & H0 & A & ->).
    destruct (C41_extract out A ends clean clockwise E min_area Cl) as (g & bps & Hg & Hp & _ & _ & D). exists g, bps. split; auto. split; auto. split.
    - intro Bo. eapply (all_bold out A ends clean clockwise E min_area); eauto. destruct segs as [|s0 l0]; [rewrite H0; auto|]. eapply split_bold; [exact Bo|]. apply Hs. discriminate.
    - intros V Bp. apply (contours_weaken _ _ (area out)); [apply D; auto|]. intros q Aw.
      destruct segs as [|s0 l0]; [rewrite H0; auto|]. apply (offset_area_near layout_new Lay query Q tree_new n solver); auto. apply Hs. discriminate.
  Qed.
  Theorem C41_stroke_near F (to_int : fp F -> pt) style jc cc closed paths segs n solver clean clockwise ls ends :
    stroke_segments F to_int style jc cc closed paths = Some segs ->
    Forall (fun s => sa (sx s) <> sb (sx s) /\ bounded (sx s)) segs -> no_grid solver (length (sort_merge segs)) -> clean_ok clean ->
    offset_links layout_new query tree_new (S n) solver segs = ROk ls -> ends_ok ls ends ->
    exists g bps, graph_new ls ends = Some g /\ offset_pieces g clean clockwise 0 = Some bps /\
      contours_at (sign_of clockwise) (away (inject_Z (moved (precision solver) n)) segs) (area segs) (outers bps) (holes bps).
  Proof.
    intros H Fi N Cl Hl E. destruct (stroke_segments_proper _ _ _ _ _ _ _ _ H) as [B P]. pose proof (proper_fit _ P Fi) as Ft.
    destruct (C41_offset_near n solver segs clean clockwise 0 ls ends Ft B N Cl Hl E) as (g & bps & Hg & Hp & Bo & R). exists g, bps. split; auto. split; auto. apply R; auto. apply Bo. eapply stroke_bold; eauto.
  Qed.
  Theorem C41_outline_near F (to_int : fp F -> pt) radius join path segs n solver clean clockwise min_area ls ends :
    outline_segments F to_int radius join path = Some segs ->
    Forall (fun s => sa (sx s) <> sb (sx s) /\ bounded (sx s)) segs -> no_grid solver (length (sort_merge segs)) -> clean_ok clean ->
    offset_links layout_new query tree_new (S n) solver segs = ROk ls -> ends_ok ls ends ->
    exists g bps, graph_new ls ends = Some g /\ offset_pieces g clean clockwise min_area = Some bps /\
      (min_area = 0 \/ (forall bp, In bp bps -> p_valid (fst bp) = true) -> Forall (fun bp => snd bp = true) bps ->
        contours_at (sign_of clockwise) (away (inject_Z (moved (precision solver) n)) segs) (area segs) (outers bps) (holes bps)).
  Proof.
    intros H Fi N Cl Hl E. destruct (C33_outline F to_int radius join path) as (l & Hl' & _ & P & B & _). rewrite Hl' in H. injection H as <-. pose proof (proper_fit _ P Fi) as Ft.
    destruct (C41_offset_near n solver l clean clockwise min_area ls ends Ft B N Cl Hl E) as (g & bps & Hg & Hp & _ & R). exists g, bps. auto.
  Qed.

  Variable sort_ends : list link -> list (nat * pt).
  Hypothesis Sort : forall ls, ends_ok ls (sort_ends ls).
  Variable clean : bool -> list pt -> list pt * bool.
  Hypothesis Cl : clean_ok clean.
  Variables (n : nat) (solver : Solver) (dbg : bool).
  Variable F : FloatOps.
  Variable to_int : fp F -> pt.
  Lemma grouped_at d A R os hs shapes : (os <> [] -> grouped os hs shapes) -> (os = [] -> shapes = []) -> contours_at d A R os hs -> d <> 0 -> shapes_at d A R shapes.
  Proof.
    intros G0 G1 (To & Th & E & B & W) D.
    assert (X : exists R' : qpt -> bool, forall q, contours_wind os q + contours_wind hs q = if R' q then d else 0).
    { exists (fun q => contours_wind os q + contours_wind hs q =? d). intro q. destruct (B q) as ([|] & ->); [rewrite Z.eqb_refl; auto|]. destruct (Z.eqb_spec 0 d); congruence. }
    destruct X as (R' & W'). apply (shapes_weaken _ _ R'); [apply (grouped_shapes d R' os hs); auto; split; auto|].
    intros q Aq. specialize (W q Aq). specialize (W' q). destruct (R' q), (R q); congruence.
  Qed.
  (** The shapes [stroke] makes, as integer contours, whatever the crossings. *)
  Variable int_len : num F -> Z.
  Theorem C45_stroke_near style jc cc closed clockwise paths segs shapes : stroke_segments F to_int style jc cc closed paths = Some segs ->
    Forall (fun s => sa (sx s) <> sb (sx s) /\ bounded (sx s)) segs -> no_grid solver (length (sort_merge segs)) ->
    stroke_custom layout_new query tree_new sort_ends clean (S n) solver dbg F to_int int_len style jc cc closed clockwise paths = ROk shapes ->
    let thin := Z.abs (int_len (from_f64 F (d_mul F (d_lit F (1 # 2)) (to_f64 F (st_width F style))))) <=? 1 in
    shapes_at (sign_of clockwise) (away (inject_Z (moved (precision solver) n)) segs) (fun q => negb thin && area segs q) shapes.
  Proof.
    intros Es Fi N H thin. subst thin. unfold stroke_custom in H. destruct paths as [|p0 paths].
    { cbn in Es. injection Es as <-. injection H as <-. split; [constructor|]. split; [intro q; exists false; reflexivity|]. intros q _. cbn. rewrite andb_false_r. reflexivity. }
    set (ps := p0 :: paths) in *. destruct (_ <=? 1).
    { injection H as <-. split; [constructor|]. split; [intro q; exists false; reflexivity|]. reflexivity. }
    cbn [negb andb]. rewrite Es in H. cbn [of_opt rbind] in H.
    destruct (offset_links _ _ _ _ _ _) as [ls| |] eqn:Hl; try discriminate. cbn [rbind] in H.
    destruct (C41_stroke_near F to_int style jc cc closed ps segs n solver clean clockwise ls (sort_ends ls) Es Fi N Cl Hl (Sort ls)) as (g & bps & Hg & Hp & R).
    rewrite Hg in H. cbn [of_opt rbind] in H.
    unfold offset_shapes in H. rewrite Hp in H. destruct (anchors_of dbg clockwise 0 (map fst bps)) as [[an srt]|]; [|discriminate].
    destruct (join_sorted_holes _ _ _ _ _) as [sh|] eqn:Ej; [|discriminate]. cbn [of_opt] in H. injection H as <-.
    destruct (join_grouped _ _ _ _ _ _ Ej) as [G0 G1]. fold (outers bps) in G0, G1. fold (holes bps) in G0.
    eapply grouped_at; eauto using sign_ne.
  Qed.
  (** The shapes of the offset of one contour. *)
  Variable int_area : list (fp F) -> Z.
  Variables (outer inner : num F) (join : line_join F).
  Theorem C45_single_near clockwise min_area path segs shapes : outline_segments F to_int (n_neg F outer) (join_normalize F join) path = Some segs ->
    Forall (fun s => sa (sx s) <> sb (sx s) /\ bounded (sx s)) segs -> no_grid solver (length (sort_merge segs)) ->
    (forall ls g bps, offset_links layout_new query tree_new (S n) solver segs = ROk ls -> graph_new ls (sort_ends ls) = Some g -> offset_pieces g clean clockwise min_area = Some bps ->
        Forall (fun bp => snd bp = true /\ (min_area = 0 \/ p_valid (fst bp) = true)) bps) ->
    outline_custom layout_new query tree_new sort_ends clean (S n) solver dbg F to_int int_area outer inner join clockwise min_area [path] = ROk shapes ->
    shapes_at (sign_of clockwise) (away (inject_Z (moved (precision solver) n)) segs) (fun q => (int_area path <? -1) && area segs q) shapes.
  Proof.
    intros Es Fi N Bo H. cbn [outline_custom] in H. destruct (-1 <=? int_area path) eqn:E.
    - apply Z.leb_le in E. injection H as <-. replace (int_area path <? -1) with false by (symmetry; apply Z.ltb_ge; lia). split; [constructor|]. split; [intro q; exists false; reflexivity|]. reflexivity.
    - apply Z.leb_gt in E. assert (E3 : (int_area path <? -1) = true) by (apply Z.ltb_lt; lia). rewrite E3 in *. cbn [andb].
      unfold outline_one in H. rewrite Es in H. cbn [of_opt rbind] in H. destruct (offset_links _ _ _ _ _ _) as [ls| |] eqn:Hl; try discriminate. cbn [rbind] in H.
      destruct (C41_outline_near F to_int _ _ path segs n solver clean clockwise min_area ls (sort_ends ls) Es Fi N Cl Hl (Sort ls)) as (g & bps & Hg & Hp & R).
      rewrite Hg in H. cbn [of_opt rbind] in H. specialize (Bo ls g bps eq_refl Hg Hp). rewrite Forall_forall in Bo.
      assert (R' : contours_at (sign_of clockwise) (away (inject_Z (moved (precision solver) n)) segs) (area segs) (outers bps) (holes bps)).
      { apply R; [|apply Forall_forall; intros bp I; apply Bo; auto]. destruct (Z.eq_dec min_area 0) as [Em|Em]; auto. right. intros bp I. destruct (Bo bp I) as [_ [X|X]]; auto. }
      unfold offset_shapes in H. rewrite Hp in H. destruct (anchors_of dbg clockwise 0 (map fst bps)) as [[an srt]|]; [|discriminate]. 
      destruct (join_sorted_holes _ _ _ _ _) as [sh|] eqn:Ej; [|discriminate]. cbn [of_opt] in H. injection H as <-.
      destruct (join_grouped _ _ _ _ _ _ Ej) as [G0 G1]. fold (outers bps) in G0, G1. fold (holes bps) in G0. eapply grouped_at; eauto using sign_ne.
  Qed.
End Near.

(** ** Examples *)
(** A bent stroke of width 43, with a crossing that is not on the grid: two passes of the split loop are enough and nothing is moved by more than 2. *)
Definition bent : list (list (Q * Q)) := [[(0, 0); (60, 80); (140, 20)]]%Q.
Definition bent_style : stroke_style QF := SS QF 43%Q (Butt QF) (Square QF) (Bevel QF).
Definition bent_segs : list (segment cntO) := match stroke_segments QF q_round bent_style 2 3 false bent with Some l => l | None => [] end.
Definition bent_run (fuel : nat) : run (list (list (list pt))) :=
  stroke_custom lay4 qry (fun _ => true) sorted_ends clean_line fuel (mk_solver StAuto) true QF q_round Qceiling bent_style 2 3 false false bent.
Ltac far_away := intros s I; repeat (destruct I as [<-|I]; [intros (t & Ht & X & Y); rewrite Qabs_le_iff in X, Y; unfold qx, qy in *; cbn [fst snd px py sa sb sx] in *; unfold inject_Z in *; lra|]); destruct I.
Example C45_near_example :
  stroke_segments QF q_round bent_style 2 3 false bent = Some bent_segs /\
  Forall (fun s => sa (sx s) <> sb (sx s) /\ bounded (sx s)) bent_segs /\ no_grid (mk_solver StAuto) (length (sort_merge bent_segs)) /\
  exactb (map sx (sort_merge bent_segs)) = false /\ moved (precision (mk_solver StAuto)) 1 = 2 /\ bent_run 1 = RFuel /\
  bent_run 2 = ROk [[[Pt 43 93; Pt (-17) 13; Pt 17 (-13); Pt 64 50; Pt 127 3; Pt 144 (-10); Pt 170 24; Pt 153 37; Pt 73 97]]] /\
  away (inject_Z 2) bent_segs (30, 40)%Q /\ area bent_segs (30, 40)%Q = true /\
  away (inject_Z 2) bent_segs (100, 100)%Q /\ area bent_segs (100, 100)%Q = false.
Proof.
  split; [vm_compute; reflexivity|]. split.
  { assert (H : forallb (fun s => negb (degenerate s) && boundedb (sx s)) bent_segs = true) by (vm_compute; reflexivity).
    rewrite forallb_forall in H. apply Forall_forall. intros s I. specialize (H s I). apply andb_true_iff in H as [H1 H2]. split; [|apply boundedb_ok; auto].
    apply negb_true_iff in H1. intro E. unfold degenerate in H1. rewrite (proj2 (pt_eqb_eq _ _) E) in H1. discriminate. }
  split; [vm_compute; auto|]. split; [vm_compute; reflexivity|]. split; [vm_compute; reflexivity|]. split; [vm_compute; reflexivity|]. split; [vm_compute; reflexivity|].
  assert (X : exists l, l = bent_segs) by eauto. destruct X as (l & X). assert (X' := X). vm_compute in X. rewrite <- X'.
  subst l. unfold away. split; [far_away|]. split; [vm_compute; reflexivity|]. split; [far_away|vm_compute; reflexivity].
Qed.
Print Assumptions C41_offset_near.
Print Assumptions C41_outline_near.
Print Assumptions C45_stroke_near.
Print Assumptions C45_single_near.
