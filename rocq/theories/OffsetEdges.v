(** * Strokes and offsets when crossings are rounded: where the edges of the answer run. *)
From Coq Require Import Qround Qabs.
From Verif Require Import Base Spec QLib ModelSegm SegmProofs MergeProofs PlanarGeo PlanarSum ModelFill ModelFilter FillProofs FillCorrect
  ModelCross CrossProofs CrossPoint MarksProofs CoreResults Properties01 ModelSplit SplitProofs SplitPlanar SplitPass BinsProofs SplitApply SplitLoop
  ModelFrag ModelOverlay OverlayProofs FragProofs GridCover Properties02
  ModelGraph GraphProofs ModelExtract ExtractProofs ContourResults Rotation NextLink Properties03
  MoveLemma SectorLemma Sides WalkSides Orient Properties04 ModelBind BindProofs BindSweep Nest Properties05 Natural ModelOffset OffsetProofs ModelMesh MeshProofs Properties09
  SplitNear InputCover Properties15 Properties10 ModelOutline Properties13 OffsetNear Properties19 OverlayNear.
From Coq Require Import Lqa.
Open Scope Z_scope.

(** the point is at most [d] (in each coordinate) away from one of the segments *)
Definition near_segs {C} (d : Z) (segs : list (segment C)) (q : qpt) : Prop :=
  exists s, In s segs /\ within (inject_Z d) (sa (sx s)) (sb (sx s)) q.
(** the same for every point of every edge of the contours *)
Definition edges_near {C} (d : Z) (segs : list (segment C)) (cs : list (list pt)) : Prop :=
  forall c e q, In c cs -> In e (edges c) -> on_seg (XS (fst e) (snd e)) q -> near_segs d segs q.

Lemma away_near {C} d (segs : list (segment C)) q : away (inject_Z d) segs q <-> ~ near_segs d segs q.
Proof. unfold away, near_segs. split; [intros A (s & Is & W); exact (A s Is W)|intros A s Is W; apply A; eauto]. Qed.

Section Edges.
  Variable layout_new : Z -> Z -> nat -> option (Z -> nat).
  Hypothesis Lay : layout_ok layout_new.
  Variable query : list (nat * xseg) -> Z * Z -> Z -> list (nat * xseg).
  Hypothesis Q : query_ok query.
  Variable tree_new : Z * Z -> bool.

  Lemma split_near_segs n solver segs out s : Forall fit segs -> no_grid solver (length (sort_merge segs)) ->
    split_segments layout_new query tree_new (S n) solver segs = Done out -> In s out -> forall q, on_seg (sx s) q -> near_segs (moved (precision solver) n) segs q.
  Proof.
    intros Ft N H Is q Oq. pose proof (split_smap unbold unbold_add unbold_inv unbold_ne layout_new query tree_new (S n) solver segs) as Nat. rewrite H in Nat. cbn [omap] in Nat.
    assert (N' : no_grid solver (length (sort_merge (map unb segs)))) by (rewrite sort_merge_unb, map_length; exact N).
    destruct (split_is_loop layout_new query tree_new (S n) solver (map unb segs) N') as [(_ & _ & E)|(tree & E & _)]; rewrite E in Nat; [discriminate|].
    destruct (loop_edges layout_new Lay query Q tree_new solver n tree _ _ _ (fit_inv segs Ft) Nat (unb s) (in_map _ _ _ Is)) as (s1 & I1 & Wa & Wb).
    unfold snap_radius in Wa, Wb. rewrite drift_moved in Wa, Wb. cbn [smap sx] in Wa, Wb.
    assert (X : Forall (fun s : segment cntB => exists s0, In s0 segs /\ sx s0 = sx s) (sort_merge (map unb segs))).
    { apply (sort_merge_elems (fun x => exists s0, In s0 segs /\ sx s0 = x)). apply Forall_forall. intros s2 I2. apply in_map_iff in I2 as (s0 & <- & I0). exists s0. auto. }
    rewrite Forall_forall in X. destruct (X s1 I1) as (s0 & I0 & E0). exists s0. split; auto. rewrite E0.
    apply (within_mono (inject_Z (moved (precision solver) n) + 0)); [lra|]. apply (within_trans _ 0 _ _ (sa (sx s)) (sb (sx s))); [exact Wa|exact Wb|exact (within_on (sx s) q Oq)].
  Qed.
  Lemma offset_links_near n solver segs ls l : Forall fit segs -> balanced (chain_of osubj segs) -> no_grid solver (length (sort_merge segs)) ->
    offset_links layout_new query tree_new (S n) solver segs = ROk ls -> In l ls ->
    bounded (l_seg l) /\ forall q, on_seg (l_seg l) q -> near_segs (moved (precision solver) n) segs q.
  Proof.
    intros Ft B N H Il. destruct (offset_run layout_new Lay query Q tree_new _ _ _ _ Ft B N H) as (out & Hs & H0 & A & ->).
    apply In_nth_error in Il as (j & Hj). destruct (offset_links_bold out A j l Hj) as (s & Es & El & _). apply nth_error_In in Es. rewrite El.
    destruct segs as [|s0 l0]; [rewrite H0 in Es by reflexivity; destruct Es|]. specialize (Hs ltac:(discriminate)). split; [|intros q Oq; eapply split_near_segs; eauto].
    destruct (merged_unb_balanced _ B) as [BS BC].
    pose proof (split_smap unbold unbold_add unbold_inv unbold_ne layout_new query tree_new (S n) solver (s0 :: l0)) as Nat. rewrite Hs in Nat. cbn [omap] in Nat.
    destruct (split_done layout_new Lay query Q tree_new (map unb (s0 :: l0)) (fit_inv _ Ft) BS BC (S n) solver _ ltac:(rewrite sort_merge_unb, map_length; exact N) Nat) as (_ & Iv & _).
    pose proof (inv_bd _ Iv) as Bd. rewrite Forall_forall in Bd. exact (Bd (unb s) (in_map _ _ _ Es)).
  Qed.

  Variable sort_ends : list link -> list (nat * pt).
  Hypothesis Sort : forall ls, ends_ok ls (sort_ends ls).
  Variable clean : bool -> list pt -> list pt * bool.
  Hypothesis Cl : clean_ok clean.
  Hypothesis Ce : clean_edges clean.
  Lemma offset_shapes_links fuel solver dbg segs clockwise min_area ls g shapes : Forall fit segs -> balanced (chain_of osubj segs) -> no_grid solver (length (sort_merge segs)) ->
    offset_links layout_new query tree_new fuel solver segs = ROk ls -> graph_new ls (sort_ends ls) = Some g ->
    offset_shapes g clean dbg clockwise min_area = Some shapes ->
    forall c e q, In c (concat shapes) -> In e (edges c) -> on_seg (XS (fst e) (snd e)) q -> exists l, In l ls /\ on_seg (l_seg l) q.
  Proof.
    intros Ft B N H Hg Hs c e q Ic Ie Oq.
    destruct (offset_run layout_new Lay query Q tree_new _ _ _ _ Ft B N H) as (out & _ & _ & A & ->).
    destruct (C41_extract out A (sort_ends _) clean clockwise (Sort _) min_area Cl) as (g' & bps & Hg' & Hp & P & _). rewrite Hg in Hg'. injection Hg' as <-.
    unfold offset_shapes in Hs. rewrite Hp in Hs. destruct (anchors_of dbg clockwise 0 (map fst bps)) as [[an srt]|]; [|discriminate].
    destruct (join_grouped _ _ _ _ _ _ Hs) as [G0 G1].
    assert (G : grouped (outer_contours (map fst bps)) (hole_contours (map fst bps)) shapes).
    { apply G0. intro X. rewrite (G1 X) in Ic. destruct Ic. }
    destruct (piece_in _ c (grouped_in _ _ _ _ G Ic)) as (p & Ip & ->). apply in_map_iff in Ip as (bp & <- & Ip).
    rewrite Forall_forall in P. destruct (P bp Ip) as (W & _ & _ & Ec & _). rewrite Ec in Ie. destruct (Ce _ _ _ _ Ie Oq) as (e' & Ie' & Oq').
    destruct (forall2_l _ _ _ _ W Ie') as (i & _ & l & Hl & El). exists l. split; [eapply nth_error_In; eauto|].
    destruct El as [-> | ->]; [exact Oq'|]. apply on_seg_swap. exact Oq'.
  Qed.
  Lemma offset_shapes_edges n solver dbg segs clockwise min_area ls g shapes : Forall fit segs -> balanced (chain_of osubj segs) -> no_grid solver (length (sort_merge segs)) ->
    offset_links layout_new query tree_new (S n) solver segs = ROk ls -> graph_new ls (sort_ends ls) = Some g ->
    offset_shapes g clean dbg clockwise min_area = Some shapes ->
    edges_near (moved (precision solver) n) segs (concat shapes) /\ forall c p, In c (concat shapes) -> In p c -> bounded_pt p.
  Proof.
    intros Ft B N H Hg Hs. pose proof (offset_shapes_links _ _ _ _ _ _ _ _ _ Ft B N H Hg Hs) as K. split.
    - intros c e q Ic Ie Oq. destruct (K c e q Ic Ie Oq) as (l & Il & Ol). eapply offset_links_near; eauto.
    - eapply vertices_bounded; [|exact K]. intros l Il. eapply offset_links_near; eauto.
  Qed.

  (** ** The overlay at the end of [outline_custom], with any smallest area *)
  Lemma overlay_shapes_links n solver adds dbg clockwise min_area ls g shapes : bounded_input adds -> no_grid solver (length (sort_merge (input_segments adds))) ->
    Forall (fun a => open_contour (fst a)) adds ->
    overlay_links layout_new query tree_new (S n) solver RSubject Positive (input_segments adds) = ROk ls -> graph_new ls (sort_ends ls) = Some g ->
    extract_shapes dbg g clean RSubject clockwise true min_area (repeat false (length ls)) = Some shapes ->
    (forall c e q, In c (concat shapes) -> In e (edges c) -> on_seg (XS (fst e) (snd e)) q -> near_input (moved (precision solver) n) adds q) /\
    forall c p, In c (concat shapes) -> In p c -> bounded_pt p.
  Proof.
    intros Bi N O H Hg Hs.
    destruct (build_near layout_new Lay query Q tree_new n solver adds Bi N O _ _ _ H) as (segs & A & -> & _ & Nl). fold (result_links Positive RSubject segs) in *.
    assert (K : forall c e q, In c (concat shapes) -> In e (edges c) -> on_seg (XS (fst e) (snd e)) q -> exists l, In l (result_links Positive RSubject segs) /\ on_seg (l_seg l) q).
    { intros c e q Ic Ie Oq.
      destruct (blinks_graph segs A Positive _ _ (Sort (result_links Positive RSubject segs))) as (g' & pts & H' & G). fold (result_links Positive RSubject segs) in *. rewrite Hg in H'. injection H' as <-.
      destruct (pieces_spec (result_links Positive RSubject segs) g pts (fun _ => true) clean RSubject clockwise true min_area G (blinks_wf segs A Positive _)) as (ps & P1 & P2 & _).
      { intro v. rewrite filter_true. apply result_even; auto. }
      rewrite flags_all in P1. unfold extract_shapes in Hs. rewrite P1 in Hs. destruct (anchors_of dbg clockwise 0 ps) as [[an srt]|]; [|discriminate].
      destruct (join_grouped _ _ _ _ _ _ Hs) as [G0 G1].
      assert (Gr : grouped (outer_contours ps) (hole_contours ps) shapes).
      { apply G0. intro X. rewrite (G1 X) in Ic. destruct Ic. }
      destruct (piece_in _ c (grouped_in _ _ _ _ Gr Ic)) as (p & Ip & ->).
      rewrite Forall_forall in P2. destruct (P2 p Ip) as (W & Ec & _). rewrite Ec in Ie. destruct (Ce _ _ _ _ Ie Oq) as (e' & Ie' & Oq').
      destruct (forall2_l _ _ _ _ W Ie') as (i & _ & l & Hl & El). exists l. split; [eapply nth_error_In; eauto|].
      destruct El as [-> | ->]; [exact Oq'|]. apply on_seg_swap. exact Oq'. }
    split.
    - intros c e q Ic Ie Oq. destruct (K c e q Ic Ie Oq) as (l & Il & Ol). apply (Nl l Il); auto.
    - eapply vertices_bounded; [|exact K]. intros l Il. apply (Nl l Il).
  Qed.
End Edges.
