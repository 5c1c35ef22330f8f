(** * Strokes and offsets when crossings are rounded: the area changes near the segments only. *)
From Coq Require Import Qround Qabs.
From Verif Require Import Base Spec QLib ModelSegm SegmProofs MergeProofs PlanarGeo PlanarSum ModelFill ModelFilter FillProofs FillCorrect
  ModelCross CrossProofs CrossPoint MarksProofs CoreResults Properties01 ModelSplit SplitProofs SplitPlanar SplitPass BinsProofs SplitApply SplitLoop
  ModelFrag ModelOverlay OverlayProofs FragProofs GridCover Properties02
  ModelGraph GraphProofs ModelExtract ExtractProofs ContourResults Rotation NextLink Properties03
  MoveLemma SectorLemma Sides WalkSides Orient Properties04 ModelBind BindProofs BindSweep Nest Properties05 Natural ModelOffset OffsetProofs ModelMesh MeshProofs Properties09
  SplitNear InputCover Properties15 Properties10.
Open Scope Z_scope.

Section Near.
  Variable layout_new : Z -> Z -> nat -> option (Z -> nat).
  Hypothesis Lay : layout_ok layout_new.
  Variable query : list (nat * xseg) -> Z * Z -> Z -> list (nat * xseg).
  Hypothesis Q : query_ok query.
  Variable tree_new : Z * Z -> bool.

  Lemma offset_split_near n solver segs out q : Forall fit segs -> no_grid solver (length (sort_merge segs)) ->
    split_segments layout_new query tree_new (S n) solver segs = Done out -> away (inject_Z (moved (precision solver) n)) segs q ->
    wind (chain_of osubj out) q = wind (chain_of osubj segs) q.
  Proof.
    intros F N H A. pose proof (split_smap unbold unbold_add unbold_inv unbold_ne layout_new query tree_new (S n) solver segs) as Nat. rewrite H in Nat. cbn [omap] in Nat.
    assert (N' : no_grid solver (length (sort_merge (map unb segs)))) by (rewrite sort_merge_unb, map_length; exact N).
    destruct (split_is_loop layout_new query tree_new (S n) solver (map unb segs) N') as [(_ & _ & E)|(tree & E & _)]; rewrite E in Nat; [discriminate|].
    assert (Aw : away (inject_Z (drift n (snap_radius solver))) (sort_merge (map unb segs)) q).
    { unfold snap_radius. rewrite drift_moved. set (d := inject_Z _) in *.
      assert (X : Forall (fun s : segment cntB => ~ within d (sa (sx s)) (sb (sx s)) q) (sort_merge (map unb segs))).
      { apply (sort_merge_elems (fun x => ~ within d (sa x) (sb x) q)). apply Forall_forall. intros s Is. apply in_map_iff in Is as (s' & <- & I). exact (A s' I). }
      rewrite Forall_forall in X. exact X. }
    pose proof (fit_inv segs F) as I.
    rewrite <- !unbold_subj. unfold subj_chain. rewrite (loop_near layout_new Lay query Q tree_new subj solver q) with (fuel := n) (tree := tree) (r := snap_radius solver) (segs := sort_merge (map unb segs)); auto.
    - apply sort_merge_wind; [reflexivity|]. intros [a b] W. simpl in *. lia.
    - intros [a b] W. simpl in *. lia.
  Qed.
  Lemma offset_area_near n solver segs out q : Forall fit segs -> no_grid solver (length (sort_merge segs)) ->
    split_segments layout_new query tree_new (S n) solver segs = Done out -> away (inject_Z (moved (precision solver) n)) segs q ->
    area out q = area segs q.
  Proof. intros. unfold area. rewrite (offset_split_near n solver segs out q); auto. Qed.
End Near.
