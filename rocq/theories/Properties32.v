(** * Property theorems, part 32: examples with a minimal area (C24, C55, C56). *)
From Verif Require Import Base Spec QLib ModelSegm SegmProofs MergeProofs PlanarGeo PlanarSum ModelFill ModelFilter FillProofs FillCorrect
  ModelCross CrossProofs CrossPoint CoreResults Properties01 ModelSplit SplitProofs SplitPlanar SplitPass BinsProofs SplitApply SplitLoop
  ModelFrag ModelOverlay OverlayProofs FragProofs GridCover Properties02
  ModelGraph GraphProofs ModelExtract ExtractProofs ContourResults Rotation NextLink Properties03
  MoveLemma SectorLemma Sides WalkSides Orient Properties04 ModelBind BindProofs BindSweep Thin Nest Properties05 Properties29 AreaMono Fewer Properties30
  Masked Kept KeptShapes Apart Properties25 Drawn Properties26 Reuse Properties27 Properties30 Properties31.
From Verif Require Import ModelFloat.
From Coq Require Import Permutation.
Open Scope Z_scope.

(** Two squares side by side with a hole and an island: the contours of the union do not touch, the island is smaller than 25. *)
Definition side_custom (adds : input) (r : OverlayRule) (m : Z) := overlay_custom lay4 qry (fun _ => true) sorted_ends clean_line 5 true adds r EvenOdd false true m (mk_solver StAuto).
Definition side_custom' (adds : input) (r : OverlayRule) (m : Z) := overlay_custom lay_one qry_all (fun _ => true) sorted_ends' clean_line 5 true adds r EvenOdd false true m (mk_solver StTree).
Example C24_C55_C56_min_area_example :
  bounded_input side_adds /\ no_grid (mk_solver StAuto) (length (sort_merge (input_segments side_adds))) /\ no_grid (mk_solver StTree) (length (sort_merge (input_segments side_adds))) /\
  (exists ls, overlay_links lay4 qry (fun _ => true) 5 (mk_solver StAuto) RUnion EvenOdd (input_segments side_adds) = ROk ls /\ area_ok 25 ls) /\
  (* another order, another strategy, sort and layout *)
  side_custom' (rev side_adds) RUnion 25 = side_custom side_adds RUnion 25 /\
  side_custom' (exchange side_adds) RUnion 25 = side_custom side_adds RUnion 25 /\
  (* one graph *)
  (exists ls g, graph_links lay4 qry (fun _ => true) 5 (mk_solver StAuto) EvenOdd (input_segments side_adds) = ROk ls /\ graph_new ls (sorted_ends ls) = Some g /\
    fopt (extract_shapes true g clean_line RUnion false true 25 (filter_by_rule RUnion ls)) = side_custom' side_adds RUnion 25) /\
  (* the island is gone, the rest is not *)
  exists o h i, side_custom side_adds RUnion 0 = ROk [[o; h]; [i]] /\ side_custom side_adds RUnion 25 = ROk [[o; h]].
Proof.
  split; [repeat constructor|]. split; [left; vm_compute; reflexivity|]. split; [right; vm_compute; reflexivity|]. split.
  { eexists. split; [vm_compute; reflexivity|]. right. apply apartb_ok. vm_compute. reflexivity. }
  split; [vm_compute; reflexivity|]. split; [vm_compute; reflexivity|]. split.
  - eexists _, _. split; [vm_compute; reflexivity|]. split; [vm_compute; reflexivity|]. vm_compute. reflexivity.
  - do 3 eexists. split; [vm_compute; reflexivity|]. vm_compute. reflexivity.
Qed.
