(** * Property theorems, part 34: lines that cut and are cut move with the drawing, whatever the strategy (C57). *)
From Verif Require Import Base Spec QLib ModelSegm SegmProofs MergeProofs PlanarGeo PlanarSum ModelFill ModelFilter FillProofs FillCorrect
  ModelCross CrossProofs CrossPoint MarksProofs CoreResults Properties01 ModelSplit SplitProofs SplitPlanar SplitPass BinsProofs SplitApply SplitLoop
  ModelFrag ModelOverlay OverlayProofs FragProofs GridCover Properties02
  ModelGraph GraphProofs ModelExtract ExtractProofs ContourResults Rotation NextLink Properties03
  MoveLemma SectorLemma Sides WalkSides Orient Properties04 ModelBind BindProofs BindSweep Nest Properties05 ModelString StringProofs StringResults StringMain Properties07
  ModelLoops ModelSlice Properties14 SplitNear InputCover Properties15 ModelFloat OverlayNear Shift ShiftShapes StringShift Order Fewer Apart Properties25.
From Coq Require Import Permutation.
Open Scope Z_scope.

(** ** Specification *)
Definition shift_item (v : pt) (i : item) : item :=
  match i with
  | SContour p => SContour (map (shift_pt v) p)
  | SLine a b => SLine (shift_pt v a) (shift_pt v b)
  | SPath p => SPath (map (shift_pt v) p)
  | SClosed p => SClosed (map (shift_pt v) p)
  end.
Definition shift_items (v : pt) (items : list item) : list item := map (shift_item v) items.
Definition shift_lines (v : pt) (lines : list (list pt)) : list (list pt) := map (map (shift_pt v)) lines.
(** contract of the direction test of [i_shape]: moving a contour does not change its direction *)
Definition cw_shift (v : pt) (cw cw' : list pt -> bool) : Prop := forall c, cw' (map (shift_pt v) c) = cw c.

Lemma items_shift v items : string_segments (shift_items v items) = map (mvs v) (string_segments items).
Proof. exact (mv_string_segments v items). Qed.
Lemma items_perm items items' : Permutation items items' -> sort_merge (string_segments items') = sort_merge (string_segments items) /\
  (string_segments items' = [] <-> string_segments items = []).
Proof.
  intro P. assert (Pm : Permutation (string_segments items') (string_segments items)) by (apply Permutation_flat_map, Permutation_sym; auto).
  split; [apply (@sort_merge_perm cntS _ WCL_S); auto; apply string_nonempty|].
  split; intro E; rewrite E in Pm; [|apply Permutation_sym in Pm]; apply Permutation_nil in Pm; auto.
Qed.
Lemma perm_bounded items items' : Permutation items items' -> string_bounded items -> string_bounded items'.
Proof. intros P B. unfold string_bounded in *. eapply Permutation_Forall; eauto. Qed.

(** ** The strategy *)
(** for any winding count: as long as the TREE and FRAG loops do not stop at two edges, they do what the LIST loop does *)
Section Strategies.
  Context {C : Type} {WC : WindingCount C} {WL : WCLaws C}.
  Variable layout_new : Z -> Z -> nat -> option (Z -> nat).
  Hypothesis Lay : layout_ok layout_new.
  Variable query : list (nat * xseg) -> Z * Z -> Z -> list (nat * xseg).
  Hypothesis Qry : query_ok query.
  Variable tree_new : Z * Z -> bool.
  Notation loop := (split_loop layout_new query tree_new).
  Lemma loop_strategy_any solver p : forall fuel tree r (segs : list (segment C)), SplitLoop.inv segs -> loop fuel solver tree r segs <> Panic ->
    (forall out, loop fuel solver tree r segs = Done out -> length out = 2%nat -> strategy solver = StList) -> (strategy solver = StList -> tree = false) ->
    loop fuel solver tree r segs = loop fuel (list_solver p) false r segs.
  Proof.
    induction fuel as [|fuel IH]; intros tree r segs I NP L2 Tr; [reflexivity|].
    pose proof (inv_wf_sorted _ I) as W. pose proof (sr_radius_pos r) as Hr.
    cbn [split_loop] in *.
    assert (N2 : (length segs <=? (if tree then 2 else 1))%nat = (length segs <=? 1)%nat).
    { destruct tree; auto. destruct (Nat.leb_spec (length segs) 1), (Nat.leb_spec (length segs) 2); auto; try lia.
      assert (X : true = false) by (apply Tr, (L2 segs); [reflexivity|lia]). discriminate. }
    rewrite N2 in *. clear N2. destruct (length segs <=? 1)%nat; auto.
    destruct (pass_spec query Qry tree (sr_radius r) (map sx segs) W Hr) as [P1 P2].
    destruct (list_pass_spec (sr_radius r) Hr (map sx segs) W) as [L1 L3].
    destruct ((if tree then tree_pass query else list_pass) (sr_radius r) (map sx segs)) as [ms rd].
    destruct (list_pass (sr_radius r) (map sx segs)) as [ms' rd']. simpl in P1, P2, L1, L3.
    assert (EM : forall m, In m ms <-> In m ms') by (intro m; rewrite P1, L1; reflexivity).
    assert (ER : rd = rd').
    { destruct rd, rd'; auto; exfalso; [assert (false = true) by (apply L3, P2; auto)|assert (false = true) by (apply P2, L3; auto)]; discriminate. }
    subst rd'.
    destruct ms as [|m0 ms0] eqn:M1.
    - destruct ms' as [|m' ms'']; auto. exfalso. apply (EM m'). simpl; auto.
    - rewrite <- M1 in *. destruct ms' as [|m' ms''] eqn:M2.
      { exfalso. assert (In m0 []) by (apply EM; rewrite M1; simpl; auto). auto. }
      rewrite <- M2 in *.
      rewrite (step_apply layout_new Lay segs I (sr_radius r) Hr ms P1) in * by (rewrite M1; discriminate).
      rewrite (step_apply layout_new Lay segs I (sr_radius r) Hr ms' L1) by (rewrite M2; discriminate).
      rewrite (pieces_set segs ms' ms) by (intro; symmetry; auto).
      pose proof (step_inv segs I (sr_radius r) Hr ms P1) as I'.
      destruct rd; cbn [negb] in *; auto.
      destruct tree; [apply IH; auto|].
      destruct (is_list_split solver _) eqn:IL; [apply IH; auto|].
      destruct (sort_merge (split_pieces segs ms)) as [|s0 rest] eqn:E0; [congruence|]. apply IH; auto.
      intro St. unfold is_list_split in IL. rewrite St in IL. discriminate.
  Qed.
End Strategies.

Section Two.
  (** two executions: other bins, another range query, another tree, another strategy *)
  Variables layout1 layout2 : Z -> Z -> nat -> option (Z -> nat).
  Hypothesis Lay1 : layout_ok layout1.
  Hypothesis Lay2 : layout_ok layout2.
  Variables query1 query2 : list (nat * xseg) -> Z * Z -> Z -> list (nat * xseg).
  Hypothesis Qry1 : query_ok query1.
  Hypothesis Qry2 : query_ok query2.
  Variables tree1 tree2 : Z * Z -> bool.
  Variable fuel : nat.
  Variable v : pt.
  Notation merged items := (sort_merge (string_segments items)).
  Notation split1 solver items := (split_segments layout1 query1 tree1 fuel solver (string_segments items)).
  Notation split2 solver items := (split_segments layout2 query2 tree2 fuel solver (string_segments items)).
  Notation links1 solver fr items := (string_links layout1 query1 tree1 fuel solver fr items).
  Notation links2 solver fr items := (string_links layout2 query2 tree2 fuel solver fr items).

  Lemma string_split_shift items items' s1 s2 : Permutation items items' -> string_bounded items -> string_bounded (shift_items v items') -> precision s1 = precision s2 ->
    no_grid s1 (length (merged items)) -> no_grid s2 (length (merged items)) ->
    split1 s1 items <> Panic -> split2 s2 (shift_items v items') <> Panic ->
    (forall arr, split1 s1 items = Done arr -> length arr = 2%nat -> strategy s1 = StList) ->
    (forall arr, split2 s2 (shift_items v items') = Done arr -> length arr = 2%nat -> strategy s2 = StList) ->
    split2 s2 (shift_items v items') = map_out (mvs v) (split1 s1 items).
  Proof.
    intros Pm B1 B2 EP N1 N2 P1 P2 T1 T2. pose proof (string_inv _ B1) as I1. pose proof (string_inv _ B2) as I2.
    assert (E : merged (shift_items v items') = map (mvs v) (merged items)) by (rewrite items_shift, mv_sort_merge, (proj1 (items_perm _ _ Pm)); auto).
    assert (N2' : no_grid s2 (length (merged (shift_items v items')))) by (rewrite E, map_length; auto).
    destruct (split_is_loop layout1 query1 tree1 fuel s1 (string_segments items) N1) as [(_ & _ & E1)|(t1 & E1 & F1 & _)]; [congruence|].
    destruct (split_is_loop layout2 query2 tree2 fuel s2 (string_segments (shift_items v items')) N2') as [(_ & _ & E2)|(t2 & E2 & F2 & _)]; [congruence|].
    rewrite E1, E2 in *.
    rewrite (loop_strategy_any layout1 Lay1 query1 Qry1 tree1 s1 (precision s1)) by auto.
    rewrite (loop_strategy_any layout2 Lay2 query2 Qry2 tree2 s2 (precision s1)) by auto.
    unfold snap_radius. rewrite EP, E. apply (@mv_list_loop v cntS _ WCL_S); auto. rewrite <- E. auto.
  Qed.
  Lemma string_panic {lay q t} inc items solver fr : string_segments items <> [] -> build_string lay q t inc fuel (string_segments items) fr solver <> RPanic ->
    split_segments lay q t fuel solver (string_segments items) <> Panic.
  Proof. unfold build_string. intros N H E. apply H. rewrite E. destruct (string_segments items); congruence. Qed.
  Lemma quiet {lay q t} inc inc' items solver fr : build_string lay q t inc fuel (string_segments items) fr solver <> RPanic ->
    build_string lay q t inc' fuel (string_segments items) fr solver <> RPanic.
  Proof.
    unfold build_string. destruct (string_segments items) as [|s l]; auto. destruct (split_segments lay q t fuel solver (s :: l)) as [[|? ?]| |]; auto; discriminate.
  Qed.

  Lemma string_links_shift inc items items' s1 s2 fr : Permutation items items' -> string_bounded items -> string_bounded (shift_items v items') -> precision s1 = precision s2 ->
    no_grid s1 (length (merged items)) -> no_grid s2 (length (merged items)) ->
    links1 s1 fr items <> RPanic -> links2 s2 fr (shift_items v items') <> RPanic ->
    (forall arr, split1 s1 items = Done arr -> length arr = 2%nat -> strategy s1 = StList) ->
    (forall arr, split2 s2 (shift_items v items') = Done arr -> length arr = 2%nat -> strategy s2 = StList) ->
    build_string layout2 query2 tree2 inc fuel (string_segments (shift_items v items')) fr s2 =
      map_run (map (mvl v)) (build_string layout1 query1 tree1 inc fuel (string_segments items) fr s1).
  Proof.
    intros Pm B1 B2 EP N1 N2 P1 P2 T1 T2. destruct (items_perm _ _ Pm) as [_ En].
    destruct (string_segments items) as [|s0 l0] eqn:E0.
    { rewrite items_shift, (proj2 En) by auto. reflexivity. }
    assert (NE1 : string_segments items <> []) by congruence.
    assert (NE2 : string_segments (shift_items v items') <> []).
    { rewrite items_shift. intro X. apply map_eq_nil in X. apply En in X. discriminate. }
    rewrite <- E0 in *. clear En.
    pose proof (string_split_shift items items' s1 s2 Pm B1 B2 EP N1 N2 (string_panic _ _ _ _ NE1 P1) (string_panic _ _ _ _ NE2 P2) T1 T2) as E.
    unfold build_string. rewrite E. clear P1 P2 E.
    destruct (string_segments (shift_items v items')) as [|x1 y1]; [congruence|]. destruct (string_segments items) as [|x2 y2]; [congruence|].
    destruct (split_segments layout1 query1 tree1 fuel s1 (x2 :: y2)) as [[|z l]| |]; auto. cbn [map_out].
    change (map (mvs v) (z :: l)) with (mvs v z :: map (mvs v) l) at 1. cbv iota. cbn [map_run]. f_equal.
    unfold fill_string. rewrite mv_fill, mv_links. reflexivity.
  Qed.

  (** the sort of the link ends compares points only; the direction test does not see the position *)
  Variables sort1 sort2 : list link -> list (nat * pt).
  Hypothesis Sort : forall ls, sort2 (shift_links v ls) = shift_ends v (sort1 ls).
  Variables cw1 cw2 : list pt -> bool.
  Hypothesis Cw : cw_shift v cw1 cw2.
  Notation clip1 := (clip_string_lines layout1 query1 tree1 sort1 fuel).
  Notation clip2 := (clip_string_lines layout2 query2 tree2 sort2 fuel).
  Notation slice1 := (slice_by layout1 query1 tree1 sort1 cw1 fuel).
  Notation slice2 := (slice_by layout2 query2 tree2 sort2 cw2 fuel).

  (** Clipping lines by a shape: moving both moves the pieces that are left, point by point and in the same order.  The order in which shapes and
      lines were added, the strategy, the bins and the tree have no influence. *)
  Theorem C57_clip_moves items items' s1 s2 fr cr : Permutation items items' -> string_bounded items -> string_bounded (shift_items v items') -> precision s1 = precision s2 ->
    no_grid s1 (length (merged items)) -> no_grid s2 (length (merged items)) ->
    links1 s1 fr items <> RPanic -> links2 s2 fr (shift_items v items') <> RPanic ->
    (forall arr, split1 s1 items = Done arr -> length arr = 2%nat -> strategy s1 = StList) ->
    (forall arr, split2 s2 (shift_items v items') = Done arr -> length arr = 2%nat -> strategy s2 = StList) ->
    clip2 s2 fr cr (shift_items v items') = map_run (shift_lines v) (clip1 s1 fr cr items).
  Proof.
    intros Pm B1 B2 EP N1 N2 P1 P2 T1 T2. unfold clip_string_lines. rewrite (string_links_shift _ _ _ _ _ _ Pm B1 B2 EP N1 N2 P1 P2 T1 T2).
    destruct (build_string layout1 query1 tree1 _ fuel (string_segments items) fr s1) as [ls| |]; auto. cbn [map_run].
    change (map (mvl v) ls) with (shift_links v ls). rewrite Sort. change (shift_links v ls) with (map (mvl v) ls).
    change (shift_ends v (sort1 ls)) with (map (fun e => (fst e, mv v (snd e))) (sort1 ls)). rewrite mv_string_graph.
    destruct (string_graph ls (sort1 ls)) as [g|]; auto. cbn [option_map]. rewrite mv_clip. destruct (into_clip_string_lines g); reflexivity.
  Qed.

  (** Slicing a shape by lines, for every direction and every minimal area *)
  Theorem C57_slice_moves items items' s1 s2 dbg fr clockwise min_area : Permutation items items' -> string_bounded items -> string_bounded (shift_items v items') -> precision s1 = precision s2 ->
    no_grid s1 (length (merged items)) -> no_grid s2 (length (merged items)) ->
    links1 s1 fr items <> RPanic -> links2 s2 fr (shift_items v items') <> RPanic ->
    (forall arr, split1 s1 items = Done arr -> length arr = 2%nat -> strategy s1 = StList) ->
    (forall arr, split2 s2 (shift_items v items') = Done arr -> length arr = 2%nat -> strategy s2 = StList) ->
    slice2 s2 dbg fr clockwise min_area (shift_items v items') = map_run (shift_answer v) (slice1 s1 dbg fr clockwise min_area items).
  Proof.
    intros Pm B1 B2 EP N1 N2 P1 P2 T1 T2. unfold slice_by.
    assert (E : links2 s2 fr (shift_items v items') = map_run (map (mvl v)) (links1 s1 fr items)) by (apply string_links_shift; auto).
    rewrite E. destruct (links1 s1 fr items) as [ls| |]; auto. cbn [map_run].
    change (map (mvl v) ls) with (shift_links v ls). rewrite Sort. change (shift_links v ls) with (map (mvl v) ls).
    change (shift_ends v (sort1 ls)) with (map (fun e => (fst e, mv v (snd e))) (sort1 ls)). rewrite mv_graph.
    destruct (graph_new ls (sort1 ls)) as [g|]; auto. cbn [option_map]. rewrite (mv_slice_shapes v g cw1 cw2 Cw).
    destruct (slice_shapes g cw1 dbg clockwise min_area); reflexivity.
  Qed.

  (** the two strategies without preconditions on the number of edges in a round never panic *)
  Lemma string_quiet {lay q t} inc solver fr items : layout_ok lay -> query_ok q -> string_bounded items -> no_grid solver (length (merged items)) ->
    strategy solver = StList \/ strategy solver = StAuto -> build_string lay q t inc fuel (string_segments items) fr solver <> RPanic.
  Proof.
    intros L Q B N St. pose proof (split_no_panic lay L q Q t fuel (string_segments items) solver St N (string_inv _ B)) as P.
    unfold build_string. destruct (string_segments items) as [|s l]; [discriminate|].
    destruct (split_segments lay q t fuel solver (s :: l)) as [[|z k]| |]; congruence.
  Qed.
  (** with the LIST strategy all further conditions fall away *)
  Theorem C57_list items items' p dbg fr cr clockwise min_area : Permutation items items' -> string_bounded items -> string_bounded (shift_items v items') ->
    clip2 (Slv StList p) fr cr (shift_items v items') = map_run (shift_lines v) (clip1 (Slv StList p) fr cr items) /\
    slice2 (Slv StList p) dbg fr clockwise min_area (shift_items v items') = map_run (shift_answer v) (slice1 (Slv StList p) dbg fr clockwise min_area items).
  Proof.
    intros Pm B1 B2. assert (N : forall n, no_grid (Slv StList p) n) by (intro n; left; reflexivity).
    split; [apply C57_clip_moves|apply C57_slice_moves]; auto; apply string_quiet; auto.
  Qed.
End Two.

(** ** Examples *)
(** the sort used in the examples and the sign of the area meet the contracts *)
Example C57_contracts v : (forall ls, sorted_ends (shift_links v ls) = shift_ends v (sorted_ends ls)) /\ cw_shift v cw_area cw_area.
Proof.
  split.
  - intro ls. unfold sorted_ends, shift_links, shift_ends. rewrite map_map.
    change (map (fun x => l_b (Lk (l_aid x) (shift_pt v (l_a x)) (l_bid x) (shift_pt v (l_b x)) (l_fill x))) ls) with (map (fun x => mv v (l_b x)) ls).
    rewrite <- map_map with (f := l_b) (g := mv v). rewrite enum_map. apply isort_map. intros [i x] [j y]. cbn [snd]. apply mv_leb.
  - intro c. unfold cw_area. rewrite <- (mv_area v c). reflexivity.
Qed.
(** the square with two holes of C46 and a line through a rounded crossing, moved, and given in the opposite order to another strategy *)
Definition move_items : list item := sl_items ++ [SPath [Pt (-3) 1; Pt 3 19; Pt 40 8]].
Definition by_vector : pt := Pt 70001 (-90003).
Example C57_example :
  string_bounded move_items /\ string_bounded (shift_items by_vector (rev move_items)) /\ Permutation move_items (rev move_items) /\
  no_grid (mk_solver StAuto) (length (sort_merge (string_segments move_items))) /\ no_grid (mk_solver StTree) (length (sort_merge (string_segments move_items))) /\
  (exists arr, split_segments lay4 qry (fun _ => true) 3 (mk_solver StAuto) (string_segments move_items) = Done arr /\ length arr <> 2%nat) /\
  (exists arr, split_segments lay_one qry_all (fun _ => true) 3 (mk_solver StTree) (string_segments (shift_items by_vector (rev move_items))) = Done arr /\ length arr <> 2%nat) /\
  (exists out, clip_string_lines lay4 qry (fun _ => true) sorted_ends 3 (mk_solver StAuto) NonZero (CR false false) move_items = ROk out /\ (2 < length out)%nat) /\
  (exists out, slice_by lay4 qry (fun _ => true) sorted_ends cw_area 3 (mk_solver StAuto) true NonZero false 0 move_items = ROk out /\ (2 < length out)%nat).
Proof.
  split; [repeat constructor|]. split; [repeat constructor|]. split; [apply Permutation_rev|]. split; [left; vm_compute; reflexivity|]. split; [right; vm_compute; reflexivity|].
  split; [eexists; split; [vm_compute; reflexivity|discriminate]|]. split; [eexists; split; [vm_compute; reflexivity|discriminate]|].
  split; eexists; (split; [vm_compute; reflexivity|]); vm_compute; repeat constructor.
Qed.

Print Assumptions C57_clip_moves.
Print Assumptions C57_slice_moves.
Print Assumptions C57_list.
