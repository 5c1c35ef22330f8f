(** * Property theorems, part 25: moving the input moves the answer, and nothing hidden decides about the answer (C55). *)
From Verif Require Import Base Spec QLib ModelSegm SegmProofs MergeProofs PlanarGeo PlanarSum ModelFill ModelFilter FillProofs FillCorrect
  ModelCross CrossProofs CrossPoint MarksProofs CoreResults Properties01 ModelSplit SplitProofs SplitPlanar SplitPass BinsProofs SplitApply SplitLoop
  ModelFrag ModelOverlay OverlayProofs FragProofs GridCover Properties02
  ModelGraph GraphProofs ModelExtract ExtractProofs ContourResults Rotation NextLink Properties03
  MoveLemma SectorLemma Sides WalkSides Orient Properties04 ModelBind BindProofs BindSweep Nest Properties05 SplitNear InputCover Properties15 ModelFloat OverlayNear
  Shift ShiftShapes Order Fewer Apart.
From Coq Require Import Permutation.
Open Scope Z_scope.

(** ** Specification *)
(** the point moved by a vector; a set of contours, and an answer, moved by a vector *)
Definition shift_pt (v p : pt) : pt := Pt (px p + px v) (py p + py v).
Definition shift_input (v : pt) (adds : input) : input := map (fun a => (map (shift_pt v) (fst a), snd a)) adds.
Definition shift_answer (v : pt) (shapes : list (list (list pt))) : list (list (list pt)) := map (map (map (shift_pt v))) shapes.
Definition map_run {A B} (f : A -> B) (x : run A) : run B := match x with ROk a => ROk (f a) | RPanic => RPanic | RFuel => RFuel end.
(** contract of the contour clean-up of [i_shape]: it looks at differences of points only *)
Definition clean_shift (v : pt) (clean clean' : bool -> list pt -> list pt * bool) : Prop :=
  forall b c, clean' b (map (shift_pt v) c) = (map (shift_pt v) (fst (clean b c)), snd (clean b c)).
(** the ends of a list of links, moved *)
Definition shift_ends (v : pt) (ends : list (nat * pt)) : list (nat * pt) := map (fun e => (fst e, shift_pt v (snd e))) ends.
Definition shift_links (v : pt) (ls : list link) : list link :=
  map (fun l => Lk (l_aid l) (shift_pt v (l_a l)) (l_bid l) (shift_pt v (l_b l)) (l_fill l)) ls.

Lemma input_shift v adds : input_segments (shift_input v adds) = map (mvs v) (input_segments adds).
Proof.
  unfold input_segments, shift_input. induction adds as [|[path t] adds IH]; auto. cbn [map flat_map fst snd]. rewrite map_app, <- IH. f_equal. apply mv_append.
Qed.

Section Two.
  (** two executions: other bins, another range query, another tree, another (unstable) sort of the link ends *)
  Variables layout1 layout2 : Z -> Z -> nat -> option (Z -> nat).
  Hypothesis Lay1 : layout_ok layout1.
  Hypothesis Lay2 : layout_ok layout2.
  Variables query1 query2 : list (nat * xseg) -> Z * Z -> Z -> list (nat * xseg).
  Hypothesis Qry1 : query_ok query1.
  Hypothesis Qry2 : query_ok query2.
  Variables tree1 tree2 : Z * Z -> bool.
  Variable fuel : nat.
  Variable v : pt.
  Notation merged adds := (sort_merge (input_segments adds)).
  Notation links1 solver r fr adds := (overlay_links layout1 query1 tree1 fuel solver r fr (input_segments adds)).
  Notation links2 solver r fr adds := (overlay_links layout2 query2 tree2 fuel solver r fr (input_segments adds)).

  Lemma split_shift adds s1 s2 : bounded_input adds -> bounded_input (shift_input v adds) -> precision s1 = precision s2 ->
    no_grid s1 (length (merged adds)) -> no_grid s2 (length (merged adds)) ->
    split_segments layout1 query1 tree1 fuel s1 (input_segments adds) <> Panic ->
    split_segments layout2 query2 tree2 fuel s2 (input_segments (shift_input v adds)) <> Panic ->
    split_segments layout2 query2 tree2 fuel s2 (input_segments (shift_input v adds)) =
      map_out (mvs v) (split_segments layout1 query1 tree1 fuel s1 (input_segments adds)).
  Proof.
    intros B1 B2 EP N1 N2 P1 P2.
    destruct (merged_balanced adds) as [BS1 BC1]. destruct (merged_balanced (shift_input v adds)) as [BS2 BC2].
    pose proof (input_inv _ B1) as I1. pose proof (input_inv _ B2) as I2.
    assert (E : merged (shift_input v adds) = map (mvs v) (merged adds)) by (rewrite input_shift; apply mv_sort_merge).
    assert (N2' : no_grid s2 (length (merged (shift_input v adds)))) by (rewrite E, map_length; auto).
    destruct (split_is_loop layout1 query1 tree1 fuel s1 (input_segments adds) N1) as [(_ & _ & E1)|(t1 & E1 & _)]; [congruence|].
    destruct (split_is_loop layout2 query2 tree2 fuel s2 (input_segments (shift_input v adds)) N2') as [(_ & _ & E2)|(t2 & E2 & _)]; [congruence|].
    rewrite E1, E2 in *.
    rewrite (loop_strategy layout1 Lay1 query1 Qry1 tree1 s1 (precision s1)) by auto.
    rewrite (loop_strategy layout2 Lay2 query2 Qry2 tree2 s2 (precision s1)) by auto.
    unfold snap_radius. rewrite EP, E. apply (@mv_list_loop v cntB _ WCL_B); auto. rewrite <- E. auto.
  Qed.

  Lemma links_panic {lay q t} adds solver r fr : input_segments adds <> [] -> overlay_links lay q t fuel solver r fr (input_segments adds) <> RPanic ->
    split_segments lay q t fuel solver (input_segments adds) <> Panic.
  Proof. unfold overlay_links, build_boolean. intros N H E. apply H. rewrite E. destruct (input_segments adds); congruence. Qed.

  (** the edges of the answer move with the input *)
  Theorem C55_edges_move adds s1 s2 r fr : bounded_input adds -> bounded_input (shift_input v adds) -> precision s1 = precision s2 ->
    no_grid s1 (length (merged adds)) -> no_grid s2 (length (merged adds)) ->
    links1 s1 r fr adds <> RPanic -> links2 s2 r fr (shift_input v adds) <> RPanic ->
    links2 s2 r fr (shift_input v adds) = map_run (shift_links v) (links1 s1 r fr adds).
  Proof.
    intros B1 B2 EP N1 N2 P1 P2.
    destruct (input_segments adds) as [|s0 l0] eqn:E0.
    { rewrite input_shift, E0. reflexivity. }
    assert (NE1 : input_segments adds <> []) by congruence.
    assert (NE2 : input_segments (shift_input v adds) <> []) by (rewrite input_shift, E0; discriminate).
    rewrite <- E0 in *. pose proof (split_shift adds s1 s2 B1 B2 EP N1 N2 (links_panic _ _ _ _ NE1 P1) (links_panic _ _ _ _ NE2 P2)) as E.
    unfold overlay_links, build_boolean. rewrite E. clear P1 P2 E.
    destruct (input_segments (shift_input v adds)) as [|x1 y1]; [congruence|]. destruct (input_segments adds) as [|x2 y2]; [congruence|].
    destruct (split_segments layout1 query1 tree1 fuel s1 (x2 :: y2)) as [[|z l]| |]; auto. cbn [map_out].
    change (map (mvs v) (z :: l)) with (mvs v z :: map (mvs v) l) at 1. cbv iota. cbn [map_run]. f_equal.
    unfold fill_boolean. rewrite mv_fill, mv_links. reflexivity.
  Qed.
End Two.

(** ** The order of equal link ends *)
Lemma order_shapes segs fr r inc0 ends1 ends2 dbg clean clockwise simplify min_area : arrangement segs -> clean_ok clean -> area_ok min_area (result_links fr r segs) ->
  let links := kept inc0 fr segs in let inc := fun l => is_included r (l_fill l) in
  filter inc links = result_links fr r segs -> ends_ok links ends1 -> ends_ok links ends2 ->
  exists g1 g2, graph_new links ends1 = Some g1 /\ graph_new links ends2 = Some g2 /\
    extract_shapes dbg g2 clean r clockwise simplify min_area (flags inc links) = extract_shapes dbg g1 clean r clockwise simplify min_area (flags inc links).
Proof.
  intros A Cl Ar links inc Fi O1 O2.
  destruct (graphs_same links (blinks_sorted segs A fr inc0) (blinks_wf segs A fr inc0) ends1 ends2 O1 O2) as (g1 & g2 & pts & H1 & H2 & G1 & G2 & Sm).
  exists g1, g2. split; auto. split; auto.
  destruct (pieces_spec links g1 pts inc clean r clockwise simplify 0 G1 (blinks_wf segs A fr _)) as (ps & P1 & P2 & P3 & P4 & P5).
  { intro v. rewrite Fi. apply result_even; auto. }
  assert (Fp : Forall (fun p => p_contour p = fst (clean simplify (p_raw p)) /\ p_valid p = is_valid 0 (p_contour p)) ps).
  { eapply Forall_impl; [|exact P2]. cbv beta. tauto. }
  pose proof (glue_oriented segs A fr r inc0 g1 pts G1 Fi clean clockwise simplify 0 ps P1 (pv clean simplify 0 ps Cl Fp (or_introl eq_refl))) as O.
  assert (V : forall p, In p ps -> p_valid p = true) by (intros p I; eapply (pt_turns clean clockwise simplify 0 ps Cl Fp (or_introl eq_refl) _ O); auto).
  assert (Len : length (flags inc links) = length (g_links g1)) by (unfold flags; rewrite map_length; symmetry; apply (go_len _ _ _ G1)).
  assert (Ev1 : all_even g1 (flags inc links)) by (apply (flags_even _ _ _ _ G1); intro v; rewrite Fi; apply result_even; auto).
  assert (Ev2 : all_even g2 (flags inc links)) by (apply (flags_even _ _ _ _ G2); intro v; rewrite Fi; apply result_even; auto).
  assert (P1' : extract_pieces g2 clean r clockwise simplify 0 (flags inc links) = Some ps).
  { unfold extract_pieces in *.
    rewrite (extract_same g1 g2 pts Sm (graph_of_wf _ _ _ (blinks_wf segs A fr inc0) G1) (graph_of_wf _ _ _ (blinks_wf segs A fr inc0) G2)
      (graph_planar _ _ _ _ _ A G1) clean r clockwise simplify 0 _ _ _ ps); auto.
    - pose proof (ucount_le (flags inc links)). lia.
    - intros i L. lia. }
  assert (Vp : forall p, In p ps -> p_valid p = is_valid 0 (p_contour p)) by (intros p I; rewrite Forall_forall in Fp; apply (Fp p I)).
  assert (Tw : forall g', graph_of links g' pts -> min_area <> 0 -> two g' (flags inc links)).
  { intros g' G' N. destruct Ar as [->|Ap]; [congruence|]. apply apart_two with (pts := pts); auto; [apply blinks_nodup; auto|rewrite Fi; auto]. }
  eapply (same_area g2 g1 pts pts) with (ps := ps) (ps' := ps); eauto using graph_of_wf, blinks_wf.
  unfold flags. rewrite map_length. symmetry. apply (go_len _ _ _ G2).
Qed.

Section Answers.
  Variables layout1 layout2 : Z -> Z -> nat -> option (Z -> nat).
  Hypothesis Lay1 : layout_ok layout1.
  Hypothesis Lay2 : layout_ok layout2.
  Variables query1 query2 : list (nat * xseg) -> Z * Z -> Z -> list (nat * xseg).
  Hypothesis Qry1 : query_ok query1.
  Hypothesis Qry2 : query_ok query2.
  Variables tree1 tree2 : Z * Z -> bool.
  Variables sort1 sort2 : list link -> list (nat * pt).
  Variables clean1 clean2 : bool -> list pt -> list pt * bool.
  Variables (fuel : nat) (dbg : bool).
  Notation merged adds := (sort_merge (input_segments adds)).
  Notation links1 solver r fr adds := (overlay_links layout1 query1 tree1 fuel solver r fr (input_segments adds)).
  Notation links2 solver r fr adds := (overlay_links layout2 query2 tree2 fuel solver r fr (input_segments adds)).
  Notation answer1 := (overlay_custom layout1 query1 tree1 sort1 clean1 fuel dbg).
  Notation answer2 := (overlay_custom layout2 query2 tree2 sort2 clean2 fuel dbg).

  Variable v : pt.
  Hypothesis Clean : clean_shift v clean1 clean2.

  Lemma shapes_move ls ends g r clockwise simplify min_area vis : graph_new ls ends = Some g ->
    graph_new (shift_links v ls) (shift_ends v ends) = Some (mvg v g) /\
    extract_shapes dbg (mvg v g) clean2 r clockwise simplify min_area vis = option_map (shift_answer v) (extract_shapes dbg g clean1 r clockwise simplify min_area vis).
  Proof.
    intro H. split; [|apply mv_shapes; exact Clean].
    change (graph_new (map (mvl v) ls) (map (fun e => (fst e, mv v (snd e))) ends) = Some (mvg v g)). rewrite mv_graph, H. reflexivity.
  Qed.

  (** With a sort that treats moved ends like the ends: any minimal area. *)
  Theorem C55_move_min_area adds s1 s2 r fr clockwise simplify min_area :
    bounded_input adds -> bounded_input (shift_input v adds) -> precision s1 = precision s2 ->
    no_grid s1 (length (merged adds)) -> no_grid s2 (length (merged adds)) ->
    links1 s1 r fr adds <> RPanic -> links2 s2 r fr (shift_input v adds) <> RPanic ->
    (forall ls, sort2 (shift_links v ls) = shift_ends v (sort1 ls)) ->
    answer2 (shift_input v adds) r fr clockwise simplify min_area s2 = map_run (shift_answer v) (answer1 adds r fr clockwise simplify min_area s1).
  Proof.
    intros B1 B2 EP N1 N2 P1 P2 So. unfold overlay_custom.
    rewrite (C55_edges_move layout1 layout2 Lay1 Lay2 query1 query2 Qry1 Qry2 tree1 tree2 fuel v adds s1 s2 r fr B1 B2 EP N1 N2 P1 P2).
    destruct (links1 s1 r fr adds) as [ls| |]; auto. cbn [map_run fbind]. rewrite So.
    replace (length (shift_links v ls)) with (length ls) by (unfold shift_links; rewrite map_length; auto).
    destruct (graph_new ls (sort1 ls)) as [g|] eqn:Eg.
    - destruct (shapes_move ls (sort1 ls) g r clockwise simplify min_area (repeat false (length ls)) Eg) as [-> E]. cbn [fopt fbind]. rewrite E. clear E.
      destruct (extract_shapes dbg g clean1 r clockwise simplify min_area (repeat false (length ls))); reflexivity.
    - change (shift_links v ls) with (map (mvl v) ls). change (shift_ends v (sort1 ls)) with (map (fun e => (fst e, mv v (snd e))) (sort1 ls)).
      rewrite mv_graph, Eg. reflexivity.
  Qed.

  (** With any two sorts: for the default [min_area = 0], or any minimal area if the contours of the result do not touch. *)
  Theorem C55_move_area adds s1 s2 r fr clockwise simplify min_area :
    bounded_input adds -> bounded_input (shift_input v adds) -> precision s1 = precision s2 ->
    no_grid s1 (length (merged adds)) -> no_grid s2 (length (merged adds)) ->
    links1 s1 r fr adds <> RPanic -> links2 s2 r fr (shift_input v adds) <> RPanic ->
    clean_ok clean1 -> (forall ls, links1 s1 r fr adds = ROk ls -> area_ok min_area ls) -> (forall ls, ends_ok ls (sort1 ls)) -> (forall ls, ends_ok ls (sort2 ls)) ->
    answer2 (shift_input v adds) r fr clockwise simplify min_area s2 = map_run (shift_answer v) (answer1 adds r fr clockwise simplify min_area s1).
  Proof.
    intros B1 B2 EP N1 N2 P1 P2 Cl Ar S1 S2. unfold overlay_custom.
    rewrite (C55_edges_move layout1 layout2 Lay1 Lay2 query1 query2 Qry1 Qry2 tree1 tree2 fuel v adds s1 s2 r fr B1 B2 EP N1 N2 P1 P2).
    destruct (links1 s1 r fr adds) as [ls| |] eqn:EL; auto. cbn [map_run fbind].
    destruct (overlay_arrangement layout1 Lay1 query1 Qry1 tree1 fuel s1 adds r fr ls B1 N1 EL) as (segs & _ & A & ->).
    set (ls := result_links fr r segs) in *.
    replace (length (shift_links v ls)) with (length ls) by (unfold shift_links; rewrite map_length; auto).
    (* the ends of the second run, moved back *)
    set (w := Pt (- px v) (- py v)).
    assert (Bk : forall p, shift_pt v (shift_pt w p) = p) by (intros [x y]; unfold shift_pt, w; cbn [px py]; f_equal; lia).
    assert (Bk' : forall p, shift_pt w (shift_pt v p) = p) by (intros [x y]; unfold shift_pt, w; cbn [px py]; f_equal; lia).
    set (ends2 := shift_ends w (sort2 (shift_links v ls))).
    assert (E2 : sort2 (shift_links v ls) = shift_ends v ends2).
    { unfold ends2, shift_ends. rewrite map_map. cbn [fst snd]. symmetry. erewrite map_ext; [apply map_id|]. intros [i p]. cbn [fst snd]. rewrite Bk. reflexivity. }
    assert (O2 : ends_ok ls ends2).
    { destruct (S2 (shift_links v ls)) as [Pm Sd]. split.
      - unfold ends2, shift_ends. eapply Permutation_trans; [apply Permutation_map, Pm|].
        replace (map l_b (shift_links v ls)) with (map (shift_pt v) (map l_b ls)) by (unfold shift_links; rewrite !map_map; reflexivity).
        rewrite (enum_map (shift_pt v)), map_map. cbn [fst snd]. erewrite map_ext; [rewrite map_id; reflexivity|]. intros [i p]. cbn [fst snd]. rewrite Bk'. reflexivity.
      - unfold ends2, shift_ends. clear - Sd. induction Sd as [|e l Sd IH Fo]; cbn [map]; constructor; auto. apply Forall_map. eapply Forall_impl; [|exact Fo].
        intros e' He. cbv beta in *. cbn [snd]. rewrite <- He. apply mv_leb. }
    destruct (order_shapes segs fr r (is_included r) (sort1 ls) ends2 dbg clean1 clockwise simplify min_area A Cl (Ar _ eq_refl)) as (g1 & g2 & H1 & H2 & E); auto.
    { fold (result_links fr r segs). assert (Al : forall l, In l (result_links fr r segs) -> is_included r (l_fill l) = true).
      { intros l I. apply blinks_in in I as (s & f & _ & If & ->). exact If. }
      revert Al. generalize (result_links fr r segs). induction l as [|x l IH]; intro Al; auto. cbn [filter]. rewrite (Al x) by (left; auto). f_equal. apply IH. intros; apply Al; right; auto. }
    fold (result_links fr r segs) in H1, H2, E. fold ls in H1, H2, E.
    assert (Ff : flags (fun l => is_included r (l_fill l)) ls = repeat false (length ls)).
    { rewrite <- flags_all. unfold flags. apply map_ext_in. intros l I.
      assert (is_included r (l_fill l) = true) as -> by (apply blinks_in in I as (s & f & _ & If & ->); exact If). auto. }
    rewrite Ff in E. rewrite H1, E2.
    destruct (shapes_move ls ends2 g2 r clockwise simplify min_area (repeat false (length ls)) H2) as [-> X]. cbn [fopt fbind]. rewrite X, E. clear X E.
    destruct (extract_shapes dbg g1 clean1 r clockwise simplify min_area (repeat false (length ls))); reflexivity.
  Qed.
  Theorem C55_move adds s1 s2 r fr clockwise simplify :
    bounded_input adds -> bounded_input (shift_input v adds) -> precision s1 = precision s2 ->
    no_grid s1 (length (merged adds)) -> no_grid s2 (length (merged adds)) ->
    links1 s1 r fr adds <> RPanic -> links2 s2 r fr (shift_input v adds) <> RPanic ->
    clean_ok clean1 -> (forall ls, ends_ok ls (sort1 ls)) -> (forall ls, ends_ok ls (sort2 ls)) ->
    answer2 (shift_input v adds) r fr clockwise simplify 0 s2 = map_run (shift_answer v) (answer1 adds r fr clockwise simplify 0 s1).
  Proof. intros. apply C55_move_area; auto. intros. left. reflexivity. Qed.
End Answers.

(** ** The same input again *)
Section Again.
  Variables layout1 layout2 : Z -> Z -> nat -> option (Z -> nat).
  Hypothesis Lay1 : layout_ok layout1.
  Hypothesis Lay2 : layout_ok layout2.
  Variables query1 query2 : list (nat * xseg) -> Z * Z -> Z -> list (nat * xseg).
  Hypothesis Qry1 : query_ok query1.
  Hypothesis Qry2 : query_ok query2.
  Variables tree1 tree2 : Z * Z -> bool.
  Variables sort1 sort2 : list link -> list (nat * pt).
  Hypothesis Sort1 : forall ls, ends_ok ls (sort1 ls).
  Hypothesis Sort2 : forall ls, ends_ok ls (sort2 ls).
  Variable clean : bool -> list pt -> list pt * bool.
  Hypothesis Clean : clean_ok clean.
  Variables (fuel : nat) (dbg : bool).
  Notation merged adds := (sort_merge (input_segments adds)).
  Notation links1 solver r fr adds := (overlay_links layout1 query1 tree1 fuel solver r fr (input_segments adds)).
  Notation links2 solver r fr adds := (overlay_links layout2 query2 tree2 fuel solver r fr (input_segments adds)).
  Notation answer1 := (overlay_custom layout1 query1 tree1 sort1 clean fuel dbg).
  Notation answer2 := (overlay_custom layout2 query2 tree2 sort2 clean fuel dbg).

  Lemma shift_pt_0 p : shift_pt (Pt 0 0) p = p.
  Proof. destruct p as [x y]. unfold shift_pt. cbn [px py]. f_equal; lia. Qed.
  Lemma shift_input_0 adds : shift_input (Pt 0 0) adds = adds.
  Proof.
    unfold shift_input. erewrite map_ext; [apply map_id|]. intros [path t]. cbn [fst snd]. f_equal. erewrite map_ext; [apply map_id|]. apply shift_pt_0.
  Qed.
  Lemma shift_answer_0 s : shift_answer (Pt 0 0) s = s.
  Proof.
    unfold shift_answer. erewrite map_ext; [apply map_id|]. intro a. erewrite map_ext; [apply map_id|]. intro b. erewrite map_ext; [apply map_id|]. apply shift_pt_0.
  Qed.
  Lemma links_merged {lay q t} solver r fr (l k : list (segment cntB)) : sort_merge l = sort_merge k -> (l = [] <-> k = []) ->
    overlay_links lay q t fuel solver r fr l = overlay_links lay q t fuel solver r fr k.
  Proof.
    intros E N. unfold overlay_links, build_boolean, split_segments. rewrite E. destruct l, k; auto.
    - destruct N as [N _]. discriminate (N eq_refl).
    - destruct N as [_ N]. discriminate (N eq_refl).
  Qed.
  Lemma perm_links {lay q t} solver r fr adds adds' : Permutation adds adds' ->
    overlay_links lay q t fuel solver r fr (input_segments adds') = overlay_links lay q t fuel solver r fr (input_segments adds).
  Proof.
    intro P. apply links_merged; [symmetry; apply C05_order_of_contours; auto|].
    assert (Pm : Permutation (input_segments adds) (input_segments adds')) by (apply Permutation_flat_map; auto).
    split; intro E; rewrite E in Pm; [apply Permutation_sym in Pm|]; apply Permutation_nil in Pm; auto.
  Qed.

  (** Neither the order in which the contours were added, nor the strategy, nor the bins, nor the tree, nor the order in which the (unstable) sort
      leaves equal link ends has any influence on the answer. *)
  Theorem C55_deterministic_area adds adds' s1 s2 r fr clockwise simplify min_area : Permutation adds adds' -> bounded_input adds -> precision s1 = precision s2 ->
    no_grid s1 (length (merged adds)) -> no_grid s2 (length (merged adds)) ->
    links1 s1 r fr adds <> RPanic -> links2 s2 r fr adds' <> RPanic ->
    (forall ls, links1 s1 r fr adds = ROk ls -> area_ok min_area ls) ->
    answer2 adds' r fr clockwise simplify min_area s2 = answer1 adds r fr clockwise simplify min_area s1.
  Proof.
    intros Pm B EP N1 N2 P1 P2 Ar. rewrite (perm_links s2 r fr adds adds' Pm) in P2.
    assert (E : answer2 adds' r fr clockwise simplify min_area s2 = answer2 adds r fr clockwise simplify min_area s2).
    { unfold overlay_custom. rewrite (perm_links s2 r fr adds adds' Pm). reflexivity. }
    rewrite E. clear E.
    pose proof (C55_move_area layout1 layout2 Lay1 Lay2 query1 query2 Qry1 Qry2 tree1 tree2 sort1 sort2 clean clean fuel dbg (Pt 0 0)) as M.
    specialize (M ltac:(intros b c; erewrite map_ext by apply shift_pt_0; rewrite map_id; erewrite map_ext by apply shift_pt_0; rewrite map_id; destruct (clean b c); reflexivity)).
    specialize (M adds s1 s2 r fr clockwise simplify min_area). rewrite shift_input_0 in M. rewrite M by auto.
    destruct (answer1 adds r fr clockwise simplify min_area s1); cbn [map_run]; auto. rewrite shift_answer_0. reflexivity.
  Qed.
  Theorem C55_deterministic adds adds' s1 s2 r fr clockwise simplify : Permutation adds adds' -> bounded_input adds -> precision s1 = precision s2 ->
    no_grid s1 (length (merged adds)) -> no_grid s2 (length (merged adds)) ->
    links1 s1 r fr adds <> RPanic -> links2 s2 r fr adds' <> RPanic ->
    answer2 adds' r fr clockwise simplify 0 s2 = answer1 adds r fr clockwise simplify 0 s1.
  Proof. intros. apply C55_deterministic_area; auto. intros. left. reflexivity. Qed.

  (** the two strategies without preconditions on the number of edges in a round never panic *)
  Lemma links_no_panic {lay q t} solver r fr adds : layout_ok lay -> query_ok q -> bounded_input adds -> no_grid solver (length (merged adds)) ->
    strategy solver = StList \/ strategy solver = StAuto -> overlay_links lay q t fuel solver r fr (input_segments adds) <> RPanic.
  Proof.
    intros L Q B N St. pose proof (split_no_panic lay L q Q t fuel (input_segments adds) solver St N (input_inv _ B)) as P.
    unfold overlay_links, build_boolean. destruct (input_segments adds) as [|s l]; [discriminate|].
    destruct (split_segments lay q t fuel solver (s :: l)) as [[|z k]| |]; congruence.
  Qed.
  Theorem C55_list_auto adds adds' s1 s2 r fr clockwise simplify : Permutation adds adds' -> bounded_input adds -> precision s1 = precision s2 ->
    no_grid s1 (length (merged adds)) -> no_grid s2 (length (merged adds)) ->
    strategy s1 = StList \/ strategy s1 = StAuto -> strategy s2 = StList \/ strategy s2 = StAuto ->
    answer2 adds' r fr clockwise simplify 0 s2 = answer1 adds r fr clockwise simplify 0 s1.
  Proof.
    intros Pm B EP N1 N2 T1 T2. apply C55_deterministic; auto; [apply links_no_panic; auto|].
    rewrite (perm_links s2 r fr adds adds' Pm). apply links_no_panic; auto.
  Qed.
End Again.

(** ** Examples *)
(** equal ends in the opposite order; one bin for everything; a query that returns too much *)
Definition sorted_ends' (links : list link) : list (nat * pt) := isort (fun x y => pt_leb (snd x) (snd y)) (rev (enum (map l_b links))).
Lemma sorted_ends'_ok links : ends_ok links (sorted_ends' links).
Proof.
  split.
  - unfold sorted_ends'. eapply Permutation_trans; [apply isort_perm|]. apply Permutation_sym, Permutation_rev.
  - unfold sorted_ends'. apply isort_sorted.
    + intros x y. apply pt_leb_total.
    + intros x y z. apply pt_leb_trans.
Qed.
Definition lay_one : Z -> Z -> nat -> option (Z -> nat) := fun _ _ _ => Some (fun _ => 0%nat).
Definition qry_all : list (nat * xseg) -> Z * Z -> Z -> list (nat * xseg) := fun l _ _ => l.
Example C55_contracts : layout_ok lay4 /\ layout_ok lay_one /\ query_ok qry /\ query_ok qry_all /\ (forall ls, ends_ok ls (sorted_ends ls)) /\ (forall ls, ends_ok ls (sorted_ends' ls)) /\
  clean_ok keep /\ (forall v, clean_shift v keep keep) /\ clean_ok clean_line /\ (forall v, clean_shift v clean_line clean_line).
Proof.
  split; [apply lay4_ok|]. split; [intros mn mx n index E x y _ _ _; injection E as <-; auto|]. split; [apply qry_ok|]. split.
  { intros l lo hi t. split; auto. }
  split; [apply sorted_ends_ok|]. split; [apply sorted_ends'_ok|]. split; [apply keep_ok|]. split; [intros v b c; reflexivity|]. split; [apply clean_line_ok|].
  intros v b [|a l]; [destruct b; reflexivity|]. destruct b; [|reflexivity].
  assert (D : forall n l a, (length l <= n)%nat -> drop_line (shift_pt v a) (map (shift_pt v) l) = map (shift_pt v) (drop_line a l)).
  { clear. induction n as [|n IH]; intros [|b [|d l]] a L; try reflexivity; simpl in L; try lia.
    change (drop_line (shift_pt v a) (map (shift_pt v) (b :: d :: l))) with
      (if cross3 (shift_pt v a) (shift_pt v b) (shift_pt v d) =? 0 then drop_line (shift_pt v a) (map (shift_pt v) (d :: l)) else shift_pt v b :: drop_line (shift_pt v b) (map (shift_pt v) (d :: l))).
    change (drop_line a (b :: d :: l)) with (if cross3 a b d =? 0 then drop_line a (d :: l) else b :: drop_line b (d :: l)).
    rewrite !IH by (simpl; lia). rewrite (mv_cross3 v : forall a b d, cross3 (shift_pt v a) (shift_pt v b) (shift_pt v d) = _). destruct (_ =? _); reflexivity. }
  cbn [clean_line map fst snd]. rewrite (D (length l)) by auto. rewrite !map_length. reflexivity.
Qed.
(** three triangles that share their right corner, a square to the right of it, and the rounding example of C47 *)
Definition fan_adds : input :=
  [([Pt (-10) 5; Pt (-10) 3; Pt 0 0], Subject); ([Pt (-10) 1; Pt (-11) (-1); Pt 0 0], Clip); ([Pt (-10) (-3); Pt (-9) (-8); Pt 0 0], Subject);
   ([Pt 0 0; Pt 4 (-4); Pt 9 1; Pt 5 4], Subject)] ++ shift_input (Pt 100 100) big_adds.
Definition far : pt := Pt 1000003 (-777).
Definition fan_run1 := overlay_custom lay4 qry (fun _ => true) sorted_ends clean_line 3 true fan_adds RUnion NonZero false true 0 (mk_solver StAuto).
Definition fan_run2 := overlay_custom lay_one qry_all (fun _ => true) sorted_ends' clean_line 3 true (shift_input far (rev fan_adds)) RUnion NonZero false true 0 (mk_solver StTree).
Example C55_example :
  bounded_input fan_adds /\ bounded_input (shift_input far (rev fan_adds)) /\ Permutation fan_adds (rev fan_adds) /\
  no_grid (mk_solver StAuto) (length (sort_merge (input_segments fan_adds))) /\ no_grid (mk_solver StTree) (length (sort_merge (input_segments fan_adds))) /\
  (exists ls, overlay_links lay4 qry (fun _ => true) 3 (mk_solver StAuto) RUnion NonZero (input_segments fan_adds) = ROk ls /\ sorted_ends ls <> sorted_ends' ls) /\
  fan_run1 <> RPanic /\ fan_run2 = map_run (shift_answer far) fan_run1 /\
  fan_run1 = ROk [[[Pt (-10) 1; Pt (-11) (-1); Pt 0 0]]; [[Pt 0 0; Pt (-10) (-3); Pt (-9) (-8)]]; [[Pt (-10) 5; Pt (-10) 3; Pt 0 0]];
    [[Pt 5 4; Pt 0 0; Pt 4 (-4); Pt 9 1]];
    [[Pt 113 1090; Pt 100 100; Pt 1100 137; Pt 1109 656; Pt 1600 711; Pt 1590 1707; Pt 433 1701; Pt 527 1095]]].
Proof.
  split; [repeat constructor|]. split; [repeat constructor|]. split; [apply Permutation_rev|]. split; [left; vm_compute; reflexivity|]. split; [right; vm_compute; reflexivity|].
  split; [eexists; split; [vm_compute; reflexivity|intro X; vm_compute in X; discriminate]|]. split; [intro X; vm_compute in X; discriminate|]. split; [vm_compute; reflexivity|].
  vm_compute. reflexivity.
Qed.

Print Assumptions C55_edges_move.
Print Assumptions C55_move.
Print Assumptions C55_move_area.
Print Assumptions C55_deterministic_area.
Print Assumptions C55_move_min_area.
Print Assumptions C55_deterministic.
Print Assumptions C55_list_auto.
