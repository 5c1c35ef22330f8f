(** * Property theorems, part 27: one graph, many answers (C24 for whole answers). *)
From Verif Require Import Base Spec QLib ModelSegm SegmProofs MergeProofs PlanarGeo PlanarSum ModelFill ModelFilter FillProofs FillCorrect
  ModelCross CrossProofs CrossPoint MarksProofs CoreResults Properties01 ModelSplit SplitProofs SplitPlanar SplitPass BinsProofs SplitApply SplitLoop
  ModelFrag ModelOverlay OverlayProofs FragProofs GridCover Properties02
  ModelGraph GraphProofs ModelExtract ExtractProofs ContourResults Rotation NextLink Properties03
  MoveLemma SectorLemma Sides WalkSides Orient Properties04 ModelBind BindProofs BindSweep Nest Properties05 SplitNear InputCover Properties15 ModelFloat OverlayNear
  Shift ShiftShapes Order Properties25 Relabel Drawn Properties26 Reuse Fewer Apart.
From Coq Require Import Permutation.
Open Scope Z_scope.

(** a graph of all links some rule needs, and a graph of the links one rule needs *)
Lemma reuse_shapes segs fr r inc0 ends ends' dbg clean clockwise simplify min_area : arrangement segs -> clean_ok clean -> area_ok min_area (result_links fr r segs) ->
  let links := kept inc0 fr segs in let inc := fun l => is_included r (l_fill l) in
  filter inc links = result_links fr r segs -> ends_ok links ends -> ends_ok (result_links fr r segs) ends' ->
  exists g g', graph_new links ends = Some g /\ graph_new (result_links fr r segs) ends' = Some g' /\
    extract_shapes dbg g clean r clockwise simplify min_area (flags inc links) =
    extract_shapes dbg g' clean r clockwise simplify min_area (repeat false (length (result_links fr r segs))).
Proof.
  intros A Cl Ar links inc Fi O O'. set (links' := result_links fr r segs) in *.
  pose proof (blinks_wf segs A fr inc0) as W. pose proof (blinks_sorted segs A fr inc0) as Sl. pose proof (blinks_wf segs A fr (is_included r)) as W'. pose proof (blinks_sorted segs A fr (is_included r)) as Sl'.
  destruct (graph_shape links Sl W ends O) as (g & pts & H & G & Nd). destruct (graph_shape links' Sl' W' ends' O') as (g' & pts' & H' & G' & Nd').
  exists g, g'. split; auto. split; auto.
  assert (Fi' : filter inc links' = links').
  { rewrite <- Fi. clear. induction links as [|x l IH]; auto. cbn [filter]. destruct (inc x) eqn:I; auto. cbn [filter]. rewrite I, IH. auto. }
  assert (Ff : repeat false (length links') = flags inc links').
  { rewrite <- flags_all. unfold flags. apply map_ext_in. intros l I. rewrite <- Fi in I. apply filter_In in I as [_ I]. rewrite I. auto. }
  assert (Ev : forall v, Nat.Even (degree (filter inc links) v)) by (intro v; rewrite Fi; apply result_even; auto).
  assert (Ev' : forall v, Nat.Even (degree (filter inc links') v)) by (intro v; rewrite Fi'; apply result_even; auto).
  destruct (pieces_spec links' g' pts' inc clean r clockwise simplify 0 G' W' Ev') as (ps & P1 & P2 & _).
  assert (Fp : Forall (fun p => p_contour p = fst (clean simplify (p_raw p)) /\ p_valid p = is_valid 0 (p_contour p)) ps).
  { eapply Forall_impl; [|exact P2]. cbv beta. tauto. }
  pose proof (glue_oriented segs A fr r (is_included r) g' pts' G' Fi' clean clockwise simplify 0 ps P1 (pv clean simplify 0 ps Cl Fp (or_introl eq_refl))) as Or.
  assert (V : forall p, In p ps -> p_valid p = true) by (intros p I; eapply (pt_turns clean clockwise simplify 0 ps Cl Fp (or_introl eq_refl) _ Or); auto).
  rewrite Ff.
  assert (Rr : R links inc (flags inc links) (flags inc links')).
  { constructor.
    - unfold flags. apply map_length.
    - unfold flags. rewrite map_length, Fi. auto.
    - intros k i E. destruct (em_get _ _ _ _ E) as (l & Hl' & Hl & I). rewrite Fi in Hl'.
      pose proof (flags_visited inc links i l Hl) as X. pose proof (flags_visited inc links' k l Hl') as X'. unfold not_visited in *. rewrite <- X' in X.
      destruct (is_visited (flags inc links) i), (is_visited (flags inc links') k); auto.
    - intros i l Hl I. pose proof (flags_visited inc links i l Hl) as X. unfold not_visited in X. rewrite I in X. apply negb_false_iff in X. auto. }
  assert (Ev1 : all_even g (flags inc links)) by (apply (flags_even _ _ _ _ G); auto).
  assert (Ev1' : all_even g' (flags inc links')) by (apply (flags_even _ _ _ _ G'); auto).
  assert (X : exists ps2, extract_pieces g clean r clockwise simplify 0 (flags inc links) = Some ps2 /\ map bare ps2 = map bare ps).
  { unfold extract_pieces in *.
    destruct (extract_sub links inc W Sl ends ends' O ltac:(rewrite Fi; exact O') g g' pts pts' G ltac:(rewrite Fi; exact G') Nd ltac:(rewrite Fi; exact Nd')
      (graph_planar _ _ _ _ _ A G) (graph_planar _ _ _ _ _ A G') clean r clockwise simplify 0 (S (2 * length (flags inc links))) 0 0 (flags inc links) (flags inc links')
      (S (2 * length (flags inc links'))) ps) as (ps2 & E2 & Eb); auto.
    - apply pos_0.
    - pose proof (ucount_le (flags inc links)). lia.
    - pose proof (ucount_le (flags inc links')). lia.
    - intros j L. lia.
    - eauto. }
  destruct X as (ps2 & P2' & Eb).
  assert (Vp : forall p, In p ps -> p_valid p = is_valid 0 (p_contour p)) by (intros p I; rewrite Forall_forall in Fp; apply (Fp p I)).
  apply (same_area g g' pts pts') with (ps := ps2) (ps' := ps); eauto using graph_of_wf.
  - unfold flags. rewrite map_length. symmetry. apply (go_len _ _ _ G).
  - unfold flags. rewrite map_length. symmetry. apply (go_len _ _ _ G').
  - intro N. destruct Ar as [->|Ap]; [congruence|]. apply apart_two with (pts := pts); auto; [apply blinks_nodup; auto|rewrite Fi; auto].
  - intro N. destruct Ar as [->|Ap]; [congruence|]. apply apart_two with (pts := pts'); auto; [apply blinks_nodup; auto|rewrite Fi'; auto].
  - clear - Eb. revert ps Eb. induction ps2 as [|p ps2 IH]; intros [|p' ps] E; try discriminate; auto. cbn [map] in *. injection E as E1 E2 E3 E4 E5 E.
    rewrite (IH ps E). congruence.
  - assert (Bv : forall p, p_valid (bare p) = p_valid p /\ p_contour (bare p) = p_contour p) by (intros []; auto).
    intros p I. apply (in_map bare) in I. rewrite Eb in I. apply in_map_iff in I as (p' & E & I). destruct (Bv p) as [<- <-]. rewrite <- E. destruct (Bv p') as [-> ->]. auto.
Qed.

Section Graph.
  Variable layout_new : Z -> Z -> nat -> option (Z -> nat).
  Hypothesis Lay : layout_ok layout_new.
  Variable query : list (nat * xseg) -> Z * Z -> Z -> list (nat * xseg).
  Hypothesis Qry : query_ok query.
  Variable tree_new : Z * Z -> bool.
  Variables sort_ends sort_ends' : list link -> list (nat * pt).
  Hypothesis Sort : forall ls, ends_ok ls (sort_ends ls).
  Hypothesis Sort' : forall ls, ends_ok ls (sort_ends' ls).
  Variable clean : bool -> list pt -> list pt * bool.
  Hypothesis Clean : clean_ok clean.
  Variables (fuel : nat) (dbg : bool).
  Notation merged adds := (sort_merge (input_segments adds)).

  (** The graph built once gives, for every rule and all options, exactly the answer of the overlay call with this rule: the same shapes with the same contours
      from the same starting points in the same order.  The two calls may sort equal ends differently. *)
  Theorem C24_shapes_area adds solver fr ls : bounded_input adds -> no_grid solver (length (merged adds)) ->
    graph_links layout_new query tree_new fuel solver fr (input_segments adds) = ROk ls ->
    exists g, graph_new ls (sort_ends ls) = Some g /\ forall r clockwise simplify min_area,
      (forall ls, overlay_links layout_new query tree_new fuel solver r fr (input_segments adds) = ROk ls -> area_ok min_area ls) ->
      fopt (extract_shapes dbg g clean r clockwise simplify min_area (filter_by_rule r ls)) =
      overlay_custom layout_new query tree_new sort_ends' clean fuel dbg adds r fr clockwise simplify min_area solver.
  Proof.
    intros B N H.
    assert (X : exists segs, arrangement segs /\ ls = kept is_included_filler fr segs /\ forall r, overlay_links layout_new query tree_new fuel solver r fr (input_segments adds) = ROk (result_links fr r segs)).
    { unfold overlay_links, graph_links, build_boolean in *.
      assert (A0 : arrangement []).
      { constructor; try (intros ? []; fail); try (intro v; reflexivity); [constructor|intros ? ? []|constructor]. }
      destruct (input_segments adds) as [|s0 l0] eqn:E0; [injection H as <-; exists []; auto|]. rewrite <- E0 in *.
      destruct (split_segments layout_new query tree_new fuel solver (input_segments adds)) as [segs| |] eqn:ES; try discriminate.
      destruct (C14_planar_partial layout_new Lay query Qry tree_new _ _ _ _ B N ES) as [_ A].
      exists segs. split; auto. destruct segs as [|s1 l1]; injection H as <-; auto. }
    destruct X as (segs & A & -> & El).
    destruct (graph_shape _ (blinks_sorted segs A fr is_included_filler) (blinks_wf segs A fr is_included_filler) _ (Sort (kept is_included_filler fr segs))) as (g & pts & Hg & _).
    exists g. split; auto. intros r clockwise simplify min_area Ar. unfold overlay_custom. rewrite El. cbn [fbind].
    destruct (reuse_shapes segs fr r is_included_filler (sort_ends (kept is_included_filler fr segs)) (sort_ends' (result_links fr r segs)) dbg clean clockwise simplify min_area A Clean (Ar _ (El r))) as (g1 & g2 & H1 & H2 & E); auto.
    { apply (graph_reuse segs A fr r). }
    rewrite Hg in H1. injection H1 as <-. rewrite H2. cbn [fopt fbind]. unfold filter_by_rule. unfold flags in E. rewrite E. reflexivity.
  Qed.
  (** in particular without a minimal area *)
  Theorem C24_shapes adds solver fr ls : bounded_input adds -> no_grid solver (length (merged adds)) ->
    graph_links layout_new query tree_new fuel solver fr (input_segments adds) = ROk ls ->
    exists g, graph_new ls (sort_ends ls) = Some g /\ forall r clockwise simplify,
      fopt (extract_shapes dbg g clean r clockwise simplify 0 (filter_by_rule r ls)) =
      overlay_custom layout_new query tree_new sort_ends' clean fuel dbg adds r fr clockwise simplify 0 solver.
  Proof.
    intros B N H. destruct (C24_shapes_area adds solver fr ls B N H) as (g & Hg & X). exists g. split; auto. intros r clockwise simplify. apply X. left. reflexivity.
  Qed.

  (** the same for floating point coordinates; filters with a min_area that is zero on the grid *)
  Variable float_clean : adapter -> list (list (list qpt)) -> list (list (list qpt)).
  Theorem C24_float_shapes o fr solver g : bounded_input (fo_input o) -> no_grid solver (length (merged (fo_input o))) ->
    into_graph layout_new query tree_new sort_ends fuel o fr solver = ROk g ->
    forall r clockwise f, sqr_float_to_int (fo_adapter o) (f_min_area f) = 0 ->
      graph_shapes clean float_clean dbg g r clockwise f =
      float_overlay_custom layout_new query tree_new sort_ends' clean float_clean fuel dbg o r fr clockwise f solver.
  Proof.
    intros B N H r clockwise f E0. unfold into_graph in H.
    destruct (graph_links layout_new query tree_new fuel solver fr (input_segments (fo_input o))) as [ls| |] eqn:El; try discriminate. cbn [fbind] in H.
    destruct (C24_shapes (fo_input o) solver fr ls B N El) as (g0 & Hg & S). rewrite Hg in H. cbn [fopt fbind] in H. injection H as <-.
    unfold graph_shapes, float_overlay_custom. cbn [fg_adapter fg_graph fg_links]. rewrite E0, (S r clockwise (f_simplify f)). reflexivity.
  Qed.
End Graph.

(** ** Example: one graph, six rules *)
Example C24_shapes_example :
  bounded_input fan_adds /\ no_grid (mk_solver StAuto) (length (sort_merge (input_segments fan_adds))) /\
  exists ls g, graph_links lay4 qry (fun _ => true) 3 (mk_solver StAuto) EvenOdd (input_segments fan_adds) = ROk ls /\ graph_new ls (sorted_ends ls) = Some g /\
    (forall r, In r [RUnion; RIntersect; RDifference; RXor; RSubject; RClip] ->
       fopt (extract_shapes true g clean_line r false true 0 (filter_by_rule r ls)) =
       overlay_custom lay4 qry (fun _ => true) sorted_ends' clean_line 3 true fan_adds r EvenOdd false true 0 (mk_solver StAuto)) /\
    (length (filter (fun l => is_included RIntersect (l_fill l)) ls) < length ls)%nat /\
    extract_shapes true g clean_line RIntersect false true 0 (filter_by_rule RIntersect ls) <> extract_shapes true g clean_line RUnion false true 0 (filter_by_rule RUnion ls).
Proof.
  split; [repeat constructor|]. split; [left; vm_compute; reflexivity|]. eexists _, _. split; [vm_compute; reflexivity|]. split; [vm_compute; reflexivity|]. split.
  - intros r I. repeat (destruct I as [<-|I]; [vm_compute; reflexivity|]). destruct I.
  - split; [vm_compute; lia|]. intro X. vm_compute in X. discriminate X.
Qed.

Print Assumptions C24_shapes.
Print Assumptions C24_shapes_area.
Print Assumptions C24_float_shapes.
