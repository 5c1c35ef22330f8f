(** * Property theorems, part 29: shapes when points are dropped (C40 with the default options). *)
From Verif Require Import Base Spec QLib ModelSegm SegmProofs MergeProofs PlanarGeo PlanarSum ModelFill ModelFilter FillProofs FillCorrect
  ModelCross CrossProofs CrossPoint CoreResults Properties01 ModelSplit SplitProofs SplitPlanar SplitPass BinsProofs SplitApply SplitLoop
  ModelFrag ModelOverlay OverlayProofs FragProofs GridCover Properties02
  ModelGraph GraphProofs ModelExtract ExtractProofs ContourResults Rotation NextLink Properties03
  MoveLemma SectorLemma Sides WalkSides Orient Properties04 ModelBind BindProofs BindSweep Thin Nest Properties05.
From Coq Require Import Permutation.
Open Scope Z_scope.

(** ** Specification *)
(** contract of [simplify_contour] of [i_shape], used when [simplify_contour] is on (the default): of a
    contour that nowhere turns back on itself only points lying strictly between their neighbours are
    dropped, and [false] is reported only if the contour is unchanged *)
Definition simplify_ok (clean : bool -> list pt -> list pt * bool) : Prop :=
  forall c, goes_on c -> thinned (fst (clean true c)) c /\ (snd (clean true c) = false -> fst (clean true c) = c).
(** two sides, of whatever contours, that are not the same segment meet only in common ends *)
Definition sides_meet_in_ends (cs : list (list pt)) : Prop := forall c c' e e', In c cs -> In c' cs -> In e (edges c) -> In e' (edges c') ->
  nrm e <> nrm e' -> forall q, on_seg (nrm e) q -> on_seg (nrm e') q -> is_end (nrm e) q /\ is_end (nrm e') q.

Lemma valid_pieces (clean : bool -> list pt -> list pt * bool) simplify min_area p : clean_ok clean -> p_contour p = fst (clean simplify (p_raw p)) ->
  p_valid p = is_valid min_area (p_contour p) -> min_area = 0 -> (exists q, contour_wind (p_raw p) q <> 0) -> p_valid p = true.
Proof.
  intros Ck Ec Ev -> (q & Nz). rewrite Ev. unfold is_valid. destruct (Nat.ltb_spec (length (p_contour p)) 3) as [L|L]; [|auto].
  exfalso. apply Nz. rewrite <- (Ck simplify (p_raw p) q), <- Ec. apply short_contour; auto.
Qed.

(** ** C40 *)
(** Default options: the contours are simplified.  Nothing goes wrong as long as the sides that are left,
    longer than the ones found, meet only in common ends.  (Clockwise: no hole passes twice through its
    second point.) *)
Theorem C40_shapes_simplified_partial segs fr r ends clean clockwise min_area : arrangement segs -> ends_ok (result_links fr r segs) ends ->
  clean_ok clean -> simplify_ok clean ->
  exists g ps, graph_new (result_links fr r segs) ends = Some g /\
    extract_pieces g clean r clockwise true min_area (repeat false (length (result_links fr r segs))) = Some ps /\
    ((min_area = 0 \/ (forall p, In p ps -> p_valid p = true)) -> sides_meet_in_ends (map p_contour ps) ->
     (clockwise = true -> forall p, In p ps -> p_hole p = true -> second_once (p_raw p)) ->
     forall dbg, exists shapes, extract_shapes dbg g clean r clockwise true min_area (repeat false (length (result_links fr r segs))) = Some shapes /\
       grouped (outer_contours ps) (hole_contours ps) shapes /\
       shapes_ok (sign_of clockwise) (fun q => bool_op r (inside fr (wind (subj_chain segs) q)) (inside fr (wind (clip_chain segs) q))) shapes).
Proof.
  intros A E Ck Si. destruct (blinks_graph segs A fr _ ends E) as (g & pts & H & G). fold (result_links fr r segs) in *.
  set (inc := fun l => is_included r (l_fill l)).
  assert (Al : forall l, In l (result_links fr r segs) -> inc l = true).
  { intros l I. apply blinks_in in I as (s & f & _ & If & ->). exact If. }
  assert (Fi : filter inc (result_links fr r segs) = result_links fr r segs).
  { revert Al. generalize (result_links fr r segs). induction l as [|x l IH]; intro Al; auto. simpl. rewrite (Al x) by (simpl; auto). f_equal. apply IH. intros; apply Al; simpl; auto. }
  assert (Ff : flags inc (result_links fr r segs) = repeat false (length (result_links fr r segs))).
  { rewrite <- flags_all. unfold flags. apply map_ext_in. intros l I. rewrite (Al l I). auto. }
  destruct (pieces_spec (result_links fr r segs) g pts inc clean r clockwise true min_area G (blinks_wf segs A fr _)) as (ps & P1 & P2 & _).
  { intro v. rewrite Fi. apply result_even; auto. }
  rewrite <- Ff. exists g, ps. split; auto. split; auto. intros V Pl On dbg.
  destruct (glue_any segs A fr r (is_included r) g pts G Fi clean clockwise true min_area ps P1) with (dbg := dbg) as (shapes & Hs & Gr & Ok).
  - intros p I Nz. destruct V as [M|V]; [|auto]. rewrite Forall_forall in P2. destruct (P2 p I) as (_ & Ec & Ev). eapply valid_pieces; eauto.
  - right. split; auto. right. intros p p' e e' I I'. apply Pl; apply in_map; auto.
  - left. exact On.
  - exists shapes. split; auto. split; auto. apply shapes_covers; auto. destruct clockwise; discriminate.
Qed.

(** If no two contours of the result touch, and none touches itself, there is no condition on the options:
    simplified or not, either direction. *)
Theorem C40_shapes_apart_partial segs fr r ends clean clockwise simplify dbg : arrangement segs -> ends_ok (result_links fr r segs) ends ->
  clean_ok clean -> simplify_ok clean -> dedup_ok clean -> apart (result_links fr r segs) ->
  exists g shapes, graph_new (result_links fr r segs) ends = Some g /\
    extract_shapes dbg g clean r clockwise simplify 0 (repeat false (length (result_links fr r segs))) = Some shapes /\
    shapes_ok (sign_of clockwise) (fun q => bool_op r (inside fr (wind (subj_chain segs) q)) (inside fr (wind (clip_chain segs) q))) shapes.
Proof.
  intros A E Ck Si De Ap. destruct (blinks_graph segs A fr _ ends E) as (g & pts & H & G). fold (result_links fr r segs) in *.
  set (inc := fun l => is_included r (l_fill l)).
  assert (Al : forall l, In l (result_links fr r segs) -> inc l = true).
  { intros l I. apply blinks_in in I as (s & f & _ & If & ->). exact If. }
  assert (Fi : filter inc (result_links fr r segs) = result_links fr r segs).
  { revert Al. generalize (result_links fr r segs). induction l as [|x l IH]; intro Al; auto. simpl. rewrite (Al x) by (simpl; auto). f_equal. apply IH. intros; apply Al; simpl; auto. }
  assert (Ff : flags inc (result_links fr r segs) = repeat false (length (result_links fr r segs))).
  { rewrite <- flags_all. unfold flags. apply map_ext_in. intros l I. rewrite (Al l I). auto. }
  destruct (pieces_spec (result_links fr r segs) g pts inc clean r clockwise simplify 0 G (blinks_wf segs A fr _)) as (ps & P1 & P2 & _).
  { intro v. rewrite Fi. apply result_even; auto. }
  destruct (C18_extraction segs fr r ends clean clockwise simplify 0 A E) as (g' & ps' & Hg' & Hp' & W & _). rewrite H in Hg'. injection Hg' as <-.
  rewrite <- Ff in *. rewrite P1 in Hp'. injection Hp' as <-.
  destruct (glue_any segs A fr r (is_included r) g pts G Fi clean clockwise simplify 0 ps P1) with (dbg := dbg) as (shapes & Hs & Gr & Ok).
  - intros p I Nz. rewrite Forall_forall in P2. destruct (P2 p I) as (_ & Ec & Ev). eapply valid_pieces; eauto.
  - destruct simplify.
    + right. split; auto.
    + left. intros p I. apply De. eapply walk_distinct; [|apply W; auto]. apply blinks_wf; auto.
  - right. exact Ap.
  - exists g, shapes. split; auto. split; auto. apply shapes_covers; auto. destruct clockwise; discriminate.
Qed.
(** the same for an [OverlayGraph] kept by the caller and asked for any rule *)
Theorem C40_shapes_apart_graph_partial segs fr r ends clean clockwise simplify dbg : arrangement segs ->
  let links := kept is_included_filler fr segs in
  ends_ok links ends -> clean_ok clean -> simplify_ok clean -> dedup_ok clean -> apart (result_links fr r segs) ->
  exists g shapes, graph_new links ends = Some g /\
    extract_shapes dbg g clean r clockwise simplify 0 (filter_by_rule r links) = Some shapes /\
    shapes_ok (sign_of clockwise) (fun q => bool_op r (inside fr (wind (subj_chain segs) q)) (inside fr (wind (clip_chain segs) q))) shapes.
Proof.
  intros A links E Ck Si De Ap. destruct (blinks_graph segs A fr _ ends E) as (g & pts & H & G). fold links in G, H.
  set (inc := fun l => is_included r (l_fill l)).
  assert (Fi : filter inc links = result_links fr r segs) by (apply graph_reuse; auto).
  destruct (pieces_spec links g pts inc clean r clockwise simplify 0 G (blinks_wf segs A fr _)) as (ps & P1 & P2 & Sp).
  { intro v. rewrite Fi. apply result_even; auto. }
  destruct (glue_any segs A fr r is_included_filler g pts G Fi clean clockwise simplify 0 ps P1) with (dbg := dbg) as (shapes & Hs & Gr & Ok).
  - intros p I Nz. rewrite Forall_forall in P2. destruct (P2 p I) as (_ & Ec & Ev). eapply valid_pieces; eauto.
  - destruct simplify.
    + right. split; auto.
    + left. intros p I. apply De. rewrite Forall_forall in P2. eapply walk_distinct; [|apply (P2 p I)]. apply blinks_wf; auto.
  - right. exact Ap.
  - exists g, shapes. split; auto. split; [exact Hs|]. apply shapes_covers; auto. destruct clockwise; discriminate.
Qed.

(** ** the whole run *)
Section WithContracts.
  Variable layout_new : Z -> Z -> nat -> option (Z -> nat).
  Hypothesis Lay : layout_ok layout_new.
  Variable query : list (nat * xseg) -> Z * Z -> Z -> list (nat * xseg).
  Hypothesis Qry : query_ok query.
  Variable tree_new : Z * Z -> bool.
  Notation split_input fuel solver adds := (split_segments layout_new query tree_new fuel solver (input_segments adds)).
  Notation merged adds := (sort_merge (input_segments adds)).

  (** No crossing needs rounding, and the contours of the result do not touch: the shapes returned make up
      exactly the region asked for, whatever the direction and whether or not contours are simplified. *)
  Theorem C40_overlay_apart_partial fuel solver adds r fr clean clockwise simplify dbg : bounded_input adds -> no_grid solver (length (merged adds)) ->
    Forall (fun a => open_contour (fst a)) adds -> merged adds <> [] -> exact_crossings (map sx (merged adds)) -> clean_ok clean -> simplify_ok clean -> dedup_ok clean ->
    exists ls, overlay_links layout_new query tree_new (S fuel) solver r fr (input_segments adds) = ROk ls /\
      forall ends, ends_ok ls ends -> apart ls -> exists g shapes, graph_new ls ends = Some g /\
        extract_shapes dbg g clean r clockwise simplify 0 (repeat false (length ls)) = Some shapes /\
        shapes_ok (sign_of clockwise) (fun q => bool_op r (inside fr (contours_wind (operand Subject adds) q)) (inside fr (contours_wind (operand Clip adds) q))) shapes.
  Proof.
    intros B N O NE Ex Ck Si De. destruct (merged_balanced adds) as [BS BC].
    destruct (split_exact layout_new Lay query Qry tree_new (input_segments adds) (input_inv adds B) BS BC solver fuel N Ex (or_introl NE)) as (out & H & W1 & W2).
    assert (WS : forall q, wind (subj_chain out) q = contours_wind (operand Subject adds) q).
    { intro q. rewrite W1. unfold subj_chain at 1. rewrite sort_merge_wind by (reflexivity || (intros [? ?]; simpl; lia)). apply input_wind_subj; auto. }
    assert (WC : forall q, wind (clip_chain out) q = contours_wind (operand Clip adds) q).
    { intro q. rewrite W2. unfold clip_chain at 1. rewrite sort_merge_wind by (reflexivity || (intros [? ?]; simpl; lia)). apply input_wind_clip; auto. }
    destruct (C20_region_exact layout_new Lay query Qry tree_new fuel solver adds r fr B N O NE Ex) as (ls & Hl & _).
    exists ls. split; auto. intros ends E Ap.
    destruct (overlay_arrangement layout_new Lay query Qry tree_new _ _ _ _ _ _ B N Hl) as (segs & Hs & A & ->).
    assert (S : segs = out) by (rewrite Hs in H; [injection H; auto|intro X; apply NE; rewrite X; reflexivity]). subst segs.
    destruct (C40_shapes_apart_partial out fr r ends clean clockwise simplify dbg A E Ck Si De Ap) as (g & shapes & Hg & Hx & F & D & C).
    exists g, shapes. split; auto. split; auto. split; auto. split; auto. intro q. rewrite C, WS, WC. tauto.
  Qed.
  (** with rounding: the same relative to the contours after splitting *)
  Theorem C40_overlay_apart_split_partial fuel solver adds r fr clean clockwise simplify dbg ls ends : bounded_input adds -> no_grid solver (length (merged adds)) ->
    clean_ok clean -> simplify_ok clean -> dedup_ok clean -> overlay_links layout_new query tree_new fuel solver r fr (input_segments adds) = ROk ls -> ends_ok ls ends -> apart ls ->
    exists segs g shapes, (input_segments adds <> [] -> split_input fuel solver adds = Done segs) /\ graph_new ls ends = Some g /\
      extract_shapes dbg g clean r clockwise simplify 0 (repeat false (length ls)) = Some shapes /\
      shapes_ok (sign_of clockwise) (fun q => bool_op r (inside fr (wind (subj_chain segs) q)) (inside fr (wind (clip_chain segs) q))) shapes.
  Proof.
    intros B N Ck Si De Hl E Ap. destruct (overlay_arrangement layout_new Lay query Qry tree_new _ _ _ _ _ _ B N Hl) as (segs & Hs & A & ->).
    destruct (C40_shapes_apart_partial segs fr r ends clean clockwise simplify dbg A E Ck Si De Ap) as (g & shapes & Hg & Hx & Ok).
    exists segs, g, shapes. auto.
  Qed.
End WithContracts.

(** ** The contracts can be met *)
Lemma drop_line_thins c' : forall n l a pre, (length l <= n)%nat -> fwd (a :: l) -> thinned c' (pre ++ a :: drop_line a l) -> thinned c' (pre ++ a :: l).
Proof.
  induction n as [|n IH]; intros [|b [|d l]] a pre L F T; auto; [simpl in L; lia|].
  assert (U : drop_line a (b :: d :: l) = if cross3 a b d =? 0 then drop_line a (d :: l) else b :: drop_line b (d :: l)) by reflexivity.
  rewrite U in T. clear U. change ((cross3 a b d = 0 -> strictly_between a d b) /\ fwd (b :: d :: l)) in F. destruct F as [F1 F2]. simpl in L.
  destruct (Z.eqb_spec (cross3 a b d) 0) as [E|E].
  - apply thinned_ins; [|apply F1; auto]. apply (IH (d :: l) a pre); [simpl; lia| |auto].
    destruct l as [|e l]; [exact I|]. change ((cross3 a d e = 0 -> strictly_between a e d) /\ fwd (d :: e :: l)).
    change ((cross3 b d e = 0 -> strictly_between b e d) /\ fwd (d :: e :: l)) in F2. destruct F2 as [F2 F3]. split; auto. apply (between_on a b d e); auto.
  - change (thinned c' (pre ++ [a] ++ b :: drop_line b (d :: l))) in T. rewrite app_assoc in T. change (thinned c' (pre ++ [a] ++ b :: d :: l)). rewrite app_assoc.
    apply (IH (d :: l) b (pre ++ [a])); auto. simpl; lia.
Qed.
Lemma drop_line_length : forall n l a, (length l <= n)%nat -> (length (drop_line a l) <= length l)%nat /\ (length (drop_line a l) = length l -> drop_line a l = l).
Proof.
  induction n as [|n IH]; intros [|b [|d l]] a L; auto; [simpl in L; lia|].
  assert (U : drop_line a (b :: d :: l) = if cross3 a b d =? 0 then drop_line a (d :: l) else b :: drop_line b (d :: l)) by reflexivity.
  rewrite U. clear U. simpl in L. destruct (cross3 a b d =? 0).
  - destruct (IH (d :: l) a) as [H _]; [simpl; lia|]. cbn [length] in *. split; lia.
  - destruct (IH (d :: l) b) as [H K]; [simpl; lia|]. cbn [length] in *. split; [lia|]. intro Q. f_equal. apply K. lia.
Qed.
Example clean_line_simplify : simplify_ok clean_line.
Proof.
  intros [|a l] G; [split; [apply T_same|auto]|]. cbn [clean_line fst snd]. split.
  - apply (drop_line_thins _ (length l) l a []); auto; [|apply T_same].
    destruct l as [|b l]; [exact I|]. apply (fwd_app_l _ [a; b]). exact G.
  - intro Q. apply negb_false_iff, Nat.eqb_eq in Q. f_equal. apply (drop_line_length (length l) l a); auto.
Qed.
Example clean_line_dedup : dedup_ok clean_line.
Proof. intros [|a l] _; reflexivity. Qed.

(** ** Examples *)
(** a check for [apart]: no point is an end of three links of the list *)
Definition touches (v : pt) (l : link) : bool := pt_eqb v (l_a l) || pt_eqb v (l_b l).
Definition apartb (ls : list link) : bool := forallb (fun v => (length (filter (touches v) ls) <=? 2)%nat) (flat_map (fun l => [l_a l; l_b l]) ls).
Lemma apartb_ok ls : apartb ls = true -> apart ls.
Proof.
  intros H v l l' l'' I I' I'' T T' T''. unfold apartb in H. rewrite forallb_forall in H.
  assert (Iv : In v (flat_map (fun l => [l_a l; l_b l]) ls)) by (apply in_flat_map; exists l; split; auto; destruct T as [-> | ->]; simpl; auto).
  specialize (H v Iv). apply Nat.leb_le in H.
  assert (K : forall x, In x ls -> v = l_a x \/ v = l_b x -> In x (filter (touches v) ls)).
  { intros x Ix Tx. apply filter_In. split; auto. unfold touches. apply orb_true_iff. destruct Tx as [Tx|Tx]; [left|right]; apply pt_eqb_eq; auto. }
  apply K in I; auto. apply K in I'; auto. apply K in I''; auto. revert H I I' I''. generalize (filter (touches v) ls) as m. clear.
  intros [|x [|y [|z m]]] L I I' I''; simpl in *; try lia; intuition congruence.
Qed.
(** squares side by side, with a hole across the common side and an island in it: union and hole lose
    the points where the sides met *)
Definition side_adds : input :=
  [(sq 0 0 20, Subject); (sq 20 0 20, Clip); ([Pt 10 5; Pt 10 15; Pt 20 15; Pt 20 5], Subject); ([Pt 20 5; Pt 20 15; Pt 30 15; Pt 30 5], Clip);
   ([Pt 12 8; Pt 16 8; Pt 16 12; Pt 12 12], Subject); ([Pt 16 8; Pt 18 8; Pt 18 12; Pt 16 12], Clip)].
Definition links_of (r : OverlayRule) (fr : FillRule) (adds : input) : option (list link) :=
  match overlay_links lay4 qry (fun _ => true) 5 (mk_solver StAuto) r fr (input_segments adds) with ROk ls => Some ls | _ => None end.
Example C40_apart_example :
  bounded_input side_adds /\ Forall (fun a => open_contour (fst a)) side_adds /\ exact_crossings (map sx (sort_merge (input_segments side_adds))) /\
  (exists ls, links_of RUnion EvenOdd side_adds = Some ls /\ apart ls /\ length ls = 18%nat) /\
  run_simplified RUnion EvenOdd false 0 side_adds = Some [[[Pt 0 20; Pt 0 0; Pt 40 0; Pt 40 20; Pt 20 20]; [Pt 10 5; Pt 10 15; Pt 30 15; Pt 30 5; Pt 20 5]]; [[Pt 12 12; Pt 12 8; Pt 18 8; Pt 18 12; Pt 16 12]]] /\
  exists o h isl, run_simplified RUnion EvenOdd true 0 side_adds = Some [[o; h]; [isl]] /\ length o = 5%nat /\ length h = 5%nat.
Proof.
  split; [repeat constructor|]. split; [repeat constructor; discriminate|]. split; [apply exactb_ok; vm_compute; reflexivity|]. split.
  - eexists. split; [vm_compute; reflexivity|]. split; [apply apartb_ok; vm_compute; reflexivity|reflexivity].
  - split; [vm_compute; reflexivity|]. do 3 eexists. split; [vm_compute; reflexivity|]. split; reflexivity.
Qed.
(** where the claim fails ([C40_simplify_refuted]) the contours do touch *)
Lemma not_apart ls v l l' l'' m : filter (touches v) ls = l :: l' :: l'' :: m -> l_seg l <> l_seg l' -> l_seg l' <> l_seg l'' -> l_seg l <> l_seg l'' -> ~ apart ls.
Proof.
  intros E N1 N2 N3 H. assert (K : forall x, In x (l :: l' :: l'' :: m) -> In x ls /\ (v = l_a x \/ v = l_b x)).
  { intros x I. rewrite <- E in I. apply filter_In in I as [I T]. split; auto. unfold touches in T. apply orb_true_iff in T. destruct T as [T|T]; apply pt_eqb_eq in T; auto. }
  destruct (K l) as [I T]; [simpl; auto|]. destruct (K l') as [I' T']; [simpl; auto|]. destruct (K l'') as [I'' T'']; [simpl; auto|].
  destruct (H v l l' l'' I I' I'' T T' T'') as [X|[X|X]]; congruence.
Qed.
Example touch_not_apart : exists ls, links_of RSubject EvenOdd touch_adds = Some ls /\ ~ apart ls.
Proof.
  eexists. split; [vm_compute; reflexivity|]. eapply (not_apart _ (Pt 7 10)); [vm_compute; reflexivity| | |]; vm_compute; discriminate.
Qed.
Print Assumptions C40_overlay_apart_partial.
