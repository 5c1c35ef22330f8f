(** * Property theorems, part 30: a minimal area when contours do not touch (C23). *)
From Verif Require Import Base Spec QLib ModelSegm SegmProofs MergeProofs PlanarGeo PlanarSum ModelFill ModelFilter FillProofs FillCorrect
  ModelCross CrossProofs CrossPoint CoreResults Properties01 ModelSplit SplitProofs SplitPlanar SplitPass BinsProofs SplitApply SplitLoop
  ModelFrag ModelOverlay OverlayProofs FragProofs GridCover Properties02
  ModelGraph GraphProofs ModelExtract ExtractProofs ContourResults Rotation NextLink Properties03
  MoveLemma SectorLemma Sides WalkSides Orient Properties04 ModelBind BindProofs BindSweep Thin Nest Properties05 Properties29 AreaMono Fewer Apart.
From Coq Require Import Permutation.
Open Scope Z_scope.

(** ** Specification *)
(** the contours of at least the area asked for *)
Definition big (min_area : Z) (c : list pt) : bool := min_area <=? Z.abs (area2 c) / 2.

Lemma big_valid m c : is_valid m c = negb (length c <? 3)%nat && (if m =? 0 then true else big m c).
Proof. unfold is_valid, big. rewrite Z.shiftr_div_pow2 by lia. destruct (_ <? _)%nat; auto. Qed.
Lemma raised m m' ps : 0 <= m <= m' -> (forall p, In p ps -> p_valid p = is_valid m (p_contour p)) ->
  outer_contours (map (revalidate m') ps) = filter (big m') (outer_contours ps) /\
  hole_contours (map (revalidate m') ps) = filter (big m') (hole_contours ps).
Proof.
  intros M V.
  assert (K : forall f : bool -> bool, map p_contour (filter (fun p => p_valid p && f (p_hole p)) (map (revalidate m') ps)) =
    filter (big m') (map p_contour (filter (fun p => p_valid p && f (p_hole p)) ps))).
  { intro f. induction ps as [|p ps IH]; auto. cbn [map filter]. rewrite (V p (or_introl eq_refl)).
    change (p_hole (revalidate m' p)) with (p_hole p). change (p_valid (revalidate m' p)) with (is_valid m' (p_contour p)).
    specialize (IH (fun q I => V q (or_intror I))).
    assert (E : is_valid m' (p_contour p) = is_valid m (p_contour p) && big m' (p_contour p)).
    { rewrite !big_valid. destruct (length (p_contour p) <? 3)%nat; auto. cbn [negb andb]. pose proof (Z.div_pos (Z.abs (area2 (p_contour p))) 2).
      unfold big. destruct (Z.eqb_spec m' 0), (Z.eqb_spec m 0); cbn [andb]; destruct (Z.leb_spec m (Z.abs (area2 (p_contour p)) / 2)), (Z.leb_spec m' (Z.abs (area2 (p_contour p)) / 2)); auto; lia. }
    rewrite E. destruct (is_valid m (p_contour p)), (f (p_hole p)); cbn [andb]; rewrite ?andb_true_r, ?andb_false_r; auto.
    cbn [map filter]. change (p_contour (revalidate m' p)) with (p_contour p). destruct (big m' (p_contour p)); cbn [map]; rewrite ?IH; auto. }
  unfold outer_contours, hole_contours. split; [apply (K negb)|apply (K (fun b => b))].
Qed.

(** ** C23 *)
Lemma raised_spec segs fr r inc0 links g pts clean clockwise simplify : arrangement segs -> links = kept inc0 fr segs -> graph_of links g pts ->
  filter (fun l => is_included r (l_fill l)) links = result_links fr r segs -> apart (result_links fr r segs) ->
  forall m m', 0 <= m <= m' -> exists ps ps',
    extract_pieces g clean r clockwise simplify m (filter_by_rule r links) = Some ps /\
    extract_pieces g clean r clockwise simplify m' (filter_by_rule r links) = Some ps' /\
    outer_contours ps' = filter (big m') (outer_contours ps) /\ hole_contours ps' = filter (big m') (hole_contours ps).
Proof.
  intros A El G Fi Ap m m' M. change (filter_by_rule r links) with (flags (fun l => is_included r (l_fill l)) links) in *. set (inc := fun l => is_included r (l_fill l)) in *.
  assert (Ev : forall v, Nat.Even (degree (filter inc links) v)) by (intro v; rewrite Fi; apply result_even; auto).
  assert (W : Forall (fun l => pt_lt (l_a l) (l_b l)) links) by (subst links; apply blinks_wf; auto).
  destruct (pieces_spec links g pts inc clean r clockwise simplify m G W Ev) as (ps & P1 & P2 & _).
  exists ps, (map (revalidate m') ps). split; auto. split.
  - apply (extract_revalidate g pts (graph_of_wf _ _ _ W G) clean r clockwise simplify m m'); auto.
    + eapply flags_even; eauto.
    + unfold flags. rewrite map_length. symmetry. apply (go_len _ _ _ G).
    + apply apart_two with (pts := pts); auto; [subst links; apply blinks_nodup; auto|rewrite Fi; auto].
  - apply (raised m); auto. intros p I. rewrite Forall_forall in P2. apply (P2 p I).
Qed.

(** If contours of the result do not touch, raising the minimal area removes exactly the contours below it: the
    others come out unchanged, in the same order, and with the same role. *)
Theorem C23_apart_partial segs fr r ends clean clockwise simplify : arrangement segs -> ends_ok (result_links fr r segs) ends ->
  apart (result_links fr r segs) ->
  exists g, graph_new (result_links fr r segs) ends = Some g /\ forall m m', 0 <= m <= m' -> exists ps ps',
    extract_pieces g clean r clockwise simplify m (repeat false (length (result_links fr r segs))) = Some ps /\
    extract_pieces g clean r clockwise simplify m' (repeat false (length (result_links fr r segs))) = Some ps' /\
    outer_contours ps' = filter (big m') (outer_contours ps) /\ hole_contours ps' = filter (big m') (hole_contours ps).
Proof.
  intros A E Ap. destruct (blinks_graph segs A fr _ ends E) as (g & pts & H & G). fold (result_links fr r segs) in *.
  exists g. split; auto. set (inc := fun l => is_included r (l_fill l)).
  assert (Al : forall l, In l (result_links fr r segs) -> inc l = true).
  { intros l I. apply blinks_in in I as (s & f & _ & If & ->). exact If. }
  assert (Fi : filter inc (result_links fr r segs) = result_links fr r segs).
  { revert Al. generalize (result_links fr r segs). induction l as [|x l IH]; intro Al; auto. simpl. rewrite (Al x) by (simpl; auto). f_equal. apply IH. intros; apply Al; simpl; auto. }
  assert (Ff : filter_by_rule r (result_links fr r segs) = repeat false (length (result_links fr r segs))).
  { rewrite <- flags_all. unfold flags. apply map_ext_in. intros l I. change (is_included r (l_fill l)) with (inc l). rewrite (Al l I). auto. }
  rewrite <- Ff. apply (raised_spec segs fr r (is_included r) _ g pts); auto.
Qed.
(** the same for an [OverlayGraph] kept by the caller and asked for any rule *)
Theorem C23_apart_graph_partial segs fr r ends clean clockwise simplify : arrangement segs ->
  let links := kept is_included_filler fr segs in
  ends_ok links ends -> apart (result_links fr r segs) ->
  exists g, graph_new links ends = Some g /\ forall m m', 0 <= m <= m' -> exists ps ps',
    extract_pieces g clean r clockwise simplify m (filter_by_rule r links) = Some ps /\
    extract_pieces g clean r clockwise simplify m' (filter_by_rule r links) = Some ps' /\
    outer_contours ps' = filter (big m') (outer_contours ps) /\ hole_contours ps' = filter (big m') (hole_contours ps).
Proof.
  intros A links E Ap. destruct (blinks_graph segs A fr _ ends E) as (g & pts & H & G). fold links in G, H.
  exists g. split; auto. apply (raised_spec segs fr r is_included_filler _ g pts); auto. apply graph_reuse; auto.
Qed.

(** ** Example: side by side contours, one of them small *)
Definition side_run (m : Z) : option (list (list pt) * list (list pt)) :=
  match links_of RUnion EvenOdd side_adds with
  | Some ls => match graph_new ls (sorted_ends ls) with
      | Some g => match extract_pieces g clean_line RUnion false true m (repeat false (length ls)) with
          | Some ps => Some (outer_contours ps, hole_contours ps) | None => None end
      | None => None end
  | None => None end.
Example C23_apart_example :
  (exists ls, links_of RUnion EvenOdd side_adds = Some ls /\ apart ls) /\
  (exists o h i, side_run 0 = Some ([o; i], [h]) /\ side_run 25 = Some ([o], [h]) /\ side_run 201 = Some ([o], []) /\ side_run 801 = Some ([], [])).
Proof.
  split; [eexists; split; [vm_compute; reflexivity|apply apartb_ok; vm_compute; reflexivity]|].
  do 3 eexists. split; [vm_compute; reflexivity|]. split; [vm_compute; reflexivity|]. split; vm_compute; reflexivity.
Qed.
(** where the claim fails ([C23_large_contour_lost_refuted]) three contours meet in a point *)
Example tri3_not_apart : ~ apart tri3_links.
Proof.
  assert (E : exists l l' l'' m, filter (touches (Pt 0 0)) tri3_links = l :: l' :: l'' :: m /\ l_seg l <> l_seg l' /\ l_seg l' <> l_seg l'' /\ l_seg l <> l_seg l'').
  { do 4 eexists. split; [vm_compute; reflexivity|]. repeat split; vm_compute; discriminate. }
  destruct E as (l & l' & l'' & m & E & N1 & N2 & N3). eapply not_apart; eauto.
Qed.
Print Assumptions C23_apart_partial.
Print Assumptions C23_apart_graph_partial.
