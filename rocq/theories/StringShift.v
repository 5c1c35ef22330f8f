(** * Moving shapes and lines together: string overlay, clipping, slicing commute with a translation. *)
From Verif Require Import Base Spec QLib ModelSegm SegmProofs MergeProofs PlanarGeo PlanarSum ModelFill ModelFilter ModelSplit ModelFrag ModelOverlay Shift
  ModelGraph ModelExtract ModelLoops ModelBind ModelString ModelSlice AreaWind ShiftShapes.
Open Scope Z_scope.

Definition mv_item (v : pt) (i : item) : item :=
  match i with
  | SContour p => SContour (map (mv v) p)
  | SLine a b => SLine (mv v a) (mv v b)
  | SPath p => SPath (map (mv v) p)
  | SClosed p => SClosed (map (mv v) p)
  end.

Section Move.
  Variable v : pt.
  Notation m := (mv v).
  Notation mx := (mvx v).
  Notation ml := (mvl v).
  Notation me := (fun e : nat * pt => (fst e, m (snd e))).
  Notation ms := (mvs (C := cntS) v).

  (** ** the segments *)
  Lemma mv_line_segment a b : line_segment (m a) (m b) = map ms (line_segment a b).
  Proof. unfold line_segment. rewrite mv_cmp. destruct (pt_cmp a b); reflexivity. Qed.
  Lemma mv_line_loop l : forall a, line_loop (m a) (map m l) = map ms (line_loop a l).
  Proof. induction l as [|b l IH]; intro a; auto. cbn [map line_loop]. rewrite mv_line_segment, IH, map_app. reflexivity. Qed.
  Lemma mv_item_segments i : item_segments (mv_item v i) = map ms (item_segments i).
  Proof.
    destruct i as [p|a b|p|p]; cbn [mv_item item_segments].
    - apply mv_append.
    - apply mv_line_segment.
    - unfold string_path. rewrite map_length. destruct (length p <? 2)%nat; auto. destruct p as [|a r]; auto. cbn [map]. apply mv_line_loop.
    - unfold string_contour. rewrite map_length. destruct (length p <? 2)%nat eqn:L; auto. destruct p as [|a r]; auto.
      assert (E : last (map m (a :: r)) (Pt 0 0) = m (last (a :: r) (Pt 0 0))).
      { clear L. revert a. induction r as [|b r IH]; intro a; auto. cbn [map] in *. change (last (m a :: m b :: map m r) (Pt 0 0)) with (last (m b :: map m r) (Pt 0 0)).
        rewrite IH. reflexivity. }
      cbn [map] in *. rewrite E. change (m a :: map m r) with (map m (a :: r)). apply mv_line_loop.
  Qed.
  Lemma mv_string_segments items : string_segments (map (mv_item v) items) = map ms (string_segments items).
  Proof. unfold string_segments. induction items as [|i l IH]; auto. cbn [map flat_map]. rewrite mv_item_segments, IH, map_app. reflexivity. Qed.

  (** ** clipping *)
  Lemma mv_visit f l : visit_if_possible f (ml l) = option_map ml (visit_if_possible f l).
  Proof. unfold visit_if_possible. destruct f; cbn [mvl l_fill]; destruct (_ =? _)%N; reflexivity. Qed.
  Lemma mv_other_end l k : other_end (ml l) k = me (other_end l k).
  Proof. unfold other_end. cbn [mvl l_aid l_bid l_a l_b]. destruct (_ =? _)%nat; reflexivity. Qed.
  Lemma mv_next_point ids links a o : next_point ids (map ml links) (me a) o =
    option_map (fun x => (option_map me (fst x), map ml (snd x))) (next_point ids links a o).
  Proof.
    induction ids as [|i ids IH]; auto. cbn [next_point]. rewrite nth_error_map. destruct (nth_error links i) as [l|]; auto. cbn [option_map fst snd].
    cbv zeta. rewrite mv_other_end. cbn [fst snd]. rewrite mv_ltb, mv_visit.
    destruct (visit_if_possible _ l) as [l'|]; cbn [option_map]; [|apply IH]. rewrite (upd_map ml (fun _ => l')) by auto. reflexivity.
  Qed.
  Lemma mv_follow nodes o : forall fuel links a, follow nodes fuel (map ml links) (me a) o =
    option_map (fun x => (map m (fst x), map ml (snd x))) (follow nodes fuel links a o).
  Proof.
    induction fuel as [|fuel IH]; intros links a; auto. cbn [follow fst]. destruct (nth_error nodes (fst a)) as [ids|]; auto.
    rewrite mv_next_point. destruct (next_point ids links a o) as [[[b|] ls]|]; auto. cbn [option_map fst snd].
    rewrite IH. destruct (follow nodes fuel ls b o) as [[ps ls']|]; reflexivity.
  Qed.
  Lemma mv_clip_loop nodes : forall fuel k links, clip_loop nodes fuel k (map ml links) = option_map (map (map m)) (clip_loop nodes fuel k links).
  Proof.
    induction fuel as [|fuel IH]; intros k links; auto. cbn [clip_loop]. rewrite nth_error_map. destruct (nth_error links k) as [l|]; auto.
    cbn [option_map]. change (l_fill (ml l)) with (l_fill l). destruct (_ =? _)%N; [apply IH|].
    assert (V : visit_start (ml l) = (fst (visit_start l), ml (snd (visit_start l)))).
    { unfold visit_start. cbn [mvl l_fill]. destruct (_ =? _)%N; reflexivity. }
    rewrite V. destruct (visit_start l) as [o l']. cbn [fst snd]. rewrite map_length.
    rewrite (upd_map ml (fun _ => l') (fun _ => ml l')) by auto.
    rewrite (mv_follow nodes o _ _ (l_bid l, l_b l) : follow nodes _ (map ml _) (l_bid (ml l), l_b (ml l)) o = _).
    destruct (follow nodes _ _ (l_bid l, l_b l) o) as [[ps ls]|]; auto. cbn [option_map fst snd]. rewrite IH.
    destruct (clip_loop nodes fuel k ls) as [paths|]; auto. cbn [option_map map]. f_equal. f_equal. destruct o; auto. rewrite map_rev. reflexivity.
  Qed.
  Definition mvsg (g : sgraph) : sgraph := SG (sg_nodes g) (map ml (sg_links g)).
  Lemma mv_string_graph links ends : string_graph (map ml links) (map me ends) = option_map mvsg (string_graph links ends).
  Proof. unfold string_graph. rewrite mv_graph. destruct (graph_new links ends) as [g|]; reflexivity. Qed.
  Lemma mv_clip g : into_clip_string_lines (mvsg g) = option_map (map (map m)) (into_clip_string_lines g).
  Proof. unfold into_clip_string_lines, mvsg. cbn [sg_nodes sg_links]. rewrite map_length. apply mv_clip_loop. Qed.

  (** ** slicing *)
  Section Graph.
    Variable g : graph.
    Notation g' := (mvg v g).
    Lemma mv_move_possible l f k cw : is_move_possible (ml l) f k cw = is_move_possible l f k cw.
    Proof. unfold is_move_possible. cbn [mvl l_aid l_a l_b]. rewrite mv_ltb. reflexivity. Qed.
    Lemma mv_visit_fill l f k cw : visit_fill (ml l) f k cw = visit_fill l f k cw.
    Proof. unfold visit_fill. cbn [mvl l_aid l_a l_b]. rewrite mv_ltb. reflexivity. Qed.
    Lemma mv_possible fills k cw i : possible g' fills k cw i = possible g fills k cw i.
    Proof. unfold possible. rewrite mvg_link. destruct (nth_error (g_links g) i) as [l|]; auto. cbn [option_map]. apply mv_move_possible. Qed.
    Lemma mv_next_move fills t k cw ids : next_move g' fills t k cw ids = next_move g fills t k cw ids.
    Proof. induction ids as [|i ids IH]; auto. cbn [next_move]. rewrite mv_possible, IH. reflexivity. Qed.
    Lemma mv_slice_next t k cw ids fills : slice_next g' t k cw ids fills = slice_next g t k cw ids fills.
    Proof.
      unfold slice_next. rewrite mv_next_move. destruct (next_move g fills t k cw ids) as [[f r]|]; [|rewrite mv_possible; auto].
      rewrite mv_next_move. destruct (next_move g fills t k cw r) as [[s r2]|]; auto. rewrite !mvg_link.
      destruct (nth_error (g_links g) t) as [lt|]; auto. destruct (nth_error (g_links g) f) as [lf|]; auto. cbn [option_map].
      rewrite (filter_ext _ (possible g fills k cw)) by (intro; apply mv_possible).
      change (l_aid (ml lt)) with (l_aid lt). change (l_a (ml lt)) with (m (l_a lt)). change (l_b (ml lt)) with (m (l_b lt)).
      rewrite mv_other. destruct (l_aid lt =? k)%nat; rewrite mv_nv_new, mv_nearest; destruct (nearest_loop g k _ _); reflexivity.
    Qed.
    Lemma upd_ext {A} (f f' : A -> A) (l : list A) : (forall x, f x = f' x) -> forall i, upd i f l = upd i f' l.
    Proof. intro E. induction l as [|x l IH]; intros [|i]; auto; cbn [upd]; [rewrite E|rewrite IH]; auto. Qed.
    Lemma mv_slice_walk cw : forall fuel i k last fills, slice_walk g' fuel cw i k last fills =
      option_map (fun x => (map m (fst x), snd x)) (slice_walk g fuel cw i k last fills).
    Proof.
      induction fuel as [|fuel IH]; intros i k last fills; cbn [slice_walk]; destruct (k =? last)%nat; auto.
      change (g_nodes g') with (g_nodes g). destruct (nth_error (g_nodes g) k) as [n|]; auto.
      rewrite mv_slice_next. destruct (slice_next g i k cw _ fills) as [j|]; auto. rewrite mvg_link. destruct (nth_error (g_links g) j) as [l|]; auto.
      cbn [option_map]. rewrite (upd_ext _ (fun f => visit_fill l f k cw)) by (intro; apply mv_visit_fill).
      change (l_aid (ml l)) with (l_aid l). change (l_bid (ml l)) with (l_bid l). change (l_a (ml l)) with (m (l_a l)). change (l_b (ml l)) with (m (l_b l)).
      destruct (l_aid l =? k)%nat; rewrite IH; destruct (slice_walk g fuel cw j _ last _) as [[c w]|]; reflexivity.
    Qed.
    Lemma mv_get_paths fuel i cw fills : get_paths g' fuel i cw fills = option_map (fun x => (map m (fst x), snd x)) (get_paths g fuel i cw fills).
    Proof.
      unfold get_paths. rewrite mvg_link. destruct (nth_error (g_links g) i) as [l|]; auto. cbn [option_map].
      change (l_aid (ml l)) with (l_aid l). change (l_bid (ml l)) with (l_bid l). change (l_a (ml l)) with (m (l_a l)).
      rewrite (upd_ext _ (fun f => visit_fill l f (l_aid l) cw)) by (intro; apply mv_visit_fill).
      rewrite mv_slice_walk. destruct (slice_walk g fuel cw i _ _ _) as [[c w]|]; reflexivity.
    Qed.
    (** cutting a path in its repeated vertices *)
    Notation mh := (map (fun e : pt * nat => (m (fst e), snd e))).
    Lemma mv_hm p h : hm_get (m p) (mh h) = hm_get p h.
    Proof. induction h as [|[q i] h IH]; auto. cbn [map hm_get fst snd]. rewrite mv_eqb, IH. reflexivity. Qed.
    Lemma mv_validate a c : validate_area a (map m c) = validate_area a c.
    Proof. unfold validate_area. rewrite mv_area. reflexivity. Qed.
    Lemma mv_split_go a l : forall path h res, split_go a (map m l) (map m path) (mh h) (map (map m) res) =
      option_map (fun x => (map m (fst x), map (map m) (snd x))) (split_go a l path h res).
    Proof.
      induction l as [|p l IH]; intros path h res; auto. cbn [map split_go]. rewrite mv_hm, map_length.
      destruct (hm_get p h) as [pos|].
      - destruct (_ <? pos)%nat; auto. destruct (_ <? 2)%nat; [rewrite firstn_map; apply IH|]. cbv zeta.
        replace (skipn pos (map m path) ++ [m p]) with (map m (skipn pos path ++ [p])) by (rewrite map_app, skipn_map; auto).
        rewrite mv_validate, firstn_map. destruct (validate_area _ _); [|apply IH].
        replace (map (map m) res ++ [map m (skipn pos path ++ [p])]) with (map (map m) (res ++ [skipn pos path ++ [p]])) by (rewrite map_app; auto).
        apply IH.
      - replace (map m path ++ [m p]) with (map m (path ++ [p])) by (rewrite map_app; auto).
        apply (IH (path ++ [p]) ((p, S (length path)) :: h) res).
    Qed.
    Lemma mv_split_loops a l : split_loops a (map m l) = option_map (map (map m)) (split_loops a l).
    Proof.
      unfold split_loops. change (split_go a (map m l) [] [] []) with (split_go a (map m l) (map m []) (mh []) (map (map m) [])). rewrite mv_split_go.
      destruct (split_go a l [] [] []) as [[path res]|]; auto. cbn [option_map fst snd]. rewrite map_length. destruct (2 <? _)%nat; auto. rewrite map_app. reflexivity.
    Qed.
    Variables cw1 cw2 : list pt -> bool.
    Hypothesis Cw : forall c, cw2 (map m c) = cw1 c.
    Notation mb := (fun x : bool * list pt => (fst x, map m (snd x))).
    Lemma mv_place cw d p : place_path cw2 cw d (map m p) = mb (place_path cw1 cw d p).
    Proof. unfold place_path. rewrite Cw. destruct (Bool.eqb _ d); cbn [fst snd]; destruct (Bool.eqb _ _); rewrite <- ?map_rev; reflexivity. Qed.
    Lemma mv_slice_loop cw a : forall fuel k fills, slice_loop g' cw2 fuel cw a k fills = option_map (map mb) (slice_loop g cw1 fuel cw a k fills).
    Proof.
      induction fuel as [|fuel IH]; intros k fills; cbn [slice_loop]; destruct (_ <=? k)%nat; auto.
      destruct (_ =? 0)%N; [apply IH|]. cbv zeta. rewrite mv_get_paths. destruct (get_paths g _ k _ fills) as [[path fills']|]; auto.
      cbn [option_map fst snd]. rewrite mv_split_loops. destruct (split_loops a path) as [paths|]; auto. cbn [option_map].
      rewrite IH, map_map. destruct (slice_loop g cw1 fuel cw a k fills') as [ps|]; auto. cbn [option_map]. rewrite map_app, map_map. f_equal. f_equal.
      apply map_ext. intro p. apply mv_place.
    Qed.
    Lemma mv_outers ps : slice_outers (map mb ps) = map (map m) (slice_outers ps).
    Proof. unfold slice_outers. rewrite (Shift.filter_map mb _ (fun p => negb (fst p))) by auto. rewrite !map_map. reflexivity. Qed.
    Lemma mv_holes ps : slice_holes (map mb ps) = map (map m) (slice_holes ps).
    Proof. unfold slice_holes. rewrite (Shift.filter_map mb _ fst) by auto. rewrite !map_map. reflexivity. Qed.
    Lemma mv_join_unsorted dbg shapes holes cw : join_unsorted_holes dbg (map (map (map m)) shapes) (map (map m) holes) cw =
      option_map (map (map (map m))) (join_unsorted_holes dbg shapes holes cw).
    Proof.
      destruct shapes as [|s [|s' shapes]]; auto.
      - destruct holes as [|h holes]; auto. cbn [map join_unsorted_holes option_map]. rewrite map_app. reflexivity.
      - destruct holes as [|h holes]; auto.
        assert (J : forall s s' shapes h holes, join_unsorted_holes dbg (s :: s' :: shapes) (h :: holes) cw =
          match all_some (map (fun ih => option_map (IdS true (fst ih)) (left_bottom_segment (snd ih))) (enum (h :: holes))) with
          | None => None | Some hs => scan_join dbg (s :: s' :: shapes) (h :: holes) (isort a_angle_leb hs) cw end) by reflexivity.
        cbn [map]. rewrite !J. change (map m h :: map (map m) holes) with (map (map m) (h :: holes)).
        rewrite enum_map, map_map.
        rewrite (map_ext _ (fun x => option_map (mvi v) (option_map (IdS true (fst x)) (left_bottom_segment (snd x))))).
        2: { intros [i c]. cbn [fst snd]. rewrite mv_left_bottom. destruct (left_bottom_segment c); reflexivity. }
        rewrite <- map_map with (f := fun x => option_map (IdS true (fst x)) (left_bottom_segment (snd x))) (g := option_map (mvi v)).
        rewrite all_some_map. destruct (all_some _) as [hs|]; auto. cbn [option_map].
        rewrite (isort_map (mvi v) _ a_angle_leb) by (intros x y; unfold a_angle_leb; rewrite mv_by_a; auto).
        apply (mv_scan_join v dbg (s :: s' :: shapes) (h :: holes)).
    Qed.
    Lemma mv_slice_shapes dbg cw a : slice_shapes g' cw2 dbg cw a = option_map (map (map (map m))) (slice_shapes g cw1 dbg cw a).
    Proof.
      unfold slice_shapes, slice_pieces.
      assert (F : slice_fills (g_links g') = slice_fills (g_links g)).
      { unfold slice_fills. cbn [mvg g_links]. rewrite map_map. reflexivity. }
      rewrite F, mv_slice_loop. cbn [mvg g_links]. rewrite map_length.
      destruct (slice_loop g cw1 _ cw a 0 _) as [ps|]; auto. cbn [option_map]. rewrite mv_outers, mv_holes, map_map.
      rewrite <- mv_join_unsorted, map_map. reflexivity.
    Qed.
  End Graph.
End Move.
