(** * Moving the whole drawing: graph, contours, shapes. *)
From Verif Require Import Base Spec QLib ModelSegm SegmProofs ModelFill ModelFilter ModelSplit ModelFrag ModelOverlay Shift
  ModelGraph ModelExtract ModelBind AreaWind.
Open Scope Z_scope.

Section Move.
  Variable v : pt.
  Notation m := (mv v).
  Notation mx := (mvx v).
  Notation ml := (mvl v).
  Notation me := (fun e : nat * pt => (fst e, m (snd e))).

  Lemma upd_map {A B} (h : A -> B) (f : A -> A) (f' : B -> B) l : (forall x, f' (h x) = h (f x)) -> forall i, upd i f' (map h l) = map h (upd i f l).
  Proof. intro H. induction l as [|x l IH]; intros [|i]; auto; cbn [map upd]; [rewrite H; auto|rewrite IH; auto]. Qed.
  Lemma upds_map (f : link -> link) g : (forall x, f (ml x) = ml (f x)) -> forall l,
    fold_left (fun ls i => upd i f ls) g (map ml l) = map ml (fold_left (fun ls i => upd i f ls) g l).
  Proof. intro H. induction g as [|i g IH]; intro l; auto. cbn [fold_left]. rewrite (upd_map ml f f) by auto. apply IH. Qed.

  (** ** The graph *)
  Lemma mv_run_of p l : run_of (m p) (map me l) = let '(g, r) := run_of p l in (g, map me r).
  Proof.
    induction l as [|[i q] l IH]; auto. cbn [map fst snd run_of]. rewrite mv_eqb, IH. destruct (pt_eqb q p); auto. destruct (run_of p l); auto.
  Qed.
  Lemma mv_head_run p l : head_run (m p) (map me l) = let '(g, r) := head_run p l in (g, map me r).
  Proof. destruct l as [|[i q] l]; auto. cbn [map fst snd head_run]. rewrite mv_run_of. destruct (run_of p l); auto. Qed.
  Lemma mv_head_point l p : head_point (map me l) (m p) = m (head_point l p).
  Proof. destruct l as [|[i q] l]; auto. Qed.
  Lemma mv_build_loop : forall fuel a b la lb links nodes,
    build_loop fuel (m a) (m b) (map me la) (map me lb) (map ml links) nodes =
    option_map (fun x => (fst x, map ml (snd x))) (build_loop fuel a b la lb links nodes).
  Proof.
    induction fuel as [|fuel IH]; intros a b la lb links nodes; auto.
    assert (E : (la = [] /\ lb = []) \/ forall (X : Type) (x y : X), (match la, lb with [], [] => x | _, _ => y end) = y /\
      (match map me la, map me lb with [], [] => x | _, _ => y end) = y).
    { destruct la, lb; [left; auto|right; auto..]. }
    destruct E as [[-> ->]|E]; [reflexivity|]. cbn [build_loop]. rewrite (proj1 (E _ _ _)), (proj2 (E _ _ _)). clear E.
    rewrite mv_eqb, mv_ltb.
    replace (match map me la with [] => false | _ => true end) with (match la with [] => false | _ => true end) by (destruct la; auto).
    match goal with |- context [if pt_eqb a b then ?x else ?y] => destruct (if pt_eqb a b then x else y) as [ta tb] end.
    rewrite !mv_head_run.
    replace (if ta then let '(g, r) := head_run a la in (g, map me r) else ([], map me la)) with
      (let '(g, r) := (if ta then head_run a la else ([], la)) in (g, map me r)) by (destruct ta; auto).
    replace (if tb then let '(g, r) := head_run b lb in (g, map me r) else ([], map me lb)) with
      (let '(g, r) := (if tb then head_run b lb else ([], lb)) in (g, map me r)) by (destruct tb; auto).
    destruct (if ta then head_run a la else ([], la)) as [ga la']. destruct (if tb then head_run b lb else ([], lb)) as [gb lb'].
    rewrite !mv_head_point. rewrite !upds_map by reflexivity.
    replace (if ta then m (head_point la' a) else m a) with (m (if ta then head_point la' a else a)) by (destruct ta; auto).
    replace (if tb then m (head_point lb' b) else m b) with (m (if tb then head_point lb' b else b)) by (destruct tb; auto).
    apply IH.
  Qed.
  Definition mvg (g : graph) : graph := Graph (g_nodes g) (map ml (g_links g)).
  Lemma mv_graph links ends : graph_new (map ml links) (map me ends) = option_map mvg (graph_new links ends).
  Proof.
    unfold graph_new. destruct links as [|l0 ls]; auto.
    assert (B : forall l0 ls ends, build_graph (l0 :: ls) ends =
      build_loop (S (length (enum (map l_a (l0 :: ls))) + length ends)) (l_a l0) (head_point ends (l_b l0)) (enum (map l_a (l0 :: ls))) ends (l0 :: ls) []) by reflexivity.
    change (map ml (l0 :: ls)) with (ml l0 :: map ml ls). rewrite !B. change (ml l0 :: map ml ls) with (map ml (l0 :: ls)).
    replace (map l_a (map ml (l0 :: ls))) with (map m (map l_a (l0 :: ls))) by (rewrite !map_map; reflexivity).
    rewrite enum_map, !map_length. change (l_a (ml l0)) with (m (l_a l0)). change (l_b (ml l0)) with (m (l_b l0)).
    rewrite mv_head_point, mv_build_loop. destruct (build_loop _ _ _ _ _ _ _) as [[n k]|]; reflexivity.
  Qed.

  (** ** The walk *)
  Lemma mv_vcross c p q : vcross (m c) (m p) (m q) = vcross c p q.
  Proof. unfold vcross. cbn [mv px py]. rewrite !sub_add. reflexivity. Qed.
  Definition mvn (n : nearest) : nearest := NV (m (nv_c n)) (m (nv_a n)) (m (nv_b n)) (nv_more n) (nv_best n) (nv_cw n).
  Lemma mv_nv_new c a b i cw : nv_new (m c) (m a) (m b) i cw = mvn (nv_new c a b i cw).
  Proof. unfold nv_new, mvn. cbn. rewrite mv_vcross. reflexivity. Qed.
  Lemma mv_nv_add n p i : nv_add (mvn n) (m p) i = mvn (nv_add n p i).
  Proof.
    unfold nv_add. cbn [mvn nv_c nv_a nv_b nv_more nv_cw]. rewrite !mv_vcross.
    destruct (Bool.eqb _ _); [destruct (_ <? 0); reflexivity|destruct (nv_more n); reflexivity].
  Qed.
  Lemma mv_other l k : l_other (ml l) k = m (l_other l k).
  Proof. unfold l_other. cbn [mvl l_aid l_a l_b]. destruct (_ =? _)%nat; auto. Qed.

  Section Graph.
    Variable g : graph.
    Notation g' := (mvg g).
    Lemma mvg_link i : nth_error (g_links g') i = option_map ml (nth_error (g_links g) i).
    Proof. cbn [mvg g_links]. apply nth_error_map. Qed.
    Lemma mv_nearest k ids : forall n, nearest_loop g' k ids (mvn n) = option_map mvn (nearest_loop g k ids n).
    Proof.
      induction ids as [|i ids IH]; intro n; auto. cbn [nearest_loop]. rewrite mvg_link. destruct (nth_error (g_links g) i); auto.
      cbn [option_map]. rewrite mv_other, mv_nv_add. apply IH.
    Qed.
    Lemma mv_find_nearest t k cw ids vis : find_nearest_link_to g' t k cw ids vis = find_nearest_link_to g t k cw ids vis.
    Proof.
      unfold find_nearest_link_to. destruct (filter _ ids) as [|f [|s r]]; auto. rewrite !mvg_link.
      destruct (nth_error (g_links g) t) as [lt|]; auto. destruct (nth_error (g_links g) f) as [lf|]; auto. cbn [option_map].
      change (l_aid (ml lt)) with (l_aid lt). change (l_a (ml lt)) with (m (l_a lt)). change (l_b (ml lt)) with (m (l_b lt)).
      rewrite mv_other. destruct (l_aid lt =? k)%nat; rewrite mv_nv_new, mv_nearest; destruct (nearest_loop g k (s :: r) _); reflexivity.
    Qed.
    Lemma mv_next i k cw n vis : next_link g' i k cw n vis = next_link g i k cw n vis.
    Proof. destruct n; auto. cbn [next_link]. apply mv_find_nearest. Qed.
    Lemma mv_walk cw : forall fuel i k last vis, walk g' fuel cw i k last vis =
      option_map (fun x => (map m (fst (fst x)), snd (fst x), snd x)) (walk g fuel cw i k last vis).
    Proof.
      induction fuel as [|fuel IH]; intros i k last vis; cbn [walk]; destruct (k =? last)%nat; auto.
      change (g_nodes g') with (g_nodes g). destruct (nth_error (g_nodes g) k) as [n|]; auto.
      rewrite mv_next. destruct (next_link g i k cw n vis) as [j|]; auto. rewrite mvg_link. destruct (nth_error (g_links g) j) as [l|]; auto.
      cbn [option_map]. change (l_aid (ml l)) with (l_aid l). change (l_bid (ml l)) with (l_bid l).
      change (l_a (ml l)) with (m (l_a l)). change (l_b (ml l)) with (m (l_b l)).
      destruct (l_aid l =? k)%nat; rewrite IH; destruct (walk g fuel cw j _ last _) as [[[c u] w]|]; reflexivity.
    Qed.
    Lemma mv_contour d l id cw vis fuel : get_contour g' fuel (start_path d (ml l) id) cw vis =
      option_map (fun x => (map m (fst (fst x)), snd (fst x), snd x)) (get_contour g fuel (start_path d l id) cw vis).
    Proof.
      unfold get_contour, start_path. cbn [mvl l_aid l_bid l_a l_b].
      destruct d; cbn [sd_link sd_node sd_last sd_begin]; rewrite mv_walk; destruct (walk g _ _ _ _ _ _) as [[[c u] w]|]; reflexivity.
    Qed.
    Lemma mv_left_loop k ids vis : forall i l, left_top_loop g' k ids i (ml l) vis = left_top_loop g k ids i l vis.
    Proof.
      induction ids as [|j ids IH]; intros i l; auto. cbn [left_top_loop]. rewrite mvg_link, IH. destruct (j =? k)%nat; auto.
      destruct (nth_error (g_links g) j) as [t|]; auto. cbn [option_map].
      change (l_a (ml l)) with (m (l_a l)). change (l_b (ml l)) with (m (l_b l)). change (l_a (ml t)) with (m (l_a t)). change (l_b (ml t)) with (m (l_b t)).
      rewrite mv_ltb, mv_clock, IH. reflexivity.
    Qed.
    Lemma mv_left_top k vis : find_left_top_link g' k vis = find_left_top_link g k vis.
    Proof.
      unfold find_left_top_link. rewrite mvg_link. destruct (nth_error (g_links g) k) as [t|]; auto. cbn [option_map].
      change (g_nodes g') with (g_nodes g). change (l_aid (ml t)) with (l_aid t). destruct (nth_error (g_nodes g) (l_aid t)) as [[i j|l]|]; auto.
      - unfold left_top_bridge. rewrite !mvg_link. destruct (nth_error (g_links g) i) as [x|]; auto. destruct (nth_error (g_links g) j) as [y|]; auto.
        cbn [option_map]. change (l_a (ml x)) with (m (l_a x)). change (l_b (ml x)) with (m (l_b x)). change (l_b (ml y)) with (m (l_b y)). rewrite mv_clock. reflexivity.
      - apply mv_left_loop.
    Qed.

    Lemma combine_map2 {A B} (f : A -> B) : forall k l : list A, combine (map f k) (map f l) = map (fun e => (f (fst e), f (snd e))) (combine k l).
    Proof. induction k as [|a k IH]; intros [|b l]; auto. cbn [map combine]. rewrite IH. reflexivity. Qed.
    Lemma edges_map (c : list pt) : edges (map m c) = map (fun e => (m (fst e), m (snd e))) (edges c).
    Proof.
      destruct c as [|p c]; auto. unfold edges. cbn [map]. rewrite <- combine_map2. cbn [map]. rewrite map_app. reflexivity.
    Qed.

    Lemma mv_area c : area2 (map m c) = area2 c.
    Proof.
      unfold area2. rewrite edges_map.
      assert (E : forall l, zsum (fun e : pt * pt => px (fst e) * py (snd e) - px (snd e) * py (fst e)) (map (fun e => (m (fst e), m (snd e))) l) =
        zsum (fun e : pt * pt => px (fst e) * py (snd e) - px (snd e) * py (fst e)) l +
        px v * zsum (fun e : pt * pt => py (snd e) - py (fst e)) l - py v * zsum (fun e : pt * pt => px (snd e) - px (fst e)) l).
      { induction l as [|e l IH]; [cbn [map]; rewrite !zsum_nil; ring|]. cbn [map]. rewrite !zsum_cons. cbn [fst snd]. rewrite IH. rewrite !px_mv, !py_mv. ring. }
      rewrite E, (edges_tele py), (edges_tele px). lia.
    Qed.
    Lemma mv_valid a c : is_valid a (map m c) = is_valid a c.
    Proof. unfold is_valid. rewrite map_length, mv_area. reflexivity. Qed.

    Variables clean clean' : bool -> list pt -> list pt * bool.
    Hypothesis Cl : forall b c, clean' b (map m c) = (map m (fst (clean b c)), snd (clean b c)).
    Definition mvp (p : piece) : piece := Pc (p_hole p) (p_valid p) (map m (p_raw p)) (map m (p_contour p)) (p_mod p) (p_used p).
    Lemma mv_extract_loop r cw simplify a : forall fuel k vis, extract_loop g' clean' fuel r cw simplify a k vis =
      option_map (map mvp) (extract_loop g clean fuel r cw simplify a k vis).
    Proof.
      induction fuel as [|fuel IH]; intros k vis; cbn [extract_loop]; destruct (length vis <=? k)%nat; auto.
      destruct (is_visited vis k); auto. rewrite mv_left_top. destruct (find_left_top_link g k vis) as [lt|]; auto.
      rewrite mvg_link. destruct (nth_error (g_links g) lt) as [l|]; auto. cbn [option_map]. change (l_fill (ml l)) with (l_fill l).
      rewrite mv_contour. destruct (get_contour g _ _ _ _) as [[[raw u] vis']|]; auto. cbn [option_map fst snd].
      rewrite Cl. destruct (clean simplify raw) as [c md]. cbn [fst snd]. rewrite mv_valid, IH.
      destruct (extract_loop g clean fuel r cw simplify a _ vis') as [ps|]; reflexivity.
    Qed.
    Lemma mv_extract r cw simplify a vis : extract_pieces g' clean' r cw simplify a vis = option_map (map mvp) (extract_pieces g clean r cw simplify a vis).
    Proof. apply mv_extract_loop. Qed.
  End Graph.

  (** ** Holes and shapes *)
  Definition mvi (s : idseg) : idseg := IdS (id_hole s) (id_ix s) (mx (id_seg s)).
  Lemma mv_id_segments h ix x0 x1 f l : forall b, id_segments h ix (x0 + px v) (x1 + px v) (m f) (m b) (map m l) = map mvi (id_segments h ix x0 x1 f b l).
  Proof.
    assert (P : forall a b, (if (px (m a) <? px (m b)) && (x0 + px v <? px (m b)) && (px (m a) <=? x1 + px v) then [IdS h ix (XS (m a) (m b))] else []) =
      map mvi (if (px a <? px b) && (x0 <? px b) && (px a <=? x1) then [IdS h ix (XS a b)] else [])).
    { intros a b. rewrite !px_mv, !ltb_add, leb_add. destruct (_ && _ && _); reflexivity. }
    induction l as [|a l IH]; intro b; cbn [map id_segments]; [apply P|]. rewrite IH, map_app, <- P. reflexivity.
  Qed.
  Lemma mv_append_id c h ix x0 x1 cw : append_id_segments (map m c) h ix (x0 + px v) (x1 + px v) cw = option_map (map mvi) (append_id_segments c h ix x0 x1 cw).
  Proof.
    unfold append_id_segments. replace (if cw then map m c else rev (map m c)) with (map m (if cw then c else rev c)) by (destruct cw; auto; apply map_rev).
    destruct (if cw then c else rev c) as [|p r]; auto. cbn [map]. rewrite mv_id_segments. reflexivity.
  Qed.
  Lemma mv_under_seg s o : is_under_segment (mx s) (mx o) = is_under_segment s o.
  Proof. unfold is_under_segment. cbn [mvx sa sb]. rewrite mv_cmp, !mv_clock. reflexivity. Qed.
  Lemma mv_by_angle s o : cmp_by_angle (mx s) (mx o) = cmp_by_angle s o.
  Proof. unfold cmp_by_angle. cbn [mvx sa sb mv px py]. rewrite !sub_add. reflexivity. Qed.
  Lemma mv_by_a s o : cmp_by_a_then_by_angle (mvi s) (mvi o) = cmp_by_a_then_by_angle s o.
  Proof. unfold cmp_by_a_then_by_angle. cbn [mvi id_seg]. rewrite mv_by_angle. cbn [mvx sa]. rewrite mv_cmp. reflexivity. Qed.
  Lemma mv_min_point l : forall i ix a, min_point i (map m l) ix (m a) = let '(k, p) := min_point i l ix a in (k, m p).
  Proof. induction l as [|p l IH]; intros i ix a; auto. cbn [map min_point]. rewrite mv_ltb, !IH. destruct (pt_ltb p a); auto. Qed.
  Lemma mv_left_bottom c : left_bottom_segment (map m c) = option_map mx (left_bottom_segment c).
  Proof.
    destruct c as [|f r]; auto. cbn [map left_bottom_segment]. rewrite mv_min_point. destruct (min_point 1 r 0 f) as [ix a].
    change (m f :: map m r) with (map m (f :: r)). rewrite map_length, !nth_error_map.
    destruct (nth_error (f :: r) ((ix + 1) mod length (f :: r))) as [b0|]; auto. destruct (nth_error (f :: r) _) as [b1|]; auto. cbn [option_map].
    change (XS (m a) (m b0)) with (mx (XS a b0)). change (XS (m a) (m b1)) with (mx (XS a b1)). rewrite mv_under_seg. destruct (is_under_segment _ _); reflexivity.
  Qed.
  Lemma mv_bruns l : ModelBind.runs (map mvi l) = map (map mvi) (ModelBind.runs l).
  Proof.
    induction l as [|s l IH]; auto. cbn [map ModelBind.runs]. rewrite IH. destruct (ModelBind.runs l) as [|[|t h] gs]; auto.
    cbn [map]. cbn [mvi id_seg mvx sa]. rewrite mv_eqb. destruct (pt_eqb _ _); reflexivity.
  Qed.
  Lemma mv_sort_angle l : add_sort_by_angle (map mvi l) = map mvi (add_sort_by_angle l).
  Proof.
    unfold add_sort_by_angle. rewrite mv_bruns, map_map, concat_map, map_map. f_equal. apply map_ext. intro k.
    apply isort_map. intros x y. unfold angle_only_leb. cbn [mvi id_seg]. rewrite mv_by_angle. reflexivity.
  Qed.
  Notation mso := (map (fun e : xseg * owner => (mx (fst e), snd e))).
  Lemma mv_find_lt k s : forall d, find_lt (mx k) d (mso s) = find_lt k d s.
  Proof. induction s as [|[k' o] s IH]; intro d; auto. cbn [map fst snd find_lt]. rewrite mv_vcmp, IH. reflexivity. Qed.
  Lemma mv_feed a segs : forall scan, feed (mvi a) (map mvi segs) (mso scan) = let '(r, s) := feed a segs scan in (map mvi r, mso s).
  Proof.
    induction segs as [|s segs IH]; intro scan; auto. cbn [map feed]. rewrite mv_by_a.
    cbn [mvi id_seg id_hole id_ix]. change (px (sa (mx (id_seg a)))) with (px (sa (id_seg a)) + px v). change (px (sb (mx (id_seg s)))) with (px (sb (id_seg s)) + px v).
    change (IdS (id_hole a) (id_ix a) (mx (id_seg a))) with (mvi a).
    rewrite ltb_add, mv_expire, mv_insert. destruct (cmp_by_a_then_by_angle s a); auto; destruct (_ <? _); apply IH.
  Qed.
  Lemma mv_bind_loop n anchors : forall segs scan parents, bind_loop n (map mvi anchors) (map mvi segs) (mso scan) parents = bind_loop n anchors segs scan parents.
  Proof.
    induction anchors as [|a anchors IH]; intros segs scan parents; auto. cbn [map bind_loop]. rewrite mv_feed. destruct (feed a segs scan) as [segs' scan'].
    cbn [mvi id_seg id_ix]. change (px (sa (mx (id_seg a)))) with (px (sa (id_seg a)) + px v). rewrite mv_expire, mv_find_lt.
    destruct (find_lt _ _ _) as [[h ix]|]; auto. destruct (if h then _ else _) as [[par|]|]; auto. destruct (_ && _); auto.
  Qed.
  Lemma mv_bind dbg n anchors segs : bind dbg n (map mvi anchors) (map mvi segs) = bind dbg n anchors segs.
  Proof. unfold bind. rewrite map_length. apply (mv_bind_loop n anchors segs []). Qed.
  Lemma mv_push {X Y} (f : X -> Y) holes : forall parents shapes, push_holes parents (map f holes) (map (map f) shapes) = option_map (map (map f)) (push_holes parents holes shapes).
  Proof.
    induction holes as [|h hs IH]; intros parents shapes; [destruct parents; auto|]. destruct parents as [|[s|] ps]; auto. cbn [map push_holes].
    rewrite map_length. destruct (s <? length shapes)%nat; auto. rewrite <- IH. f_equal.
    rewrite (upd_map (map f) (fun sh => sh ++ [h])); auto. intro x. rewrite map_app. reflexivity.
  Qed.
  Lemma all_some_map {A B} (f : A -> B) l : all_some (map (option_map f) l) = option_map (map f) (all_some l).
  Proof. induction l as [|[x|] l IH]; auto. cbn [map all_some option_map]. rewrite IH. destruct (all_some l); auto. Qed.
  Lemma mv_id_contours h x0 x1 cw cs : id_of_contours h (x0 + px v) (x1 + px v) cw (map (map m) cs) = option_map (map mvi) (id_of_contours h x0 x1 cw cs).
  Proof.
    unfold id_of_contours. rewrite enum_map, map_map.
    rewrite (map_ext _ (fun x => option_map (map mvi) (append_id_segments (snd x) h (fst x) x0 x1 cw))) by (intro x; cbn [fst snd]; apply mv_append_id).
    rewrite <- map_map with (f := fun x => append_id_segments (snd x) h (fst x) x0 x1 cw) (g := option_map (map mvi)).
    rewrite all_some_map. destruct (all_some _) as [l|]; auto. cbn [option_map]. rewrite concat_map. reflexivity.
  Qed.
  Lemma mv_scan_join dbg shapes holes anchors cw : scan_join dbg (map (map (map m)) shapes) (map (map m) holes) (map mvi anchors) cw =
    option_map (map (map (map m))) (scan_join dbg shapes holes anchors cw).
  Proof.
    unfold scan_join. destruct anchors as [|f r]; auto. rewrite map_map.
    rewrite (map_ext (fun x => hd_error (map (map m) x)) (fun x => option_map (map m) (hd_error x))) by (intros [|? ?]; auto).
    rewrite <- map_map with (f := @hd_error (list pt)) (g := option_map (map m)). rewrite all_some_map.
    destruct (all_some (map (@hd_error (list pt)) shapes)) as [outers|]; auto. cbn [option_map map].
    change (mvi f :: map mvi r) with (map mvi (f :: r)). rewrite last_map.
    change (px (sa (id_seg (mvi f)))) with (px (sa (id_seg f)) + px v).
    change (px (sa (id_seg (mvi (last (f :: r) f))))) with (px (sa (id_seg (last (f :: r) f))) + px v).
    rewrite !mv_id_contours. destruct (id_of_contours false _ _ _ _) as [s1|]; auto. destruct (id_of_contours true _ _ _ _) as [s2|]; auto. cbn [option_map].
    rewrite <- map_app, (isort_map mvi _ a_angle_leb) by (intros x y; unfold a_angle_leb; rewrite mv_by_a; auto).
    rewrite map_length, mv_bind. destruct (bind _ _ _ _) as [par|]; auto. apply mv_push.
  Qed.
  Lemma mv_sorted_a l : is_sorted_a (map mvi l) = is_sorted_a l.
  Proof.
    induction l as [|s [|t l] IH]; auto. cbn [map is_sorted_a] in *. rewrite IH. cbn [mvi id_seg mvx sa]. rewrite mv_leb. reflexivity.
  Qed.
  Lemma mv_join dbg shapes holes anchors cw : join_sorted_holes dbg (map (map (map m)) shapes) (map (map m) holes) (map mvi anchors) cw =
    option_map (map (map (map m))) (join_sorted_holes dbg shapes holes anchors cw).
  Proof.
    destruct shapes as [|s [|s' shapes]]; auto.
    - destruct holes as [|h holes]; auto. cbn [map join_sorted_holes option_map]. rewrite map_app. reflexivity.
    - destruct holes as [|h holes]; auto.
      assert (J : forall s s' shapes h holes anchors, join_sorted_holes dbg (s :: s' :: shapes) (h :: holes) anchors cw =
        if dbg && negb (is_sorted_a anchors) then None else scan_join dbg (s :: s' :: shapes) (h :: holes) (add_sort_by_angle anchors) cw) by reflexivity.
      cbn [map]. rewrite !J, mv_sorted_a, mv_sort_angle. destruct (_ && _); auto.
      apply (mv_scan_join dbg (s :: s' :: shapes) (h :: holes)).
  Qed.
  Lemma mv_anchor dbg cw p : anchor_of dbg cw (mvp p) = option_map (fun x => (mx (fst x), snd x)) (anchor_of dbg cw p).
  Proof.
    unfold anchor_of. cbn [mvp p_contour p_mod]. rewrite !nth_error_map, map_length, mv_left_bottom.
    set (c := p_contour p). destruct cw.
    - destruct (nth_error c 1) as [a|]; auto. destruct (nth_error c 2) as [b|]; auto. cbn [option_map].
      destruct (left_bottom_segment c) as [k|]; auto. cbn [option_map]. change (XS (m a) (m b)) with (mx (XS a b)).
      change ModelBind.xseg_eqb with Base.xseg_eqb. rewrite !mvx_eqb. destruct (p_mod p); [destruct (Base.xseg_eqb k _)|destruct (_ && _)]; reflexivity.
    - destruct (nth_error c 0) as [a|]; auto. destruct (nth_error c (length c - 1)) as [b|]; auto. cbn [option_map].
      destruct (left_bottom_segment c) as [k|]; auto. cbn [option_map]. change (XS (m a) (m b)) with (mx (XS a b)).
      change ModelBind.xseg_eqb with Base.xseg_eqb. rewrite !mvx_eqb. destruct (p_mod p); [destruct (Base.xseg_eqb k _)|destruct (_ && _)]; reflexivity.
  Qed.
  Lemma mv_anchors dbg cw ps : forall ix, anchors_of dbg cw ix (map mvp ps) = option_map (fun x => (map mvi (fst x), snd x)) (anchors_of dbg cw ix ps).
  Proof.
    induction ps as [|p ps IH]; intro ix; auto. cbn [map anchors_of]. cbn [mvp p_valid p_hole]. change (Pc _ _ _ _ _ _) with (mvp p).
    rewrite mv_anchor, !IH. destruct (p_valid p && p_hole p); auto. destruct (anchor_of dbg cw p) as [[w ch]|]; auto.
    destruct (anchors_of dbg cw (S ix) ps) as [[l srt]|]; reflexivity.
  Qed.
  Lemma mv_outers ps : outer_contours (map mvp ps) = map (map m) (outer_contours ps).
  Proof. unfold outer_contours. rewrite (Shift.filter_map mvp _ (fun p => p_valid p && negb (p_hole p))) by reflexivity. rewrite !map_map. reflexivity. Qed.
  Lemma mv_holes ps : hole_contours (map mvp ps) = map (map m) (hole_contours ps).
  Proof. unfold hole_contours. rewrite (Shift.filter_map mvp _ (fun p => p_valid p && p_hole p)) by reflexivity. rewrite !map_map. reflexivity. Qed.
  Theorem mv_shapes dbg g clean clean' r cw simplify a vis : (forall b c, clean' b (map m c) = (map m (fst (clean b c)), snd (clean b c))) ->
    extract_shapes dbg (mvg g) clean' r cw simplify a vis = option_map (map (map (map m))) (extract_shapes dbg g clean r cw simplify a vis).
  Proof.
    intro Cl. unfold extract_shapes. rewrite (mv_extract g clean clean' Cl). destruct (extract_pieces g clean r cw simplify a vis) as [ps|]; auto. cbn [option_map].
    rewrite mv_anchors. destruct (anchors_of dbg cw 0 ps) as [[l srt]|]; auto. cbn [option_map fst snd].
    rewrite (isort_map mvi _ a_leb) by (intros x y; unfold a_leb; cbn [mvi id_seg mvx sa]; apply mv_leb).
    replace (if srt then map mvi l else map mvi (isort a_leb l)) with (map mvi (if srt then l else isort a_leb l)) by (destruct srt; auto).
    rewrite mv_outers, mv_holes. rewrite <- mv_join. f_equal. rewrite !map_map. reflexivity.
  Qed.
End Move.
