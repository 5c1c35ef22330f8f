(** * Other winding counts on the same edges: the splitting does not look at them, and the contours only through the side that is filled. *)
From Verif Require Import Base Spec QLib ModelSegm SegmProofs MergeProofs PlanarGeo PlanarSum ModelFill ModelFilter FillProofs FillCorrect
  ModelCross CrossProofs CrossPoint MarksProofs CoreResults Properties01 ModelSplit SplitProofs SplitPlanar SplitPass BinsProofs SplitApply SplitLoop
  ModelFrag ModelOverlay OverlayProofs FragProofs Shift ModelGraph ModelExtract ModelBind ShiftShapes.
From Coq Require Import Permutation.
Open Scope Z_scope.

Section Relabel.
  Context {C : Type} {WC : WindingCount C} {WL : WCLaws C}.
  Variable f : C -> C.
  Hypothesis F_ne : forall c, wc_not_empty (f c) = wc_not_empty c.
  Hypothesis F_add : forall a b, wc_add (f a) (f b) = f (wc_add a b).
  Hypothesis F_inv : forall c, wc_invert (f c) = f (wc_invert c).
  Notation rs := (fun s : segment C => Seg (sx s) (f (sc s))).

  Lemma re_merge_from l : forall p, merge_from (rs p) (map rs l) = map rs (merge_from p l).
  Proof.
    induction l as [|s l IH]; intro p; cbn [map merge_from sx sc]; rewrite F_ne; [destruct (wc_not_empty (sc p)); reflexivity|].
    destruct (Base.xseg_eqb (sx p) (sx s)).
    - rewrite <- IH. cbn [sx sc]. rewrite F_add. reflexivity.
    - rewrite IH. destruct (wc_not_empty (sc p)); reflexivity.
  Qed.
  Lemma re_merge_scan l : forall p, merge_scan (rs p) (map rs l) = map rs (merge_scan p l).
  Proof.
    induction l as [|s l IH]; intro p; auto. cbn [map merge_scan sx].
    change (Seg (sx s) (f (sc s)) :: map rs l) with (map rs (s :: l)).
    destruct (Base.xseg_eqb (sx p) (sx s)); [apply re_merge_from|]. rewrite IH. reflexivity.
  Qed.
  Lemma re_sort_merge (l : list (segment C)) : sort_merge (map rs l) = map rs (sort_merge l).
  Proof.
    unfold sort_merge, sort_segments. rewrite (isort_map rs _ seg_leb) by reflexivity. destruct (isort seg_leb l); auto. apply re_merge_scan.
  Qed.
  Lemma re_sx (l : list (segment C)) : map sx (map rs l) = map sx l.
  Proof. rewrite map_map. reflexivity. Qed.
  Lemma re_chop c l b : forall p, chop (f c) p l b = map rs (chop c p l b).
  Proof.
    assert (E : forall p q, create_and_validate p q (f c) = rs (create_and_validate p q c)).
    { intros p q. unfold create_and_validate. destruct (pt_ltb p q); auto. rewrite F_inv. reflexivity. }
    induction l as [|q l IH]; intro p; cbn [chop map]; rewrite E; auto. rewrite IH. reflexivity.
  Qed.
  Lemma re_pieces (segs : list (segment C)) l : split_pieces (map rs segs) l = map rs (split_pieces segs l).
  Proof.
    unfold split_pieces, all_pieces. rewrite re_sx, (enum_map rs).
    set (gs := sort_and_filter_marks (map sx segs) l). generalize (enum segs). induction l0 as [|[i s] r IH]; auto.
    cbn [map flat_map fst snd]. rewrite IH, map_app. f_equal. destruct (lookup gs i); auto. cbn [pieces sc sx]. apply re_chop.
  Qed.
  Variables (lay1 lay2 : Z -> Z -> nat -> option (Z -> nat)) (q1 q2 : list (nat * xseg) -> Z * Z -> Z -> list (nat * xseg)) (t1 t2 : Z * Z -> bool).
  Hypothesis Lay1 : layout_ok lay1.
  Hypothesis Lay2 : layout_ok lay2.
  Lemma re_list_loop p : forall fuel r (segs : list (segment C)), inv segs -> inv (map rs segs) ->
    split_loop lay2 q2 t2 fuel (list_solver p) false r (map rs segs) = map_out rs (split_loop lay1 q1 t1 fuel (list_solver p) false r segs).
  Proof.
    induction fuel as [|fuel IH]; intros r segs I1 I2; auto. cbn [split_loop]. rewrite map_length.
    destruct (length segs <=? 1)%nat; auto.
    pose proof (list_pass_spec (sr_radius r) (sr_radius_pos r) (map sx segs) (inv_wf_sorted _ I1)) as [P1 _].
    rewrite re_sx.
    destruct (list_pass (sr_radius r) (map sx segs)) as [k rd] eqn:EP. cbn [fst snd] in *.
    destruct k as [|k0 kr] eqn:EK; auto. rewrite <- EK in *.
    assert (NE : k <> []) by (rewrite EK; discriminate).
    pose proof (step_inv segs I1 _ (sr_radius_pos r) k P1) as J1.
    assert (P2 := P1). rewrite <- re_sx in P2.
    pose proof (step_inv (map rs segs) I2 _ (sr_radius_pos r) _ P2) as J2.
    rewrite (step_apply lay1 Lay1 segs I1 _ (sr_radius_pos r) k P1 NE).
    rewrite (step_apply lay2 Lay2 (map rs segs) I2 _ (sr_radius_pos r) _ P2 NE).
    rewrite re_pieces, re_sort_merge in *.
    destruct (negb rd); auto. cbn [is_list_split list_solver strategy]. apply IH; auto.
  Qed.
End Relabel.

(** ** Only the filled side of a link matters *)
Section Side.
  (** the link with nothing but its filled side *)
  Definition side (r : OverlayRule) (l : link) : link := Lk (l_aid l) (l_a l) (l_bid l) (l_b l) (if is_fill_top r (l_fill l) then SUBJ_TOP else NONE).
  Definition sideg (r : OverlayRule) (g : graph) : graph := Graph (g_nodes g) (map (side r) (g_links g)).
  Variable r : OverlayRule.
  Notation sd := (side r).

  Lemma sd_top l : is_fill_top RSubject (l_fill (sd l)) = is_fill_top r (l_fill l).
  Proof. unfold side. cbn [l_fill]. destruct (is_fill_top r (l_fill l)); reflexivity. Qed.
  Lemma sd_upds (f : link -> link) g : (forall x, f (sd x) = sd (f x)) -> forall l,
    fold_left (fun ls i => upd i f ls) g (map sd l) = map sd (fold_left (fun ls i => upd i f ls) g l).
  Proof. intro H. induction g as [|i g IH]; intro l; auto. cbn [fold_left]. rewrite (upd_map sd f f) by auto. apply IH. Qed.
  Lemma sd_build_loop : forall fuel a b la lb links nodes,
    build_loop fuel a b la lb (map sd links) nodes = option_map (fun x => (fst x, map sd (snd x))) (build_loop fuel a b la lb links nodes).
  Proof.
    induction fuel as [|fuel IH]; intros a b la lb links nodes; auto.
    assert (E : (la = [] /\ lb = []) \/ forall (X : Type) (x y : X), (match la, lb with [], [] => x | _, _ => y end) = y).
    { destruct la, lb; [left; auto|right; auto..]. }
    destruct E as [[-> ->]|E]; [reflexivity|]. cbn [build_loop]. rewrite !E. clear E.
    match goal with |- context [if pt_eqb a b then ?x else ?y] => destruct (if pt_eqb a b then x else y) as [ta tb] end.
    destruct (if ta then head_run a la else ([], la)) as [ga la']. destruct (if tb then head_run b lb else ([], lb)) as [gb lb'].
    rewrite !sd_upds by reflexivity. apply IH.
  Qed.
  Lemma sd_graph links ends : graph_new (map sd links) ends = option_map (sideg r) (graph_new links ends).
  Proof.
    unfold graph_new. destruct links as [|l0 ls]; auto.
    assert (B : forall l0 ls ends, build_graph (l0 :: ls) ends =
      build_loop (S (length (enum (map l_a (l0 :: ls))) + length ends)) (l_a l0) (head_point ends (l_b l0)) (enum (map l_a (l0 :: ls))) ends (l0 :: ls) []) by reflexivity.
    change (map sd (l0 :: ls)) with (sd l0 :: map sd ls). rewrite !B. change (sd l0 :: map sd ls) with (map sd (l0 :: ls)).
    replace (map l_a (map sd (l0 :: ls))) with (map l_a (l0 :: ls)) by (rewrite map_map; reflexivity).
    change (l_a (sd l0)) with (l_a l0). change (l_b (sd l0)) with (l_b l0).
    rewrite sd_build_loop. destruct (build_loop _ _ _ _ _ _ _) as [[n k]|]; reflexivity.
  Qed.

  Variable g : graph.
  Notation g' := (sideg r g).
  Lemma sdg_link i : nth_error (g_links g') i = option_map sd (nth_error (g_links g) i).
  Proof. cbn [sideg g_links]. apply nth_error_map. Qed.
  Lemma sd_nearest k ids : forall n, nearest_loop g' k ids n = nearest_loop g k ids n.
  Proof.
    induction ids as [|i ids IH]; intro n; auto. cbn [nearest_loop]. rewrite sdg_link. destruct (nth_error (g_links g) i); auto.
    cbn [option_map]. rewrite IH. reflexivity.
  Qed.
  Lemma sd_next i k cw n vis : next_link g' i k cw n vis = next_link g i k cw n vis.
  Proof.
    destruct n; auto. cbn [next_link]. unfold find_nearest_link_to. destruct (filter _ l) as [|x [|s q]]; auto. rewrite !sdg_link.
    destruct (nth_error (g_links g) i) as [lt|]; auto. destruct (nth_error (g_links g) x) as [lf|]; auto. cbn [option_map].
    change (l_aid (sd lt)) with (l_aid lt). destruct (l_aid lt =? k)%nat; rewrite sd_nearest; reflexivity.
  Qed.
  Lemma sd_walk cw : forall fuel i k last vis, walk g' fuel cw i k last vis = walk g fuel cw i k last vis.
  Proof.
    induction fuel as [|fuel IH]; intros i k last vis; cbn [walk]; destruct (k =? last)%nat; auto.
    change (g_nodes g') with (g_nodes g). destruct (nth_error (g_nodes g) k) as [n|]; auto.
    rewrite sd_next. destruct (next_link g i k cw n vis) as [j|]; auto. rewrite sdg_link. destruct (nth_error (g_links g) j) as [l|]; auto.
    cbn [option_map side l_aid l_bid l_a l_b]. destruct (l_aid l =? k)%nat; rewrite IH; reflexivity.
  Qed.
  Lemma sd_left_loop k ids vis : forall i l, left_top_loop g' k ids i (sd l) vis = left_top_loop g k ids i l vis.
  Proof.
    induction ids as [|j ids IH]; intros i l; auto. cbn [left_top_loop]. rewrite sdg_link, IH. destruct (j =? k)%nat; auto.
    destruct (nth_error (g_links g) j) as [t|]; auto. cbn [option_map]. rewrite IH. reflexivity.
  Qed.
  Lemma sd_left_top k vis : find_left_top_link g' k vis = find_left_top_link g k vis.
  Proof.
    unfold find_left_top_link. rewrite sdg_link. destruct (nth_error (g_links g) k) as [t|]; auto. cbn [option_map].
    change (g_nodes g') with (g_nodes g). change (l_aid (sd t)) with (l_aid t). destruct (nth_error (g_nodes g) (l_aid t)) as [[i j|l]|]; auto.
    - unfold left_top_bridge. rewrite !sdg_link. destruct (nth_error (g_links g) i) as [x|]; auto. destruct (nth_error (g_links g) j) as [y|]; auto.
    - apply sd_left_loop.
  Qed.
  Variable clean : bool -> list pt -> list pt * bool.
  Lemma sd_extract cw simplify a : forall fuel k vis, extract_loop g' clean fuel RSubject cw simplify a k vis = extract_loop g clean fuel r cw simplify a k vis.
  Proof.
    induction fuel as [|fuel IH]; intros k vis; cbn [extract_loop]; destruct (length vis <=? k)%nat; auto.
    destruct (is_visited vis k); auto. rewrite sd_left_top. destruct (find_left_top_link g k vis) as [lt|]; auto.
    rewrite sdg_link. destruct (nth_error (g_links g) lt) as [l|]; auto. cbn [option_map]. rewrite sd_top.
    assert (E : forall d cw, get_contour g' (length vis) (start_path d (sd l) lt) cw vis = get_contour g (length vis) (start_path d l lt) cw vis).
    { intros d cw'. unfold get_contour, start_path. cbn [side l_aid l_bid l_a l_b]. destruct d; cbn [sd_link sd_node sd_last sd_begin]; rewrite sd_walk; reflexivity. }
    rewrite E. destruct (get_contour g _ _ _ _) as [[[raw u] vis']|]; auto.
    destruct (clean simplify raw) as [c md]. rewrite !IH. reflexivity.
  Qed.
  Theorem sd_shapes dbg cw simplify a vis : extract_shapes dbg g' clean RSubject cw simplify a vis = extract_shapes dbg g clean r cw simplify a vis.
  Proof. unfold extract_shapes, extract_pieces. rewrite sd_extract. reflexivity. Qed.
End Side.
