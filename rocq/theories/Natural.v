(** * Splitting commutes with changing the counts: if a map of counts respects addition,
    inversion and the test for zero, splitting the mapped segments gives the mapped result. *)
From Verif Require Import Base Spec ModelSegm ModelFill ModelCross ModelSplit ModelFrag.
Open Scope Z_scope.

Section Natural.
  Context {C D : Type} {WC : WindingCount C} {WD : WindingCount D}.
  Variable phi : C -> D.
  Hypothesis phi_add : forall a b, phi (wc_add a b) = wc_add (phi a) (phi b).
  Hypothesis phi_inv : forall a, phi (wc_invert a) = wc_invert (phi a).
  Hypothesis phi_ne : forall a, wc_not_empty (phi a) = wc_not_empty a.

  Definition smap (s : segment C) : segment D := Seg (sx s) (phi (sc s)).
  Notation M := (map smap).

  Lemma map_sx_smap l : map sx (M l) = map sx l.
  Proof. rewrite map_map. apply map_ext. reflexivity. Qed.
  Lemma insert_map_smap x l : insert seg_leb (smap x) (M l) = M (insert seg_leb x l).
  Proof. induction l as [|y l IH]; simpl; auto. unfold seg_leb at 1 3. cbn [smap sx]. destruct (xseg_leb (sx x) (sx y)); simpl; congruence. Qed.
  Lemma sort_smap l : isort seg_leb (M l) = M (isort seg_leb l).
  Proof. induction l as [|x l IH]; simpl; auto. rewrite IH. apply insert_map_smap. Qed.
  Lemma merge_from_smap r : forall p, merge_from (smap p) (M r) = M (merge_from p r).
  Proof.
    induction r as [|s r IH]; intro p; simpl.
    - rewrite phi_ne. destruct (wc_not_empty (sc p)); auto.
    - destruct (xseg_eqb (sx p) (sx s)).
      + rewrite <- phi_add. apply (IH (Seg (sx p) (wc_add (sc p) (sc s)))).
      + rewrite phi_ne. destruct (wc_not_empty (sc p)); rewrite IH; auto.
  Qed.
  Lemma merge_scan_smap r : forall p, merge_scan (smap p) (M r) = M (merge_scan p r).
  Proof.
    induction r as [|s r IH]; intro p; [reflexivity|]. cbn [map merge_scan]. change (xseg_eqb (sx (smap p)) (sx (smap s))) with (xseg_eqb (sx p) (sx s)).
    destruct (xseg_eqb (sx p) (sx s)); [apply (merge_from_smap (s :: r))|]. rewrite IH. reflexivity.
  Qed.
  Lemma merge_smap l : merge_if_needed (M l) = M (merge_if_needed l).
  Proof. destruct l; [reflexivity|apply merge_scan_smap]. Qed.
  Lemma sort_merge_smap l : sort_merge (M l) = M (sort_merge l).
  Proof. unfold sort_merge, sort_segments. rewrite sort_smap. apply merge_smap. Qed.

  Lemma cav_smap a b c : create_and_validate a b (phi c) = smap (create_and_validate a b c).
  Proof. unfold create_and_validate, smap. destruct (pt_ltb a b); simpl; auto. rewrite phi_inv. auto. Qed.
  Lemma chop_smap c ms b : forall p, chop (phi c) p ms b = M (chop c p ms b).
  Proof. induction ms as [|m r IH]; intro p; simpl; rewrite cav_smap; auto. rewrite IH. auto. Qed.
  Lemma set_nth_map {X Y} (f : X -> Y) x l : forall i, set_nth i (f x) (map f l) = map f (set_nth i x l).
  Proof. induction l as [|y l IH]; intros [|i]; simpl; auto. rewrite IH. auto. Qed.
  Lemma split_edge_smap g l : split_edge (M l) g = M (split_edge l g).
  Proof.
    unfold split_edge. rewrite nth_error_map. destruct (nth_error l (fst g)) as [s|]; simpl; auto.
    rewrite chop_smap. destruct (chop (sc s) _ _ _) as [|e r]; simpl; auto. rewrite set_nth_map, map_app. auto.
  Qed.
  Lemma one_bin_smap gs l : one_bin_merge gs (M l) = M (one_bin_merge gs l).
  Proof.
    unfold one_bin_merge, sort_segments. rewrite <- merge_smap, <- sort_smap. f_equal. f_equal.
    revert l. induction gs as [|g gs IH]; intro l; simpl; auto. rewrite split_edge_smap. apply IH.
  Qed.
  Lemma emit_smap l : forall gs, emit (map (fun ix => (fst ix, smap (snd ix))) l) gs = M (emit l gs).
  Proof.
    induction l as [|[i s] l IH]; intro gs; [reflexivity|]. cbn [map emit fst snd]. destruct gs as [|[k ps] gs].
    - cbn [map]. rewrite IH. auto.
    - destruct (i =? k)%nat; cbn [map]; [|rewrite IH; auto]. rewrite map_app, IH, <- chop_smap. auto.
  Qed.
  Lemma enum_map {X Y} (f : X -> Y) l : enum (map f l) = map (fun ix => (fst ix, f (snd ix))) (enum l).
  Proof.
    unfold enum. rewrite map_length. generalize O. induction l as [|x l IH]; intro k; simpl; auto. rewrite IH. auto.
  Qed.
  Lemma counts_smap index k l : bin_counts index k (M l) = bin_counts index k l.
  Proof. unfold bin_counts. generalize (repeat O k). induction l as [|s l IH]; intro b; simpl; auto. Qed.
  Notation OM := (map (option_map smap)).
  Lemma bin_write_smap index l : forall st,
    fold_left (bin_write index) (M l) (option_map (fun bb => (OM (fst bb), snd bb)) st) =
    option_map (fun bb => (OM (fst bb), snd bb)) (fold_left (bin_write index) l st).
  Proof.
    induction l as [|s l IH]; intro st; [reflexivity|]. cbn [map fold_left]. rewrite <- IH. f_equal.
    destruct st as [[buf bins]|]; [|reflexivity]. cbn [option_map fst snd bin_write]. change (sx (smap s)) with (sx s).
    destruct (nth_error bins _) as [[off data]|]; auto. rewrite nth_error_map. destruct (nth_error buf data) as [[t|]|]; auto.
    cbn [option_map fst snd]. change (Some (smap s)) with (option_map smap (Some s)). rewrite set_nth_map. auto.
  Qed.
  Lemma written_smap buf : all_written (OM buf) = option_map M (all_written buf).
  Proof. induction buf as [|[s|] buf IH]; simpl; auto. rewrite IH. destruct (all_written buf); auto. Qed.
  Lemma sort_range_smap buf r : sort_range (M buf) r = M (sort_range buf r).
  Proof. destruct r as [lo hi]. unfold sort_range. rewrite !map_app, firstn_map, skipn_map, firstn_map, skipn_map, sort_smap. auto. Qed.
  Lemma sort_ranges_smap rs : forall buf, fold_left sort_range rs (M buf) = M (fold_left sort_range rs buf).
  Proof. induction rs as [|r rs IH]; intro buf; simpl; auto. rewrite sort_range_smap. apply IH. Qed.
  Lemma bins_smap index n k gs l : bins_merge index n k gs (M l) = option_map M (bins_merge index n k gs l).
  Proof.
    unfold bins_merge. rewrite enum_map, emit_smap. rewrite counts_smap.
    match goal with |- context [fold_left (bin_write index) (M ?l) (Some (_, ?b))] => pose proof (bin_write_smap index l (Some (repeat None n, b))) as E end.
    cbn [option_map fst snd] in E. assert (R : OM (repeat None n) = repeat None n) by (clear; induction n; simpl; congruence). rewrite R in E. rewrite E. clear E.
    destruct (fold_left (bin_write index) _ _) as [[buf bins]|]; auto. cbn [option_map fst snd]. rewrite written_smap.
    destruct (all_written buf); auto. cbn [option_map]. rewrite sort_ranges_smap, merge_smap. auto.
  Qed.

  Variable layout_new : Z -> Z -> nat -> option (Z -> nat).
  Lemma apply_smap ms l : apply layout_new ms (M l) = option_map M (apply layout_new ms l).
  Proof.
    destruct l as [|s0 rest]; [reflexivity|]. destruct ms as [|m ms]; [reflexivity|].
    assert (E : forall z, fold_left (fun m (s : segment D) => Z.max m (px (sb (sx s)))) (M rest) z = fold_left (fun m (s : segment C) => Z.max m (px (sb (sx s)))) rest z).
    { induction rest as [|s r IH]; intro z; simpl; auto. }
    unfold apply. rewrite map_sx_smap, map_length. cbn [map]. rewrite E. change (sx (smap s0)) with (sx s0). cbv zeta.
    destruct (_ <=? 16)%nat; [cbn [option_map]; f_equal; exact (one_bin_smap _ (s0 :: rest))|]. destruct (layout_new _ _ _) as [index|]; [|cbn [option_map]; f_equal; exact (one_bin_smap _ (s0 :: rest))].
    exact (bins_smap index _ _ _ (s0 :: rest)).
  Qed.

  Variable query : list (nat * xseg) -> Z * Z -> Z -> list (nat * xseg).
  Variable tree_new : Z * Z -> bool.
  Definition omap (o : @outcome C) : @outcome D := match o with Done l => Done (M l) | Panic => Panic | Fuel => Fuel end.

  Lemma ver_range_smap l : ver_range (M l) = ver_range l.
  Proof.
    destruct l as [|s0 l]; [reflexivity|]. unfold ver_range. cbn [map fold_left]. change (sx (smap s0)) with (sx s0).
    match goal with |- fold_left _ _ ?z = fold_left _ _ ?z => generalize z end. induction l as [|s l IH]; intro z; simpl; auto.
  Qed.
  Lemma loop_smap solver : forall fuel tree r l, split_loop layout_new query tree_new fuel solver tree r (M l) = omap (split_loop layout_new query tree_new fuel solver tree r l).
  Proof.
    induction fuel as [|fuel IH]; intros tree r l; [reflexivity|]. cbn [split_loop]. rewrite map_length, map_sx_smap.
    destruct (length l <=? _)%nat; [reflexivity|]. destruct ((if tree then tree_pass query else list_pass) _ _) as [ms need]. destruct ms as [|m ms]; [reflexivity|].
    rewrite apply_smap. destruct (apply layout_new (m :: ms) l) as [l'|]; [|reflexivity]. cbn [option_map]. rewrite map_length.
    destruct need; cbn [negb]; [|reflexivity]. destruct tree; [apply IH|]. destruct (is_list_split _ _); [apply IH|].
    destruct l' as [|s l']; [reflexivity|]. cbn [map]. rewrite <- IH. pose proof (ver_range_smap (s :: l')) as E. cbn [map] in E. rewrite E. reflexivity.
  Qed.
  Lemma frag_loop_smap : forall fuel g r l, frag_loop layout_new fuel g r (M l) = omap (frag_loop layout_new fuel g r l).
  Proof.
    induction fuel as [|fuel IH]; intros g r l; [reflexivity|]. cbn [frag_loop]. rewrite map_length, map_sx_smap.
    destruct (length l <=? _)%nat; [reflexivity|]. destruct (frag_pass _ _ _) as [ms need]. destruct ms as [|m ms]; [reflexivity|].
    rewrite apply_smap. destruct (apply layout_new (m :: ms) l) as [l'|]; [|reflexivity]. cbn [option_map]. destruct need; cbn [negb]; [apply IH|reflexivity].
  Qed.
  Lemma tree_split_smap fuel solver r l : tree_split layout_new query tree_new fuel solver r (M l) = omap (tree_split layout_new query tree_new fuel solver r l).
  Proof.
    unfold tree_split. rewrite ver_range_smap, loop_smap. destruct l; reflexivity.
  Qed.
  Theorem split_smap fuel solver l : split_segments layout_new query tree_new fuel solver (M l) = omap (split_segments layout_new query tree_new fuel solver l).
  Proof.
    unfold split_segments, solver_split. rewrite sort_merge_smap, map_length, loop_smap, tree_split_smap.
    destruct (is_list_split _ _); auto. destruct (is_fragmentation_required _ _); auto. unfold fragment_split. rewrite map_sx_smap, map_length.
    destruct (grid_new _ _); [apply frag_loop_smap|apply tree_split_smap].
  Qed.
End Natural.
