(** * Property theorems, part 26: other ways to give the same input (C56). *)
From Verif Require Import Base Spec QLib ModelSegm SegmProofs MergeProofs PlanarGeo PlanarSum ModelFill ModelFilter FillProofs FillCorrect
  ModelCross CrossProofs CrossPoint MarksProofs CoreResults Properties01 ModelSplit SplitProofs SplitPlanar SplitPass BinsProofs SplitApply SplitLoop
  ModelFrag ModelOverlay OverlayProofs FragProofs GridCover Properties02
  ModelGraph GraphProofs ModelExtract ExtractProofs ContourResults Rotation NextLink Properties03
  MoveLemma SectorLemma Sides WalkSides Orient Properties04 ModelBind BindProofs BindSweep Nest Properties05 SplitNear InputCover Properties15 ModelFloat OverlayNear
  Shift ShiftShapes Order Properties25 Relabel Drawn Fewer Apart.
From Coq Require Import Permutation.
Open Scope Z_scope.

(** ** Specification *)
(** subject and clip exchanged; the operation that has to be asked for instead *)
Definition other (t : ShapeType) : ShapeType := match t with Subject => Clip | Clip => Subject end.
Definition exchange (adds : input) : input := map (fun a => (fst a, other (snd a))) adds.
Definition exchange_rule (r : OverlayRule) : OverlayRule :=
  match r with RSubject => RClip | RClip => RSubject | RDifference => RInverseDifference | RInverseDifference => RDifference | x => x end.
(** the fill rule for contours of the opposite direction *)
Definition opposite_rule (fr : FillRule) : FillRule := match fr with Positive => Negative | Negative => Positive | x => x end.
(** two inputs that draw the same contours: in another order, from other starting points, with other extra points on the edges *)
Definition same_contour (a a' : list pt * ShapeType) : Prop :=
  snd a = snd a' /\ (fst a = fst a' \/ exists corners, draws corners (fst a) /\ draws corners (fst a')).
Definition same_drawing (adds adds' : input) : Prop := exists l, Permutation adds l /\ Forall2 same_contour l adds'.
(** the same, all contours drawn in the opposite direction *)
Definition reversed_contour (a a' : list pt * ShapeType) : Prop :=
  snd a = snd a' /\ exists corners, draws corners (fst a) /\ draws (rev corners) (fst a').
Definition reversed_drawing (adds adds' : input) : Prop := exists l, Permutation adds l /\ Forall2 reversed_contour l adds'.

(** ** Inputs and their edges *)
Lemma same_segments adds adds' : same_drawing adds adds' -> Permutation (input_segments adds) (input_segments adds').
Proof.
  intros (l & P & F). eapply Permutation_trans; [apply Permutation_flat_map; exact P|]. clear P. unfold input_segments.
  induction F as [|[p t] [p' t'] l l' [E D] F IH]; auto. cbn [flat_map fst snd] in *. subst t'. apply Permutation_app; auto.
  destruct D as [->|(c & D1 & D2)]; auto. eapply Permutation_trans; [apply append_draws; exact D1|]. apply Permutation_sym, append_draws; auto.
Qed.
Lemma with_ab_swap a b t : a <> b -> with_ab b a (fst (wc_with_shape t)) (snd (wc_with_shape t)) =
  let s := with_ab a b (fst (wc_with_shape t)) (snd (wc_with_shape t)) in Seg (sx s) (wc_invert (sc s)) :> segment cntB.
Proof.
  intro N. unfold with_ab. destruct (pt_ltb a b) eqn:E1; destruct (pt_ltb b a) eqn:E2; cbn [sx sc].
  - apply pt_ltb_lt in E1, E2. exfalso. eapply pt_lt_irrefl, pt_lt_trans; eauto.
  - destruct t; reflexivity.
  - destruct t; reflexivity.
  - exfalso. apply N. destruct (pt_total a b) as [[H|H]|H]; auto; apply pt_ltb_lt in H; congruence.
Qed.
Lemma reversed_segments adds adds' : reversed_drawing adds adds' -> Permutation (map_cnt wc_invert (input_segments adds)) (input_segments adds').
Proof.
  intros (l & P & F). eapply Permutation_trans; [apply Permutation_map, Permutation_flat_map; exact P|]. clear P.
  induction F as [|[p t] [p' t'] l l' [E D] F IH]; auto. unfold input_segments in *. cbn [flat_map fst snd] in *. subst t'. rewrite map_app. apply Permutation_app; auto.
  destruct D as (c & D1 & D2). pose proof (append_draws (C := cntB) c p t D1) as A1. pose proof (append_draws (C := cntB) (rev c) p' t D2) as A2.
  apply Permutation_sym. eapply Permutation_trans; [exact A2|]. apply Permutation_sym. eapply Permutation_trans; [apply Permutation_map; exact A1|].
  eapply Permutation_trans; [|apply Permutation_map, Permutation_sym, edges_rev].
  rewrite !map_map. erewrite map_ext_in; [apply Permutation_refl|]. intros [a b] I. unfold swap. cbn [fst snd]. symmetry. apply with_ab_swap.
  intros ->. pose proof (append_path_wf (C := cntB) p t) as W. rewrite Forall_forall in W.
  specialize (W _ (Permutation_in _ (Permutation_sym A1) (in_map _ _ _ I))). cbn [fst snd] in W. unfold with_ab in W. destruct (pt_ltb b b); apply pt_lt_irrefl in W; auto.
Qed.
Lemma exchange_segments adds : input_segments (exchange adds) = map_cnt swap_cnt (input_segments adds).
Proof.
  unfold input_segments, exchange. induction adds as [|[p t] adds IH]; auto. cbn [map flat_map fst snd]. unfold map_cnt in *. rewrite map_app, <- IH. f_equal. clear.
  assert (W : forall a b, with_ab a b (fst (wc_with_shape (other t))) (snd (wc_with_shape (other t))) =
    (fun s : segment cntB => Seg (sx s) (swap_cnt (sc s))) (with_ab a b (fst (wc_with_shape t)) (snd (wc_with_shape t)))).
  { intros a b. unfold with_ab. destruct (pt_ltb a b); destruct t; reflexivity. }
  destruct p as [|p0 [|p1 it]]; auto. cbn [append_path]. destruct (append_skip p0 p1 it) as [[e0 e1] rest].
  destruct (wc_with_shape t) as [d i]. destruct (wc_with_shape (other t)) as [d' i']. cbn [fst snd] in W.
  assert (Lo : forall rest e0 e1, append_loop e0 e1 rest d' i' = let '(o, f0, f1) := append_loop e0 e1 rest d i in (map (fun s : segment cntB => Seg (sx s) (swap_cnt (sc s))) o, f0, f1)).
  { clear - W. induction rest as [|x rest IH]; intros e0 e1; auto. cbn [append_loop]. rewrite !IH. destruct (is_line_point e0 e1 x); auto.
    destruct (append_loop e1 x rest d i) as [[o f0] f1]. rewrite W. reflexivity. }
  rewrite Lo. destruct (append_loop e0 e1 rest d i) as [[o f0] f1]. rewrite map_app. f_equal. unfold append_close. rewrite !W.
  destruct (is_line_point f0 f1 p0), (is_line_point p0 e0 f1); try reflexivity; [destruct (pt_eqb f0 e0)|destruct (pt_eqb f0 p0)|destruct (pt_eqb f1 e0)]; reflexivity.
Qed.

Section Two.
  Variables layout1 layout2 : Z -> Z -> nat -> option (Z -> nat).
  Hypothesis Lay1 : layout_ok layout1.
  Hypothesis Lay2 : layout_ok layout2.
  Variables query1 query2 : list (nat * xseg) -> Z * Z -> Z -> list (nat * xseg).
  Hypothesis Qry1 : query_ok query1.
  Hypothesis Qry2 : query_ok query2.
  Variables tree1 tree2 : Z * Z -> bool.
  Variables sort1 sort2 : list link -> list (nat * pt).
  Hypothesis Sort1 : forall ls, ends_ok ls (sort1 ls).
  Hypothesis Sort2 : forall ls, ends_ok ls (sort2 ls).
  Variable clean : bool -> list pt -> list pt * bool.
  Hypothesis Clean : clean_ok clean.
  Variables (fuel : nat) (dbg : bool).
  Notation merged adds := (sort_merge (input_segments adds)).
  Notation links1 solver r fr adds := (overlay_links layout1 query1 tree1 fuel solver r fr (input_segments adds)).
  Notation links2 solver r fr adds := (overlay_links layout2 query2 tree2 fuel solver r fr (input_segments adds)).
  Notation answer1 := (overlay_custom layout1 query1 tree1 sort1 clean fuel dbg).
  Notation answer2 := (overlay_custom layout2 query2 tree2 sort2 clean fuel dbg).

  (** an answer depends on the result links only through their ends and their filled sides *)
  Lemma side_answers segs1 segs2 fr1 fr2 r1 r2 clockwise simplify min_area : arrangement segs1 -> area_ok min_area (result_links fr1 r1 segs1) ->
    map (side r1) (result_links fr1 r1 segs1) = map (side r2) (result_links fr2 r2 segs2) ->
    let ls1 := result_links fr1 r1 segs1 in let ls2 := result_links fr2 r2 segs2 in
    fbind (fopt (graph_new ls2 (sort2 ls2))) (fun g => fopt (extract_shapes dbg g clean r2 clockwise simplify min_area (repeat false (length ls2)))) =
    fbind (fopt (graph_new ls1 (sort1 ls1))) (fun g => fopt (extract_shapes dbg g clean r1 clockwise simplify min_area (repeat false (length ls1)))).
  Proof.
    intros A Ar E ls1 ls2. fold ls1 in E. fold ls2 in E.
    assert (Len : length ls2 = length ls1) by (rewrite <- (map_length (side r1) ls1), E, map_length; auto).
    assert (Eb : map l_b ls2 = map l_b ls1).
    { transitivity (map l_b (map (side r2) ls2)); [rewrite map_map; reflexivity|]. rewrite <- E, map_map. reflexivity. }
    assert (O2 : ends_ok ls1 (sort2 ls2)) by (destruct (Sort2 ls2) as [P S]; split; auto; rewrite <- Eb; auto).
    destruct (order_shapes segs1 fr1 r1 (is_included r1) (sort1 ls1) (sort2 ls2) dbg clean clockwise simplify min_area A Clean Ar) as (g1 & g2 & H1 & H2 & X); auto.
    { fold (result_links fr1 r1 segs1). assert (Al : forall l, In l (result_links fr1 r1 segs1) -> is_included r1 (l_fill l) = true).
      { intros l I. apply blinks_in in I as (s & f & _ & If & ->). exact If. }
      revert Al. generalize (result_links fr1 r1 segs1). induction l as [|x l IH]; intro Al; auto. cbn [filter]. rewrite (Al x) by (left; auto). f_equal. apply IH. intros; apply Al; right; auto. }
    fold (result_links fr1 r1 segs1) in H1, H2, X. fold ls1 in H1, H2, X.
    assert (Ff : flags (fun l => is_included r1 (l_fill l)) ls1 = repeat false (length ls1)).
    { rewrite <- flags_all. unfold flags. apply map_ext_in. intros l I.
      assert (is_included r1 (l_fill l) = true) as -> by (apply blinks_in in I as (s & f & _ & If & ->); exact If). auto. }
    rewrite Ff in X. rewrite H1. cbn [fopt fbind]. rewrite <- X, Len.
    pose proof (sd_graph r1 ls1 (sort2 ls2)) as S1. pose proof (sd_graph r2 ls2 (sort2 ls2)) as S2. rewrite E in S1. rewrite S1, H2 in S2. cbn [option_map] in S2.
    destruct (graph_new ls2 (sort2 ls2)) as [g|]; [|discriminate]. cbn [option_map] in S2. injection S2 as Sn Sl. cbn [fopt fbind].
    rewrite <- (sd_shapes r2 g clean), <- (sd_shapes r1 g2 clean). unfold sideg. rewrite Sn, Sl. reflexivity.
  Qed.

  (** both inputs have the same edges, with counts changed by [f] *)
  Section Counts.
    Variable f : cntB -> cntB.
    Hypothesis F_ne : forall c, wc_not_empty (f c) = wc_not_empty c.
    Hypothesis F_add : forall a b, wc_add (f a) (f b) = f (wc_add a b).
    Hypothesis F_inv : forall c, wc_invert (f c) = f (wc_invert c).
    Lemma merged_counts adds adds' : Permutation (map_cnt f (input_segments adds)) (input_segments adds') -> merged adds' = map_cnt f (merged adds).
    Proof.
      intro P. rewrite <- (@sort_merge_perm cntB _ WCL_B _ _ P).
      - apply (re_sort_merge f F_ne F_add).
      - apply Forall_map. eapply Forall_impl; [|apply input_nonempty]. intros s H. cbv beta in *. cbn [sc]. rewrite F_ne. exact H.
    Qed.
    Lemma split_counts adds adds' s1 s2 : Permutation (map_cnt f (input_segments adds)) (input_segments adds') ->
      bounded_input adds -> bounded_input adds' -> precision s1 = precision s2 ->
      no_grid s1 (length (merged adds)) -> no_grid s2 (length (merged adds)) ->
      split_segments layout1 query1 tree1 fuel s1 (input_segments adds) <> Panic ->
      split_segments layout2 query2 tree2 fuel s2 (input_segments adds') <> Panic ->
      split_segments layout2 query2 tree2 fuel s2 (input_segments adds') =
        map_out (fun s => Seg (sx s) (f (sc s))) (split_segments layout1 query1 tree1 fuel s1 (input_segments adds)).
    Proof.
      intros Pm B1 B2 EP N1 N2 P1 P2.
      destruct (merged_balanced adds) as [BS1 BC1]. destruct (merged_balanced adds') as [BS2 BC2].
      pose proof (input_inv _ B1) as I1. pose proof (input_inv _ B2) as I2.
      pose proof (merged_counts _ _ Pm) as E.
      assert (N2' : no_grid s2 (length (merged adds'))) by (rewrite E; unfold map_cnt; rewrite map_length; auto).
      destruct (split_is_loop layout1 query1 tree1 fuel s1 (input_segments adds) N1) as [(_ & _ & E1)|(t1 & E1 & _)]; [congruence|].
      destruct (split_is_loop layout2 query2 tree2 fuel s2 (input_segments adds') N2') as [(_ & _ & E2)|(t2 & E2 & _)]; [congruence|].
      rewrite E1, E2 in *.
      rewrite (loop_strategy layout1 Lay1 query1 Qry1 tree1 s1 (precision s1)) by auto.
      rewrite (loop_strategy layout2 Lay2 query2 Qry2 tree2 s2 (precision s1)) by auto.
      unfold snap_radius. rewrite EP, E. apply (@re_list_loop cntB _ WCL_B f F_ne F_add F_inv); auto. rewrite <- E at 1. exact I2.
    Qed.

    Theorem counts_answers adds adds' s1 s2 r1 r2 fr1 fr2 clockwise simplify min_area : Permutation (map_cnt f (input_segments adds)) (input_segments adds') ->
      (forall segs, arrangement segs -> map (side r1) (result_links fr1 r1 segs) = map (side r2) (result_links fr2 r2 (map_cnt f segs))) ->
      bounded_input adds -> bounded_input adds' -> precision s1 = precision s2 ->
      no_grid s1 (length (merged adds)) -> no_grid s2 (length (merged adds)) ->
      links1 s1 r1 fr1 adds <> RPanic -> links2 s2 r2 fr2 adds' <> RPanic ->
      (forall ls, links1 s1 r1 fr1 adds = ROk ls -> area_ok min_area ls) ->
      answer2 adds' r2 fr2 clockwise simplify min_area s2 = answer1 adds r1 fr1 clockwise simplify min_area s1.
    Proof.
      intros Pm Sd B1 B2 EP N1 N2 P1 P2 Ar. unfold overlay_custom.
      destruct (input_segments adds) as [|s0 l0] eqn:E0.
      { apply Permutation_nil in Pm. rewrite Pm. cbn [overlay_links build_boolean fbind]. apply (side_answers [] [] fr1 fr2 r1 r2 clockwise simplify min_area); [|right; intros ? ? ? ? []|reflexivity].
        constructor; try (intros ? []; fail); try (intro v; reflexivity); [constructor|intros ? ? []|constructor]. }
      rewrite <- E0 in *. assert (NE1 : input_segments adds <> []) by congruence.
      assert (NE2 : input_segments adds' <> []) by (intro X; rewrite X, E0 in Pm; apply Permutation_sym, Permutation_nil in Pm; discriminate).
      pose proof (split_counts adds adds' s1 s2 Pm B1 B2 EP N1 N2 (links_panic _ _ _ _ _ NE1 P1) (links_panic _ _ _ _ _ NE2 P2)) as E.
      destruct (links1 s1 r1 fr1 adds) as [ls| |] eqn:EL; [|congruence|].
      - destruct (overlay_arrangement layout1 Lay1 query1 Qry1 tree1 fuel s1 adds r1 fr1 ls B1 N1 EL) as (segs & Hs & A & ->). specialize (Hs NE1).
        rewrite Hs in E. cbn [map_out] in E.
        assert (EL2 : links2 s2 r2 fr2 adds' = ROk (result_links fr2 r2 (map_cnt f segs))).
        { unfold overlay_links, build_boolean. rewrite E. destruct (input_segments adds'); [congruence|]. destruct segs; reflexivity. }
        rewrite EL2. cbn [fbind]. apply side_answers; auto.
      - assert (EL2 : links2 s2 r2 fr2 adds' = RFuel).
        { unfold overlay_links, build_boolean in *. rewrite E. destruct (input_segments adds'); [congruence|]. destruct (input_segments adds) as [|x y]; [congruence|].
          destruct (split_segments layout1 query1 tree1 fuel s1 (x :: y)) as [[|zz kk]| |]; try discriminate; reflexivity. }
        rewrite EL2. reflexivity.
    Qed.
  End Counts.

  (** ** C56 *)
  Theorem C56_same_drawing_area adds adds' s1 s2 r fr clockwise simplify min_area : same_drawing adds adds' ->
    bounded_input adds -> bounded_input adds' -> precision s1 = precision s2 ->
    no_grid s1 (length (merged adds)) -> no_grid s2 (length (merged adds)) ->
    links1 s1 r fr adds <> RPanic -> links2 s2 r fr adds' <> RPanic ->
    (forall ls, links1 s1 r fr adds = ROk ls -> area_ok min_area ls) ->
    answer2 adds' r fr clockwise simplify min_area s2 = answer1 adds r fr clockwise simplify min_area s1.
  Proof.
    intro D. assert (Id : forall l, map_cnt (fun c => c) l = l) by (intro l; unfold map_cnt; erewrite map_ext; [apply map_id|]; intros []; reflexivity).
    apply (counts_answers (fun c => c)); auto; intros; rewrite Id; auto. apply same_segments; auto.
  Qed.
  Theorem C56_same_drawing adds adds' s1 s2 r fr clockwise simplify : same_drawing adds adds' ->
    bounded_input adds -> bounded_input adds' -> precision s1 = precision s2 ->
    no_grid s1 (length (merged adds)) -> no_grid s2 (length (merged adds)) ->
    links1 s1 r fr adds <> RPanic -> links2 s2 r fr adds' <> RPanic ->
    answer2 adds' r fr clockwise simplify 0 s2 = answer1 adds r fr clockwise simplify 0 s1.
  Proof. intros; apply C56_same_drawing_area; auto; left; reflexivity. Qed.

  Theorem C56_reversed_area adds adds' s1 s2 r fr clockwise simplify min_area : reversed_drawing adds adds' ->
    bounded_input adds -> bounded_input adds' -> precision s1 = precision s2 ->
    no_grid s1 (length (merged adds)) -> no_grid s2 (length (merged adds)) ->
    links1 s1 r fr adds <> RPanic -> links2 s2 r (opposite_rule fr) adds' <> RPanic ->
    (forall ls, links1 s1 r fr adds = ROk ls -> area_ok min_area ls) ->
    answer2 adds' r (opposite_rule fr) clockwise simplify min_area s2 = answer1 adds r fr clockwise simplify min_area s1.
  Proof.
    intro D. apply (counts_answers wc_invert).
    - intros [a b]. cbn [wc_not_empty WC_B wc_invert subj clip]. f_equal; f_equal; apply Bool.eq_iff_eq_true; rewrite !Z.eqb_eq; lia.
    - intros [a b] [c d]. cbn. f_equal; lia.
    - reflexivity.
    - apply reversed_segments; auto.
    - intros segs A. unfold result_links. rewrite reverse_fill by auto. replace (flip_rule (opposite_rule fr)) with fr by (destruct fr; reflexivity).
      f_equal. unfold build_links, map_cnt. generalize (fill_boolean fr segs). clear. induction segs as [|s segs IH]; intros [|x l]; auto. cbn [map combine filter snd].
      destruct (is_included r x); cbn [map]; rewrite IH; reflexivity.
  Qed.
  Theorem C56_reversed adds adds' s1 s2 r fr clockwise simplify : reversed_drawing adds adds' ->
    bounded_input adds -> bounded_input adds' -> precision s1 = precision s2 ->
    no_grid s1 (length (merged adds)) -> no_grid s2 (length (merged adds)) ->
    links1 s1 r fr adds <> RPanic -> links2 s2 r (opposite_rule fr) adds' <> RPanic ->
    answer2 adds' r (opposite_rule fr) clockwise simplify 0 s2 = answer1 adds r fr clockwise simplify 0 s1.
  Proof. intros; apply C56_reversed_area; auto; left; reflexivity. Qed.

  Theorem C56_exchange_area adds s1 s2 r fr clockwise simplify min_area :
    bounded_input adds -> precision s1 = precision s2 ->
    no_grid s1 (length (merged adds)) -> no_grid s2 (length (merged adds)) ->
    links1 s1 r fr adds <> RPanic -> links2 s2 (exchange_rule r) fr (exchange adds) <> RPanic ->
    (forall ls, links1 s1 r fr adds = ROk ls -> area_ok min_area ls) ->
    answer2 (exchange adds) (exchange_rule r) fr clockwise simplify min_area s2 = answer1 adds r fr clockwise simplify min_area s1.
  Proof.
    intro B. assert (B2 : bounded_input (exchange adds)).
    { unfold bounded_input, exchange in *. rewrite Forall_map. exact B. }
    revert B2. revert B. intros B B2 EP N1 N2 P1 P2 Ar. apply (counts_answers swap_cnt); auto.
    - intros [a b]. apply orb_comm.
    - rewrite exchange_segments. apply Permutation_refl.
    - intros segs A. destruct (swap_links fr (exchange_rule r) segs A) as [Es Ef].
      replace (swap_rule (exchange_rule r)) with r in * by (destruct r; reflexivity).
      assert (Sp : forall r fr segs, map (side r) (result_links fr r segs) =
        map (fun x => Lk 0 (sa (fst x)) 0 (sb (fst x)) (if snd x : bool then SUBJ_TOP else NONE))
          (combine (map l_seg (result_links fr r segs)) (map (fun l => is_fill_top r (l_fill l)) (result_links fr r segs)))).
      { clear. intros r fr segs. unfold result_links, build_links. induction (filter _ _) as [|x l IH]; auto. cbn [map combine]. rewrite <- IH. reflexivity. }
      rewrite !Sp, Es, Ef. reflexivity.
  Qed.
  Theorem C56_exchange adds s1 s2 r fr clockwise simplify :
    bounded_input adds -> precision s1 = precision s2 ->
    no_grid s1 (length (merged adds)) -> no_grid s2 (length (merged adds)) ->
    links1 s1 r fr adds <> RPanic -> links2 s2 (exchange_rule r) fr (exchange adds) <> RPanic ->
    answer2 (exchange adds) (exchange_rule r) fr clockwise simplify 0 s2 = answer1 adds r fr clockwise simplify 0 s1.
  Proof. intros; apply C56_exchange_area; auto; left; reflexivity. Qed.

  (** LIST and AUTO never panic: no hypothesis about the run is left *)
  Theorem C56_list_auto adds s1 s2 r fr clockwise simplify :
    bounded_input adds -> precision s1 = precision s2 ->
    no_grid s1 (length (merged adds)) -> no_grid s2 (length (merged adds)) ->
    strategy s1 = StList \/ strategy s1 = StAuto -> strategy s2 = StList \/ strategy s2 = StAuto ->
    (forall adds', same_drawing adds adds' -> bounded_input adds' -> answer2 adds' r fr clockwise simplify 0 s2 = answer1 adds r fr clockwise simplify 0 s1) /\
    (forall adds', reversed_drawing adds adds' -> bounded_input adds' -> answer2 adds' r (opposite_rule fr) clockwise simplify 0 s2 = answer1 adds r fr clockwise simplify 0 s1) /\
    answer2 (exchange adds) (exchange_rule r) fr clockwise simplify 0 s2 = answer1 adds r fr clockwise simplify 0 s1.
  Proof.
    intros B EP N1 N2 T1 T2. assert (Len : forall adds' f, merged adds' = map_cnt f (merged adds) -> no_grid s2 (length (merged adds'))).
    { intros adds' f E. rewrite E. unfold map_cnt. rewrite map_length. exact N2. }
    split; [|split].
    - intros adds' D B'. apply C56_same_drawing; auto; apply links_no_panic; auto.
      rewrite (@sort_merge_perm cntB _ WCL_B _ (input_segments adds) (Permutation_sym (same_segments _ _ D))) by apply input_nonempty. exact N2.
    - intros adds' D B'. apply C56_reversed; auto; apply links_no_panic; auto. apply (Len _ wc_invert). apply merged_counts; [| |apply reversed_segments; auto].
      + intros [a b]. cbn [wc_not_empty WC_B wc_invert subj clip]. f_equal; f_equal; apply Bool.eq_iff_eq_true; rewrite !Z.eqb_eq; lia.
      + intros [a b] [c d]. cbn. f_equal; lia.
    - apply C56_exchange; auto; apply links_no_panic; auto.
      + unfold bounded_input, exchange in *. rewrite Forall_map. exact B.
      + apply (Len _ swap_cnt). apply merged_counts; [intros [a b]; apply orb_comm|reflexivity|]. rewrite exchange_segments. apply Permutation_refl.
  Qed.
End Two.

(** ** Examples *)
Definition quads : input := [([Pt 0 0; Pt 100 0; Pt 100 90; Pt 0 100], Subject); ([Pt 51 50; Pt 150 61; Pt 149 160; Pt 33 160], Clip)].
Definition quads_again : input := [([Pt 149 160; Pt 90 160; Pt 33 160; Pt 51 50; Pt 150 61], Clip); ([Pt 100 0; Pt 100 45; Pt 100 90; Pt 0 100; Pt 0 0; Pt 40 0], Subject)].
Definition quads_back : input := [([Pt 33 160; Pt 90 160; Pt 149 160; Pt 150 61; Pt 51 50], Clip); ([Pt 0 100; Pt 100 90; Pt 100 0; Pt 0 0], Subject)].
Ltac sharp_ := cbn [sharp turning app]; repeat first [exact I|split; [let X := fresh in intro X; vm_compute in X; discriminate X|]].
Ltac between_ := split; [vm_compute; reflexivity|unfold pt_lt; cbn [px py]; lia].
Example quads_same : same_drawing quads quads_again.
Proof.
  exists (rev quads). split; [apply Permutation_rev|]. cbn [rev quads app]. constructor; [|constructor; [|constructor]]; (split; [reflexivity|right]); cbn [fst].
  - exists [Pt 51 50; Pt 150 61; Pt 149 160; Pt 33 160]. split; [apply D_corners; sharp_|]. apply D_point; [|between_].
    apply (D_start _ (Pt 150 61) [Pt 149 160; Pt 33 160; Pt 51 50]). apply (D_start _ (Pt 51 50) [Pt 150 61; Pt 149 160; Pt 33 160]). apply D_corners. sharp_.
  - exists [Pt 0 0; Pt 100 0; Pt 100 90; Pt 0 100]. split; [apply D_corners; sharp_|]. apply D_point; [|between_].
    apply (D_start _ (Pt 40 0) [Pt 100 0; Pt 100 90; Pt 0 100; Pt 0 0]). apply (D_start _ (Pt 0 0) [Pt 40 0; Pt 100 0; Pt 100 90; Pt 0 100]). apply D_point; [|between_].
    apply D_corners. sharp_.
Qed.
Example quads_reversed : reversed_drawing quads quads_back.
Proof.
  exists (rev quads). split; [apply Permutation_rev|]. cbn [rev quads app]. constructor; [|constructor; [|constructor]]; (split; [reflexivity|]); cbn [fst].
  - exists [Pt 51 50; Pt 150 61; Pt 149 160; Pt 33 160]. split; [apply D_corners; sharp_|]. cbn [rev app]. apply D_point; [|between_]. apply D_corners. sharp_.
  - exists [Pt 0 0; Pt 100 0; Pt 100 90; Pt 0 100]. split; [apply D_corners; sharp_|]. cbn [rev app]. apply D_corners. sharp_.
Qed.
Definition quads_run adds r fr := overlay_custom lay4 qry (fun _ => true) sorted_ends clean_line 3 true adds r fr false true 0 (mk_solver StAuto).
Definition quads_run' adds r fr := overlay_custom lay_one qry_all (fun _ => true) sorted_ends' clean_line 3 true adds r fr false true 0 (mk_solver StTree).
Example C56_example :
  bounded_input quads /\ bounded_input quads_again /\ bounded_input quads_back /\
  no_grid (mk_solver StAuto) (length (sort_merge (input_segments quads))) /\ no_grid (mk_solver StTree) (length (sort_merge (input_segments quads))) /\
  quads_run quads RDifference Positive <> quads_run quads RInverseDifference Positive /\ quads_run quads RDifference Positive <> quads_run quads RDifference Negative /\
  quads_run' quads_again RDifference Positive = quads_run quads RDifference Positive /\
  quads_run' quads_back RDifference Negative = quads_run quads RDifference Positive /\
  quads_run' (exchange quads) RInverseDifference Positive = quads_run quads RDifference Positive /\
  exists c, quads_run quads RDifference Positive = ROk [[c]] /\ length c = 6%nat.
Proof.
  split; [repeat constructor|]. split; [repeat constructor|]. split; [repeat constructor|]. split; [left; vm_compute; reflexivity|]. split; [right; vm_compute; reflexivity|].
  split; [intro X; vm_compute in X; discriminate X|]. split; [intro X; vm_compute in X; discriminate X|]. split; [vm_compute; reflexivity|]. split; [vm_compute; reflexivity|]. split; [vm_compute; reflexivity|].
  eexists. split; vm_compute; reflexivity.
Qed.

(** With the precision that does not grow, nearly parallel edges are approached one unit at a time: more than 40 rounds where the default needs at most 8. *)
Definition slow_adds : input :=
  [([Pt 69 2; Pt 371 3; Pt 5000 1000], Subject); ([Pt 71 2; Pt 355 3; Pt 5000 2000], Subject); ([Pt 112 1; Pt 343 3; Pt 5000 3000], Subject)].
Example C15_absolute_example :
  split_segments lay4 qry (fun _ => true) 40 (Slv StList (MkPrec 0 0)) (input_segments slow_adds) = Fuel /\
  (exists segs, split_segments lay4 qry (fun _ => true) 60 (Slv StList (MkPrec 0 0)) (input_segments slow_adds) = Done segs) /\
  (exists segs, split_segments lay4 qry (fun _ => true) 8 (Slv StList (MkPrec 0 1)) (input_segments slow_adds) = Done segs).
Proof. split; [vm_compute; reflexivity|]. split; eexists; vm_compute; reflexivity. Qed.

Print Assumptions C56_same_drawing.
Print Assumptions C56_reversed.
Print Assumptions C56_exchange.
Print Assumptions C56_same_drawing_area.
Print Assumptions C56_reversed_area.
Print Assumptions C56_exchange_area.
Print Assumptions C56_list_auto.
