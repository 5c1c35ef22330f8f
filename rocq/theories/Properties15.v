(** * C47: how far rounding can push the result away from the exact one.

    Crossing points are rounded to integers and ends closer than the snap radius are pulled together, so the result is not exactly the
    Boolean operation of the contours that were given.  It is so at every point that is not close to an edge given. *)
From Verif Require Import Base Spec QLib ModelSegm SegmProofs MergeProofs PlanarGeo PlanarSum ModelFill ModelFilter FillProofs FillCorrect
  ModelCross CrossProofs CrossPoint MarksProofs CoreResults Properties01 ModelSplit SplitProofs SplitPlanar SplitPass BinsProofs SplitApply SplitLoop
  ModelFrag ModelOverlay OverlayProofs FragProofs GridCover Properties02
  ModelGraph GraphProofs ModelExtract ExtractProofs ContourResults Rotation NextLink Properties03
  MoveLemma SectorLemma Sides WalkSides Orient Properties04 ModelBind BindProofs BindSweep Nest Properties05 SplitNear InputCover.
From Coq Require Import Lqa Qabs.
Open Scope Z_scope.

(** ** Specification *)
(** The snap radius of pass number [k] is [2 ^ exponent], squared distance.  ([start] and [progression] are the two numbers of a
    [Precision]; the exponent grows by [progression] after every pass, up to 60.) *)
Definition exponent (p : Precision) (k : nat) : nat := match k with O => start p | _ => Nat.min 60 (start p + k * progression p) end.
(** In one pass a point moves by at most 1 (rounding a crossing) plus the snap radius.  [n] passes: *)
Definition moved (p : Precision) (n : nat) : Z := zsum (fun k => 1 + Z.sqrt (2 ^ Z.of_nat (exponent p k))) (seq 0 n).
(** [within d a b q]: in x and in y the point [q] is at most [d] away from some point of the segment [a b] *)
Definition near_input (d : Z) (adds : input) (q : qpt) : Prop :=
  exists c t e, In (c, t) adds /\ In e (edges c) /\ within (inject_Z d) (fst e) (snd e) q.
(** the region asked for, from the contours as they were given *)
Definition wanted (r : OverlayRule) (fr : FillRule) (adds : input) (q : qpt) : bool :=
  bool_op r (inside fr (contours_wind (operand Subject adds) q)) (inside fr (contours_wind (operand Clip adds) q)).

(** ** Proofs *)
Lemma exponent_step p k : sr_increment (SR (exponent p k) (progression p)) = SR (exponent p (S k)) (progression p).
Proof. unfold sr_increment, exponent; cbn [current step]. f_equal. destruct k; lia. Qed.
Lemma drift_moved p n : drift n (SR (start p) (progression p)) = moved p n.
Proof.
  unfold moved. change (start p) with (exponent p 0). generalize 0%nat as k. induction n as [|n IH]; intro k; auto.
  cbn [drift seq]. rewrite exponent_step, IH. reflexivity.
Qed.

Lemma merged_near d adds q s : Forall (fun a => open_contour (fst a)) adds -> In s (sort_merge (input_segments adds)) ->
  within (inject_Z d) (sa (sx s)) (sb (sx s)) q -> near_input d adds q.
Proof.
  intros O. assert (F : Forall (fun s : segment cntB => within (inject_Z d) (sa (sx s)) (sb (sx s)) q -> near_input d adds q) (sort_merge (input_segments adds))).
  { apply (sort_merge_elems (fun x => within (inject_Z d) (sa x) (sb x) q -> near_input d adds q)). apply Forall_forall. intros x Is W.
    unfold input_segments in Is. apply in_flat_map in Is as ([c t] & Ic & Is). rewrite Forall_forall in O. cbn [fst snd] in Is.
    destruct (append_near c t (inject_Z d) q x (O _ Ic) Is W) as (e & Ie & We). exists c, t, e. auto. }
  rewrite Forall_forall in F. apply F.
Qed.

Section WithContracts.
  Variable layout_new : Z -> Z -> nat -> option (Z -> nat).
  Hypothesis Lay : layout_ok layout_new.
  Variable query : list (nat * xseg) -> Z * Z -> Z -> list (nat * xseg).
  Hypothesis Qry : query_ok query.
  Variable tree_new : Z * Z -> bool.
  Notation split_input fuel solver adds := (split_segments layout_new query tree_new fuel solver (input_segments adds)).
  Notation merged adds := (sort_merge (input_segments adds)).

  (** ** Splitting in at most [n + 1] passes *)
  Theorem C47_split n solver adds segs q : bounded_input adds -> no_grid solver (length (merged adds)) -> Forall (fun a => open_contour (fst a)) adds ->
    split_input (S n) solver adds = Done segs -> ~ near_input (moved (precision solver) n) adds q ->
    wind (subj_chain segs) q = contours_wind (operand Subject adds) q /\ wind (clip_chain segs) q = contours_wind (operand Clip adds) q.
  Proof.
    intros B N O H A. destruct (split_is_loop layout_new query tree_new (S n) solver (input_segments adds) N) as [(_ & _ & E)|(tree & E & _)]; rewrite E in H; [discriminate|].
    assert (Aw : away (inject_Z (drift n (snap_radius solver))) (merged adds) q).
    { unfold snap_radius. rewrite drift_moved. apply away_input; auto. intros c t e Ic Ie W. apply A. exists c, t, e. auto. }
    pose proof (input_inv adds B) as I. split.
    - unfold subj_chain. rewrite (loop_near layout_new Lay query Qry tree_new subj solver q) with (fuel := n) (tree := tree) (r := snap_radius solver) (segs := merged adds); auto.
      + rewrite sort_merge_wind by (reflexivity || (intros [? ?]; simpl; lia)). apply input_wind_subj; auto.
      + intros [a b] W. simpl in *. lia.
    - unfold clip_chain. rewrite (loop_near layout_new Lay query Qry tree_new clip solver q) with (fuel := n) (tree := tree) (r := snap_radius solver) (segs := merged adds); auto.
      + rewrite sort_merge_wind by (reflexivity || (intros [? ?]; simpl; lia)). apply input_wind_clip; auto.
      + intros [a b] W. simpl in *. lia.
  Qed.

  (** the run as a whole: what is kept are result edges of an arrangement whose region agrees with the one asked for away from the input *)
  Lemma overlay_near n solver adds r fr ls : bounded_input adds -> no_grid solver (length (merged adds)) -> Forall (fun a => open_contour (fst a)) adds ->
    overlay_links layout_new query tree_new (S n) solver r fr (input_segments adds) = ROk ls ->
    exists segs, arrangement segs /\ ls = result_links fr r segs /\
      (forall q, ~ near_input (moved (precision solver) n) adds q ->
         bool_op r (inside fr (wind (subj_chain segs) q)) (inside fr (wind (clip_chain segs) q)) = wanted r fr adds q) /\
      (segs = [] \/ split_input (S n) solver adds = Done segs).
  Proof.
    intros B N O H. unfold overlay_links, build_boolean in H.
    assert (A0 : arrangement []).
    { constructor; try (intros ? []; fail); try (intro v; reflexivity); [constructor|intros ? ? []|constructor]. }
    destruct (input_segments adds) as [|s0 l0] eqn:E0.
    { injection H as <-. exists []. split; auto. split; auto. split; auto. intros q _. unfold wanted. rewrite <- input_wind_subj, <- input_wind_clip by auto. rewrite E0. reflexivity. }
    rewrite <- E0 in *. destruct (split_input (S n) solver adds) as [segs| |] eqn:ES; try discriminate.
    destruct (C14_planar_partial layout_new Lay query Qry tree_new _ _ _ _ B N ES) as [_ A].
    exists segs. split; auto. split; [destruct segs as [|s1 l1]; injection H as <-; auto|]. split; auto.
    intros q Hq. destruct (C47_split n solver adds segs q B N O) as [-> ->]; auto.
  Qed.

  (** ** The region enclosed by the result edges *)
  Theorem C47_region n solver adds r fr ls q : bounded_input adds -> no_grid solver (length (merged adds)) -> Forall (fun a => open_contour (fst a)) adds ->
    overlay_links layout_new query tree_new (S n) solver r fr (input_segments adds) = ROk ls -> ~ near_input (moved (precision solver) n) adds q ->
    edge_region ls q = wanted r fr adds q.
  Proof.
    intros B N O H A. destruct (overlay_near n solver adds r fr ls B N O H) as (segs & Ar & -> & W & _). rewrite <- W by auto. apply result_region; auto.
  Qed.

  (** ** The contours returned *)
  Theorem C47_contours n solver adds r fr clean clockwise simplify ls ends : bounded_input adds -> no_grid solver (length (merged adds)) ->
    Forall (fun a => open_contour (fst a)) adds -> clean_ok clean ->
    overlay_links layout_new query tree_new (S n) solver r fr (input_segments adds) = ROk ls -> ends_ok ls ends ->
    exists g ps, graph_new ls ends = Some g /\
      extract_pieces g clean r clockwise simplify 0 (repeat false (length ls)) = Some ps /\
      forall q, ~ near_input (moved (precision solver) n) adds q ->
        contours_wind (outer_contours ps) q + contours_wind (hole_contours ps) q = if wanted r fr adds q then sign_of clockwise else 0.
  Proof.
    intros B N O Cl H E. destruct (overlay_near n solver adds r fr ls B N O H) as (segs & A & -> & W & _).
    destruct (C37_direction segs fr r ends clean clockwise simplify 0 A Cl E) as (g & ps & Hg & Hp & D). destruct (D (or_introl eq_refl)) as (_ & _ & _ & _ & D3).
    exists g, ps. split; auto. split; auto. intros q Hq. rewrite D3, W by auto. destruct (wanted r fr adds q); simpl; lia.
  Qed.

  (** ** The shapes returned (counter-clockwise outer contours, [simplify_contour] off, no smallest area) *)
  Theorem C47_shapes n solver adds r fr clean dbg ls ends : bounded_input adds -> no_grid solver (length (merged adds)) ->
    Forall (fun a => open_contour (fst a)) adds -> dedup_ok clean ->
    overlay_links layout_new query tree_new (S n) solver r fr (input_segments adds) = ROk ls -> ends_ok ls ends ->
    exists g shapes, graph_new ls ends = Some g /\
      extract_shapes dbg g clean r false false 0 (repeat false (length ls)) = Some shapes /\ Forall (shape_ok 1) shapes /\
      forall q, ~ near_input (moved (precision solver) n) adds q -> ((exists sh, In sh shapes /\ covers sh q) <-> wanted r fr adds q = true).
  Proof.
    intros B N O Cl H E. destruct (overlay_near n solver adds r fr ls B N O H) as (segs & A & -> & W & _).
    destruct (C40_shapes_plain_partial segs fr r ends clean dbg A E Cl) as (g & shapes & Hg & Hx & Ok & _ & C).
    exists g, shapes. split; auto. split; auto. split; auto. intros q Hq. rewrite C, W by auto. tauto.
  Qed.

  (** ** No edge of the result is far from the input *)
  Theorem C47_edges n solver adds r fr ls l q : bounded_input adds -> no_grid solver (length (merged adds)) -> Forall (fun a => open_contour (fst a)) adds ->
    overlay_links layout_new query tree_new (S n) solver r fr (input_segments adds) = ROk ls -> In l ls -> on_seg (l_seg l) q ->
    near_input (moved (precision solver) n) adds q.
  Proof.
    intros B N O H Il Oq. destruct (overlay_near n solver adds r fr ls B N O H) as (segs & A & -> & _ & [-> |Hs]); [destruct Il|].
    apply blinks_in in Il as (s & f & Is & _ & ->).
    destruct (split_is_loop layout_new query tree_new (S n) solver (input_segments adds) N) as [(_ & _ & E)|(tree & E & _)]; rewrite E in Hs; [discriminate|].
    destruct (loop_edges layout_new Lay query Qry tree_new solver n tree _ _ _ (input_inv adds B) Hs s Is) as (s0 & I0 & Wa & Wb).
    unfold snap_radius in Wa, Wb. rewrite drift_moved in Wa, Wb. eapply merged_near; eauto.
    apply (within_mono (inject_Z (moved (precision solver) n) + 0)); [lra|]. apply (within_trans _ 0 _ _ (sa (sx s)) (sb (sx s))); [exact Wa|exact Wb|exact (within_on (sx s) q Oq)].
  Qed.
End WithContracts.

(** ** Examples *)
Definition big_adds : input := [([Pt 0 0; Pt 1000 37; Pt 1017 1003; Pt 13 990], Subject); ([Pt 503 500; Pt 1500 611; Pt 1490 1607; Pt 333 1601], Clip)].
Ltac not_near :=
  let c := fresh in let t := fresh in let e := fresh in let Ic := fresh in let Ie := fresh in let X := fresh in let Y := fresh in
  intros (c & t & e & Ic & Ie & (? & ? & X & Y)); rewrite Qabs_le_iff in X, Y;
  repeat (destruct Ic as [Ic|Ic]; [injection Ic as <- <-; simpl in Ie; repeat (destruct Ie as [<-|Ie]; [unfold qx, qy in *; cbn [fst snd px py] in *; unfold inject_Z in *; lra|]); destruct Ie|]);
  destruct Ic.
(** Two quadrilaterals whose edges cross at points that are not integer: one pass is not enough, two are, and nothing is moved by more
    than 2.  A point inside both is far enough from every edge. *)
Example C47_example :
  bounded_input big_adds /\ Forall (fun a => open_contour (fst a)) big_adds /\ no_grid (mk_solver StAuto) (length (sort_merge (input_segments big_adds))) /\
  overlay_links lay4 qry (fun _ => true) 1 (mk_solver StAuto) RIntersect NonZero (input_segments big_adds) = RFuel /\
  (exists ls, overlay_links lay4 qry (fun _ => true) 2 (mk_solver StAuto) RIntersect NonZero (input_segments big_adds) = ROk ls /\ length ls = 4%nat) /\
  moved (precision (mk_solver StAuto)) 1 = 2 /\ ~ near_input 2 big_adds (700 # 1, 700 # 1)%Q /\ wanted RIntersect NonZero big_adds (700 # 1, 700 # 1)%Q = true /\
  ~ near_input 2 big_adds (300 # 1, 300 # 1)%Q /\ wanted RIntersect NonZero big_adds (300 # 1, 300 # 1)%Q = false.
Proof.
  split; [repeat constructor|]. split; [repeat constructor; discriminate|]. split; [left; reflexivity|]. split; [vm_compute; reflexivity|].
  split; [eexists; split; vm_compute; reflexivity|]. split; [reflexivity|]. split; [not_near|]. split; [reflexivity|]. split; [not_near|reflexivity].
Qed.
(** Close to an edge the result does differ from the exact one: the crossing at (427.5.., 995.3..) became (427, 995). *)
Example C47_rounding_shows :
  exists ls, overlay_links lay4 qry (fun _ => true) 2 (mk_solver StAuto) RIntersect NonZero (input_segments big_adds) = ROk ls /\
    edge_region ls (428 # 1, 4976 # 5)%Q = false /\ wanted RIntersect NonZero big_adds (428 # 1, 4976 # 5)%Q = true.
Proof. eexists. split; [vm_compute; reflexivity|]. split; reflexivity. Qed.
(** the bound, for the [Precision] used by default ([HIGH]: 0, 1) and the other presets, after 1, 2, 3 and 5 passes with rounding *)
Example moved_presets :
  map (fun p => map (moved p) [1; 2; 3; 5]%nat) [MkPrec 0 0; MkPrec 0 1; MkPrec 1 1; MkPrec 0 2; MkPrec 2 2; MkPrec 2 3] =
  [[2; 4; 6; 10]; [2; 4; 7; 15]; [2; 5; 8; 19]; [2; 5; 10; 36]; [3; 8; 17; 67]; [3; 9; 26; 201]].
Proof. vm_compute. reflexivity. Qed.
