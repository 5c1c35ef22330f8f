(** * What a whole overlay returns, relative to the contours that were given. *)
From Verif Require Import Base Spec QLib ModelSegm SegmProofs MergeProofs PlanarGeo PlanarSum ModelFill ModelFilter FillProofs FillCorrect
  ModelCross CrossProofs CrossPoint MarksProofs CoreResults Properties01 ModelSplit SplitProofs SplitPlanar SplitPass BinsProofs SplitApply SplitLoop
  ModelFrag ModelOverlay OverlayProofs FragProofs GridCover Properties02
  ModelGraph GraphProofs ModelExtract ExtractProofs ContourResults Rotation NextLink Properties03
  MoveLemma SectorLemma Sides WalkSides Orient Properties04 ModelBind BindProofs BindSweep Nest Properties05 SplitNear InputCover Properties15 ModelFloat.
From Coq Require Import Lqa Qabs Permutation.
Open Scope Z_scope.

(** contract of the two contour clean-up functions of [i_shape]: no point of an edge of the cleaned contour is off the edges of the contour *)
Definition clean_edges (clean : bool -> list pt -> list pt * bool) : Prop :=
  forall b c e q, In e (edges (fst (clean b c))) -> on_seg (XS (fst e) (snd e)) q -> exists e', In e' (edges c) /\ on_seg (XS (fst e') (snd e')) q.

(** ** Contours and shapes *)
Lemma grouped_wind outers holes shapes q : grouped outers holes shapes -> contours_wind (concat shapes) q = contours_wind outers q + contours_wind holes q.
Proof.
  intros [H P]. unfold contours_wind.
  assert (Ph : zsum (fun c => contour_wind c q) (concat (map (@tl (list pt)) shapes)) = zsum (fun c => contour_wind c q) holes) by (apply zsum_perm; auto).
  rewrite <- Ph. clear P Ph holes. revert outers H. induction shapes as [|sh shapes IH]; intros [|o outers] H; try discriminate; auto.
  cbn [map] in H. assert (H1 : hd_error sh = Some o) by congruence. assert (H2 : map (@hd_error (list pt)) shapes = map Some outers) by congruence.
  destruct sh as [|o' hs]; [discriminate|]. injection H1 as ->. cbn [concat map tl app]. rewrite !zsum_cons, !zsum_app, (IH _ H2). lia.
Qed.
Lemma grouped_in {X} (outers holes : list X) shapes c : grouped outers holes shapes -> In c (concat shapes) -> In c outers \/ In c holes.
Proof.
  intros [H P] I. apply in_concat in I as (sh & Is & Ic). destruct sh as [|o hs]; [destruct Ic|]. destruct Ic as [<-|Ic].
  - left. apply (in_map (@hd_error X)) in Is. rewrite H in Is. apply in_map_iff in Is as (x & E & Ix). cbn in E. congruence.
  - right. eapply Permutation_in; [exact P|]. apply in_concat. exists hs. split; auto. apply in_map_iff. exists (o :: hs). auto.
Qed.
Lemma piece_in ps c : In c (outer_contours ps) \/ In c (hole_contours ps) -> exists p, In p ps /\ c = p_contour p.
Proof. unfold outer_contours, hole_contours. intros [I|I]; apply in_map_iff in I as (p & <- & I); apply filter_In in I as [I _]; eauto. Qed.
Lemma forall2_l {A B} (R : A -> B -> Prop) l m x : Forall2 R l m -> In x l -> exists y, In y m /\ R x y.
Proof. intros F. induction F as [|a b l m H F IH]; intros I; [destruct I|]. destruct I as [<-|I]; [exists b; split; simpl; auto|]. destruct (IH I) as (y & Iy & Ry). exists y. split; simpl; auto. Qed.

Section Result.
  Variable segs : list (segment cntB).
  Hypothesis A : arrangement segs.
  Variables (fr : FillRule) (r : OverlayRule) (clean : bool -> list pt -> list pt * bool).
  Hypothesis Cl : clean_ok clean.
  Hypothesis Ce : clean_edges clean.
  Variables (dbg clockwise simplify : bool).

  (** the edges of the contours of the shapes are on result edges *)
  Lemma shapes_edges links g vis ps shapes : extract_pieces g clean r clockwise simplify 0 vis = Some ps ->
    (forall p, In p ps -> p_contour p = fst (clean simplify (p_raw p)) /\ closed_walk links (p_raw p) (p_used p)) ->
    (outer_contours ps = [] -> hole_contours ps = []) ->
    extract_shapes dbg g clean r clockwise simplify 0 vis = Some shapes ->
    (forall q, contours_wind (concat shapes) q = contours_wind (outer_contours ps) q + contours_wind (hole_contours ps) q) /\
    forall c e q, In c (concat shapes) -> In e (edges c) -> on_seg (XS (fst e) (snd e)) q -> exists l, In l links /\ on_seg (l_seg l) q.
  Proof.
    intros P1 P2 N H.
    assert (G : grouped (outer_contours ps) (hole_contours ps) shapes).
    { destruct (outer_contours ps) as [|c cs] eqn:E.
      - rewrite (N eq_refl). unfold extract_shapes in H. rewrite P1 in H. rewrite E, (N eq_refl) in H.
        destruct (anchors_of _ _ _ _) as [[an srt]|]; [|discriminate]. unfold join_sorted_holes in H. injection H as <-. split; auto.
      - rewrite <- E. eapply C22_holes_once; eauto. rewrite E. discriminate. }
    split; [intro q; apply grouped_wind; auto|]. intros c e q Ic Ie Oq. destruct (piece_in ps c (grouped_in _ _ _ _ G Ic)) as (p & Ip & ->).
    destruct (P2 p Ip) as [Ec W]. rewrite Ec in Ie. destruct (Ce _ _ _ _ Ie Oq) as (e' & Ie' & Oq').
    destruct (forall2_l _ _ _ _ W Ie') as (i & _ & l & Hl & El). exists l. split; [eapply nth_error_In; eauto|].
    destruct El as [-> | ->]; [exact Oq'|]. apply on_seg_swap. exact Oq'.
  Qed.

  Lemma no_holes ps : Forall (turns (- sign_of clockwise)) (hole_contours ps) ->
    (forall h q, In h (hole_contours ps) -> encloses h q -> exists c, In c (outer_contours ps) /\ encloses c q) -> outer_contours ps = [] -> hole_contours ps = [].
  Proof.
    intros T Hc E. destruct (hole_contours ps) as [|h hs] eqn:Eh; auto. exfalso. inversion T as [|? ? [_ (q & Hq)] _]; subst.
    destruct (Hc h q) as (c & Ic & _); [left; auto|unfold encloses; rewrite Hq; destruct clockwise; discriminate|]. rewrite E in Ic. destruct Ic.
  Qed.
  Theorem direct_result ends g shapes : ends_ok (result_links fr r segs) ends -> graph_new (result_links fr r segs) ends = Some g ->
    extract_shapes dbg g clean r clockwise simplify 0 (repeat false (length (result_links fr r segs))) = Some shapes ->
    (forall q, contours_wind (concat shapes) q =
       if bool_op r (inside fr (wind (subj_chain segs) q)) (inside fr (wind (clip_chain segs) q)) then sign_of clockwise else 0) /\
    forall c e q, In c (concat shapes) -> In e (edges c) -> on_seg (XS (fst e) (snd e)) q -> exists l, In l (result_links fr r segs) /\ on_seg (l_seg l) q.
  Proof.
    intros E Hg Hs. destruct (C37_direction segs fr r ends clean clockwise simplify 0 A Cl E) as (g' & ps & Hg' & Hp & D). rewrite Hg in Hg'. injection Hg' as <-.
    destruct (D (or_introl eq_refl)) as (_ & D2 & D3 & _ & D4).
    destruct (blinks_graph segs A fr _ ends E) as (g' & pts & H & G). fold (result_links fr r segs) in *. rewrite Hg in H. injection H as <-.
    destruct (pieces_spec (result_links fr r segs) g pts (fun _ => true) clean r clockwise simplify 0 G (blinks_wf segs A fr _)) as (ps' & P1 & P2 & _).
    { intro v. rewrite filter_true. apply result_even; auto. }
    rewrite flags_all, Hp in P1. injection P1 as <-. rewrite Forall_forall in P2.
    destruct (shapes_edges (result_links fr r segs) g _ ps shapes Hp) as [W Eg]; auto.
    - intros p Ip. destruct (P2 p Ip) as (X & Y & _). split; auto.
    - apply no_holes; auto.
    - split; auto. intro q. rewrite W, D4. destruct (bool_op _ _ _); cbn [bz]; lia.
  Qed.
  Theorem graph_result ends g shapes : ends_ok (kept is_included_filler fr segs) ends -> graph_new (kept is_included_filler fr segs) ends = Some g ->
    extract_shapes dbg g clean r clockwise simplify 0 (filter_by_rule r (kept is_included_filler fr segs)) = Some shapes ->
    (forall q, contours_wind (concat shapes) q =
       if bool_op r (inside fr (wind (subj_chain segs) q)) (inside fr (wind (clip_chain segs) q)) then sign_of clockwise else 0) /\
    forall c e q, In c (concat shapes) -> In e (edges c) -> on_seg (XS (fst e) (snd e)) q -> exists l, In l (kept is_included_filler fr segs) /\ on_seg (l_seg l) q.
  Proof.
    intros E Hg Hs. destruct (C37_direction_graph segs fr r ends clean clockwise simplify 0 A Cl E) as (g' & ps & Hg' & Hp & D). rewrite Hg in Hg'. injection Hg' as <-.
    destruct (D (or_introl eq_refl)) as (_ & D2 & D3 & D4).
    destruct (blinks_graph segs A fr _ ends E) as (g' & pts & H & G). rewrite Hg in H. injection H as <-.
    destruct (pieces_spec (kept is_included_filler fr segs) g pts (fun l => is_included r (l_fill l)) clean r clockwise simplify 0 G (blinks_wf segs A fr _)) as (ps' & P1 & P2 & _).
    { intro v. rewrite graph_reuse by auto. apply result_even; auto. }
    assert (Ep : ps' = ps). { assert (X : Some ps' = Some ps) by (rewrite <- P1, <- Hp; reflexivity). congruence. } subst ps'. rewrite Forall_forall in P2.
    destruct (shapes_edges (kept is_included_filler fr segs) g _ ps shapes Hp) as [W Eg]; auto.
    - intros p Ip. destruct (P2 p Ip) as (X & Y & _). split; auto.
    - apply no_holes; auto.
    - split; auto. intro q. rewrite W, D4. destruct (bool_op _ _ _); cbn [bz]; lia.
  Qed.
End Result.

Lemma on_between (a b : Z) t : (0 <= t <= 1)%Q -> (inject_Z (Z.min a b) <= inject_Z a + t * (inject_Z b - inject_Z a) <= inject_Z (Z.max a b))%Q.
Proof.
  intro T. destruct (Z.le_gt_cases a b) as [L|L].
  - rewrite Z.min_l, Z.max_r by lia. assert (H : (inject_Z a <= inject_Z b)%Q) by (rewrite <- Zle_Qle; lia).
    pose proof (Qmult_le_0_compat t (inject_Z b - inject_Z a) ltac:(lra) ltac:(lra)). pose proof (Qmult_le_0_compat (1 - t) (inject_Z b - inject_Z a) ltac:(lra) ltac:(lra)). split; lra.
  - rewrite Z.min_r, Z.max_l by lia. assert (H : (inject_Z b <= inject_Z a)%Q) by (rewrite <- Zle_Qle; lia).
    pose proof (Qmult_le_0_compat t (inject_Z a - inject_Z b) ltac:(lra) ltac:(lra)). pose proof (Qmult_le_0_compat (1 - t) (inject_Z a - inject_Z b) ltac:(lra) ltac:(lra)). split; lra.
Qed.
Lemma on_bounded s p : bounded s -> on_seg s (qof p) -> bounded_pt p.
Proof.
  intros [[X1 Y1] [X2 Y2]] (t & T & X & Y). cbn [fst snd qof] in X, Y. unfold qx, qy in *.
  pose proof (on_between (px (sa s)) (px (sb s)) t T) as HX. pose proof (on_between (py (sa s)) (py (sb s)) t T) as HY.
  rewrite <- X in HX. rewrite <- Y in HY. rewrite <- !Zle_Qle in HX, HY. split; lia.
Qed.

Section WithContracts.
  Variable layout_new : Z -> Z -> nat -> option (Z -> nat).
  Hypothesis Lay : layout_ok layout_new.
  Variable query : list (nat * xseg) -> Z * Z -> Z -> list (nat * xseg).
  Hypothesis Qry : query_ok query.
  Variable tree_new : Z * Z -> bool.
  Variables (n : nat) (solver : Solver) (adds : input).
  Notation split_input := (split_segments layout_new query tree_new (S n) solver (input_segments adds)).
  Notation merged := (sort_merge (input_segments adds)).
  Hypothesis B : bounded_input adds.
  Hypothesis N : no_grid solver (length merged).
  Hypothesis O : Forall (fun a => open_contour (fst a)) adds.
  Notation d := (moved (precision solver) n).

  Lemma build_near inc fr ls : build_boolean layout_new query tree_new inc (S n) (input_segments adds) fr solver = ROk ls ->
    exists segs, arrangement segs /\ ls = kept inc fr segs /\
      (forall r q, ~ near_input d adds q -> bool_op r (inside fr (wind (subj_chain segs) q)) (inside fr (wind (clip_chain segs) q)) = wanted r fr adds q) /\
      forall l, In l ls -> bounded (l_seg l) /\ forall q, on_seg (l_seg l) q -> near_input d adds q.
  Proof.
    intro H. unfold build_boolean in H.
    assert (A0 : arrangement []).
    { constructor; try (intros ? []; fail); try (intro v; reflexivity); [constructor|intros ? ? []|constructor]. }
    destruct (input_segments adds) as [|s0 l0] eqn:E0.
    { injection H as <-. exists []. split; auto. split; auto. split; [|intros ? []]. intros r q _. unfold wanted. rewrite <- input_wind_subj, <- input_wind_clip by auto. rewrite E0. reflexivity. }
    rewrite <- E0 in *. destruct split_input as [segs| |] eqn:ES; try discriminate.
    destruct (C14_planar_partial layout_new Lay query Qry tree_new _ _ _ _ B N ES) as [_ A].
    assert (Hl : ls = kept inc fr segs) by (destruct segs as [|s1 l1]; injection H as <-; auto).
    exists segs. split; auto. split; auto. split.
    - intros r q Hq. destruct (C47_split layout_new Lay query Qry tree_new n solver adds segs q B N O) as [-> ->]; auto.
    - intros l Il. rewrite Hl in Il. apply blinks_in in Il as (s & f & Is & _ & ->).
      destruct (split_all layout_new Lay query Qry tree_new _ _ _ _ B ES) as [Iv _].
      destruct (split_is_loop layout_new query tree_new (S n) solver (input_segments adds) N) as [(_ & _ & E)|(tree & E & _)]; rewrite E in ES; [discriminate|].
      split; [pose proof (inv_bd _ Iv) as Bd; rewrite Forall_forall in Bd; apply Bd; auto|]. intros q Oq.
      destruct (loop_edges layout_new Lay query Qry tree_new solver n tree _ _ _ (input_inv adds B) ES s Is) as (s1 & I1 & Wa & Wb).
      unfold snap_radius in Wa, Wb. rewrite drift_moved in Wa, Wb. eapply merged_near; eauto.
      apply (within_mono (inject_Z (moved (precision solver) n) + 0)); [lra|]. apply (within_trans _ 0 _ _ (sa (sx s)) (sb (sx s))); [exact Wa|exact Wb|exact (within_on (sx s) q Oq)].
  Qed.

  Variable sort_ends : list link -> list (nat * pt).
  Hypothesis Sort : forall ls, ends_ok ls (sort_ends ls).
  Variable clean : bool -> list pt -> list pt * bool.
  Hypothesis Cl : clean_ok clean.
  Hypothesis Ce : clean_edges clean.

  (** what is known about a result: its winding numbers and its edges away from the input, and the range of its coordinates *)
  Definition result_near (r : OverlayRule) (fr : FillRule) (clockwise : bool) (shapes : list (list (list pt))) : Prop :=
    (forall q, ~ near_input d adds q -> contours_wind (concat shapes) q = if wanted r fr adds q then sign_of clockwise else 0) /\
    (forall c e q, In c (concat shapes) -> In e (edges c) -> on_seg (XS (fst e) (snd e)) q -> near_input d adds q) /\
    (forall c p, In c (concat shapes) -> In p c -> bounded_pt p).
  Lemma edge_starts {X} (l : list X) (m : list X) p : length l = length m -> In p l -> exists e, In e (combine l m) /\ fst e = p.
  Proof.
    revert m. induction l as [|a l IH]; intros [|b m] L I; try discriminate; [destruct I|]. destruct I as [<-|I]; [exists (a, b); split; simpl; auto|].
    destruct (IH m (eq_add_S _ _ L) I) as (e & Ie & Ee). exists e. split; simpl; auto.
  Qed.
  Lemma vertices_bounded links (cs : list (list pt)) : (forall l, In l links -> bounded (l_seg l)) ->
    (forall c e q, In c cs -> In e (edges c) -> on_seg (XS (fst e) (snd e)) q -> exists l, In l links /\ on_seg (l_seg l) q) ->
    forall c p, In c cs -> In p c -> bounded_pt p.
  Proof.
    intros Bl H c p Ic Ip. destruct c as [|a l]; [destruct Ip|].
    destruct (edge_starts (a :: l) (l ++ [a]) p) as (e & Ie & <-); auto. { rewrite app_length. simpl. lia. }
    destruct (H (a :: l) e (qof (fst e)) Ic Ie) as (k & Ik & Ok); [|eapply on_bounded; eauto].
    exists 0%Q. cbn [sa sb fst snd qof]. split; [lra|]. split; ring.
  Qed.
  Theorem overlay_custom_near r fr clockwise simplify dbg shapes :
    overlay_custom layout_new query tree_new sort_ends clean (S n) dbg adds r fr clockwise simplify 0 solver = ROk shapes -> result_near r fr clockwise shapes.
  Proof.
    unfold overlay_custom, overlay_links. intro H.
    destruct (build_boolean layout_new query tree_new (is_included r) (S n) (input_segments adds) fr solver) as [ls| |] eqn:EL; try discriminate. cbn [fbind] in H.
    destruct (build_near _ _ _ EL) as (segs & A & -> & W & Nl). fold (result_links fr r segs) in *.
    destruct (graph_new (result_links fr r segs) (sort_ends (result_links fr r segs))) as [g|] eqn:Eg; [|discriminate]. cbn [fbind fopt] in H.
    destruct (extract_shapes _ _ _ _ _ _ _ _) as [sh|] eqn:Ex; [|discriminate]. injection H as <-.
    destruct (direct_result segs A fr r clean Cl Ce dbg clockwise simplify _ g sh (Sort _) Eg Ex) as [D1 D2].
    split; [|split].
    - intros q Hq. rewrite D1, W by auto. auto.
    - intros c e q Ic Ie Oq. destruct (D2 c e q Ic Ie Oq) as (l & Il & Ol). apply (Nl l Il); auto.
    - apply (vertices_bounded (result_links fr r segs)); auto. intros l Il. apply (Nl l Il).
  Qed.
  (** the shapes, with counter-clockwise outer contours and [simplify_contour] off *)
  Theorem overlay_shapes_near r fr dbg shapes : dedup_ok clean ->
    overlay_custom layout_new query tree_new sort_ends clean (S n) dbg adds r fr false false 0 solver = ROk shapes ->
    (forall k k' sh sh' q, k <> k' -> nth_error shapes k = Some sh -> nth_error shapes k' = Some sh' -> ~ (covers sh q /\ covers sh' q)) /\
    forall q, ~ near_input d adds q -> ((exists sh, In sh shapes /\ covers sh q) <-> wanted r fr adds q = true).
  Proof.
    unfold overlay_custom, overlay_links. intros De H.
    destruct (build_boolean layout_new query tree_new (is_included r) (S n) (input_segments adds) fr solver) as [ls| |] eqn:EL; try discriminate. cbn [fbind] in H.
    destruct (build_near _ _ _ EL) as (segs & A & -> & W & Nl). fold (result_links fr r segs) in *.
    destruct (C40_shapes_plain_partial segs fr r _ clean dbg A (Sort _) De) as (g & shapes' & Hg & Hx & _ & Dj & C).
    rewrite Hg in H. cbn [fbind fopt] in H. rewrite Hx in H. cbn [fopt] in H. assert (shapes' = shapes) by congruence. subst shapes'.
    split; auto. intros q Hq. rewrite C, W by auto. tauto.
  Qed.
  Theorem graph_near r fr clockwise simplify dbg ls g shapes :
    graph_links layout_new query tree_new (S n) solver fr (input_segments adds) = ROk ls -> graph_new ls (sort_ends ls) = Some g ->
    extract_shapes dbg g clean r clockwise simplify 0 (filter_by_rule r ls) = Some shapes -> result_near r fr clockwise shapes.
  Proof.
    intros EL Eg Ex. destruct (build_near _ _ _ EL) as (segs & A & -> & W & Nl).
    destruct (graph_result segs A fr r clean Cl Ce dbg clockwise simplify _ g shapes (Sort _) Eg Ex) as [D1 D2].
    split; [|split].
    - intros q Hq. rewrite D1, W by auto. auto.
    - intros c e q Ic Ie Oq. destruct (D2 c e q Ic Ie Oq) as (l & Il & Ol). apply (Nl l Il); auto.
    - apply (vertices_bounded (kept is_included_filler fr segs)); auto. intros l Il. apply (Nl l Il).
  Qed.
End WithContracts.
