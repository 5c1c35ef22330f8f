(** * Offsets and strokes after the segments: [mesh/boolean.rs] computes the boolean overlay with the
    fill rule [Positive] and the rule [Subject], as long as every contour has a bold link. *)
From Verif Require Import Base Spec QLib ModelSegm SegmProofs MergeProofs PlanarGeo PlanarSum ModelFill ModelFilter FillProofs FillCorrect
  ModelCross CrossProofs CoreResults ModelSplit SplitProofs SplitPlanar SplitPass BinsProofs SplitApply SplitLoop
  ModelFrag ModelOverlay OverlayProofs ModelGraph GraphProofs ModelExtract ExtractProofs ContourResults Natural ModelOffset.
Open Scope Z_scope.

(** ** only the fills differ *)
Definition lmask (l : link) : link := Lk (l_aid l) (l_a l) (l_bid l) (l_b l) (N.land (l_fill l) SUBJ_BOTH).
Notation LM := (map lmask).
Definition gmask (g : graph) : graph := Graph (g_nodes g) (LM (g_links g)).

Lemma upd_mask f : (forall l, lmask (f l) = f (lmask l)) -> forall ls i, LM (upd i f ls) = upd i f (LM ls).
Proof. intros H ls. induction ls as [|l ls IH]; intros [|i]; simpl; auto; rewrite ?H, ?IH; auto. Qed.
Lemma fold_mask (f : nat -> link -> link) : (forall i l, lmask (f i l) = f i (lmask l)) -> forall id ga ls,
  LM (fold_left (fun ls i => upd i (f id) ls) ga ls) = fold_left (fun ls i => upd i (f id) ls) ga (LM ls).
Proof. intros H id ga. induction ga as [|i ga IH]; intro ls; simpl; auto. rewrite IH, upd_mask; auto. Qed.
Lemma build_loop_mask fuel : forall a b la lb ls ns,
  build_loop fuel a b la lb (LM ls) ns = option_map (fun nl => (fst nl, LM (snd nl))) (build_loop fuel a b la lb ls ns).
Proof.
  induction fuel as [|fuel IH]; intros a b la lb ls ns; [reflexivity|]. cbn [build_loop].
  assert (S : forall ta tb : bool, (let id := length ns in
      let '(ga, la') := if ta then head_run a la else ([], la) in
      let '(gb, lb') := if tb then head_run b lb else ([], lb) in
      build_loop fuel (if ta then head_point la' a else a) (if tb then head_point lb' b else b) la' lb'
        (fold_left (fun ls i => upd i (set_bid id) ls) gb (fold_left (fun ls i => upd i (set_aid id) ls) ga (LM ls))) (ns ++ [node_new (ga ++ gb)])) =
    option_map (fun nl => (fst nl, LM (snd nl))) (let id := length ns in
      let '(ga, la') := if ta then head_run a la else ([], la) in
      let '(gb, lb') := if tb then head_run b lb else ([], lb) in
      build_loop fuel (if ta then head_point la' a else a) (if tb then head_point lb' b else b) la' lb'
        (fold_left (fun ls i => upd i (set_bid id) ls) gb (fold_left (fun ls i => upd i (set_aid id) ls) ga ls)) (ns ++ [node_new (ga ++ gb)]))).
  { intros ta tb. cbv zeta. destruct (if ta then _ else _) as [ga la']. destruct (if tb then _ else _) as [gb lb'].
    rewrite <- IH, (fold_mask set_bid), (fold_mask set_aid) by reflexivity. reflexivity. }
  destruct la, lb; [reflexivity| | |]; (destruct (pt_eqb a b); [apply (S true true)|]; destruct (_ && _); [apply (S true false)|apply (S false true)]).
Qed.
Lemma map_a_mask ls : map l_a (LM ls) = map l_a ls.
Proof. rewrite map_map. reflexivity. Qed.
Lemma map_b_mask ls : map l_b (LM ls) = map l_b ls.
Proof. rewrite map_map. reflexivity. Qed.
Lemma graph_mask ls ends : graph_new (LM ls) ends = option_map gmask (graph_new ls ends).
Proof.
  unfold graph_new, build_graph. destruct ls as [|l0 ls]; [reflexivity|]. rewrite map_a_mask. cbn [map]. change (lmask l0 :: LM ls) with (LM (l0 :: ls)).
  rewrite build_loop_mask. cbn [map lmask l_a l_b]. destruct (build_loop _ _ _ _ _ _ _) as [[ns ls']|]; reflexivity.
Qed.
Lemma ends_mask ls ends : ends_ok (LM ls) ends <-> ends_ok ls ends.
Proof. unfold ends_ok. rewrite map_b_mask. tauto. Qed.

Section MaskExtract.
  Variable g : graph.
  Notation G' := (gmask g).
  Lemma nth_mask i : nth_error (g_links G') i = option_map lmask (nth_error (g_links g) i).
  Proof. apply nth_error_map. Qed.
  Lemma nearest_loop_mask node ids : forall v, nearest_loop G' node ids v = nearest_loop g node ids v.
  Proof. induction ids as [|i r IH]; intro v; [reflexivity|]. cbn [nearest_loop]. rewrite nth_mask. destruct (nth_error (g_links g) i) as [l|]; [apply IH|reflexivity]. Qed.
  Lemma next_mask li node cw n vis : next_link G' li node cw n vis = next_link g li node cw n vis.
  Proof.
    destruct n as [i j|l]; [reflexivity|]. cbn [next_link]. unfold find_nearest_link_to. destruct (filter _ l) as [|i [|j r]]; auto. rewrite !nth_mask.
    destruct (nth_error (g_links g) li) as [t|]; auto. destruct (nth_error (g_links g) i) as [f|]; auto. cbn [option_map].
    change (l_aid (lmask t)) with (l_aid t). change (l_a (lmask t)) with (l_a t). change (l_b (lmask t)) with (l_b t). change (l_other (lmask f) node) with (l_other f node).
    destruct (if (l_aid t =? node)%nat then _ else _) as [c a]. rewrite nearest_loop_mask. reflexivity.
  Qed.
  Lemma walk_mask fuel : forall cw li node last vis, walk G' fuel cw li node last vis = walk g fuel cw li node last vis.
  Proof.
    induction fuel as [|fuel IH]; intros cw li node lst vis; [reflexivity|]. cbn [walk]. destruct (node =? lst)%nat; auto. cbn [gmask g_nodes].
    destruct (nth_error (g_nodes g) node) as [n|]; auto. rewrite next_mask. destruct (next_link g li node cw n vis) as [i|]; auto. fold G'. rewrite nth_mask.
    destruct (nth_error (g_links g) i) as [l|]; auto. cbn [option_map]. change (l_aid (lmask l)) with (l_aid l). change (l_a (lmask l)) with (l_a l).
    change (l_b (lmask l)) with (l_b l). change (l_bid (lmask l)) with (l_bid l). destruct (if (l_aid l =? node)%nat then _ else _) as [p nx]. rewrite IH. reflexivity.
  Qed.
  Lemma contour_mask fuel s cw vis : get_contour G' fuel s cw vis = get_contour g fuel s cw vis.
  Proof. unfold get_contour. rewrite walk_mask. reflexivity. Qed.
  Lemma left_top_mask li vis : find_left_top_link G' li vis = find_left_top_link g li vis.
  Proof.
    unfold find_left_top_link. rewrite nth_mask. destruct (nth_error (g_links g) li) as [top|]; auto. cbn [option_map gmask g_nodes]. fold G'.
    change (l_aid (lmask top)) with (l_aid top). destruct (nth_error (g_nodes g) (l_aid top)) as [[i j|l]|]; auto.
    - unfold left_top_bridge. rewrite !nth_mask. destruct (nth_error (g_links g) i), (nth_error (g_links g) j); reflexivity.
    - enough (K : forall ids ix t, left_top_loop G' li ids ix (lmask t) vis = left_top_loop g li ids ix t vis) by apply K.
      induction ids as [|i ids IH]; intros ix t; [reflexivity|]. cbn [left_top_loop]. rewrite nth_mask. destruct (i =? li)%nat; [apply IH|].
      destruct (nth_error (g_links g) i) as [m|]; [|reflexivity]. cbn [option_map].
      change (pt_ltb (l_a (lmask m)) (l_b (lmask m))) with (pt_ltb (l_a m) (l_b m)). change (is_clockwise (l_a (lmask t)) (l_b (lmask t)) (l_b (lmask m))) with (is_clockwise (l_a t) (l_b t) (l_b m)).
      destruct (_ || _); [apply IH|]. destruct (is_visited vis i); apply IH.
  Qed.
End MaskExtract.

Lemma included_mask l : is_included RSubject (l_fill (lmask l)) = is_included RSubject (l_fill l).
Proof. cbn [is_included lmask l_fill]. unfold is_subject. rewrite <- N.land_assoc. reflexivity. Qed.
Lemma top_mask l : is_fill_top RSubject (l_fill (lmask l)) = (N.land (l_fill l) SUBJ_TOP =? SUBJ_TOP)%N.
Proof. cbn [is_fill_top lmask l_fill]. rewrite <- N.land_assoc. reflexivity. Qed.
Lemma flags_mask ls : filter_by_rule RSubject (LM ls) = filter_by_rule RSubject ls.
Proof. unfold filter_by_rule. rewrite map_map. apply map_ext. intro l. rewrite included_mask. auto. Qed.

(** as long as every contour found is bold, the extraction is that of the boolean overlay *)
Lemma offset_is_extract g clean cw ma : forall fuel li vis bps, offset_loop g clean fuel cw ma li vis = Some bps -> Forall (fun bp => snd bp = true) bps ->
  extract_loop (gmask g) clean fuel RSubject cw true ma li vis = Some (map fst bps).
Proof.
  induction fuel as [|fuel IH]; intros li vis bps H B.
  - cbn [offset_loop extract_loop] in *. destruct (_ <=? _)%nat; [injection H as <-; reflexivity|discriminate].
  - cbn [offset_loop extract_loop] in *. destruct (_ <=? _)%nat; [injection H as <-; reflexivity|]. destruct (is_visited vis li); [apply IH; auto|].
    rewrite left_top_mask. destruct (find_left_top_link g li vis) as [lt|]; [|discriminate]. rewrite nth_mask. destruct (nth_error (g_links g) lt) as [l|]; [|discriminate].
    cbn [option_map]. rewrite top_mask. rewrite contour_mask. change (start_path ?d (lmask l) lt) with (start_path d l lt).
    destruct (get_contour g _ _ _ _) as [[[raw used] vis']|]; [|discriminate]. destruct (clean true raw) as [c m]. set (bold := existsb _ used) in H.
    destruct (offset_loop g clean fuel cw ma _ vis') as [bps'|] eqn:E; [|discriminate]. injection H as <-. inversion B as [|? ? B1 B2]; subst. cbn [snd] in B1. rewrite B1 in *. cbn [andb] in *.
    rewrite (IH _ _ _ E B2). reflexivity.
Qed.
(** the converse when all links are bold *)
Lemma extract_is_offset g clean cw ma : Forall (fun l => is_bold l = true) (g_links g) -> forall fuel li vis ps,
  extract_loop (gmask g) clean fuel RSubject cw true ma li vis = Some ps -> offset_loop g clean fuel cw ma li vis = Some (map (fun p => (p, true)) ps).
Proof.
  intros Bo. induction fuel as [|fuel IH]; intros li vis ps H.
  - cbn [offset_loop extract_loop] in *. destruct (_ <=? _)%nat; [injection H as <-; reflexivity|discriminate].
  - cbn [offset_loop extract_loop] in *. destruct (_ <=? _)%nat; [injection H as <-; reflexivity|]. destruct (is_visited vis li); [apply IH; auto|].
    rewrite left_top_mask in H. destruct (find_left_top_link g li vis) as [lt|]; [|discriminate]. rewrite nth_mask in H. destruct (nth_error (g_links g) lt) as [l|] eqn:El; [|discriminate].
    cbn [option_map] in H. rewrite top_mask, contour_mask in H. change (start_path ?d (lmask l) lt) with (start_path d l lt) in H.
    assert (Lt : forall fuel s cw vis raw used vis', get_contour g fuel s cw vis = Some (raw, used, vis') -> exists r, used = sd_link s :: r).
    { intros f s c v raw used v' E. unfold get_contour in E. destruct (walk _ _ _ _ _ _ _) as [[[? ?] ?]|]; [|discriminate]. injection E as <- <- <-. eauto. }
    destruct (get_contour g _ _ _ _) as [[[raw used] vis']|] eqn:Eg; [|discriminate]. destruct (clean true raw) as [c m].
    assert (Bd : existsb (fun i => match nth_error (g_links g) i with Some l => is_bold l | None => false end) used = true).
    { destruct (Lt _ _ _ _ _ _ _ Eg) as [r ->]. cbn [existsb]. assert (Sl : sd_link (start_path (Bool.eqb (N.land (l_fill l) SUBJ_TOP =? SUBJ_TOP)%N cw) l lt) = lt) by (unfold start_path; destruct (Bool.eqb _ _); reflexivity).
      rewrite Sl, El. rewrite Forall_forall in Bo. rewrite (Bo l) by (eapply nth_error_In; eauto). reflexivity. }
    rewrite Bd. cbn [andb]. destruct (extract_loop (gmask g) clean fuel _ _ _ _ _ vis') as [ps'|] eqn:E; [|discriminate]. injection H as <-. rewrite (IH _ _ _ E). reflexivity.
Qed.

(** ** the counts: drop [bold] *)
Definition unbold (c : cntO) : cntB := CB (osubj c) 0.
Notation unb := (smap unbold).
Lemma unbold_add a b : unbold (wc_add a b) = wc_add (unbold a) (unbold b).
Proof. reflexivity. Qed.
Lemma unbold_inv a : unbold (wc_invert a) = wc_invert (unbold a).
Proof. reflexivity. Qed.
Lemma unbold_ne a : wc_not_empty (unbold a) = wc_not_empty a.
Proof. cbn. rewrite orb_false_r. reflexivity. Qed.
Lemma unbold_subj l : subj_chain (map unb l) = chain_of osubj l.
Proof. unfold subj_chain, chain_of. rewrite map_map. reflexivity. Qed.
Lemma unbold_clip l q : wind (clip_chain (map unb l)) q = 0.
Proof. unfold clip_chain, wind, chain_of. rewrite !zsum_map. apply zsum_zero. intros s _. cbn. destruct (under _ _); auto. Qed.
Lemma unbold_clip_balanced l : balanced (clip_chain (map unb l)).
Proof. intro v. unfold clip_chain. rewrite boundary_chain_of, zsum_map. apply zsum_zero. intros s _. cbn. lia. Qed.

(** ** the fills *)
Section Fills.
  Variable segs : list (segment cntO).
  Hypothesis A : arrangement (map unb segs).
  Lemma offset_fill_at j s : nth_error segs j = Some s -> exists f, nth_error (fill_solve add_and_fill_offset segs) j = Some f /\
    nth_error (fill_boolean Positive (map unb segs)) j = Some (N.land f SUBJ_BOTH) /\ negb (N.land f (N.shiftl 1 BOLD_BIT) =? 0)%N = obold (sc s).
  Proof.
    intro Hj.
    destruct (fill_solve_bot add_and_fill_offset unit (fun _ => osubj)) with (segs := segs) (j := j) (s := s) as (bot & E & V); auto.
    - intros t I. apply (arr_wf _ A (unb t)). apply in_map; auto.
    - pose proof (arr_nodup _ A) as N. rewrite map_sx_smap in N. exact N.
    - pose proof (arr_planar _ A) as N. rewrite map_sx_smap in N. exact N.
    - intros _. rewrite <- unbold_subj. apply (arr_subj _ A).
    - pose proof (arr_sorted_sa _ A) as S. revert S. clear. induction segs as [|s l IH]; intro S; constructor; inversion S as [|? ? S1 F]; subst; auto.
      rewrite Forall_map in F. exact F.
    - eexists. split; [exact E|]. rewrite (fill_boolean_fill _ A Positive j (unb s)) by (rewrite nth_error_map, Hj; reflexivity).
      replace (botsum bool vals (map unb segs) true (unb s)) with (osubj bot) by (rewrite (V tt); unfold botsum; cbn [vals]; fold (subj_chain (map unb segs)); rewrite unbold_subj; reflexivity).
      replace (botsum bool vals (map unb segs) false (unb s)) with 0.
      + cbn [add_and_fill_offset snd unbold smap sx sc subj clip inside]. rewrite !Z.gtb_ltb. split.
        * f_equal. destruct (0 <? osubj bot + osubj (sc s)), (0 <? osubj bot), (obold (sc s)); reflexivity.
        * destruct (0 <? osubj bot + osubj (sc s)), (0 <? osubj bot), (obold (sc s)); reflexivity.
      + symmetry. unfold botsum. cbn [vals]. destruct (is_not_vertical _); unfold below, le_sum; apply zsum_zero; intros e Ie; unfold chain_of in Ie; rewrite map_map in Ie; apply in_map_iff in Ie as (t & <- & _); cbn [fst snd smap unbold sc clip]; match goal with |- (if ?b then _ else _) = _ => destruct b; reflexivity end.
  Qed.
End Fills.

(** ** the links, with [bold] removed, are all links of the boolean overlay *)
Section Links.
  Variable segs : list (segment cntO).
  Hypothesis A : arrangement (map unb segs).
  Notation links := (build_all_links segs (fill_solve add_and_fill_offset segs)).
  Lemma offset_fill_length : length (fill_solve add_and_fill_offset segs) = length segs.
  Proof. apply fill_solve_length. Qed.
  Lemma offset_links_mask : LM links = build_links (fun _ => true) (map unb segs) (fill_boolean Positive (map unb segs)).
  Proof.
    unfold build_all_links, build_links.
    assert (F : filter (fun sf : segment cntB * fill_t => true) (combine (map unb segs) (fill_boolean Positive (map unb segs))) = combine (map unb segs) (fill_boolean Positive (map unb segs))).
    { generalize (combine (map unb segs) (fill_boolean Positive (map unb segs))). induction l as [|x l IH]; simpl; congruence. }
    rewrite F, map_map. clear F.
    pose proof offset_fill_length as L1. pose proof (fill_boolean_length (map unb segs) Positive) as L2. rewrite map_length in L2.
    assert (K : forall j s, nth_error segs j = Some s -> exists f, nth_error (fill_solve add_and_fill_offset segs) j = Some f /\
      nth_error (fill_boolean Positive (map unb segs)) j = Some (N.land f SUBJ_BOTH)).
    { intros j s Hj. destruct (offset_fill_at segs A j s Hj) as (f & H1 & H2 & _). eauto. }
    revert K L1 L2. generalize (fill_solve add_and_fill_offset segs) as fo, (fill_boolean Positive (map unb segs)) as fb. clear A.
    induction segs as [|s l IH]; intros fo fb K L1 L2; [reflexivity|]. destruct fo as [|f fo]; [discriminate|]. destruct fb as [|b fb]; [discriminate|].
    destruct (K O s eq_refl) as (f' & E1 & E2). injection E1 as <-. injection E2 as ->. cbn [map combine]. f_equal.
    apply IH; [|simpl in *; lia|simpl in *; lia]. intros j t Hj. apply (K (S j) t Hj).
  Qed.
  Lemma offset_links_bold j l : nth_error links j = Some l -> exists s, nth_error segs j = Some s /\ l_seg l = sx s /\ is_bold l = obold (sc s).
  Proof.
    unfold build_all_links. rewrite nth_error_map. destruct (nth_error (combine segs _) j) as [[s f]|] eqn:E; [|discriminate]. intro H. injection H as <-.
    assert (Hs : nth_error segs j = Some s /\ nth_error (fill_solve add_and_fill_offset segs) j = Some f).
    { revert E. generalize (fill_solve add_and_fill_offset segs). clear A. revert j. induction segs as [|x l IH]; intros [|j] [|y fs] E; try discriminate; cbn in *; [injection E as <- <-; auto|apply IH; auto]. }
    destruct Hs as [Hs Hf]. destruct (offset_fill_at segs A j s Hs) as (f' & E1 & _ & B). rewrite Hf in E1. injection E1 as <-.
    exists s. split; auto. split; [destruct s as [[a b] c]; reflexivity|exact B].
  Qed.
End Links.

(** ** extraction never fails, whatever is bold *)
Definition used_bold (g : graph) (u : list nat) : bool := existsb (fun i => match nth_error (g_links g) i with Some l => is_bold l | None => false end) u.
Theorem offset_spec g pts clean cw min_area : graph_wf g pts -> forall fuel k vis,
  all_even g vis -> length vis = length (g_links g) -> ((length vis - k) + ucount vis <= fuel)%nat ->
  exists bps, offset_loop g clean fuel cw min_area k vis = Some bps /\
    Forall (fun bp => let p := fst bp in Forall2 (edge_is g) (edges (p_raw p)) (p_used p) /\ p_used p <> [] /\ snd bp = used_bold g (p_used p) /\
      p_contour p = fst (clean true (p_raw p)) /\ p_valid p = snd bp && is_valid min_area (p_contour p)) bps /\
    NoDup (concat (map (fun bp => p_used (fst bp)) bps)) /\
    (forall i, In i (concat (map (fun bp => p_used (fst bp)) bps)) -> not_visited vis i = true).
Proof.
  intro G. induction fuel as [|fuel IH]; intros k vis E Len Fu; cbn [offset_loop].
  - destruct (Nat.leb_spec (length vis) k) as [L|L]; [|lia]. exists []. split; auto. split; [constructor|]. split; [constructor|]. intros ? [].
  - destruct (Nat.leb_spec (length vis) k) as [L|L].
    { exists []. split; auto. split; [constructor|]. split; [constructor|]. intros ? []. }
    destruct (is_visited vis k) eqn:V.
    { destruct (IH (S k) vis E Len) as (ps & A & B & D & F); [lia|]. exists ps. auto. }
    assert (U : not_visited vis k = true) by (unfold not_visited; rewrite V; auto).
    assert (Lk : (k < length (g_links g))%nat) by lia. apply nth_error_Some in Lk. destruct (nth_error (g_links g) k) as [l|] eqn:Hl; [|congruence].
    destruct (left_top_spec g pts G k vis l E U Hl) as (lt & ll & -> & Ut & Hll & _). rewrite Hll.
    set (hole := (N.land (l_fill ll) SUBJ_TOP =? SUBJ_TOP)%N). set (dir := Bool.eqb hole cw).
    destruct (contour_spec g pts G (length vis) dir dir ll lt vis E Ut Hll Len) as (c & u & vis' & -> & Ed & Nd & Un & Fl & Ev & Cn & _).
    { pose proof (ucount_le vis). lia. }
    destruct (clean true c) as [cc m] eqn:Ecl. fold (used_bold g (lt :: u)). set (bold := used_bold g (lt :: u)).
    destruct (IH (if bold && is_valid min_area cc then k else S k) vis' Ev) as (ps & A & B & C & D).
    { destruct Fl as [Fl _]. congruence. }
    { destruct Fl as [Fl _]. rewrite Fl. simpl in Cn. destruct (bold && is_valid min_area cc); lia. }
    rewrite A. eexists. split; [reflexivity|]. split; [|split].
    + constructor; auto. cbn [fst snd p_raw p_used p_contour p_valid]. rewrite Ecl. repeat split; auto. discriminate.
    + cbn [map fst p_used concat].
      assert (Dj : forall i, In i (lt :: u) -> ~ In i (concat (map (fun bp => p_used (fst bp)) ps))).
      { intros i I1 I2. apply D in I2. apply (flags_trans _ _ _ Fl) in I2. tauto. }
      clear - Nd C Dj. induction (lt :: u) as [|x l IH]; simpl; auto. inversion Nd; subst. constructor.
      * rewrite in_app_iff. intros [I|I]; auto. eapply Dj; [left; auto|auto].
      * apply IH; auto. intros i I. apply Dj. right; auto.
    + intros i I. cbn [map concat fst p_used] in I. apply in_app_iff in I as [I|I]; auto. apply D in I. apply (flags_trans _ _ _ Fl) in I. tauto.
Qed.
