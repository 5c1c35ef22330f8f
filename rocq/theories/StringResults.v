(** * String overlays: fill flags and clipped lines. *)
From Verif Require Import Base Spec QLib ModelSegm SegmProofs MergeProofs PlanarGeo PlanarSum ModelFill ModelFilter FillProofs FillCorrect
  ModelCross CrossProofs CrossPoint MarksProofs CoreResults Properties01 ModelSplit SplitProofs SplitPlanar SplitPass BinsProofs SplitApply SplitLoop SplitFlags
  ModelFrag ModelOverlay OverlayProofs ModelGraph GraphProofs ModelString StringProofs.
Open Scope Z_scope.

(** ** Specification *)
(** the contours that were added *)
Definition shape_contours (items : list item) : list (list pt) :=
  flat_map (fun i => match i with SContour p => [p] | _ => [] end) items.
(** the moves along the lines that were added, in their direction *)
Definition item_moves (i : item) : list (pt * pt) :=
  match i with
  | SContour _ => []
  | SLine a b => [(a, b)]
  | SPath p => steps p
  | SClosed p => edges p
  end.
Definition moves (items : list item) : list (pt * pt) := flat_map item_moves items.
Definition item_points (i : item) : list pt :=
  match i with SContour p => p | SLine a b => [a; b] | SPath p => p | SClosed p => p end.
Definition string_bounded (items : list item) : Prop :=
  Forall (fun i => Forall (fun p => - 2 ^ 30 < px p < 2 ^ 30 /\ - 2 ^ 30 < py p < 2 ^ 30) (item_points i)) items.

(** ** the segments of the input *)
Lemma pt_cmp_spec a b : match pt_cmp a b with Lt => pt_lt a b | Eq => a = b | Gt => pt_lt b a end.
Proof.
  destruct (pt_cmp a b) eqn:E; [apply pt_cmp_eq|apply pt_cmp_lt|apply pt_cmp_gt]; auto.
Qed.
(** the segment of a move *)
Definition move_seg (m : pt * pt) : list (segment cntS) := line_segment (fst m) (snd m).
Lemma line_loop_moves it : forall a, line_loop a it = flat_map move_seg (steps (a :: it)).
Proof. induction it as [|b it IH]; intro a; [reflexivity|]. cbn [line_loop]. rewrite steps_cons, IH. reflexivity. Qed.
Lemma path_moves path : string_path path = flat_map move_seg (steps path).
Proof.
  unfold string_path. destruct path as [|a [|b r]]; try reflexivity. cbn [length Nat.ltb Nat.leb]. apply line_loop_moves.
Qed.
Lemma combine_snoc {A B} (l : list A) (m : list B) a b : length l = length m -> combine (l ++ [a]) (m ++ [b]) = combine l m ++ [(a, b)].
Proof. revert m. induction l as [|x l IH]; intros [|y m] L; try discriminate; simpl; auto. rewrite IH; auto. Qed.
Lemma steps_edges a l : l <> [] -> Permutation (steps (last l a :: l)) (edges l).
Proof.
  destruct l as [|p r]; [congruence|]. intros _. unfold steps, edges.
  change (tl (last (p :: r) a :: p :: r)) with (p :: r). 
  destruct (exists_last (l := p :: r)) as (l' & x & E); [discriminate|].
  rewrite E, last_last. destruct l' as [|p' l'].
  - simpl in E. injection E as -> ->. reflexivity.
  - simpl in E. injection E as <- ->.
    assert (K : forall (A : Type) (l m : list A) y, length m = length l -> combine (l ++ [y]) m = combine l m).
    { clear. intros A l. induction l as [|u l IH]; intros [|v m] y L; try discriminate; simpl; auto. f_equal. apply IH. simpl in L. lia. }
    rewrite (combine_snoc (p :: l') (l' ++ [x])) by (rewrite app_length; simpl; lia).
    eapply Permutation_trans; [|apply Permutation_app_comm]. cbn [app]. change (combine (x :: p :: l' ++ [x]) (p :: l' ++ [x])) with ((x, p) :: combine ((p :: l') ++ [x]) (l' ++ [x])).
    rewrite K; [reflexivity|]. rewrite app_length. simpl. lia.
Qed.
Lemma closed_moves path : Permutation (string_contour path) (flat_map move_seg (edges path)).
Proof.
  unfold string_contour. destruct path as [|a [|b r]]; try reflexivity.
  - simpl. unfold move_seg, line_segment. simpl. pose proof (pt_cmp_spec a a) as H. destruct (pt_cmp a a); auto; destruct (pt_lt_irrefl _ H).
  - cbn [length Nat.ltb Nat.leb]. rewrite line_loop_moves. apply Permutation_flat_map. apply (steps_edges (Pt 0 0)). discriminate.
Qed.
Lemma item_perm i : Permutation (item_segments i) (match i with SContour p => append_path p Subject | _ => flat_map move_seg (item_moves i) end).
Proof.
  destruct i as [p|a b|p|p]; cbn [item_segments item_moves]; auto.
  - simpl. rewrite app_nil_r. reflexivity.
  - rewrite path_moves. reflexivity.
  - apply closed_moves.
Qed.
Lemma move_seg_in m s : In s (move_seg m) -> fst m <> snd m /\ wf_xseg (sx s) /\ ssubj (sc s) = 0 /\
  (sx s = XS (fst m) (snd m) /\ sclip (sc s) = 1%N \/ sx s = XS (snd m) (fst m) /\ sclip (sc s) = 2%N).
Proof.
  unfold move_seg, line_segment. destruct m as [a b]. simpl. pose proof (pt_cmp_spec a b) as H.
  destruct (pt_cmp a b); simpl; intros [<-|[]] || intros []; simpl.
  - split; [intros ->; eapply pt_lt_irrefl; eauto|]. auto.
  - split; [intros ->; eapply pt_lt_irrefl; eauto|]. auto.
Qed.
Lemma move_seg_ex m : fst m <> snd m -> exists s, In s (move_seg m) /\ wf_xseg (sx s) /\ ssubj (sc s) = 0 /\
  (sx s = XS (fst m) (snd m) /\ sclip (sc s) = 1%N \/ sx s = XS (snd m) (fst m) /\ sclip (sc s) = 2%N).
Proof.
  intro N. unfold move_seg, line_segment. destruct m as [a b]. simpl in *. pose proof (pt_cmp_spec a b) as H.
  destruct (pt_cmp a b); [congruence| |]; eexists; (split; [left; reflexivity|]); simpl; auto.
Qed.
Lemma contour_seg_in p s : In s (@append_path cntS WC_S p Subject) -> sclip (sc s) = 0%N /\ (ssubj (sc s) = 1 \/ ssubj (sc s) = -1).
Proof.
  intro H. assert (F : Forall (fun s : segment cntS => sclip (sc s) = 0%N /\ (ssubj (sc s) = 1 \/ ssubj (sc s) = -1)) (append_path p Subject)).
  { apply (append_path_count (fun c => sclip c = 0%N /\ (ssubj c = 1 \/ ssubj c = -1))); simpl; auto. }
  rewrite Forall_forall in F. auto.
Qed.
Lemma segments_in items s : In s (string_segments items) <->
  (exists p, In p (shape_contours items) /\ In s (append_path p Subject)) \/ (exists m, In m (moves items) /\ In s (move_seg m)).
Proof.
  unfold string_segments, shape_contours, moves. rewrite in_flat_map. split.
  - intros (i & Ii & H). apply (Permutation_in _ (item_perm i)) in H. destruct i as [p|a b|p|p].
    1: left; exists p; split; auto; apply in_flat_map; exists (SContour p); simpl; auto.
    all: right; apply in_flat_map in H as (m & Im & H); exists m; split; auto; apply in_flat_map; eexists; split; eauto.
  - intros [(p & Ip & H)|(m & Im & H)].
    + apply in_flat_map in Ip as (i & Ii & Ip). exists i. split; auto. destruct i; simpl in Ip; try destruct Ip as [->|[]]; try destruct Ip. exact H.
    + apply in_flat_map in Im as (i & Ii & Im). exists i. split; auto. apply (Permutation_in _ (Permutation_sym (item_perm i))).
      destruct i as [p|a b|p|p]; [destruct Im| | |]; apply in_flat_map; eauto.
Qed.

Lemma move_ends l a b : In (a, b) (steps l) -> In a l /\ In b l.
Proof. unfold steps. intro H. split; [eapply in_combine_l; eauto|]. apply in_combine_r in H. destruct l; simpl in *; auto. Qed.
Lemma edge_ends l a b : In (a, b) (edges l) -> In a l /\ In b l.
Proof.
  destruct l as [|p r]; [intros []|]. cbn [edges]. intro H. split; [eapply in_combine_l; eauto|]. apply in_combine_r in H.
  apply in_app_or in H as [H|[<-|[]]]; simpl; auto.
Qed.
Lemma item_move_ends i a b : In (a, b) (item_moves i) -> In a (item_points i) /\ In b (item_points i).
Proof.
  destruct i as [p|u v|p|p]; simpl; [tauto| |apply move_ends|apply edge_ends]. intros [H|[]]. injection H as <- <-. auto.
Qed.

Lemma string_wf items : Forall (fun s => wf_xseg (sx s)) (string_segments items).
Proof.
  apply Forall_forall. intros s H. apply segments_in in H as [(p & _ & H)|(m & _ & H)].
  - pose proof (@append_path_wf cntS WC_S p Subject) as F. rewrite Forall_forall in F. auto.
  - apply move_seg_in in H. tauto.
Qed.
Lemma string_nonempty items : Forall (fun s => wc_not_empty (sc s) = true) (string_segments items).
Proof.
  apply Forall_forall. intros s H. apply segments_in in H as [(p & _ & H)|(m & _ & H)].
  - apply contour_seg_in in H as [_ H]. simpl. lia.
  - apply move_seg_in in H as (_ & _ & _ & [[_ H]|[_ H]]); simpl; rewrite H; simpl; apply orb_true_r.
Qed.
Lemma string_ok items : Forall (fun s => (sclip (sc s) < 4)%N) (string_segments items).
Proof.
  apply Forall_forall. intros s H. apply segments_in in H as [(p & _ & H)|(m & _ & H)].
  - apply contour_seg_in in H as [H _]. rewrite H. reflexivity.
  - apply move_seg_in in H as (_ & _ & _ & [[_ H]|[_ H]]); simpl; rewrite H; reflexivity.
Qed.
Lemma string_bd items : string_bounded items -> Forall (fun s => bounded (sx s)) (string_segments items).
Proof.
  intro B. apply Forall_forall. intros s H. unfold string_bounded in B. rewrite Forall_forall in B.
  assert (K : forall p, - 2 ^ 30 < px p < 2 ^ 30 /\ - 2 ^ 30 < py p < 2 ^ 30 -> bounded_pt p) by (unfold bounded_pt; intros; lia).
  unfold string_segments in H. apply in_flat_map in H as (i & Ii & H). specialize (B i Ii).
  destruct i as [p|a b|p|p].
  1: { assert (F : Forall bounded_pt p) by (eapply Forall_impl; [|exact B]; intros q Hq; apply K; exact Hq).
       pose proof (@append_path_ends cntS WC_S bounded_pt p Subject F) as F2. rewrite Forall_forall in F2. apply (F2 s H). }
  all: apply (Permutation_in _ (item_perm _)) in H; apply in_flat_map in H as ([u v] & Im & H);
    apply item_move_ends in Im as [I1 I2]; rewrite Forall_forall in B;
    apply move_seg_in in H as (_ & _ & _ & [[-> _]|[-> _]]); split; simpl; apply K; apply B; auto.
Qed.
Lemma string_inv items : string_bounded items -> inv (sort_merge (string_segments items)).
Proof.
  intro B. constructor.
  - apply sort_merge_sorted.
  - apply (sort_merge_elems wf_xseg), string_wf.
  - apply sort_merge_nonempty, string_nonempty.
  - apply sort_merge_ok. apply string_ok.
  - apply (sort_merge_elems bounded), string_bd; auto.
Qed.
Lemma ssubj_add (a b : cntS) : ssubj (wc_add a b) = ssubj a + ssubj b.
Proof. reflexivity. Qed.
Lemma ssubj_empty (c : cntS) : wc_not_empty c = false -> ssubj c = 0.
Proof. destruct c. simpl. lia. Qed.
Lemma ssubj_invert (c : cntS) : ssubj (wc_invert c) = - ssubj c.
Proof. reflexivity. Qed.

Lemma perm_lin {C} (f : C -> Z) l l' q : Permutation l l' -> wind (chain_of f l) q = wind (chain_of f l') q.
Proof. intro P. rewrite !wind_chain_of. apply zsum_perm. auto. Qed.
Lemma string_wind items q : Forall open_contour (shape_contours items) ->
  wind (chain_of ssubj (string_segments items)) q = contours_wind (shape_contours items) q.
Proof.
  unfold string_segments, shape_contours, contours_wind. intro H. rewrite wind_chain_of, !zsum_flat_map.
  apply zsum_ext. intros i Ii. rewrite <- (wind_chain_of ssubj).
  destruct i as [p|a b|p|p].
  - cbn [item_segments]. rewrite (append_path_wind (ssubj) Subject 1 p q) by (auto; rewrite Forall_forall in H; apply H, in_flat_map; exists (SContour p); simpl; auto).
    rewrite zsum_cons, zsum_nil. lia.
  - rewrite (perm_lin _ _ _ _ (item_perm _)), wind_chain_of. apply zsum_zero. intros s Is. apply in_flat_map in Is as (m & _ & Is).
    apply move_seg_in in Is as (_ & _ & -> & _). destruct (under _ _); lia.
  - rewrite (perm_lin _ _ _ _ (item_perm _)), wind_chain_of. apply zsum_zero. intros s Is. apply in_flat_map in Is as (m & _ & Is).
    apply move_seg_in in Is as (_ & _ & -> & _). destruct (under _ _); lia.
  - rewrite (perm_lin _ _ _ _ (item_perm _)), wind_chain_of. apply zsum_zero. intros s Is. apply in_flat_map in Is as (m & _ & Is).
    apply move_seg_in in Is as (_ & _ & -> & _). destruct (under _ _); lia.
Qed.
Lemma string_balanced items : balanced (chain_of ssubj (string_segments items)).
Proof.
  intro v. unfold string_segments. rewrite boundary_chain_of, zsum_flat_map. apply zsum_zero. intros i _.
  destruct i as [p|a b|p|p].
  1: rewrite <- (boundary_chain_of ssubj); apply (append_path_boundary ssubj Subject 1); auto.
  all: apply zsum_zero; intros s Is; apply (Permutation_in _ (item_perm _)) in Is; apply in_flat_map in Is as (m & _ & Is);
    apply move_seg_in in Is as (_ & _ & -> & _); lia.
Qed.

(** ** Fill flags *)
(** the subject part of a string arrangement *)
Definition as_bool (s : segment cntS) : segment cntB := Seg (sx s) (CB (ssubj (sc s)) 0).
Lemma as_bool_chain l : subj_chain (map as_bool l) = chain_of ssubj l.
Proof. unfold subj_chain, chain_of. rewrite map_map. reflexivity. Qed.
Lemma as_bool_sx l : map sx (map as_bool l) = map sx l.
Proof. rewrite map_map. reflexivity. Qed.

Section Flags.
  Variable segs : list (segment cntS).
  Hypothesis Wf : Forall (fun s => wf_xseg (sx s)) segs.
  Hypothesis Sr : strict_sorted segs.
  Hypothesis Pl : planar (map sx segs).
  Hypothesis Bal : balanced (chain_of ssubj segs).
  Hypothesis Ok : Forall (fun s => (sclip (sc s) < 4)%N) segs.

  Lemma as_bool_arr : arrangement (map as_bool segs).
  Proof.
    apply merged_arrangement.
    - apply Forall_map. exact Wf.
    - rewrite as_bool_chain. exact Bal.
    - intro v. unfold clip_chain. rewrite boundary_chain_of. apply zsum_zero. intros s Hs. apply in_map_iff in Hs as (t & <- & _). simpl. lia.
    - unfold strict_sorted in *. clear - Sr. induction Sr as [|s l S IH F]; simpl; constructor; auto. apply Forall_map. exact F.
    - rewrite as_bool_sx. exact Pl.
  Qed.
  Notation bs s := (botsum bool vals (map as_bool segs) true (as_bool s)).

  Lemma string_fill_at r j s : nth_error segs j = Some s ->
    nth_error (ModelFill.fill_string r segs) j = Some
      (string_fill (inside r (bs s + ssubj (sc s))) (inside r (bs s)) (N.testbit (sclip (sc s)) 0) (N.testbit (sclip (sc s)) 1)).
  Proof.
    intro Hj.
    destruct (fill_solve_bot (add_and_fill_string r) unit (fun _ => ssubj)) with (segs := segs) (j := j) (s := s) as (bot & E & V); auto.
    - apply Forall_forall. exact Wf.
    - apply strict_sorted_NoDup; auto.
    - eapply SS_impl_in; [|exact Sr]. intros x y _ _ H. apply xseg_leb_sa. apply xseg_leb_le. auto.
    - unfold ModelFill.fill_string. rewrite E. rewrite C25_fill_values.
      + rewrite (V tt). unfold botsum. rewrite <- as_bool_chain. reflexivity.
      + rewrite Forall_forall in Ok. apply Ok. eapply nth_error_In; eauto.
  Qed.
  Lemma string_fill_length r : length (ModelFill.fill_string r segs) = length segs.
  Proof. apply fill_solve_length. Qed.

  Lemma string_sides r s q : In s segs -> inside_seg (sx s) q ->
    near (fun d => inside r (wind (chain_of ssubj segs) (top_side (sx s) q d)) = inside r (bs s + ssubj (sc s)) /\
                   inside r (wind (chain_of ssubj segs) (bottom_side (sx s) q d)) = inside r (bs s)).
  Proof.
    intros Is Hq. destruct (side_winds _ as_bool_arr true (as_bool s) q) as [A B]; auto; [apply in_map; auto|].
    eapply near_mono; [|exact (near_and _ _ A B)]. intros d D [E1 E2]. cbv beta in *.
    simpl vals in *. fold (subj_chain (map as_bool segs)) in E1, E2. rewrite as_bool_chain in E1, E2. simpl sx in *. simpl sc in *. simpl subj in *.
    rewrite E1, E2. auto.
  Qed.

  (** the links that pass a clip filter *)
  Lemma string_links_in inc r l : In l (build_links inc segs (ModelFill.fill_string r segs)) <->
    exists s, In s segs /\ let f := string_fill (inside r (bs s + ssubj (sc s))) (inside r (bs s)) (N.testbit (sclip (sc s)) 0) (N.testbit (sclip (sc s)) 1) in
      inc f = true /\ l = Lk 0 (sa (sx s)) 0 (sb (sx s)) f.
  Proof.
    unfold build_links. rewrite in_map_iff. split.
    - intros ([s f] & <- & H). apply filter_In in H as [H1 H2]. simpl in H2.
      pose proof (in_combine_l _ _ _ _ H1) as Is. exists s. split; auto.
      apply In_nth_error in H1 as [j Hj].
      assert (Hs : nth_error segs j = Some s /\ nth_error (ModelFill.fill_string r segs) j = Some f).
      { clear - Hj. revert Hj. generalize (ModelFill.fill_string r segs) as fs. revert j. induction segs as [|x l IH]; intros [|j] [|f0 fs] H; try discriminate; simpl in *; auto.
        injection H as -> ->. auto. }
      destruct Hs as [Hs Hf]. rewrite (string_fill_at r j s Hs) in Hf. injection Hf as <-. auto.
    - intros (s & Is & H). cbv zeta in H. destruct H as [H ->]. apply In_nth_error in Is as [j Hj].
      pose proof (string_fill_at r j s Hj) as Hf. eexists (s, _). split; [reflexivity|]. apply filter_In. split; [|exact H].
      apply nth_error_In with (n := j).
      assert (K : forall (A B : Type) (l : list A) (m : list B) j a b, nth_error l j = Some a -> nth_error m j = Some b -> nth_error (combine l m) j = Some (a, b)).
      { clear. intros A B l. induction l as [|x l IH]; intros [|y m] [|j] a b H1 H2; try discriminate; simpl in *; auto. congruence. }
      apply K; auto.
  Qed.
  Lemma string_links_sorted inc r : StronglySorted (fun l m => pt_leb (l_a l) (l_a m) = true) (build_links inc segs (ModelFill.fill_string r segs)) /\
    Forall (fun l => pt_lt (l_a l) (l_b l)) (build_links inc segs (ModelFill.fill_string r segs)) /\
    NoDup (map l_seg (build_links inc segs (ModelFill.fill_string r segs))).
  Proof.
    split; [|split].
    - unfold build_links. assert (K : StronglySorted (fun l m => pt_leb (l_a l) (l_a m) = true) (map mk_link (combine segs (ModelFill.fill_string r segs)))).
      { generalize (ModelFill.fill_string r segs) as fs. clear - Sr. induction Sr as [|s l S IH F]; intros [|f fs]; simpl; constructor; auto.
        apply Forall_forall. intros x H. apply in_map_iff in H as ([t g] & <- & H). apply in_combine_l in H. rewrite Forall_forall in F. simpl.
        apply xseg_leb_sa. apply xseg_leb_le. left. apply F. auto. }
      clear - K. induction (combine segs (ModelFill.fill_string r segs)) as [|x l IH]; simpl in *; [constructor|]. inversion K as [|? ? K1 K2]; subst.
      destruct (inc (snd x)); simpl; auto. constructor; auto. apply Forall_forall. intros y H. rewrite Forall_forall in K2. apply K2.
      apply in_map_iff in H as (z & <- & H). apply filter_In in H as [H _]. apply in_map. auto.
    - apply Forall_forall. intros l H. apply string_links_in in H as (s & Is & _ & ->). simpl. rewrite Forall_forall in Wf. apply Wf. auto.
    - unfold build_links. pose proof (strict_sorted_NoDup _ Sr) as ND. clear - ND. generalize (ModelFill.fill_string r segs) as fs.
      induction segs as [|s l IH]; intros [|f fs]; simpl; try constructor. inversion ND as [|? ? N1 N2]; subst.
      destruct (inc f); simpl; auto. constructor; auto. intro H. apply N1.
      apply in_map_iff in H as (x & E & H). apply in_map_iff in H as ([t g] & <- & H). apply filter_In in H as [H _]. apply in_combine_l in H.
      unfold l_seg in E. simpl in E. replace (sx s) with (sx t); [apply in_map; auto|]. destruct (sx t), (sx s); simpl in *. congruence.
  Qed.

  Lemma bits_of st sb bk fw : N.testbit (string_fill st sb bk fw) 0 = st /\ N.testbit (string_fill st sb bk fw) 1 = sb /\
    N.testbit (string_fill st sb bk fw) 2 = bk /\ N.testbit (string_fill st sb bk fw) 3 = fw.
  Proof. destruct st, sb, bk, fw; repeat split; reflexivity. Qed.
End Flags.

Lemma left_dirs_in links e : In e (left_dirs links) <-> exists l, In l links /\
  (N.testbit (l_fill l) 2 = true /\ e = (l_a l, l_b l) \/ N.testbit (l_fill l) 3 = true /\ e = (l_b l, l_a l)).
Proof.
  unfold left_dirs, dirs. rewrite in_flat_map. split.
  - intros (l & Il & H). exists l. split; auto. apply in_app_or in H as [H|H].
    + destruct (N.testbit (l_fill l) 2); [destruct H as [<-|[]]; auto|destruct H].
    + destruct (N.testbit (l_fill l) 3); [destruct H as [<-|[]]; auto|destruct H].
  - intros (l & Il & [[B ->]|[B ->]]); exists l; (split; [auto|]); rewrite B; apply in_or_app; simpl; auto.
Qed.
Lemma left_dirs_nodup links : Forall (fun l => pt_lt (l_a l) (l_b l)) links -> NoDup (map l_seg links) -> NoDup (left_dirs links).
Proof.
  unfold left_dirs. induction links as [|l ls IH]; intros W N; simpl; [constructor|].
  inversion W as [|? ? W1 W2]; subst. simpl in N. inversion N as [|? ? N1 N2]; subst.
  pose (norm := fun e : pt * pt => if pt_ltb (fst e) (snd e) then XS (fst e) (snd e) else XS (snd e) (fst e)).
  assert (K : forall m e, pt_lt (l_a m) (l_b m) -> In e (dirs m) -> norm e = l_seg m).
  { intros m e Wm He. assert (He' : In e (left_dirs [m])) by (unfold left_dirs; simpl; rewrite app_nil_r; auto).
    apply left_dirs_in in He' as (m' & [<-|[]] & [[_ ->]|[_ ->]]); unfold norm, l_seg; simpl.
    - apply pt_ltb_lt in Wm. rewrite Wm. auto.
    - destruct (pt_ltb (l_b m) (l_a m)) eqn:X; auto. apply pt_ltb_lt in X. exfalso. eapply pt_lt_irrefl, pt_lt_trans; eauto. }
  assert (D : forall e, In e (dirs l) -> ~ In e (flat_map dirs ls)).
  { intros e He H. apply in_flat_map in H as (m & Im & H). apply N1. rewrite <- (K l e W1 He), (K m e); auto; [apply in_map; auto|].
    rewrite Forall_forall in W2. auto. }
  assert (Nl : NoDup (dirs l)).
  { unfold dirs. assert (l_a l <> l_b l) by (intro X; rewrite X in W1; eapply pt_lt_irrefl; eauto).
    destruct (N.testbit (l_fill l) 2), (N.testbit (l_fill l) 3); simpl; repeat constructor; simpl; auto.
    intros [X|[]]. congruence. }
  specialize (IH W2 N2). clear - D Nl IH. induction (dirs l) as [|e r IHr]; simpl; auto.
  inversion Nl as [|? ? A B]; subst. constructor.
  - intro H. apply in_app_or in H as [H|H]; [auto|]. apply (D e); simpl; auto.
  - apply IHr; auto. intros x Hx. apply D. simpl; auto.
Qed.
