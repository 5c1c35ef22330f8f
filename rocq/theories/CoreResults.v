(** * Consequences for the user-visible properties (C01-C07, C17, C20, C24, C25). *)
From Verif Require Import Base Spec QLib ModelSegm SegmProofs MergeProofs PlanarGeo PlanarSum
  ModelFill ModelFilter FillProofs FillCorrect ModelCross CrossProofs MarksProofs.
Open Scope Z_scope.

(** ** A decision procedure for planarity (used for the concrete examples). *)
Definition planarb (l : list xseg) : bool :=
  forallb (fun s => forallb (fun t =>
    xseg_eqb s t || match fst (cross_marks 0 1 s t 1) with [] => true | _ => false end) l) l.
Definition wfb (s : xseg) : bool := pt_ltb (sa s) (sb s).

Lemma wfb_ok s : wfb s = true <-> wf_xseg s.
Proof. unfold wfb, wf_xseg. rewrite pt_ltb_lt. reflexivity. Qed.

Lemma planarb_ok l : forallb wfb l = true -> planarb l = true -> planar l.
Proof.
  intros W H s t Is It N q Os Ot.
  rewrite forallb_forall in W.
  pose proof (proj1 (wfb_ok s) (W s Is)) as Ws. pose proof (proj1 (wfb_ok t) (W t It)) as Wt.
  unfold planarb in H. rewrite forallb_forall in H. specialize (H s Is).
  rewrite forallb_forall in H. specialize (H t It).
  apply orb_true_iff in H as [H|H]; [apply xseg_eqb_eq in H; contradiction|].
  destruct (fst (cross_marks 0 1 s t 1)) eqn:E; [|discriminate].
  exact (proj1 (marks_exact 0 1 s t 1 Ws Wt N ltac:(lia)) E q Os Ot).
Qed.

(** ** Input chains *)
Definition input := list (list pt * ShapeType).
Definition input_segments (adds : input) : list (segment cntB) :=
  flat_map (fun a => append_path (fst a) (snd a)) adds.
Definition operand (k : ShapeType) (adds : input) : list (list pt) :=
  map fst (filter (fun a => match snd a, k with Subject, Subject | Clip, Clip => true | _, _ => false end) adds).
(** the first point is not repeated at the end *)
Definition open_contour (path : list pt) : Prop :=
  last path (Pt 0 0) <> hd (Pt 0 0) path \/ (length path < 2)%nat.

Lemma input_wind_subj adds q : Forall (fun a => open_contour (fst a)) adds ->
  wind (subj_chain (input_segments adds)) q = contours_wind (operand Subject adds) q.
Proof.
  unfold input_segments, subj_chain, operand, contours_wind. intro H. rewrite wind_chain_of, zsum_flat_map.
  rewrite zsum_map, zsum_filter. apply zsum_ext. intros [p k] I. rewrite Forall_forall in H. specialize (H _ I). simpl in *.
  rewrite <- (wind_chain_of subj). destruct k.
  - rewrite (append_path_wind subj Subject 1 p q); auto. lia.
  - rewrite (append_path_wind subj Clip 0 p q); auto.
Qed.

Lemma input_wind_clip adds q : Forall (fun a => open_contour (fst a)) adds ->
  wind (clip_chain (input_segments adds)) q = contours_wind (operand Clip adds) q.
Proof.
  unfold input_segments, clip_chain, operand, contours_wind. intro H. rewrite wind_chain_of, zsum_flat_map.
  rewrite zsum_map, zsum_filter. apply zsum_ext. intros [p k] I. rewrite Forall_forall in H. specialize (H _ I). simpl in *.
  rewrite <- (wind_chain_of clip). destruct k.
  - rewrite (append_path_wind clip Subject 0 p q); auto.
  - rewrite (append_path_wind clip Clip 1 p q); auto. lia.
Qed.

Lemma input_balanced_subj adds : balanced (subj_chain (input_segments adds)).
Proof.
  intro v. unfold subj_chain, input_segments. rewrite boundary_chain_of, zsum_flat_map. apply zsum_zero.
  intros [p k] _. rewrite <- (boundary_chain_of subj). destruct k.
  - apply (append_path_boundary subj Subject 1); auto.
  - apply (append_path_boundary subj Clip 0); auto.
Qed.
Lemma input_balanced_clip adds : balanced (clip_chain (input_segments adds)).
Proof.
  intro v. unfold clip_chain, input_segments. rewrite boundary_chain_of, zsum_flat_map. apply zsum_zero.
  intros [p k] _. rewrite <- (boundary_chain_of clip). destruct k.
  - apply (append_path_boundary clip Subject 0); auto.
  - apply (append_path_boundary clip Clip 1); auto.
Qed.

Lemma input_wf adds : Forall (fun s => wf_xseg (sx s)) (input_segments adds).
Proof.
  unfold input_segments. apply Forall_flat_map. apply Forall_forall. intros [p k] _. apply append_path_wf.
Qed.
Lemma input_nonempty adds : Forall (fun s : segment cntB => wc_not_empty (sc s) = true) (input_segments adds).
Proof.
  unfold input_segments. apply Forall_flat_map. apply Forall_forall. intros [p k] _. apply append_path_nonempty.
Qed.

(** ** Merging *)
Lemma sort_merge_wind {C} {WC : WindingCount C} (f : C -> Z) l q : (forall a b, f (wc_add a b) = f a + f b) -> (forall c, wc_not_empty c = false -> f c = 0) ->
  wind (chain_of f (sort_merge l)) q = wind (chain_of f l) q.
Proof. intros A B. rewrite !wind_lin. apply sort_merge_lin; auto. Qed.
Lemma sort_merge_boundary {C} {WC : WindingCount C} (f : C -> Z) l v : (forall a b, f (wc_add a b) = f a + f b) -> (forall c, wc_not_empty c = false -> f c = 0) ->
  boundary (chain_of f (sort_merge l)) v = boundary (chain_of f l) v.
Proof. intros A B. rewrite !boundary_lin. apply sort_merge_lin; auto. Qed.

(** ** Arrangement from merged segments *)
Lemma merged_arrangement l :
  Forall (fun s : segment cntB => wf_xseg (sx s)) l -> balanced (subj_chain l) -> balanced (clip_chain l) ->
  strict_sorted l -> planar (map sx l) -> arrangement l.
Proof.
  intros W BS BC S P. constructor; auto.
  - apply Forall_forall; auto.
  - apply strict_sorted_NoDup; auto.
  - eapply SS_impl_in; [|exact S]. intros s t _ _ H. apply xseg_leb_le. auto.
Qed.

Lemma input_arrangement adds :
  planar (map sx (sort_merge (input_segments adds))) -> arrangement (sort_merge (input_segments adds)).
Proof.
  intro P. apply merged_arrangement; auto.
  - apply (sort_merge_elems (fun x => wf_xseg x)), input_wf.
  - intro v. unfold subj_chain. rewrite sort_merge_boundary by (reflexivity || (intros [? ?]; simpl; lia)).
    apply input_balanced_subj.
  - intro v. unfold clip_chain. rewrite sort_merge_boundary by (reflexivity || (intros [? ?]; simpl; lia)).
    apply input_balanced_clip.
  - apply sort_merge_sorted.
Qed.

(** ** Result links *)
Definition result_links (fr : FillRule) (r : OverlayRule) (segs : list (segment cntB)) : list link :=
  build_links (is_included r) segs (fill_boolean fr segs).

Lemma mk_link_seg {C} (s : segment C) f : l_seg (mk_link (s, f)) = sx s.
Proof. unfold l_seg, mk_link; simpl; destruct (sx s); auto. Qed.

Section Arr.
  Variable segs : list (segment cntB).
  Hypothesis A : arrangement segs.

  Lemma result_in fr r l : In l (result_links fr r segs) <->
    exists j s f, nth_error segs j = Some s /\ nth_error (fill_boolean fr segs) j = Some f /\
      is_included r f = true /\ l = mk_link (s, f).
  Proof.
    unfold result_links, build_links. rewrite in_map_iff. split.
    - intros ([s f] & <- & I). apply filter_In in I as [I E]. apply combine_in in I as (j & H1 & H2).
      exists j, s, f. auto.
    - intros (j & s & f & H1 & H2 & E & ->). exists (s, f). split; auto. apply filter_In. split; auto.
      apply combine_in. eauto.
  Qed.

  Lemma nth_unique j j' s s' : nth_error segs j = Some s -> nth_error segs j' = Some s' -> sx s = sx s' -> j = j'.
  Proof.
    intros H H' E.
    apply (proj1 (NoDup_nth_error (map sx segs)) (arr_nodup _ A)).
    - apply nth_error_Some. rewrite nth_error_map, H. discriminate.
    - rewrite !nth_error_map, H, H'. simpl. congruence.
  Qed.

  (** C01 *)
  Theorem result_edges fr r s q : In s segs -> inside_seg (sx s) q ->
    near (fun d =>
      let inside_result (p : qpt) := bool_op r (inside fr (wind (subj_chain segs) p)) (inside fr (wind (clip_chain segs) p)) in
      ((exists l, In l (result_links fr r segs) /\ l_seg l = sx s) <->
         inside_result (top_side (sx s) q d) <> inside_result (bottom_side (sx s) q d)) /\
      (forall l, In l (result_links fr r segs) -> l_seg l = sx s ->
         is_fill_top r (l_fill l) = inside_result (top_side (sx s) q d))).
  Proof.
    intros Is Iq. apply In_nth_error in Is as (j & Hj).
    destruct (nth_error (fill_boolean fr segs) j) as [f|] eqn:Hf.
    2:{ exfalso. apply nth_error_None in Hf. rewrite fill_boolean_length in Hf by auto.
        assert (nth_error segs j <> None) by congruence. apply nth_error_Some in H. lia. }
    pose proof (fill_boolean_correct segs A fr j s f q Hj Hf Iq) as N.
    pose proof (fill_boolean_fill segs A fr j s Hj) as MF. rewrite Hf in MF. injection MF as MF.
    match type of MF with _ = mkfill ?a ?b ?c ?d => set (st := a) in MF; set (sbt := b) in MF; set (ct := c) in MF; set (cbt := d) in MF end.
    eapply near_mono; [|exact N]. clear N. intros d D (B0 & B1 & B2 & B3).
    pose proof (mkfill_bits st sbt ct cbt) as (C0 & C1' & C2' & C3). rewrite <- MF in C0, C1', C2', C3.
    rewrite C0 in B0. rewrite C1' in B1. rewrite C2' in B2. rewrite C3 in B3.
    simpl. rewrite <- B0, <- B1, <- B2, <- B3.
    assert (U : forall l, In l (result_links fr r segs) -> l_seg l = sx s -> is_included r f = true /\ l = mk_link (s, f)).
    { intros l Il El. apply result_in in Il as (j' & s' & f' & H1 & H2 & H3 & ->).
      rewrite mk_link_seg in El. pose proof (nth_unique j' j s' s H1 Hj El) as ->.
      rewrite Hj in H1. injection H1 as <-. rewrite Hf in H2. injection H2 as <-. auto. }
    split; [split|].
    - intros (l & Il & El). destruct (U l Il El) as [Inc _]. rewrite MF, included_mkfill in Inc.
      intro E. rewrite E, xorb_nilpotent in Inc. discriminate.
    - intro NEQ. exists (mk_link (s, f)). split; [|apply mk_link_seg].
      apply result_in. exists j, s, f. repeat split; auto. rewrite MF, included_mkfill.
      destruct (bool_op r st ct), (bool_op r sbt cbt); auto; exfalso; auto.
    - intros l Il El. destruct (U l Il El) as [Inc ->]. simpl. rewrite MF in *. apply fill_top_mkfill; auto.
  Qed.

  Theorem result_is_subset fr r : (forall l, In l (result_links fr r segs) -> exists s, In s segs /\ l_seg l = sx s) /\
    NoDup (map l_seg (result_links fr r segs)).
  Proof.
    split.
    - intros l Il. apply result_in in Il as (j & s & f & H1 & _ & _ & ->). exists s. split; [eapply nth_error_In; eauto|apply mk_link_seg].
    - unfold result_links, build_links. rewrite map_map.
      assert (ND : NoDup (map (fun sf => sx (fst sf)) (combine segs (fill_boolean fr segs)))).
      { pose proof (arr_nodup _ A) as ND. pose proof (fill_boolean_length segs fr) as L.
        assert (E : map (fun sf : segment cntB * fill_t => sx (fst sf)) (combine segs (fill_boolean fr segs)) = map sx segs).
        { clear ND. revert L. generalize (fill_boolean fr segs). clear A. induction segs as [|s l IH]; intros [|f m] L; simpl in *; try discriminate; auto.
          f_equal. apply IH. lia. }
        rewrite E. auto. }
      revert ND. generalize (combine segs (fill_boolean fr segs)).
      induction l as [|[s f] l IH]; simpl; intro ND; [constructor|].
      inversion ND as [|? ? N1 N2]; subst. destruct (is_included r f); simpl; auto.
      constructor; auto. rewrite mk_link_seg. intro I. apply N1.
      apply in_map_iff in I as ([s' f'] & E & I). rewrite mk_link_seg in E. apply filter_In in I as [I _].
      apply in_map_iff. exists (s', f'). auto.
  Qed.

  (** C17 *)
  Definition degree (ls : list link) (v : pt) : nat :=
    length (filter (fun l => pt_eqb (l_a l) v || pt_eqb (l_b l) v) ls).

  Theorem result_even fr r v : Nat.Even (degree (result_links fr r segs) v).
  Proof.
    pose proof (links_balanced segs A fr r v) as B. fold (result_links fr r segs) in B.
    assert (W : forall l, In l (result_links fr r segs) -> pt_lt (l_a l) (l_b l)).
    { intros l Il. apply result_in in Il as (j & s & f & H1 & _ & _ & ->). simpl.
      apply (arr_wf _ A). eapply nth_error_In; eauto. }
    unfold boundary, link_chain in B. rewrite zsum_map in B. simpl in B.
    assert (E : Z.even (Z.of_nat (degree (result_links fr r segs) v)) = true).
    { revert W B. generalize (result_links fr r segs) as ls.
      assert (K : forall ls, (forall l, In l ls -> pt_lt (l_a l) (l_b l)) ->
        Z.even (Z.of_nat (degree ls v)) =
        Z.even (zsum (fun l => (if is_fill_top r (l_fill l) then 1 else -1) * (bz (pt_eqb (l_b l) v) - bz (pt_eqb (l_a l) v))) ls)).
      { unfold degree. induction ls as [|l ls IH]; intros W; [reflexivity|].
        rewrite zsum_cons, Z.even_add, <- IH by (intros; apply W; simpl; auto).
        specialize (W l (or_introl eq_refl)). simpl.
        destruct (pt_eqb (l_a l) v) eqn:E1, (pt_eqb (l_b l) v) eqn:E2.
        - exfalso. apply pt_eqb_eq in E1. apply pt_eqb_eq in E2. subst. rewrite E2 in W. eapply pt_lt_irrefl; eauto.
        - cbn [orb length]. rewrite Nat2Z.inj_succ, Z.even_succ, <- Z.negb_even. destruct (is_fill_top r (l_fill l)), (Z.even _); reflexivity.
        - cbn [orb length]. rewrite Nat2Z.inj_succ, Z.even_succ, <- Z.negb_even. destruct (is_fill_top r (l_fill l)), (Z.even _); reflexivity.
        - simpl. destruct (is_fill_top r (l_fill l)), (Z.even _); reflexivity. }
      intros ls W B. rewrite K by auto. unfold l_seg in B. simpl in B. rewrite B. reflexivity. }
    apply Z.even_spec in E as [k Hk]. exists (Z.to_nat k). lia.
  Qed.

  (** C20 (link level) *)
  Theorem result_region fr r q :
    Z.odd (zsum (fun l => bz (under (l_seg l) q)) (result_links fr r segs)) =
    bool_op r (inside fr (wind (subj_chain segs) q)) (inside fr (wind (clip_chain segs) q)).
  Proof.
    pose proof (region_signed segs A fr r q) as R. fold (result_links fr r segs) in R.
    assert (E : Z.odd (zsum (fun l => bz (under (l_seg l) q)) (result_links fr r segs)) =
                Z.odd (wind (link_chain r (result_links fr r segs)) q)).
    { unfold wind, link_chain. rewrite zsum_map. simpl. generalize (result_links fr r segs).
      induction l as [|x l IH]; [reflexivity|]. rewrite !zsum_cons, !Z.odd_add, IH.
      destruct (under (l_seg x) q), (is_fill_top r (l_fill x)); reflexivity. }
    rewrite E, R. destruct (bool_op r _ _); reflexivity.
  Qed.

  (** C24 *)
  Theorem graph_reuse fr r :
    filter (fun l => is_included r (l_fill l)) (build_links is_included_filler segs (fill_boolean fr segs)) =
    result_links fr r segs.
  Proof.
    unfold result_links, build_links.
    assert (F : forall sf, In sf (combine segs (fill_boolean fr segs)) ->
      is_included r (snd sf) = true -> is_included_filler (snd sf) = true).
    { intros [s f] I. apply combine_in in I as (j & H1 & H2).
      rewrite (fill_boolean_fill segs A fr j s H1) in H2. injection H2 as <-. simpl.
      destruct (inside fr _), (inside fr _), (inside fr _), (inside fr _), r; simpl; auto; discriminate. }
    revert F. generalize (combine segs (fill_boolean fr segs)).
    induction l as [|[s f] l IH]; intro F; [reflexivity|]. simpl.
    specialize (IH ltac:(intros; apply F; simpl; auto)).
    destruct (is_included r f) eqn:E.
    - assert (is_included_filler f = true) as -> by (apply (F (s, f)); simpl; auto). simpl. rewrite E. f_equal. exact IH.
    - destruct (is_included_filler f); simpl; rewrite ?E; exact IH.
  Qed.
End Arr.

(** ** C06, C07: reversing and swapping *)
Definition map_cnt (g : cntB -> cntB) (l : list (segment cntB)) : list (segment cntB) :=
  map (fun s => Seg (sx s) (g (sc s))) l.
Definition swap_cnt (c : cntB) : cntB := CB (clip c) (subj c).
Definition flip_rule (fr : FillRule) : FillRule :=
  match fr with Positive => Negative | Negative => Positive | x => x end.
Definition swap_rule (r : OverlayRule) : OverlayRule :=
  match r with RSubject => RClip | RClip => RSubject | RDifference => RInverseDifference
             | RInverseDifference => RDifference | x => x end.

Lemma map_cnt_sx g l : map sx (map_cnt g l) = map sx l.
Proof. unfold map_cnt. rewrite map_map. reflexivity. Qed.

Lemma chain_map_cnt f g l : chain_of f (map_cnt g l) = chain_of (fun c => f (g c)) l.
Proof. unfold chain_of, map_cnt. rewrite map_map. reflexivity. Qed.

Lemma chain_neg_boundary (f : cntB -> Z) l v : boundary (chain_of (fun c => - f c) l) v = - boundary (chain_of f l) v.
Proof.
  rewrite !boundary_chain_of. replace (- zsum _ l) with ((-1) * zsum (fun s : segment cntB => f (sc s) * (bz (pt_eqb (sb (sx s)) v) - bz (pt_eqb (sa (sx s)) v))) l) by ring.
  rewrite <- zsum_mult. apply zsum_ext. intros; ring.
Qed.
Lemma chain_neg_wind (f : cntB -> Z) l q : wind (chain_of (fun c => - f c) l) q = - wind (chain_of f l) q.
Proof.
  rewrite !wind_chain_of. replace (- zsum _ l) with ((-1) * zsum (fun s : segment cntB => if under (sx s) q then f (sc s) else 0) l) by ring.
  rewrite <- zsum_mult. apply zsum_ext. intros; destruct (under _ _); ring.
Qed.

Lemma map_cnt_arrangement g l : arrangement l ->
  balanced (chain_of (fun c => subj (g c)) l) -> balanced (chain_of (fun c => clip (g c)) l) ->
  arrangement (map_cnt g l).
Proof.
  intros A B1 B2. constructor.
  - intros s Is. apply in_map_iff in Is as (s' & <- & I). exact (arr_wf _ A s' I).
  - rewrite map_cnt_sx. apply (arr_nodup _ A).
  - rewrite map_cnt_sx. apply (arr_planar _ A).
  - pose proof (arr_sorted _ A) as H. clear - H. unfold map_cnt. induction H as [|s l H IH F]; simpl; constructor; auto.
    apply Forall_map. eapply Forall_impl; [|exact F]. auto.
  - unfold subj_chain. rewrite chain_map_cnt. auto.
  - unfold clip_chain. rewrite chain_map_cnt. auto.
Qed.

Lemma inside_neg fr w : inside fr (- w) = inside (flip_rule fr) w.
Proof. destruct fr; simpl; try lia. apply Z.odd_opp. Qed.

Lemma contour_wind_rev path q : contour_wind (rev path) q = - contour_wind path q.
Proof.
  unfold contour_wind.
  assert (K : forall (w : pt -> pt -> Z), (forall a b, w a b = - w b a) -> forall l p e,
     zsum (fun x => w (fst x) (snd x)) (combine (rev (p :: l) ++ [e]) (tl (rev (p :: l) ++ [e]))) =
     - polyline w e (p :: l)).
  { intros w AS. induction l as [|r l IH]; intros p e.
    - simpl. rewrite zsum_cons, zsum_nil. simpl. rewrite (AS p e). ring.
    - assert (AP : forall (m : list pt) x y, zsum (fun x => w (fst x) (snd x)) (combine ((m ++ [x]) ++ [y]) (tl ((m ++ [x]) ++ [y]))) =
          zsum (fun x => w (fst x) (snd x)) (combine (m ++ [x]) (tl (m ++ [x]))) + w x y).
      { clear. induction m as [|a m IHm]; intros x y; simpl.
        - rewrite zsum_cons, !zsum_nil. simpl. lia.
        - destruct m as [|b m]; simpl in *.
          + rewrite !zsum_cons, !zsum_nil. simpl. lia.
          + rewrite zsum_cons. rewrite IHm. rewrite zsum_cons. lia. }
      change (rev (p :: r :: l)) with (rev (r :: l) ++ [p]). rewrite AP, IH. simpl.
      rewrite (AS p e). ring. }
  destruct path as [|p l]; [reflexivity|].
  specialize (K (fun a b => edge_wind q (a, b)) ltac:(intros; apply edge_wind_anti)).
  (* express both sides as cyclic sums *)
  assert (CY : forall m : list pt, m <> [] -> forall d, zsum (edge_wind q) (edges m) =
     zsum (fun x => edge_wind q (fst x, snd x)) (combine (m ++ [hd d m]) (tl (m ++ [hd d m])))).
  { clear. intros [|a m] N d; [congruence|]. unfold edges. cbn [hd tl app].
    assert (forall x (m' : list pt), combine (x :: m') (m' ++ [a]) = combine (x :: m' ++ [a]) (m' ++ [a])) as E.
    { intros x m'. revert x. induction m' as [|b m' IH]; intro x; simpl; auto. f_equal. apply (IH b). }
    rewrite <- E. apply zsum_ext. intros [? ?] _; reflexivity. }
  destruct (rev (p :: l)) as [|a m] eqn:R.
  { exfalso. apply (f_equal (@length _)) in R. rewrite rev_length in R. discriminate. }
  rewrite (CY (a :: m)) with (d := a) by discriminate. simpl hd. rewrite <- R, K.
  assert (La : a = last (p :: l) p).
  { assert (p :: l = rev m ++ [a]) as -> by (rewrite <- (rev_involutive (p :: l)), R; reflexivity).
    rewrite last_last. reflexivity. }
  simpl polyline.
  unfold edges. rewrite <- (polyline_edges (fun a b => edge_wind q (a, b))).
  assert (PA : forall l p e, polyline (fun a b => edge_wind q (a, b)) p (l ++ [e]) =
     polyline (fun a b => edge_wind q (a, b)) p l + edge_wind q (last (p :: l) p, e)).
  { clear. induction l as [|r l IH]; intros p e; simpl; [lia|]. rewrite IH.
    change (match l with [] => r | _ :: _ => last l p end) with (last (r :: l) p). rewrite (last_cons_default r l p). lia. }
  rewrite PA, <- La. lia.
Qed.


Lemma below_neg (l : list (segment cntB)) f e x : below (chain_of (fun c => - f c) l) e x = - below (chain_of f l) e x.
Proof.
  unfold below, chain_of. rewrite !zsum_map. simpl.
  induction l as [|s l IH]; rewrite ?zsum_nil, ?zsum_cons; [reflexivity|]. rewrite IH. destruct (_ && _); ring.
Qed.
Lemma le_sum_neg (l : list (segment cntB)) f x y : le_sum (chain_of (fun c => - f c) l) x y = - le_sum (chain_of f l) x y.
Proof.
  unfold le_sum, chain_of. rewrite !zsum_map. simpl.
  induction l as [|s l IH]; rewrite ?zsum_nil, ?zsum_cons; [reflexivity|]. rewrite IH. destruct (_ && _); ring.
Qed.

Lemma botsum_neg l i s : botsum bool vals (map_cnt wc_invert l) i (Seg (sx s) (wc_invert (sc s))) = - botsum bool vals l i s.
Proof.
  unfold botsum. rewrite chain_map_cnt. simpl sx.
  assert (E : chain_of (fun c => vals i (wc_invert c)) l = chain_of (fun c => - vals i c) l) by (destruct i; reflexivity).
  rewrite E. destruct (is_not_vertical (sx s)); [apply below_neg|apply le_sum_neg].
Qed.

Lemma botsum_swap l i s : botsum bool vals (map_cnt swap_cnt l) i (Seg (sx s) (swap_cnt (sc s))) = botsum bool vals l (negb i) s.
Proof.
  unfold botsum. rewrite chain_map_cnt. simpl sx.
  assert (E : chain_of (fun c => vals i (swap_cnt c)) l = chain_of (fun c => vals (negb i) c) l) by (destruct i; reflexivity).
  rewrite E. reflexivity.
Qed.

Lemma invert_arrangement l : arrangement l -> arrangement (map_cnt wc_invert l).
Proof.
  intro A. apply map_cnt_arrangement; auto; intro v; simpl.
  - change (chain_of (fun c : cntB => - subj c) l) with (chain_of (fun c : cntB => - (subj c)) l).
    rewrite chain_neg_boundary. pose proof (arr_subj _ A v) as E. unfold subj_chain in E. lia.
  - rewrite chain_neg_boundary. pose proof (arr_clip _ A v) as E. unfold clip_chain in E. lia.
Qed.
Lemma swap_arrangement l : arrangement l -> arrangement (map_cnt swap_cnt l).
Proof. intro A. apply map_cnt_arrangement; auto; simpl; [apply (arr_clip _ A)|apply (arr_subj _ A)]. Qed.

Lemma nth_map_cnt g l j s : nth_error l j = Some s -> nth_error (map_cnt g l) j = Some (Seg (sx s) (g (sc s))).
Proof. intro H. unfold map_cnt. rewrite nth_error_map, H. reflexivity. Qed.

Lemma list_ext {T} (l m : list T) : length l = length m -> (forall j, (j < length l)%nat -> nth_error l j = nth_error m j) -> l = m.
Proof.
  revert m. induction l as [|a l IH]; intros [|b m] L H; simpl in *; try discriminate; auto.
  pose proof (H O ltac:(lia)) as H0. simpl in H0. injection H0 as ->. f_equal. apply IH; [lia|].
  intros j Hj. apply (H (S j)). lia.
Qed.

Theorem reverse_fill fr segs : arrangement segs ->
  fill_boolean fr (map_cnt wc_invert segs) = fill_boolean (flip_rule fr) segs.
Proof.
  intro A. apply list_ext.
  - rewrite !fill_boolean_length. unfold map_cnt. apply map_length.
  - intros j Hj. rewrite fill_boolean_length in Hj. unfold map_cnt in Hj. rewrite map_length in Hj.
    destruct (nth_error segs j) as [s|] eqn:E; [|apply nth_error_None in E; lia].
    rewrite (fill_boolean_fill _ (invert_arrangement _ A) fr j _ (nth_map_cnt _ _ _ _ E)).
    rewrite (fill_boolean_fill _ A (flip_rule fr) j _ E). f_equal.
    rewrite !botsum_neg. rewrite <- !inside_neg. simpl. repeat f_equal; ring.
Qed.

Theorem swap_links fr r segs : arrangement segs ->
  map l_seg (result_links fr r (map_cnt swap_cnt segs)) = map l_seg (result_links fr (swap_rule r) segs) /\
  map (fun l => is_fill_top r (l_fill l)) (result_links fr r (map_cnt swap_cnt segs)) =
  map (fun l => is_fill_top (swap_rule r) (l_fill l)) (result_links fr (swap_rule r) segs).
Proof.
  intro A. unfold result_links, build_links.
  set (F1 := fill_boolean fr (map_cnt swap_cnt segs)). set (F2 := fill_boolean fr segs).
  assert (K : Forall2 (fun a b => sx (fst a) = sx (fst b) /\ is_included r (snd a) = is_included (swap_rule r) (snd b) /\
      (is_included r (snd a) = true -> is_fill_top r (snd a) = is_fill_top (swap_rule r) (snd b)))
      (combine (map_cnt swap_cnt segs) F1) (combine segs F2)).
  { assert (H : forall j s f1 f2, nth_error segs j = Some s -> nth_error F1 j = Some f1 -> nth_error F2 j = Some f2 ->
        is_included r f1 = is_included (swap_rule r) f2 /\ (is_included r f1 = true -> is_fill_top r f1 = is_fill_top (swap_rule r) f2)).
    { intros j s f1 f2 Hj H1 H2. unfold F1 in H1. unfold F2 in H2.
      rewrite (fill_boolean_fill _ (swap_arrangement _ A) fr j _ (nth_map_cnt _ _ _ _ Hj)) in H1.
      rewrite (fill_boolean_fill _ A fr j _ Hj) in H2. injection H1 as <-. injection H2 as <-.
      rewrite !botsum_swap. simpl negb. simpl sc. simpl subj. simpl clip.
      rewrite !included_mkfill. set (a := inside _ _). set (b := inside _ (botsum _ _ _ false _)).
      set (c := inside _ (_ + subj _)). set (d := inside _ (botsum _ _ _ true _)).
      destruct a, b, c, d, r; simpl; split; auto; discriminate. }
    assert (L1 : length F1 = length segs) by (unfold F1; rewrite fill_boolean_length; apply map_length).
    assert (L2 : length F2 = length segs) by apply fill_boolean_length.
    clearbody F1 F2. clear A. revert F1 F2 L1 L2 H. induction segs as [|s l IH]; intros [|f1 F1] [|f2 F2] L1 L2 H; simpl in *; try discriminate; constructor.
    - simpl. split; auto. apply (H O s); auto.
    - apply IH; try lia. intros j. apply (H (S j)). }
  clearbody F1 F2. revert K. generalize (combine (map_cnt swap_cnt segs) F1) (combine segs F2).
  intros l m K. induction K as [|[s1 f1] [s2 f2] l m (E1 & E2 & E3) K IH]; [split; reflexivity|].
  simpl in *. rewrite <- E2. destruct (is_included r f1); simpl; [|exact IH].
  destruct IH as [I1 I2]. rewrite !mk_link_seg. simpl. rewrite E1, I1, I2, E3; auto.
Qed.
