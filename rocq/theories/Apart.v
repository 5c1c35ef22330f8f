(** * Contours that do not touch: a minimal area cannot do harm. *)
From Verif Require Import Base Spec QLib ModelSegm SegmProofs MergeProofs PlanarGeo PlanarSum ModelFill ModelFilter FillProofs FillCorrect
  ModelCross CrossProofs CrossPoint CoreResults Properties01 ModelSplit SplitProofs SplitPlanar SplitPass BinsProofs SplitApply SplitLoop
  ModelFrag ModelOverlay OverlayProofs FragProofs GridCover Properties02
  ModelGraph GraphProofs ModelExtract ExtractProofs ContourResults Rotation NextLink Properties03
  MoveLemma SectorLemma Sides WalkSides Orient Properties04 ModelBind BindProofs BindSweep Properties05 Fewer.
From Coq Require Import Permutation.
Open Scope Z_scope.

(** ** at most two links in a node *)
Lemma apart_degree ls v : NoDup ls -> apart ls -> (degree ls v <= 2)%nat.
Proof.
  intros N A. unfold degree. pose proof (NoDup_filter (fun l => pt_eqb (l_a l) v || pt_eqb (l_b l) v) N) as N'.
  assert (I : forall l, In l (filter (fun l => pt_eqb (l_a l) v || pt_eqb (l_b l) v) ls) -> In l ls /\ (v = l_a l \/ v = l_b l)).
  { intros l I. apply filter_In in I as [I T]. split; auto. apply orb_true_iff in T as [T|T]; apply pt_eqb_eq in T; auto. }
  destruct (filter _ ls) as [|x [|y [|z m]]]; cbn [length]; try lia. exfalso.
  destruct (I x) as [Ix Tx]; [simpl; auto|]. destruct (I y) as [Iy Ty]; [simpl; auto|]. destruct (I z) as [Iz Tz]; [simpl; auto|].
  rewrite !NoDup_cons_iff in N'. simpl in N'. destruct (A v x y z Ix Iy Iz Tx Ty Tz) as [->|[->| ->]]; intuition.
Qed.
Lemma apart_two links g pts inc : graph_of links g pts -> NoDup (map l_seg links) -> apart (filter inc links) -> two g (flags inc links).
Proof.
  intros G N A k n Hn. assert (Hk : (k < length pts)%nat) by (rewrite <- (go_nlen _ _ _ G); apply nth_error_Some; congruence).
  apply nth_error_Some in Hk. destruct (nth_error pts k) as [v|] eqn:Hv; [|congruence].
  rewrite (deg_degree links g pts inc k n v G Hn Hv). apply apart_degree; auto. apply NoDup_filter. eapply NoDup_map_inv; eauto.
Qed.

(** No minimal area, or contours of the result do not touch. *)
Definition area_ok (min_area : Z) (ls : list link) : Prop := min_area = 0 \/ apart ls.

Lemma bare_revalidate m ps ps' : map (fun p => (p_hole p, p_contour p, p_mod p)) ps = map (fun p => (p_hole p, p_contour p, p_mod p)) ps' ->
  (forall dbg cw ix, anchors_of dbg cw ix (map (revalidate m) ps) = anchors_of dbg cw ix (map (revalidate m) ps')) /\
  outer_contours (map (revalidate m) ps) = outer_contours (map (revalidate m) ps') /\ hole_contours (map (revalidate m) ps) = hole_contours (map (revalidate m) ps').
Proof.
  revert ps'. induction ps as [|p ps IH]; intros [|p' ps'] E; try discriminate; [auto|]. cbn [map] in E. injection E as E1 E2 E3 E.
  destruct (IH _ E) as (A & O & H). unfold outer_contours, hole_contours in *. cbn [map filter].
  change (p_hole (revalidate m p)) with (p_hole p). change (p_hole (revalidate m p')) with (p_hole p').
  change (p_valid (revalidate m p)) with (is_valid m (p_contour p)). change (p_valid (revalidate m p')) with (is_valid m (p_contour p')).
  rewrite E1, E2. split; [|split].
  - intros dbg cw ix. cbn [anchors_of]. change (p_hole (revalidate m p)) with (p_hole p). change (p_hole (revalidate m p')) with (p_hole p').
    change (p_valid (revalidate m p)) with (is_valid m (p_contour p)). change (p_valid (revalidate m p')) with (is_valid m (p_contour p')).
    rewrite E1, E2, !A. destruct (_ && _); auto.
    replace (anchor_of dbg cw (revalidate m p)) with (anchor_of dbg cw (revalidate m p')); auto.
    unfold anchor_of. cbn [revalidate p_contour p_mod]. rewrite E2, E3. auto.
  - destruct (_ && _); cbn [map]; rewrite O; auto. cbn [revalidate p_contour]. rewrite E2. auto.
  - destruct (_ && _); cbn [map]; rewrite H; auto. cbn [revalidate p_contour]. rewrite E2. auto.
Qed.

Lemma revalidate_same m ps : (forall p, In p ps -> p_valid p = is_valid m (p_contour p)) -> map (revalidate m) ps = ps.
Proof.
  intro V. induction ps as [|p ps IH]; auto. cbn [map]. rewrite IH by (intros q I; apply V; right; auto). f_equal.
  pose proof (V p (or_introl eq_refl)) as Q. destruct p as [h v a c mo u]. unfold revalidate. cbn [p_hole p_valid p_raw p_contour p_mod p_used] in *. rewrite Q. reflexivity.
Qed.

(** If two extractions find the same contours for the minimal area 0, they answer the same for any other. *)
Lemma same_area g g' pts pts' clean r clockwise simplify vis vis' m ps ps' : graph_wf g pts -> graph_wf g' pts' ->
  all_even g vis -> all_even g' vis' -> length vis = length (g_links g) -> length vis' = length (g_links g') ->
  (m <> 0 -> two g vis) -> (m <> 0 -> two g' vis') ->
  extract_pieces g clean r clockwise simplify 0 vis = Some ps -> extract_pieces g' clean r clockwise simplify 0 vis' = Some ps' ->
  map (fun p => (p_hole p, p_contour p, p_mod p)) ps = map (fun p => (p_hole p, p_contour p, p_mod p)) ps' ->
  (forall p, In p ps -> p_valid p = is_valid 0 (p_contour p)) -> (forall p, In p ps' -> p_valid p = is_valid 0 (p_contour p)) ->
  forall dbg, extract_shapes dbg g clean r clockwise simplify m vis = extract_shapes dbg g' clean r clockwise simplify m vis'.
Proof.
  intros W W' E E' L L' T T' H H' B V V' dbg.
  assert (X : extract_pieces g clean r clockwise simplify m vis = Some (map (revalidate m) ps) /\ extract_pieces g' clean r clockwise simplify m vis' = Some (map (revalidate m) ps')).
  { destruct (Z.eq_dec m 0) as [->|N].
    - rewrite H, H', !revalidate_same; auto.
    - split; eapply extract_revalidate with (m := 0); eauto. }
  destruct X as [X X']. unfold extract_shapes. rewrite X, X'. destruct (bare_revalidate m ps ps' B) as (A & O & Ho). rewrite A, O, Ho. reflexivity.
Qed.
