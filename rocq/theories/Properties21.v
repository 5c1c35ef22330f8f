(** * C52: the outline of a contour is the contour with the strip along it added, or taken away.

    In exact arithmetic ([RF], as C42 to C44 and C51); the rounding to the grid ([to_int]) is any function that is off by at most one unit after scaling
    by [s] around [o] ([snaps_near]).  The point [q] of the grid's plane and the point [p] of the contour's plane are the same point. *)
From Verif Require Import Base Spec QLib ModelSegm SegmProofs MergeProofs PlanarGeo PlanarSum ModelFill ModelFilter FillProofs FillCorrect
  ModelCross CrossProofs CrossPoint MarksProofs CoreResults Properties01 ModelSplit SplitProofs SplitPlanar SplitPass BinsProofs SplitApply SplitLoop
  ModelFrag ModelOverlay OverlayProofs FragProofs GridCover Properties02
  ModelGraph GraphProofs ModelExtract ExtractProofs ContourResults Rotation NextLink Properties03
  MoveLemma SectorLemma Sides WalkSides Orient Properties04 ModelBind BindProofs BindSweep Nest Properties05 Natural ModelOffset OffsetProofs ModelMesh MeshProofs MeshStrip Properties09
  SplitNear InputCover Properties15 Properties10 ModelOutline Properties13 OffsetNear Properties19.
From Coq Require Import Reals Lra Psatz Qreals.
From Verif Require Import RealMesh RealJoin RealReach Properties11 RealMiter RealWind RealMove RealCorner RealStroke RealPieces RealCount RealCover RealPath RealRound Properties20
  RealOuter RealShift RealContour RealOffset RealAround.
Open Scope R_scope.

(** ** Specification *)
(** the grid point of every point within reach of the contour is at most one unit away from it; points with the same grid point are equal *)
Definition snaps_near (to_int : rpt -> pt) (reach : R) (s : R) (o : rpt) (path : list rpt) : Prop :=
  0 < s /\ (forall a v, In v path -> dist a v <= reach -> rclose 1 (rplace s o a) (rz (to_int a))) /\ faithful to_int path.
(** [p] is inside the contour *)
Definition in_path (path : list rpt) (p : rpt) : Prop := (0 < poly_wind p path)%Z.
(** the contour winds around every point once or not at all, counterclockwise *)
Definition simple_path (path : list rpt) : Prop := forall z, (0 <= poly_wind z path <= 1)%Z.

Lemma outline_area (to_int : rpt -> pt) radius join path segs q : outline_segments RF to_int radius join path = Some segs -> area segs q = (0 <? segs_wind q segs)%Z.
Proof.
  intro H. destruct (C33_outline RF to_int radius join path) as (l & Hl & _ & P & _). rewrite Hl in H. injection H as <-. unfold area. rewrite Properties09.chain_wind by auto. unfold segs_wind. rewrite Base.zsum_map. reflexivity.
Qed.

Section Outline.
  Variables (to_int : rpt -> pt) (join : line_join RF) (d : R) (path : list rpt) (segs : list (segment cntO)) (s : R) (o : rpt).
  (** ** Outwards: the contour is grown by [d] *)
  Section Grow.
    Hypothesis Pd : 0 < d.
    Hypothesis Drawn : outline_segments RF to_int (- d) (join_normalize RF join) path = Some segs.
    Hypothesis Snap : snaps_near to_int (join_reach (- d) join) s o path.
    Let Nk : - d <> 0.
    Proof. lra. Qed.
    Let Kn : - d < 0.
    Proof. lra. Qed.
    (** Nothing else is filled. *)
    Theorem C52_grow_only q p : rplace s o p = rq q -> clear_of 2 segs q -> area segs q = true -> in_path path p \/ along to_int join (- d) path p.
    Proof.
      intros Pq C A. rewrite (outline_area _ _ _ _ _ q Drawn) in A. apply Z.ltb_lt in A. destruct Snap as (Ps & Sn & Fa).
      apply (path_grow_only to_int join (- d) path Nk Fa s o q p segs Ps Pq Sn Drawn (clear_far _ _ C) Kn A).
    Qed.
    (** So all that is filled is inside, or as near as the join reaches. *)
    Theorem C52_grow_within q p : rplace s o p = rq q -> clear_of 2 segs q -> area segs q = true -> in_path path p \/ close_to (sides_of to_int true path) (join_reach (- d) join) p.
    Proof.
      intros Pq C A. destruct (C52_grow_only q p Pq C A) as [H|H]; auto. right. destruct Snap as (_ & _ & Fa). apply along_close; auto.
    Qed.
    (** What is inside is filled. *)
    Hypothesis Long : long_sides to_int (- d) path.
    Theorem C52_grow_inside q p : rplace s o p = rq q -> clear_of 2 segs q -> in_path path p -> area segs q = true.
    Proof.
      intros Pq C A. rewrite (outline_area _ _ _ _ _ q Drawn). apply Z.ltb_lt. destruct Snap as (Ps & Sn & Fa).
      apply (path_grow_inside to_int join (- d) path Nk Fa s o q p segs Ps Pq Sn Drawn (clear_far _ _ C) Kn Long A).
    Qed.
    Hypothesis Simple : simple_path path.
    Hypothesis Gentle : gentle_bends to_int (- d) path.
    Theorem C52_grow q p : rplace s o p = rq q -> clear_of 2 segs q -> off_center to_int (- d) path p ->
      (area segs q = true <-> in_path path p \/ along to_int join (- d) path p).
    Proof.
      intros Pq C Oc. split; [apply C52_grow_only; auto|]. intros [H|H]; [apply (C52_grow_inside q p); auto|]. rewrite (outline_area _ _ _ _ _ q Drawn). apply Z.ltb_lt. destruct Snap as (Ps & Sn & Fa).
      apply (path_grow_cover to_int join (- d) path Nk Fa s o q p segs Ps Pq Sn Drawn (clear_far _ _ C) Kn Long Gentle); auto. intro z. apply Simple.
    Qed.
  End Grow.
  (** ** Inwards: the contour is shrunk by [d] *)
  Section Shrink.
    Hypothesis Pd : 0 < d.
    Hypothesis Drawn : outline_segments RF to_int d (join_normalize RF join) path = Some segs.
    Hypothesis Snap : snaps_near to_int (join_reach d join) s o path.
    Let Nk : d <> 0.
    Proof. lra. Qed.
    (** What is inside and not along the contour is kept ... *)
    Theorem C52_shrink_keeps q p : rplace s o p = rq q -> clear_of 2 segs q -> in_path path p -> ~ along to_int join d path p -> area segs q = true.
    Proof.
      intros Pq C H A. rewrite (outline_area _ _ _ _ _ q Drawn). apply Z.ltb_lt. destruct Snap as (Ps & Sn & Fa).
      apply (path_shrink_keeps to_int join d path Nk Fa s o q p segs Ps Pq Sn Drawn (clear_far _ _ C) Pd H A).
    Qed.
    (** ... so, all that is farther away from the contour than the join reaches. *)
    Theorem C52_shrink_far q p : rplace s o p = rq q -> clear_of 2 segs q -> in_path path p -> ~ close_to (sides_of to_int true path) (join_reach d join) p -> area segs q = true.
    Proof.
      intros Pq C H A. apply (C52_shrink_keeps q p); auto. intro B. apply A. destruct Snap as (_ & _ & Fa). apply along_close; auto.
    Qed.
    (** Nothing outside is filled. *)
    Hypothesis Long : long_sides to_int d path.
    Theorem C52_shrink_inside q p : rplace s o p = rq q -> clear_of 2 segs q -> area segs q = true -> in_path path p.
    Proof.
      intros Pq C A. rewrite (outline_area _ _ _ _ _ q Drawn) in A. apply Z.ltb_lt in A. destruct Snap as (Ps & Sn & Fa).
      apply (path_shrink_inside to_int join d path Nk Fa s o q p segs Ps Pq Sn Drawn (clear_far _ _ C) Pd Long A).
    Qed.
    Hypothesis Simple : simple_path path.
    Hypothesis Gentle : gentle_bends to_int d path \/ convex_path to_int path.
    Theorem C52_shrink q p : rplace s o p = rq q -> clear_of 2 segs q -> off_center to_int d path p ->
      (area segs q = true <-> in_path path p /\ ~ along to_int join d path p).
    Proof.
      intros Pq C Oc. split; [|intros [H H']; apply (C52_shrink_keeps q p); auto]. intro A. split; [apply (C52_shrink_inside q p); auto|]. intro B.
      rewrite (outline_area _ _ _ _ _ q Drawn) in A. apply Z.ltb_lt in A. destruct Snap as (Ps & Sn & Fa).
      pose proof (path_shrink_cover to_int join d path Nk Fa s o q p segs Ps Pq Sn Drawn (clear_far _ _ C) Pd Long Gentle (fun z => proj2 (Simple z)) Oc B). lia.
    Qed.
  End Shrink.
End Outline.

(** ** The shapes returned by [outline] *)
Section Result.
  Variable layout_new : Z -> Z -> nat -> option (Z -> nat).
  Hypothesis Lay : layout_ok layout_new.
  Variable query : list (nat * xseg) -> Z * Z -> Z -> list (nat * xseg).
  Hypothesis Qry : query_ok query.
  Variable tree_new : Z * Z -> bool.
  Variable sort_ends : list link -> list (nat * pt).
  Hypothesis Sort : forall ls, ends_ok ls (sort_ends ls).
  Variable clean : bool -> list pt -> list pt * bool.
  Hypothesis Cln : clean_ok clean.
  Variables (n : nat) (solver : Solver) (dbg : bool).
  Variable int_area : list rpt -> Z.
  Variables (to_int : rpt -> pt) (offset inner : R) (join : line_join RF) (clockwise : bool) (min_area : Z) (path : list rpt) (segs : list (segment cntO)) (shapes : list (list (list pt))).
  Hypothesis Offset : offset <> 0.
  (** the contour is counterclockwise, with an area of more than one unit of the grid *)
  Hypothesis Area : (int_area path < -1)%Z.
  Hypothesis Drawn : outline_segments RF to_int (- offset) (join_normalize RF join) path = Some segs.
  Hypothesis Fits : Forall (fun s => sa (sx s) <> sb (sx s) /\ CrossPoint.bounded (sx s)) segs.
  Hypothesis NoGrid : no_grid solver (length (sort_merge segs)).
  (** no contour of the result is dropped because of its area *)
  Hypothesis All : forall ls g bps, offset_links layout_new query tree_new (S n) solver segs = ROk ls -> graph_new ls (sort_ends ls) = Some g -> offset_pieces g clean clockwise min_area = Some bps ->
        Forall (fun bp => snd bp = true /\ (min_area = 0%Z \/ p_valid (fst bp) = true)) bps.
  Hypothesis Run : outline_custom layout_new query tree_new sort_ends clean (S n) solver dbg RF to_int int_area offset inner join clockwise min_area [path] = ROk shapes.
  Variables (s : R) (o : rpt).
  Hypothesis Snap : snaps_near to_int (join_reach (- offset) join) s o path.
  Lemma outline_result q : clear_of (Z.max 2 (moved (precision solver) n)) segs q ->
    clear_of 2 segs q /\ contours_wind (concat shapes) q = if area segs q then sign_of clockwise else 0%Z.
  Proof.
    intro C. split; [eapply clear_mono; [|exact C]; lia|].
    destruct (C45_single_near layout_new Lay query Qry tree_new sort_ends Sort clean Cln n solver dbg RF to_int int_area offset inner join clockwise min_area path segs shapes Drawn Fits NoGrid All Run) as (_ & _ & H).
    rewrite H by (apply clear_away; eapply clear_mono; [|exact C]; lia). replace (int_area path <? -1)%Z with true by (symmetry; apply Z.ltb_lt; auto). reflexivity.
  Qed.
  (** [offset] positive: the contour grows.  Negative: it shrinks. *)
  Theorem C52_result_within q p : rplace s o p = rq q -> clear_of (Z.max 2 (moved (precision solver) n)) segs q -> 0 < offset ->
    ~ in_path path p -> ~ along to_int join (- offset) path p -> contours_wind (concat shapes) q = 0%Z.
  Proof.
    intros Pq C P N1 N2. destruct (outline_result q C) as [C2 ->]. destruct (area segs q) eqn:A; auto. destruct (C52_grow_only to_int join offset path segs s o P Drawn Snap q p Pq C2 A); tauto.
  Qed.
  Theorem C52_result_keeps q p : rplace s o p = rq q -> clear_of (Z.max 2 (moved (precision solver) n)) segs q -> offset < 0 ->
    in_path path p -> ~ along to_int join (- offset) path p -> contours_wind (concat shapes) q = sign_of clockwise.
  Proof.
    intros Pq C P N1 N2. destruct (outline_result q C) as [C2 ->]. rewrite (C52_shrink_keeps to_int join (- offset) path segs s o ltac:(lra) Drawn Snap q p); auto.
  Qed.
  Hypothesis Long : long_sides to_int (- offset) path.
  Theorem C52_result_inside q p : rplace s o p = rq q -> clear_of (Z.max 2 (moved (precision solver) n)) segs q ->
    (0 < offset -> in_path path p -> contours_wind (concat shapes) q = sign_of clockwise) /\
    (offset < 0 -> ~ in_path path p -> contours_wind (concat shapes) q = 0%Z).
  Proof.
    intros Pq C. destruct (outline_result q C) as [C2 ->]. split; intros P H.
    - rewrite (C52_grow_inside to_int join offset path segs s o P Drawn Snap Long q p); auto.
    - destruct (area segs q) eqn:A; auto. destruct H. apply (C52_shrink_inside to_int join (- offset) path segs s o ltac:(lra) Drawn Snap Long q p); auto.
  Qed.
  Hypothesis Simple : simple_path path.
  Hypothesis Gentle : gentle_bends to_int (- offset) path.
  Theorem C52_result q p : rplace s o p = rq q -> clear_of (Z.max 2 (moved (precision solver) n)) segs q -> off_center to_int (- offset) path p ->
    along to_int join (- offset) path p -> contours_wind (concat shapes) q = if Rltb 0 offset then sign_of clockwise else 0%Z.
  Proof.
    intros Pq C Oc Al. destruct (outline_result q C) as [C2 ->]. destruct (Rltb 0 offset) eqn:E.
    - apply Rltb_true in E. replace (area segs q) with true; auto. symmetry. apply (C52_grow to_int join offset path segs s o E Drawn Snap Long Simple Gentle q p); auto.
    - apply Rltb_false in E. destruct (area segs q) eqn:A; auto. apply (C52_shrink to_int join (- offset) path segs s o ltac:(lra) Drawn Snap Long Simple (or_introl Gentle) q p) in A; auto. tauto.
  Qed.
End Result.

(** ** The pieces, spelled out
    With bevel joins: the rectangles between the sides and the moved sides, and, where the contour bends away from the moved sides, the triangle of the
    vertex and the ends of the two moved sides. *)
Theorem C52_bevel (to_int : rpt -> pt) k path p :
  let moved x e := off x (normal_of (dir (fst e) (snd e))) k in
  (along to_int (Bevel RF) k path p <->
    (exists e, In e (sides_of to_int true path) /\ 0 <= dot (dir (fst e) (snd e)) (vec (fst e) p) <= dist (fst e) (snd e) /\ 0 <= k * cross (dir (fst e) (snd e)) (vec (fst e) p) <= k * k) \/
    (exists e f, followed_ring (sides_of to_int true path) e f /\ (if Rleb 0 k then cross (dir (fst e) (snd e)) (dir (fst f) (snd f)) < 0 else 0 <= cross (dir (fst e) (snd e)) (dir (fst f) (snd f))) /\
      (in_tri p (snd e) (moved (snd e) e) (moved (fst f) f) \/ in_tri p (snd e) (moved (fst f) f) (moved (snd e) e)))).
Proof.
  cbv zeta beta.
  assert (B : forall e f, bends_in k (dir_of e) (dir_of f) = false <-> (if Rleb 0 k then cross (dir (fst e) (snd e)) (dir (fst f) (snd f)) < 0 else 0 <= cross (dir (fst e) (snd e)) (dir (fst f) (snd f)))).
  { intros e f. unfold bends_in, dir_of. destruct (Rleb 0 k); destruct (Rleb 0 (cross _ _)) eqn:E; cbn [Bool.eqb]; [apply Rleb_true in E|apply Rleb_false in E|apply Rleb_true in E|apply Rleb_false in E]; split; intro H; try discriminate; try reflexivity; lra. }
  assert (T : forall e f, in_fan p (snd e) (och k to_int (Bevel RF) e f) <-> in_tri p (snd e) (lb k e) (la k f) \/ in_tri p (snd e) (la k f) (lb k e)).
  { intros e f. unfold och, omids. replace (if bends_in k (dir_of e) (dir_of f) then [] else []) with (@nil rpt) by (destruct (bends_in k (dir_of e) (dir_of f)); reflexivity). cbn [app]. unfold in_fan. cbn [RealCorner.steps].
    split; [intros (a & b & [E|[]] & H); injection E as <- <-; exact H|intro H; exists (lb k e), (la k f); split; [left; reflexivity|exact H]]. }
  unfold along. split; (intros [(e & I & H)|(e & f & Ne & Be & H)]; [left; exists e; split; auto; exact H|right; exists e, f; split; auto; split; [apply B; exact Be|apply T; exact H]]).
Qed.

(** ** Examples
    An L of width 100, grown and shrunk by 10. *)
Definition ell : list rpt := [(0, 0); (200, 0); (200, 100); (100, 100); (100, 200); (0, 200)].
Definition ell_sides : list rside := [((0, 200), (0, 0)); ((0, 0), (200, 0)); ((200, 0), (200, 100)); ((200, 100), (100, 100)); ((100, 100), (100, 200)); ((100, 200), (0, 200))].
Lemma ell_sides_of : sides_of r_round true ell = ell_sides.
Proof.
  unfold sides_of, ell, ring_sides. cbn [last path_sides]. rewrite !(round_at 0 0 0 0), !(round_at 200 0 200 0), !(round_at 200 100 200 100), !(round_at 100 100 100 100), !(round_at 100 200 100 200), !(round_at 0 200 0 200) by reflexivity. reflexivity.
Qed.
Lemma ell_dirs : dir (0, 200) (0, 0) = (0, -1) /\ dir (0, 0) (200, 0) = (1, 0) /\ dir (200, 0) (200, 100) = (0, 1) /\ dir (200, 100) (100, 100) = (-1, 0) /\ dir (100, 100) (100, 200) = (0, 1) /\ dir (100, 200) (0, 200) = (-1, 0).
Proof.
  assert (S1 : sqrt ((0 - 0) * (0 - 0) + (0 - 200) * (0 - 200)) = 200) by (apply sqrt_sq; lra). assert (S2 : sqrt ((200 - 0) * (200 - 0) + (0 - 0) * (0 - 0)) = 200) by (apply sqrt_sq; lra).
  assert (S3 : sqrt ((200 - 200) * (200 - 200) + (100 - 0) * (100 - 0)) = 100) by (apply sqrt_sq; lra). assert (S4 : sqrt ((100 - 200) * (100 - 200) + (100 - 100) * (100 - 100)) = 100) by (apply sqrt_sq; lra).
  assert (S5 : sqrt ((100 - 100) * (100 - 100) + (200 - 100) * (200 - 100)) = 100) by (apply sqrt_sq; lra). assert (S6 : sqrt ((0 - 100) * (0 - 100) + (200 - 200) * (200 - 200)) = 100) by (apply sqrt_sq; lra).
  unfold dir, r_norm. cbn [fst snd]. rewrite ?S1, ?S2, ?S3, ?S4, ?S5, ?S6. repeat split; f_equal; lra.
Qed.
Lemma ell_lengths e : In e ell_sides -> 100 <= dist (fst e) (snd e).
Proof.
  intro I. unfold ell_sides in I. repeat (destruct I as [<-|I]; [unfold dist, dist2; cbn [fst snd]; (rewrite (sqrt_sq _ 100) by lra) || (rewrite (sqrt_sq _ 200) by lra); lra|]). destruct I.
Qed.
Lemma ell_simple : simple_path ell.
Proof.
  intros [x y]. unfold poly_wind, closed_steps, ell. cbn [last RealCorner.steps]. rewrite !zsum_cons. change (zsum _ []) with 0%Z. unfold rwind, rleft, rheight. cbn [fst snd].
  replace (0 + (0 - 0) / (200 - 0) * (x - 0)) with 0 by field. replace (100 + (100 - 100) / (100 - 200) * (x - 200)) with 100 by field. replace (200 + (200 - 200) / (0 - 100) * (x - 100)) with 200 by field.
  unfold Rleb, Rltb. destruct (Rle_dec 0 x), (Rle_dec 200 x), (Rle_dec 100 x), (Rlt_dec 0 y), (Rlt_dec 100 y), (Rlt_dec 200 y); try lra; cbn [bz]; lia.
Qed.
Lemma ell_in x y : 0 <= x < 200 -> 0 < y <= 100 -> in_path ell (x, y).
Proof.
  intros X Y. unfold in_path, poly_wind, closed_steps, ell. cbn [last RealCorner.steps]. rewrite !zsum_cons. change (zsum _ []) with 0%Z. unfold rwind, rleft, rheight. cbn [fst snd].
  replace (0 + (0 - 0) / (200 - 0) * (x - 0)) with 0 by field. replace (100 + (100 - 100) / (100 - 200) * (x - 200)) with 100 by field. replace (200 + (200 - 200) / (0 - 100) * (x - 100)) with 200 by field.
  unfold Rleb, Rltb. destruct (Rle_dec 0 x), (Rle_dec 200 x), (Rle_dec 100 x), (Rlt_dec 0 y), (Rlt_dec 100 y), (Rlt_dec 200 y); try lra; cbn [bz]; lia.
Qed.
Lemma ell_out x y : 200 <= x -> ~ in_path ell (x, y).
Proof.
  intros X. unfold in_path, poly_wind, closed_steps, ell. cbn [last RealCorner.steps]. rewrite !zsum_cons. change (zsum _ []) with 0%Z. unfold rwind, rleft, rheight. cbn [fst snd].
  unfold Rleb. destruct (Rle_dec 0 x), (Rle_dec 200 x), (Rle_dec 100 x); try lra. cbn [bz]. lia.
Qed.
Lemma ell_next (P : rside -> rside -> Prop) : P ((0, 200), (0, 0)) ((0, 0), (200, 0)) -> P ((0, 0), (200, 0)) ((200, 0), (200, 100)) -> P ((200, 0), (200, 100)) ((200, 100), (100, 100)) ->
  P ((200, 100), (100, 100)) ((100, 100), (100, 200)) -> P ((100, 100), (100, 200)) ((100, 200), (0, 200)) -> P ((100, 200), (0, 200)) ((0, 200), (0, 0)) -> forall e f, followed_ring ell_sides e f -> P e f.
Proof.
  intros A0 A1 A2 A3 A4 A5 e f [(l & m & E)|(l & E & ->)].
  - unfold ell_sides in E. do 5 (destruct l as [|? l]; [injection E; intros; subst; assumption|]). do 2 (destruct l as [|? l]; [discriminate E|]). discriminate E.
  - unfold ell_sides in E. injection E as <- <-. exact A5.
Qed.
Example ell_meets k j : k <> 0 -> Rabs k <= 100 -> 
  snaps_near r_round (join_reach k j) 1 (0, 0) ell /\ long_sides r_round k ell /\ simple_path ell /\ gentle_bends r_round k ell /\
  exists e f, followed_ring (sides_of r_round true ell) e f /\ bends_in k (dir_of e) (dir_of f) = false.
Proof.
  intros Nk Lk. destruct ell_dirs as (D0 & D1 & D2 & D3 & D4 & D5). split; [|split; [|split; [exact ell_simple|split]]].
  - split; [lra|]. split; [intros a v _ _; apply round_snaps|]. intros a b A B. unfold ell in A, B.
    assert (X : forall a, In a ell -> exists m n, a = (IZR m, IZR n)) by (intros x Ix; unfold ell in Ix; repeat (destruct Ix as [<-|Ix]; [eauto|]); destruct Ix).
    destruct (X a A) as (m & n & ->). destruct (X b B) as (m' & n' & ->). rewrite !(round_at _ _ _ _ eq_refl eq_refl). intro E. injection E as -> ->. reflexivity.
  - unfold long_sides. rewrite ell_sides_of. intros e f Ne _. pose proof (followed_ring_in _ _ _ Ne) as [Ie If]. apply ell_lengths in Ie, If.
    assert (Cr : Rabs (cross (dir_of e) (dir_of f)) <= 1).
    { revert e f Ne Ie If. apply (ell_next (fun e f => 100 <= dist (fst e) (snd e) -> 100 <= dist (fst f) (snd f) -> Rabs (cross (dir_of e) (dir_of f)) <= 1)); intros _ _; unfold dir_of, cross; cbn [fst snd]; rewrite ?D0, ?D1, ?D2, ?D3, ?D4, ?D5; cbn [fst snd]; rewrite Rabs_iff; lra. }
    assert (Rabs k * Rabs (cross (dir_of e) (dir_of f)) <= 100 * 1) by (apply Rmult_le_compat; auto using Rabs_pos). lra.
  - unfold gentle_bends. rewrite ell_sides_of. apply (ell_next (fun e f => bends_in k (dir_of e) (dir_of f) = true -> 0 <= dot (dir_of e) (dir_of f))); intros _; unfold dir_of, dot; cbn [fst snd]; rewrite ?D0, ?D1, ?D2, ?D3, ?D4, ?D5; cbn [fst snd]; lra.
  - rewrite ell_sides_of. destruct (Rle_dec 0 k) as [K|K].
    + exists ((200, 100), (100, 100)), ((100, 100), (100, 200)). split; [left; exists [((0, 200), (0, 0)); ((0, 0), (200, 0)); ((200, 0), (200, 100))], [((100, 200), (0, 200))]; reflexivity|].
      unfold bends_in, dir_of, cross. cbn [fst snd]. rewrite D3, D4. cbn [fst snd]. unfold Rleb. destruct (Rle_dec 0 k); [|lra]. destruct (Rle_dec 0 _); [lra|reflexivity].
    + exists ((0, 200), (0, 0)), ((0, 0), (200, 0)). split; [left; exists [], [((200, 0), (200, 100)); ((200, 100), (100, 100)); ((100, 100), (100, 200)); ((100, 200), (0, 200))]; reflexivity|].
      unfold bends_in, dir_of, cross. cbn [fst snd]. rewrite D0, D1. cbn [fst snd]. unfold Rleb. destruct (Rle_dec 0 k); [lra|]. destruct (Rle_dec 0 _); [reflexivity|lra].
Qed.
(** What is drawn with bevel joins. *)
Definition ell_grown : list (segment cntO) :=
  [bold_ab (Pt (-10) 200) (Pt (-10) 0); weak_ab (Pt (-10) 0) (Pt 0 (-10)); bold_ab (Pt 0 (-10)) (Pt 200 (-10)); weak_ab (Pt 200 (-10)) (Pt 210 0); bold_ab (Pt 210 0) (Pt 210 100); weak_ab (Pt 210 100) (Pt 200 110);
   bold_ab (Pt 200 110) (Pt 100 110); weak_ab (Pt 100 110) (Pt 110 100); bold_ab (Pt 110 100) (Pt 110 200); weak_ab (Pt 110 200) (Pt 100 210); bold_ab (Pt 100 210) (Pt 0 210); weak_ab (Pt 0 210) (Pt (-10) 200)].
Definition ell_shrunk : list (segment cntO) :=
  [bold_ab (Pt 10 200) (Pt 10 0); weak_ab (Pt 10 0) (Pt 0 10); bold_ab (Pt 0 10) (Pt 200 10); weak_ab (Pt 200 10) (Pt 190 0); bold_ab (Pt 190 0) (Pt 190 100); weak_ab (Pt 190 100) (Pt 200 90);
   bold_ab (Pt 200 90) (Pt 100 90); weak_ab (Pt 100 90) (Pt 90 100); bold_ab (Pt 90 100) (Pt 90 200); weak_ab (Pt 90 200) (Pt 100 190); bold_ab (Pt 100 190) (Pt 0 190); weak_ab (Pt 0 190) (Pt 10 200)].
Ltac ell_draw := unfold outline_segments; rewrite outline_ring; change (ring_sides RF r_round ell) with (sides_of r_round true ell); rewrite ell_sides_of; unfold ell_sides; cbn [MeshStrip.ring strip last app join_normalize outline_join];
  rewrite !osection_real; cbn [fst snd]; destruct ell_dirs as (D0 & D1 & D2 & D3 & D4 & D5); rewrite D0, D1, D2, D3, D4, D5; unfold o_add_section, join_weak; cbn [os_atop os_btop]; unfold off, normal_of; cbn [fst snd].
Lemma ell_drawn_grown : outline_segments RF r_round (- (10)) (join_normalize RF (Bevel RF)) ell = Some ell_grown.
Proof.
  ell_draw. rewrite !(round_at _ _ (-10) 200), !(round_at _ _ (-10) 0), !(round_at _ _ 0 (-10)), !(round_at _ _ 200 (-10)), !(round_at _ _ 210 0), !(round_at _ _ 210 100), !(round_at _ _ 200 110), !(round_at _ _ 100 110), !(round_at _ _ 110 100), !(round_at _ _ 110 200), !(round_at _ _ 100 210), !(round_at _ _ 0 210) by lra.
  reflexivity.
Qed.
Lemma ell_drawn_shrunk : outline_segments RF r_round (- - (10)) (join_normalize RF (Bevel RF)) ell = Some ell_shrunk.
Proof.
  ell_draw. rewrite !(round_at _ _ 10 200), !(round_at _ _ 10 0), !(round_at _ _ 0 10), !(round_at _ _ 200 10), !(round_at _ _ 190 0), !(round_at _ _ 190 100), !(round_at _ _ 200 90), !(round_at _ _ 100 90), !(round_at _ _ 90 100), !(round_at _ _ 90 200), !(round_at _ _ 100 190), !(round_at _ _ 0 190) by lra.
  reflexivity.
Qed.
Definition r_area (path : list rpt) : Z := Int_part (- fold_right (fun e a => cross (fst e) (snd e) + a) 0 (closed_steps path) / 2).
Lemma ell_area : r_area ell = (-30000)%Z.
Proof. unfold r_area, closed_steps, ell. cbn [last RealCorner.steps fold_right]. unfold cross. cbn [fst snd]. match goal with |- Int_part ?x = _ => replace x with (IZR (-30000)) by lra end. apply int_part_IZR. Qed.
Definition ell_run (offset : R) : run (list (list (list pt))) :=
  outline_custom lay4 qry (fun _ => true) sorted_ends clean_line 2 (mk_solver StAuto) true RF r_round r_area offset 0 (Bevel RF) false 1 [ell].
Lemma ell_run_is offset segs : outline_segments RF r_round (- offset) (join_normalize RF (Bevel RF)) ell = Some segs -> ell_run offset = rbind (offset_links lay4 qry (fun _ => true) 2 (mk_solver StAuto) segs) (fun ls => rbind (of_opt (graph_new ls (sorted_ends ls))) (fun g => of_opt (offset_shapes g clean_line true false 1))).
Proof. intro E. unfold ell_run, outline_custom. rewrite ell_area. unfold outline_one. change (n_neg RF offset) with (- offset). change (-1 <=? -30000)%Z with false. cbv iota. rewrite E. reflexivity. Qed.
(** Grown: the point (205, 50) is outside of the contour and along it.  Shrunk: (195, 50) is inside and along it, (150, 50) is inside and kept. *)
Ltac ell_all := intros ls g bps E1 E2 E3; vm_compute in E1; injection E1 as <-; vm_compute in E2; injection E2 as <-; vm_compute in E3; injection E3 as <-; repeat (apply Forall_cons; [split; [reflexivity|right; reflexivity]|]); apply Forall_nil.
Lemma fits_check l : forallb (fun s : segment cntO => negb (degenerate s) && boundedb (sx s)) l = true -> Forall (fun s => sa (sx s) <> sb (sx s) /\ CrossPoint.bounded (sx s)) l.
Proof.
  intro H. rewrite forallb_forall in H. apply Forall_forall. intros sg I. specialize (H sg I). apply andb_true_iff in H as [H1 H2]. split; [|apply boundedb_ok; auto].
  apply negb_true_iff in H1. intro E. unfold degenerate in H1. rewrite (proj2 (pt_eqb_eq _ _) E) in H1. discriminate.
Qed.
Ltac ell_beside e0 := left; exists e0; rewrite ell_sides_of; split; [unfold ell_sides; simpl; tauto|]; destruct ell_dirs as (D0 & D1 & D2 & D3 & D4 & D5); unfold beside, dir_of, dot, cross, vec, dist, dist2; cbn [fst snd]; rewrite D2; cbn [fst snd]; rewrite (sqrt_sq _ 100) by lra; lra.
Example C52_grow_example :
  outline_segments RF r_round (- (10)) (join_normalize RF (Bevel RF)) ell = Some ell_grown /\
  Forall (fun s => sa (sx s) <> sb (sx s) /\ CrossPoint.bounded (sx s)) ell_grown /\ no_grid (mk_solver StAuto) (length (sort_merge ell_grown)) /\
  (forall ls g bps, offset_links lay4 qry (fun _ => true) 2 (mk_solver StAuto) ell_grown = ROk ls -> graph_new ls (sorted_ends ls) = Some g -> offset_pieces g clean_line false 1 = Some bps ->
        Forall (fun bp => snd bp = true /\ (1 = 0 \/ p_valid (fst bp) = true)%Z) bps) /\
  ell_run 10 = ROk [[[Pt (-10) 200; Pt (-10) 0; Pt 0 (-10); Pt 200 (-10); Pt 210 0; Pt 210 100; Pt 200 110; Pt 110 110; Pt 110 200; Pt 100 210; Pt 0 210]]] /\
  rplace 1 (0, 0) (205, 50) = rq (205, 50)%Q /\ clear_of (Z.max 2 (moved (precision (mk_solver StAuto)) 1)) ell_grown (205, 50)%Q /\
  along r_round (Bevel RF) (- (10)) ell (205, 50) /\ ~ in_path ell (205, 50).
Proof.
  split; [exact ell_drawn_grown|]. split; [apply fits_check; vm_compute; reflexivity|]. split; [vm_compute; auto|]. split; [ell_all|]. split; [rewrite (ell_run_is _ _ ell_drawn_grown); vm_compute; reflexivity|].
  split; [unfold rplace, rq, Q2R; cbn -[IZR Rinv]; f_equal; lra|]. split; [replace (Z.max 2 (moved (precision (mk_solver StAuto)) 1)) with 2%Z by reflexivity; clear_away_from|].
  split; [ell_beside ((200, 0) : rpt, (200, 100) : rpt)|]. apply ell_out. lra.
Qed.
Example C52_shrink_example :
  outline_segments RF r_round (- - (10)) (join_normalize RF (Bevel RF)) ell = Some ell_shrunk /\
  Forall (fun s => sa (sx s) <> sb (sx s) /\ CrossPoint.bounded (sx s)) ell_shrunk /\ no_grid (mk_solver StAuto) (length (sort_merge ell_shrunk)) /\
  (forall ls g bps, offset_links lay4 qry (fun _ => true) 2 (mk_solver StAuto) ell_shrunk = ROk ls -> graph_new ls (sorted_ends ls) = Some g -> offset_pieces g clean_line false 1 = Some bps ->
        Forall (fun bp => snd bp = true /\ (1 = 0 \/ p_valid (fst bp) = true)%Z) bps) /\
  ell_run (- (10)) = ROk [[[Pt 10 190; Pt 10 10; Pt 190 10; Pt 190 90; Pt 100 90; Pt 90 100; Pt 90 190]]] /\
  (rplace 1 (0, 0) (195, 50) = rq (195, 50)%Q /\ clear_of (Z.max 2 (moved (precision (mk_solver StAuto)) 1)) ell_shrunk (195, 50)%Q /\
    along r_round (Bevel RF) (- - (10)) ell (195, 50) /\ in_path ell (195, 50)) /\
  (rplace 1 (0, 0) (150, 50) = rq (150, 50)%Q /\ clear_of (Z.max 2 (moved (precision (mk_solver StAuto)) 1)) ell_shrunk (150, 50)%Q /\
    ~ close_to (sides_of r_round true ell) (join_reach (- - (10)) (Bevel RF)) (150, 50) /\ in_path ell (150, 50)).
Proof.
  split; [exact ell_drawn_shrunk|]. split; [apply fits_check; vm_compute; reflexivity|]. split; [vm_compute; auto|]. split; [ell_all|]. split; [rewrite (ell_run_is _ _ ell_drawn_shrunk); vm_compute; reflexivity|].
  replace (Z.max 2 (moved (precision (mk_solver StAuto)) 1)) with 2%Z by reflexivity. split.
  - split; [unfold rplace, rq, Q2R; cbn -[IZR Rinv]; f_equal; lra|]. split; [clear_away_from|]. split; [ell_beside ((200, 0) : rpt, (200, 100) : rpt)|]. apply ell_in; lra.
  - split; [unfold rplace, rq, Q2R; cbn -[IZR Rinv]; f_equal; lra|]. split; [clear_away_from|]. split; [|apply ell_in; lra].
    rewrite ell_sides_of. cbn [join_reach]. intros (e & t & I & T & D). unfold ell_sides in I.
    assert (B : Rabs (- - (10)) = 10) by (rewrite Rabs_pos_eq; lra). rewrite B in D.
    destruct (dist_box (150, 50) (between_pts (fst e) (snd e) t)) as [X Y]. rewrite Rabs_iff in X, Y. unfold between_pts in D, X, Y.
    repeat (destruct I as [<-|I]; [cbn [fst snd] in *; lra|]). destruct I.
Qed.
Print Assumptions C52_grow.
Print Assumptions C52_grow_within.
Print Assumptions C52_shrink.
Print Assumptions C52_shrink_far.
Print Assumptions C52_result_within.
Print Assumptions C52_result_keeps.
Print Assumptions C52_result_inside.
Print Assumptions C52_result.
Print Assumptions C52_bevel.
