(** * C51: a stroke is the union of the rectangles around its sides, its joins and its caps.

    In exact arithmetic ([RF], as C42 to C44); the rounding to the grid ([to_int]) is any function that is off by at most one unit after scaling
    by [s] around [o] ([snaps]).  The point [q] of the grid's plane and the point [p] of the path's plane are the same point. *)
From Verif Require Import Base Spec QLib ModelSegm SegmProofs MergeProofs PlanarGeo PlanarSum ModelFill ModelFilter FillProofs FillCorrect
  ModelCross CrossProofs CrossPoint MarksProofs CoreResults Properties01 ModelSplit SplitProofs SplitPlanar SplitPass BinsProofs SplitApply SplitLoop
  ModelFrag ModelOverlay OverlayProofs FragProofs GridCover Properties02
  ModelGraph GraphProofs ModelExtract ExtractProofs ContourResults Rotation NextLink Properties03
  MoveLemma SectorLemma Sides WalkSides Orient Properties04 ModelBind BindProofs BindSweep Nest Properties05 Natural ModelOffset OffsetProofs ModelMesh MeshProofs MeshStrip Properties09
  SplitNear InputCover Properties15 Properties10 ModelOutline Properties13 OffsetNear Properties19.
From Coq Require Import Reals Lra Psatz Qreals.
From Verif Require Import RealMesh RealJoin RealReach Properties11 RealMiter RealWind RealMove RealCorner RealStroke RealPieces RealCount RealCover RealPath RealRound.
Open Scope R_scope.

(** ** Specification *)
(** in x or in y the point [q] is more than [d] away from every point of every segment *)
Definition clear_of (d : Z) (segs : list (segment cntO)) (q : qpt) : Prop :=
  forall s, In s segs -> ~ rwithin (IZR d) (rz (sa (sx s))) (rz (sb (sx s))) (rq q).
(** the grid point of every point near the path is at most one unit away from it *)
Definition snapping (to_int : rpt -> pt) (style : stroke_style RF) (s : R) (o : rpt) (closed : bool) (paths : list (list rpt)) : Prop :=
  0 < s /\ Forall (snaps to_int style s o) paths /\ (closed = true -> Forall (faithful to_int) paths).
(** custom caps go around the end of the path without turning back *)
Definition plain_caps (style : stroke_style RF) (closed : bool) : Prop := closed = false -> cap_left (st_start RF style) /\ cap_left (st_end RF style).
(** [p] belongs to a piece of one of the strokes *)
Definition on_stroke (to_int : rpt -> pt) (style : stroke_style RF) (closed : bool) (paths : list (list rpt)) (p : rpt) : Prop :=
  exists path, In path paths /\ covered to_int style closed path p.
(** [p] is no farther than [k] from a side of one of the paths *)
Definition near_paths (to_int : rpt -> pt) (closed : bool) (paths : list (list rpt)) (k : R) (p : rpt) : Prop :=
  exists path, In path paths /\ close_to (sides_of to_int closed path) k p.

Lemma clear_mono d d' segs q : (d <= d')%Z -> clear_of d' segs q -> clear_of d segs q.
Proof.
  intros L H s I (t & T & A & B). apply (H s I). exists t. apply IZR_le in L. split; auto. split; lra.
Qed.
Lemma clear_far segs q : clear_of 2 segs q -> far_segs q segs.
Proof.
  intros H s I W. apply (H s I). unfold travel in W. destruct (osubj (sc s) =? 1)%Z; cbn [fst snd] in W; auto. apply rwithin_sym; auto.
Qed.
Lemma within_real d a b q : within (inject_Z d) a b q -> rwithin (IZR d) (rz a) (rz b) (rq q).
Proof.
  intros (t & [T0 T1] & A & B). rewrite Qabs_le_iff in A, B. destruct A as [A0 A1], B as [B0 B1].
  apply Qle_Rle in T0, T1, A0, A1, B0, B1. unfold qx, qy in *. unfold Qminus in *.
  repeat match goal with
  | H : context [Q2R (- ?x)] |- _ => rewrite (Q2R_opp x) in H
  | H : context [Q2R (?x + ?y)] |- _ => rewrite (Q2R_plus x y) in H
  | H : context [Q2R (?x * ?y)] |- _ => rewrite (Q2R_mult x y) in H
  | H : context [Q2R (inject_Z ?x)] |- _ => rewrite (Q2R_z x) in H
  end.
  exists (Q2R t). rewrite RMicromega.Q2R_0 in T0. rewrite RMicromega.Q2R_1 in T1. split; [lra|]. unfold rq, rz. cbn [fst snd]. rewrite !Rabs_iff. lra.
Qed.
Lemma clear_away d segs q : clear_of d segs q -> away (inject_Z d) segs q.
Proof. intros H s I W. apply (H s I), within_real; auto. Qed.

Lemma stroke_parts (to_int : rpt -> pt) style jc cc closed paths segs : stroke_segments RF to_int style jc cc closed paths = Some segs ->
  concat_opt (map (stroke_build RF to_int (stroke_builder_new RF to_int style) closed) paths) = Some segs.
Proof. unfold stroke_segments. destruct paths as [|p l]; [intro H; exact H|]. destruct (stroke_capacity _ _ _ _ _); [auto|discriminate]. Qed.
Lemma stroke_area (to_int : rpt -> pt) style jc cc closed paths segs q : stroke_segments RF to_int style jc cc closed paths = Some segs ->
  area segs q = (0 <? segs_wind q segs)%Z.
Proof.
  intro H. destruct (stroke_segments_proper _ _ _ _ _ _ _ _ H) as [_ P]. unfold area. rewrite Properties09.chain_wind by auto. unfold segs_wind.
  rewrite Base.zsum_map. reflexivity.
Qed.

Section Stroke.
  Variables (to_int : rpt -> pt) (style : stroke_style RF) (jc cc : nat) (closed : bool) (paths : list (list rpt)) (segs : list (segment cntO)).
  Hypothesis Width : 0 < st_width RF style.
  Hypothesis Drawn : stroke_segments RF to_int style jc cc closed paths = Some segs.
  Variables (s : R) (o : rpt).
  Hypothesis Snap : snapping to_int style s o closed paths.
  Hypothesis Caps : plain_caps style closed.
  Lemma half_width : 0 < stroke_radius style.
  Proof. unfold stroke_radius. rewrite Rmax_left; lra. Qed.

  (** Nothing but the pieces is filled, whatever the lengths of the sides. *)
  Theorem C51_only q p : rplace s o p = rq q -> clear_of 2 segs q -> area segs q = true -> on_stroke to_int style closed paths p.
  Proof.
    intros Pq Cl A. rewrite (stroke_area _ _ _ _ _ _ _ q Drawn) in A. apply Z.ltb_lt in A. destruct Snap as (Ps & Sn & Fa).
    apply (paths_only to_int style half_width s o q p Ps Pq closed paths segs Sn Fa Caps (stroke_parts _ _ _ _ _ _ _ Drawn)); auto. apply clear_far; auto.
  Qed.
  (** So the stroke stays within the reach of its style. *)
  Theorem C51_within q p : rplace s o p = rq q -> clear_of 2 segs q -> area segs q = true -> near_paths to_int closed paths (stroke_reach style) p.
  Proof.
    intros Pq Cl A. destruct (C51_only q p Pq Cl A) as (path & I & C). exists path. split; auto. destruct Snap as (_ & _ & Fa).
    assert (F1 : closed = true -> faithful to_int path) by (intro X; apply Fa in X; rewrite Forall_forall in X; auto).
    destruct (sides_facts to_int closed path F1) as (N & _ & Ch). apply (covered_close to_int style closed path p half_width N Ch C).
  Qed.
  (** The pieces are filled, if at every bend the two sides are at least as long as half the width times the sine of the angle. *)
  Hypothesis Long : Forall (no_short_sides to_int style closed) paths.
  Theorem C51_stroke q p : rplace s o p = rq q -> clear_of 2 segs q -> Forall (fun path => not_central to_int style closed path p) paths ->
    (area segs q = true <-> on_stroke to_int style closed paths p).
  Proof.
    intros Pq Cl Nc. split; [apply C51_only; auto|]. intros (path & I & C). rewrite (stroke_area _ _ _ _ _ _ _ q Drawn). apply Z.ltb_lt. destruct Snap as (Ps & Sn & Fa).
    destruct (paths_all to_int style half_width s o q p Ps Pq closed paths segs Sn Fa Caps (stroke_parts _ _ _ _ _ _ _ Drawn) (clear_far _ _ Cl) Long Nc) as [_ B]. eauto.
  Qed.
  (** With round joins and caps these are the points near the path: all that are no farther than [k], a little less than half the width. *)
  Theorem C51_round a b c k q p : rplace s o p = rq q -> clear_of 2 segs q -> Forall (fun path => not_central to_int style closed path p) paths ->
    st_join RF style = RoundJoin RF a -> 0 <= k <= stroke_radius style * cos (3 / 4 * round_angle a) ->
    (closed = false -> st_start RF style = RoundCap RF b /\ st_end RF style = RoundCap RF c /\
      k <= stroke_radius style * cos (2 / 3 * round_angle b) /\ k <= stroke_radius style * cos (2 / 3 * round_angle c)) ->
    near_paths to_int closed paths k p -> area segs q = true.
  Proof.
    intros Pq Cl Nc Hj Kj Hc (path & I & C). apply (C51_stroke q p Pq Cl Nc). exists path. split; auto. destruct Snap as (_ & _ & Fa).
    assert (F1 : closed = true -> faithful to_int path) by (intro X; apply Fa in X; rewrite Forall_forall in X; auto).
    destruct (sides_facts to_int closed path F1) as (N & _ & Ch). exact (round_covered to_int style closed path p half_width N Ch a b c k Hj Kj Hc C).
  Qed.
End Stroke.

(** ** The shapes returned by [stroke] *)
Section Result.
  Variable layout_new : Z -> Z -> nat -> option (Z -> nat).
  Hypothesis Lay : layout_ok layout_new.
  Variable query : list (nat * xseg) -> Z * Z -> Z -> list (nat * xseg).
  Hypothesis Qry : query_ok query.
  Variable tree_new : Z * Z -> bool.
  Variable sort_ends : list link -> list (nat * pt).
  Hypothesis Sort : forall ls, ends_ok ls (sort_ends ls).
  Variable clean : bool -> list pt -> list pt * bool.
  Hypothesis Cln : clean_ok clean.
  Variables (n : nat) (solver : Solver) (dbg : bool).
  Variable int_len : R -> Z.
  Variables (to_int : rpt -> pt) (style : stroke_style RF) (jc cc : nat) (closed clockwise : bool) (paths : list (list rpt)) (segs : list (segment cntO)) (shapes : list (list (list pt))).
  Hypothesis Wide : 0 < st_width RF style /\ (1 < Z.abs (int_len (st_width RF style / 2)))%Z.
  Hypothesis Drawn : stroke_segments RF to_int style jc cc closed paths = Some segs.
  Hypothesis Fits : Forall (fun s => sa (sx s) <> sb (sx s) /\ CrossPoint.bounded (sx s)) segs.
  Hypothesis NoGrid : no_grid solver (length (sort_merge segs)).
  Hypothesis Run : stroke_custom layout_new query tree_new sort_ends clean (S n) solver dbg RF to_int int_len style jc cc closed clockwise paths = ROk shapes.
  Variables (s : R) (o : rpt).
  Hypothesis Snap : snapping to_int style s o closed paths.
  Hypothesis Caps : plain_caps style closed.

  Lemma result_area q : clear_of (Z.max 2 (moved (precision solver) n)) segs q ->
    clear_of 2 segs q /\ contours_wind (concat shapes) q = if area segs q then sign_of clockwise else 0%Z.
  Proof.
    intro C. split; [eapply clear_mono; [|exact C]; lia|].
    destruct (C45_stroke_near layout_new Lay query Qry tree_new sort_ends Sort clean Cln n solver dbg RF to_int int_len style jc cc closed clockwise paths segs shapes Drawn Fits NoGrid Run) as (_ & _ & H).
    rewrite H by (apply clear_away; eapply clear_mono; [|exact C]; lia).
    assert (E : from_f64 RF (d_mul RF (d_lit RF (1 # 2)) (to_f64 RF (st_width RF style))) = st_width RF style / 2).
    { cbn [RF from_f64 to_f64 d_mul d_lit]. rewrite q_1_2. lra. }
    rewrite E. replace (Z.abs (int_len (st_width RF style / 2)) <=? 1)%Z with false by (symmetry; apply Z.leb_gt; tauto). reflexivity.
  Qed.
  (** Every shape is an outer contour and holes, and around points that are no piece's, and not close to a segment drawn, they do not wind. *)
  Theorem C51_result_only q p : rplace s o p = rq q -> clear_of (Z.max 2 (moved (precision solver) n)) segs q ->
    ~ on_stroke to_int style closed paths p -> contours_wind (concat shapes) q = 0%Z.
  Proof.
    intros Pq C N. destruct (result_area q C) as [C2 ->]. destruct (area segs q) eqn:A; auto. destruct N. apply (C51_only to_int style jc cc closed paths segs (proj1 Wide) Drawn s o Snap Caps q p Pq C2 A).
  Qed.
  Theorem C51_result_within q p : rplace s o p = rq q -> clear_of (Z.max 2 (moved (precision solver) n)) segs q ->
    ~ near_paths to_int closed paths (stroke_reach style) p -> contours_wind (concat shapes) q = 0%Z.
  Proof.
    intros Pq C N. destruct (result_area q C) as [C2 ->]. destruct (area segs q) eqn:A; auto. destruct N. apply (C51_within to_int style jc cc closed paths segs (proj1 Wide) Drawn s o Snap Caps q p Pq C2 A).
  Qed.
  Hypothesis Long : Forall (no_short_sides to_int style closed) paths.
  Theorem C51_result q p : rplace s o p = rq q -> clear_of (Z.max 2 (moved (precision solver) n)) segs q -> Forall (fun path => not_central to_int style closed path p) paths ->
    on_stroke to_int style closed paths p -> contours_wind (concat shapes) q = sign_of clockwise.
  Proof.
    intros Pq C Nc On. destruct (result_area q C) as [C2 ->]. replace (area segs q) with true; auto. symmetry. apply (C51_stroke to_int style jc cc closed paths segs (proj1 Wide) Drawn s o Snap Caps Long q p Pq C2 Nc). auto.
  Qed.
  Theorem C51_result_round a b c k q p : rplace s o p = rq q -> clear_of (Z.max 2 (moved (precision solver) n)) segs q -> Forall (fun path => not_central to_int style closed path p) paths ->
    st_join RF style = RoundJoin RF a -> 0 <= k <= stroke_radius style * cos (3 / 4 * round_angle a) ->
    (closed = false -> st_start RF style = RoundCap RF b /\ st_end RF style = RoundCap RF c /\
      k <= stroke_radius style * cos (2 / 3 * round_angle b) /\ k <= stroke_radius style * cos (2 / 3 * round_angle c)) ->
    near_paths to_int closed paths k p -> contours_wind (concat shapes) q = sign_of clockwise.
  Proof.
    intros Pq C Nc Hj Kj Hc Hn. destruct (result_area q C) as [C2 ->]. rewrite (C51_round to_int style jc cc closed paths segs (proj1 Wide) Drawn s o Snap Caps Long a b c k q p Pq C2 Nc Hj Kj Hc Hn). reflexivity.
  Qed.
End Result.

(** ** The pieces, spelled out *)
(** the points of a cap, in units of half the width, are those of C43 *)
Lemma cap_frame_shape c r : cap_frame c r = (0, - r) :: map (fun p => (fst p * r, snd p * r)) (cap_shape c) ++ [(0, r)].
Proof. unfold cap_frame. rewrite cap_points_real. reflexivity. Qed.
(** With bevel joins and butt caps: the rectangles around the sides, and at every bend the triangle of the vertex and the outer corners
    of the two rectangles. *)
Theorem C51_bevel (to_int : rpt -> pt) style closed path p : st_join RF style = Bevel RF -> (closed = false -> st_start RF style = Butt RF /\ st_end RF style = Butt RF) ->
  let r := stroke_radius style in
  let corner e := off (snd e) (normal_of (dir (fst e) (snd e))) in
  (covered to_int style closed path p <->
    (exists e, In e (sides_of to_int closed path) /\ in_strip r p e) \/
    (exists e f, next_of closed (sides_of to_int closed path) e f /\
      if Rltb 0 (cross (dir (fst e) (snd e)) (dir (fst f) (snd f)))
      then in_tri p (snd e) (corner e (- r)) (off (fst f) (normal_of (dir (fst f) (snd f))) (- r)) \/ in_tri p (snd e) (off (fst f) (normal_of (dir (fst f) (snd f))) (- r)) (corner e (- r))
      else in_tri p (snd e) (corner e r) (off (fst f) (normal_of (dir (fst f) (snd f))) r) \/ in_tri p (snd e) (off (fst f) (normal_of (dir (fst f) (snd f))) r) (corner e r))).
Proof.
  intros Hj Hc r corner. subst r corner. cbv beta. set (r := stroke_radius style).
  assert (On : forall x n, off x (neg n) r = off x n (- r)) by (intros x n; unfold off, neg; cbn [fst snd]; f_equal; ring).
  assert (Out : forall e f, in_fan p (snd e) (outer to_int (st_join RF style) r e f) <->
      if Rltb 0 (cross (dir (fst e) (snd e)) (dir (fst f) (snd f)))
      then in_tri p (snd e) (off (snd e) (normal_of (dir (fst e) (snd e))) (- r)) (off (fst f) (normal_of (dir (fst f) (snd f))) (- r)) \/ in_tri p (snd e) (off (fst f) (normal_of (dir (fst f) (snd f))) (- r)) (off (snd e) (normal_of (dir (fst e) (snd e))) (- r))
      else in_tri p (snd e) (off (snd e) (normal_of (dir (fst e) (snd e))) r) (off (fst f) (normal_of (dir (fst f) (snd f))) r) \/ in_tri p (snd e) (off (fst f) (normal_of (dir (fst f) (snd f))) r) (off (snd e) (normal_of (dir (fst e) (snd e))) r)).
  { intros e f. rewrite Hj. unfold outer, ltop, lbot, left_mids, right_mids, turning, dir_of. cbn [mids]. unfold in_fan, la, lb, ra, rb. rewrite !On.
    destruct (Rltb 0 (cross _ _)); cbn [app RealCorner.steps]; (split; [intros (a & b & [E|[]] & H); injection E as <- <-; tauto|intro H; eexists; eexists; split; [left; reflexivity|tauto]]). }
  assert (NoCap : closed = false -> ~ caps_cover style (sides_of to_int closed path) p).
  { intros E H. destruct (Hc E) as [H0 H1].
    assert (Flat : forall y d, ~ in_fan p y (map (cap_pt d y) (cap_frame (Butt RF) r))).
    { intros y d. rewrite cap_frame_shape. cbn [cap_shape map app]. intros (a & b & I & T). cbn [RealCorner.steps map] in I. destruct I as [I|[]]. injection I as <- <-.
      destruct T as [[T _]|[T _]]; revert T; unfold turn3, cap_pt; cbn [fst snd]; intro T; ring_simplify in T; lra. }
    destruct H as [(e & l & _ & H)|(e & l & _ & H)]; [rewrite H0 in H|rewrite H1 in H]; apply Flat in H; auto. }
  unfold covered. split.
  - intros [[H|(e & f & Ne & H)]|[E H]]; [left; auto|right; exists e, f; split; auto; apply Out; auto|destruct (NoCap E H)].
  - intros [H|(e & f & Ne & H)]; left; [left; auto|right; exists e, f; split; auto; apply Out; auto].
Qed.

(** ** Examples *)
(** A path with one bend, half the width 10, on the grid of size 1: any style that does not reach farther than 20. *)
Definition bend : list rpt := [(0, 0); (100, 0); (100, 100)].
Lemma round_at x y a b : x = IZR a -> y = IZR b -> r_round (x, y) = Pt a b.
Proof. intros -> ->. unfold r_round. cbn [fst snd]. rewrite !int_part_IZR. reflexivity. Qed.
Lemma round_snaps p : rclose 1 (rplace 1 (0, 0) p) (rz (r_round p)).
Proof.
  unfold rclose, rplace, rz, r_round. cbn [fst snd px py]. rewrite !Rabs_iff. pose proof (base_Int_part (fst p)). pose proof (base_Int_part (snd p)). lra.
Qed.
Lemma sqrt_sq x y : 0 <= y -> x = y * y -> sqrt x = y.
Proof. intros P ->. apply sqrt_square; auto. Qed.
Lemma bend_dirs : dir (0, 0) (100, 0) = (1, 0) /\ dir (100, 0) (100, 100) = (0, 1).
Proof.
  unfold dir, r_norm. cbn [fst snd]. rewrite !(sqrt_sq _ 100) by lra. split; f_equal; lra.
Qed.
Lemma bend_sides : sides_of r_round false bend = [((0, 0), (100, 0)); ((100, 0), (100, 100))].
Proof.
  unfold sides_of, bend. cbn [path_sides]. rewrite !(round_at 0 0 0 0), !(round_at 100 0 100 0), !(round_at 100 100 100 100) by reflexivity. reflexivity.
Qed.
Definition bend_style (j : line_join RF) (c : line_cap RF) : stroke_style RF := SS RF 20 c c j.
Lemma bend_radius j c : stroke_radius (bend_style j c) = 10.
Proof. unfold stroke_radius, bend_style. cbn [st_width]. rewrite Rmax_left; lra. Qed.
Example bend_meets j c : cap_left c -> snapping r_round (bend_style j c) 1 (0, 0) false [bend] /\ plain_caps (bend_style j c) false /\
  Forall (no_short_sides r_round (bend_style j c) false) [bend] /\ forall p, Forall (fun path => not_central r_round (bend_style j c) false path p) [bend].
Proof.
  intro Cl. split; [|split; [|split]].
  - split; [lra|]. split; [|discriminate]. constructor; [|constructor]. intros a v _ _. apply round_snaps.
  - intros _. split; exact Cl.
  - constructor; [|constructor]. unfold no_short_sides. rewrite bend_sides. cbn [next_of]. intros e f (l & m & E). rewrite bend_radius.
    destruct l as [|x [|y [|z l]]]; try discriminate. injection E as <- <- _. unfold turning, dir_of, cross, dist, dist2. cbn [fst snd]. destruct bend_dirs as [-> ->]. cbn [fst snd].
    rewrite !(sqrt_sq _ 100) by lra. replace (1 * 1 - 0 * 0) with 1 by lra. rewrite Rabs_R1. lra.
  - intro p. constructor; [|constructor]. intro X. discriminate X.
Qed.
(** The segments drawn with bevel joins and butt caps. *)
Definition bend_segs : list (segment cntO) :=
  [bold_ab (Pt 0 10) (Pt 0 (-10)); bold_ab (Pt 100 10) (Pt 0 10); bold_ab (Pt 0 (-10)) (Pt 100 (-10)); bold_ab (Pt 90 0) (Pt 100 10); bold_ab (Pt 100 (-10)) (Pt 110 0);
   bold_ab (Pt 90 100) (Pt 90 0); bold_ab (Pt 110 0) (Pt 110 100); bold_ab (Pt 110 100) (Pt 90 100)].
Lemma bend_drawn : stroke_segments RF r_round (bend_style (Bevel RF) (Butt RF)) 2 1 false [bend] = Some bend_segs.
Proof.
  assert (H : stroke_build RF r_round (stroke_builder_new RF r_round (bend_style (Bevel RF) (Butt RF))) false bend = Some bend_segs).
  { destruct (stroke_build RF r_round (stroke_builder_new RF r_round (bend_style (Bevel RF) (Butt RF))) false bend) as [l|] eqn:E.
    - f_equal. apply path_drawn in E. rewrite bend_sides in E. rewrite E. unfold drawn_of. cbn [last strip]. rewrite !section_real. rewrite bend_radius. cbn [fst snd]. destruct bend_dirs as [-> ->].
      unfold bend_style. cbn [st_join st_start st_end join_normalize cap_normalize cap_points stroke_join]. unfold add_to_start, add_to_end, add_section, bevel_join, join_top, join_bot, add_segment. cbn [opt_points cap_loop s_atop s_btop s_abot s_bbot].
      unfold off, normal_of, neg. cbn [fst snd].
      rewrite (round_at _ _ 0 10), (round_at _ _ 0 (-10)), (round_at _ _ 100 10), (round_at _ _ 100 (-10)), (round_at _ _ 90 0), (round_at _ _ 110 0), (round_at _ _ 90 100), (round_at _ _ 110 100) by lra.
      reflexivity.
    - cbn [stroke_build] in E. unfold bend in E. rewrite open_strip in E by discriminate. discriminate. }
  unfold stroke_segments. cbn [stroke_capacity map length]. cbn [concat_opt]. rewrite H. reflexivity.
Qed.
Definition real_len (x : R) : Z := Int_part x.
Definition bend_run (fuel : nat) : run (list (list (list pt))) :=
  stroke_custom lay4 qry (fun _ => true) sorted_ends clean_line fuel (mk_solver StAuto) true RF r_round real_len (bend_style (Bevel RF) (Butt RF)) 2 1 false false [bend].
Ltac clear_away_from := intros sg I; repeat (destruct I as [<-|I]; [intros (t & Ht & X & Y); rewrite Rabs_iff in X, Y; unfold rz, rq, Q2R in *; cbn -[IZR Rinv] in *; lra|]); destruct I.
Example C51_example :
  0 < st_width RF (bend_style (Bevel RF) (Butt RF)) /\ (1 < Z.abs (real_len (st_width RF (bend_style (Bevel RF) (Butt RF)) / 2)))%Z /\
  Forall (fun s => sa (sx s) <> sb (sx s) /\ CrossPoint.bounded (sx s)) bend_segs /\ no_grid (mk_solver StAuto) (length (sort_merge bend_segs)) /\
  bend_run 2 = ROk [[[Pt 0 10; Pt 0 (-10); Pt 100 (-10); Pt 110 0; Pt 110 100; Pt 90 100; Pt 90 10]]] /\
  rplace 1 (0, 0) (50, 5) = rq (50, 5)%Q /\ clear_of (Z.max 2 (moved (precision (mk_solver StAuto)) 1)) bend_segs (50, 5)%Q /\
  on_stroke r_round (bend_style (Bevel RF) (Butt RF)) false [bend] (50, 5).
Proof.
  split; [cbn; lra|]. split; [cbn [bend_style st_width]; unfold real_len; replace (20 / 2) with (IZR 10) by lra; rewrite int_part_IZR; reflexivity|]. split.
  { assert (H : forallb (fun s => negb (degenerate s) && boundedb (sx s)) bend_segs = true) by (vm_compute; reflexivity).
    rewrite forallb_forall in H. apply Forall_forall. intros sg I. specialize (H sg I). apply andb_true_iff in H as [H1 H2]. split; [|apply boundedb_ok; auto].
    apply negb_true_iff in H1. intro E. unfold degenerate in H1. rewrite (proj2 (pt_eqb_eq _ _) E) in H1. discriminate. }
  split; [vm_compute; auto|]. split.
  { unfold bend_run, stroke_custom. rewrite bend_drawn.
    assert (E : from_f64 RF (d_mul RF (d_lit RF (1 # 2)) (to_f64 RF (st_width RF (bend_style (Bevel RF) (Butt RF))))) = IZR 10).
    { cbn [RF from_f64 to_f64 d_mul d_lit]. rewrite q_1_2. cbn [bend_style st_width]. lra. }
    rewrite E. unfold real_len. rewrite int_part_IZR. cbn [Z.abs Z.leb Z.compare of_opt rbind]. vm_compute. reflexivity. }
  split; [unfold rplace, rq, Q2R; cbn -[IZR Rinv]; f_equal; lra|].
  split; [replace (Z.max 2 (moved (precision (mk_solver StAuto)) 1)) with 2%Z by reflexivity; clear_away_from|].
  exists bend. split; [left; reflexivity|]. left. left. rewrite bend_sides. exists ((0, 0), (100, 0)). split; [left; reflexivity|]. unfold in_strip. cbn [fst snd].
  rewrite bend_radius. destruct bend_dirs as [-> _]. unfold dist, dist2, dot, cross, vec. cbn [fst snd]. rewrite (sqrt_sq _ 100) by lra. rewrite Rabs_iff. lra.
Qed.
(** With round joins and caps: the same point is as clear of what is drawn, and all points no farther than 7 from the path are part of the stroke. *)
Lemma open_where to_int style path segs : stroke_build RF to_int (stroke_builder_new RF to_int style) false path = Some segs ->
  forall sg, In sg segs -> (exists f, In f (sides_of to_int false path) /\ (travel sg = (to_int (lb (stroke_radius style) f), to_int (la (stroke_radius style) f)) \/ travel sg = (to_int (ra (stroke_radius style) f), to_int (rb (stroke_radius style) f)))) \/
    exists v, In v path /\ forall e, ends sg e -> near_pt to_int v (stroke_reach style) e.
Proof.
  intros H sg I. apply path_drawn in H. destruct (sides_facts to_int false path ltac:(discriminate)) as (N & Ip & Ch). cbn [next_of] in Ch.
  set (r := stroke_radius style) in *. pose proof (stroke_radius_pos style) as Pr. fold r in Pr.
  assert (Lj : join_reach r (st_join RF style) <= stroke_reach style) by apply Rmax_l.
  assert (W : forall v d d' e, near_pt to_int v d e -> d <= d' -> near_pt to_int v d' e) by (intros v d d' e (x & Ex & D) L; exists x; split; auto; lra).
  destruct (sides_of to_int false path) as [|f0 r0] eqn:Es; subst segs; [destruct I|]. unfold drawn_of in I. apply in_app_or in I as [I|I]; [|apply in_app_or in I as [I|I]].
  - right. exists (fst f0). pose proof (N f0 (or_introl eq_refl)) as Nf. split; [apply Ip; simpl; auto|]. intros e E. pose proof (dir_unit _ _ Nf) as U. rewrite section_real in I. unfold add_to_start in I. cbn [s_dir s_a s_atop s_abot] in I. fold r in I.
    pose proof (unit_normal _ U) as Un. apply (W _ (cap_reach r (st_start RF style))).
    + eapply (cap_loop_near to_int (neg (dir (fst f0) (snd f0)))); [apply unit_neg; auto| | | |exact I|exact E].
      * apply cap_points_size; auto.
      * apply near_off; auto. rewrite Rabs_pos_eq by auto. apply cap_reach_ge; auto.
      * apply near_off; auto using unit_neg. rewrite Rabs_pos_eq by auto. apply cap_reach_ge; auto.
    + eapply Rle_trans; [|apply Rmax_r]. apply Rmax_l.
  - apply strip_in in I as [(f & If & I)|(f & g & Fg & I)].
    + left. exists f. split; auto. rewrite section_real in I. unfold add_section in I. cbn [s_atop s_btop s_abot s_bbot] in I. destruct I as [<-|[<-|[]]]; rewrite travel_bold; auto.
    + right. pose proof (Ch f g Fg) as Cf. destruct Fg as (l & m & El). assert (If : In f (f0 :: r0)) by (refine (eq_ind_r (fun x => In f x) _ El); apply in_or_app; simpl; auto). assert (Ig : In g (f0 :: r0)) by (refine (eq_ind_r (fun x => In g x) _ El); apply in_or_app; simpl; auto).
      exists (snd f). split; [apply Ip; auto|]. intros e E. pose proof (N g Ig) as Ng. rewrite <- Cf in I, Ng. apply (W _ (join_reach r (st_join RF style))); auto. eapply stroke_join_near; [exact (N f If)|exact Ng|exact I|exact E].
  - right. assert (If : In (last r0 f0) (f0 :: r0)). { destruct r0 as [|h q]; [simpl; auto|]. right. destruct (exists_last (l := h :: q) ltac:(discriminate)) as (l & w & ->). rewrite last_last. apply in_or_app. simpl; auto. }
    set (f := last r0 f0) in *. exists (snd f). pose proof (N f If) as Nf. split; [apply Ip; auto|]. intros e E. pose proof (dir_unit _ _ Nf) as U. rewrite section_real in I. unfold add_to_end in I. cbn [s_dir s_b s_btop s_bbot] in I. fold r in I.
    pose proof (unit_normal _ U) as Un. apply (W _ (cap_reach r (st_end RF style))).
    + eapply (cap_loop_near to_int (dir (fst f) (snd f))); [auto| | | |exact I|exact E].
      * apply cap_points_size; auto.
      * apply near_off; auto using unit_neg. rewrite Rabs_pos_eq by auto. apply cap_reach_ge; auto.
      * apply near_off; auto. rewrite Rabs_pos_eq by auto. apply cap_reach_ge; auto.
    + eapply Rle_trans; [|apply Rmax_r]. apply Rmax_r.
Qed.
Definition round_style : stroke_style RF := bend_style (RoundJoin RF (PI / 4)) (RoundCap RF (PI / 4)).
Lemma round_reach : stroke_reach round_style = 10.
Proof.
  unfold stroke_reach. replace (stroke_radius round_style) with 10 by (symmetry; apply bend_radius). cbn [round_style bend_style st_join st_start st_end join_reach cap_reach].
  rewrite Rabs_pos_eq by lra. rewrite !(Rmax_left 10 10) by lra. reflexivity.
Qed.
Lemma quarter : round_angle (PI / 4) = PI / 4.
Proof. pose proof PI_RGT_0. unfold round_angle. rewrite Rmin_left, Rmax_right; lra. Qed.
Lemma dist_box (x v : rpt) : Rabs (fst x - fst v) <= dist x v /\ Rabs (snd x - snd v) <= dist x v.
Proof.
  unfold dist, dist2. rewrite <- !sqrt_Rsqr_abs. pose proof (Rle_0_sqr (fst x - fst v)). pose proof (Rle_0_sqr (snd x - snd v)). unfold Rsqr in *. split; apply sqrt_le_1_alt; lra.
Qed.
Lemma near_box (v : rpt) d e : near_pt r_round v d e -> Rabs (IZR (px e) - fst v) <= d + 1 /\ Rabs (IZR (py e) - snd v) <= d + 1.
Proof.
  intros (x & -> & D). destruct (round_snaps x) as [A B]. unfold rplace, rz in A, B. cbn [fst snd] in A, B. rewrite !Rabs_iff in *.
  destruct (dist_box x v) as [P Q]. rewrite Rabs_iff in *. lra.
Qed.
Ltac at_one x y a b T := rewrite (round_at x y a b) in T by lra.
Example C51_round_example : exists segs, stroke_segments RF r_round round_style 2 3 false [bend] = Some segs /\ clear_of 2 segs (50, 5)%Q /\
  0 <= 7 <= stroke_radius round_style * cos (3 / 4 * round_angle (PI / 4)) /\ 7 <= stroke_radius round_style * cos (2 / 3 * round_angle (PI / 4)) /\
  near_paths r_round false [bend] 7 (50, 5).
Proof.
  destruct (stroke_build RF r_round (stroke_builder_new RF r_round round_style) false bend) as [l|] eqn:E.
  2: { cbn [stroke_build] in E. unfold bend in E. rewrite open_strip in E by discriminate. discriminate. }
  exists (l ++ []). split; [unfold stroke_segments; cbn [stroke_capacity map length concat_opt]; rewrite E; reflexivity|]. rewrite app_nil_r. split.
  - intros sg I Wi. assert (Wt : rwithin 2 (rz (fst (travel sg))) (rz (snd (travel sg))) (rq (50, 5)%Q)).
    { unfold travel. destruct (osubj (sc sg) =? 1)%Z; cbn [fst snd]; auto. apply rwithin_sym; auto. }
    destruct (open_where r_round round_style bend l E sg I) as [(f & If & T)|(v & Iv & Nv)].
    + rewrite bend_sides in If. replace (stroke_radius round_style) with 10 in T by (symmetry; apply bend_radius). unfold la, lb, ra, rb, off, normal_of, neg in T.
      destruct If as [<-|[<-|[]]]; cbn [fst snd] in T; destruct bend_dirs as [D0 D1]; rewrite ?D0, ?D1 in T; cbn [fst snd] in T;
      repeat match type of T with context [r_round (?x, ?y)] => at_one x y 0%Z 10%Z T || at_one x y 0%Z (-10)%Z T || at_one x y 100%Z 10%Z T || at_one x y 100%Z (-10)%Z T || at_one x y 90%Z 0%Z T || at_one x y 110%Z 0%Z T || at_one x y 90%Z 100%Z T || at_one x y 110%Z 100%Z T end;
      destruct T as [T|T]; rewrite T in Wt; destruct Wt as (t & Ht & X & Y); rewrite Rabs_iff in X, Y; unfold rz, rq, Q2R in X, Y; cbn -[IZR Rinv] in X, Y; lra.
    + pose proof (near_box v _ _ (Nv _ (or_introl eq_refl))) as [Ax _]. pose proof (near_box v _ _ (Nv _ (or_intror eq_refl))) as [Bx _]. rewrite round_reach in Ax, Bx. rewrite Rabs_iff in Ax, Bx.
      destruct Wi as (t & Ht & X & _). rewrite Rabs_iff in X. unfold rz, rq, Q2R in X. cbn [fst snd Qnum Qden] in X.
      assert (Vx : fst v = 0 \/ fst v = 100) by (destruct Iv as [<-|[<-|[<-|[]]]]; cbn; auto).
      set (a := IZR (px (sa (sx sg)))) in *. set (b := IZR (px (sb (sx sg)))) in *.
      assert (M : fst v - 11 <= a + t * (b - a) <= fst v + 11) by (clear - Ax Bx Ht; nra). destruct Vx; lra.
  - rewrite !quarter. replace (stroke_radius round_style) with 10 by (symmetry; apply bend_radius). pose proof PI_RGT_0 as Pp.
    assert (K : 7 <= 10 * cos (PI / 4)).
    { rewrite cos_PI4. assert (Q2 : 0 < sqrt 2 <= 10 / 7). { split; [apply sqrt_lt_R0; lra|]. rewrite <- (sqrt_square (10 / 7)) by lra. apply sqrt_le_1_alt. lra. }
      apply (Rmult_le_reg_r (sqrt 2)); [lra|]. replace (10 * (1 / sqrt 2) * sqrt 2) with 10 by (field; lra). lra. }
    assert (L : forall a, 0 <= a <= PI / 4 -> cos (PI / 4) <= cos a) by (intros a A; apply cos_decr_1; lra).
    pose proof (L (3 / 4 * (PI / 4)) ltac:(lra)). pose proof (L (2 / 3 * (PI / 4)) ltac:(lra)). split; [lra|]. split; [lra|].
    exists bend. split; [left; reflexivity|]. rewrite bend_sides. exists ((0, 0), (100, 0)), (1 / 2). split; [left; reflexivity|]. split; [lra|]. unfold dist, dist2, between_pts. cbn [fst snd]. rewrite (sqrt_sq _ 5) by lra. lra.
Qed.

(** ** Sides that are too short
    A side of length 100 with half the width 50, and after the bend a side of length 10.  The join at the inner side of the bend is drawn from
    corner to corner of the rectangles, far beyond the second rectangle, and cuts a triangle off the first: the point [(-10, 20)] of the first
    rectangle, more than [9] away from what is drawn, is not part of the stroke that is returned. *)
Definition hook : list (list (Q * Q)) := [[(- (100 # 1), 0); (0, 0); (0, 10)]]%Q.
Definition hook_style : stroke_style QF := SS QF 100%Q (Butt QF) (Butt QF) (Bevel QF).
Definition hook_run : run (list (list (list pt))) :=
  stroke_custom lay4 qry (fun _ => true) sorted_ends clean_line 5 (mk_solver StAuto) true QF q_round Qround.Qceiling hook_style 2 1 false false hook.
Theorem C51_short_side_refuted : exists segs shapes, stroke_segments QF q_round hook_style 2 1 false hook = Some segs /\ hook_run = ROk shapes /\
  away (inject_Z 9) segs (- (10 # 1), 20)%Q /\ contours_wind (concat shapes) (- (10 # 1), 20)%Q = 0%Z /\
  contours_wind (concat shapes) (- (60 # 1), 30)%Q = 1%Z /\ contours_wind (concat shapes) (- (10 # 1), - (30 # 1))%Q = 1%Z.
Proof.
  eexists. eexists. split; [vm_compute; reflexivity|]. split; [vm_compute; reflexivity|]. split; [|vm_compute; auto].
  intros sg I. repeat (destruct I as [<-|I]; [intros (t & Ht & X & Y); rewrite Qabs_le_iff in X, Y; unfold qx, qy in *; cbn [fst snd px py sa sb sx] in *; unfold inject_Z in *; lra|]); destruct I.
Qed.
Print Assumptions C51_stroke.
Print Assumptions C51_round.
Print Assumptions C51_result_only.
Print Assumptions C51_result.
Print Assumptions C51_result_round.
Print Assumptions C51_short_side_refuted.
