(** * C53: strokes and outlines as they are returned, in floating point coordinates.

    [stroke_call] and [outline_call] are the public functions with all that happens: the rectangle that fixes the grid (C42), the conversion to the
    grid, drawing, splitting, extraction (C45), the conversion back and the clean-up of the contours.  Exact arithmetic for the geometry ([RF], as C51 and C52);
    the conversions are any functions within their error, the clean-up any function that changes winding numbers only near the contours.
    The point [p] is a point in the coordinates of the caller, [q] its image in the grid's plane (rational). *)
From Verif Require Import Base Spec QLib ModelSegm SegmProofs MergeProofs PlanarGeo PlanarSum ModelFill ModelFilter FillProofs FillCorrect
  ModelCross CrossProofs CrossPoint MarksProofs CoreResults Properties01 ModelSplit SplitProofs SplitPlanar SplitPass BinsProofs SplitApply SplitLoop
  ModelFrag ModelOverlay OverlayProofs FragProofs GridCover Properties02
  ModelGraph GraphProofs ModelExtract ExtractProofs ContourResults Rotation NextLink Properties03
  MoveLemma SectorLemma Sides WalkSides Orient Properties04 ModelBind BindProofs BindSweep Nest Properties05 Natural ModelOffset OffsetProofs ModelMesh MeshProofs MeshStrip Properties09
  SplitNear InputCover Properties15 Properties10 ModelOutline Properties13 OffsetNear Properties19 OverlayNear OffsetEdges Properties22 ModelRect.
From Coq Require Import Reals Lra Psatz Qreals.
From Verif Require Import RealMesh RealJoin RealReach Properties11 RealMiter RealWind RealMove RealCorner RealStroke RealPieces RealCount RealCover RealPath RealRound Properties20
  RealOuter RealShift RealContour RealOffset RealAround Properties21 RealBack.
Open Scope R_scope.

(** ** Model *)
(** [FloatPointAdapter] of i_float (not in /repo): [float_to_int], [int_to_float], [len_float_to_int], [sqr_float_to_int] *)
Record radapter := RA { ra_in : rpt -> pt; ra_out : pt -> rpt; ra_len : R -> Z; ra_sqr : R -> Z }.
(** [float/overlay.rs] [ContourFilter] *)
Record rfilter := RFl { rf_min_area : R; rf_clean : bool }.

Section Calls.
  Variable layout_new : Z -> Z -> nat -> option (Z -> nat).
  Variable query : list (nat * xseg) -> Z * Z -> Z -> list (nat * xseg).
  Variable tree_new : Z * Z -> bool.
  Variable sort_ends : list link -> list (nat * pt).
  Variable clean : bool -> list pt -> list pt * bool.
  (** [FloatPointAdapter::new] of i_float, [unsafe_int_area] and the [simplify_contour] of float shapes of i_shape *)
  Variable adapter_of : frect RF -> radapter.
  Variable int_area : radapter -> list rpt -> Z.
  Variable float_clean : radapter -> list (list (list rpt)) -> list (list (list rpt)).
  Variables (fuel : nat) (solver : Solver) (dbg : bool).
  (** [mesh/stroke/offset.rs:64-107] [stroke_custom] *)
  Definition stroke_call (style : stroke_style RF) (jc cc : nat) (closed clockwise : bool) (filter : rfilter) (paths : list (list rpt)) : run (list (list (list rpt))) :=
    let a := adapter_of (stroke_rect RF style paths) in
    rbind (stroke_custom layout_new query tree_new sort_ends clean fuel solver dbg RF (ra_in a) (ra_len a) style jc cc closed clockwise paths) (fun shapes =>
    ROk (float_shapes (ra_out a) (float_clean a) (rf_clean filter) shapes)).
  (** [mesh/outline/offset.rs:61-183] [outline_custom] *)
  Definition outline_call (outer inner : R) (join : line_join RF) (clockwise : bool) (filter : rfilter) (paths : list (list rpt)) : run (list (list (list rpt))) :=
    let a := adapter_of (outline_rect RF outer inner join paths) in
    rbind (outline_custom layout_new query tree_new sort_ends clean fuel solver dbg RF (ra_in a) (int_area a) outer inner join clockwise (Z.max (ra_sqr a (rf_min_area filter)) 1) paths) (fun shapes =>
    ROk (float_shapes (ra_out a) (float_clean a) (rf_clean filter) shapes)).
End Calls.

(** ** Specification *)
(** the point is on the edge of a contour *)
Definition on_edge (cs : list (list rpt)) (x : rpt) : Prop :=
  exists c f t, In c cs /\ In f (rring c) /\ 0 <= t <= 1 /\ x = (fst (fst f) + t * (fst (snd f) - fst (fst f)), snd (fst f) + t * (snd (snd f) - snd (fst f))).
(** the offset of the contour [path] by [k] (to its left, as the builder has it: negative outwards, positive inwards), for contours that C52 describes *)
Definition offset_has (to_int : rpt -> pt) (join : line_join RF) (k : R) (path : list rpt) (p : rpt) : Prop :=
  if Rltb k 0 then in_path path p \/ along to_int join k path p else in_path path p /\ ~ along to_int join k path p.
Definition plain_offset (to_int : rpt -> pt) (join : line_join RF) (k s : R) (o : rpt) (path : list rpt) (p : rpt) : Prop :=
  k <> 0 /\ snaps_near to_int (join_reach k join) s o path /\ long_sides to_int k path /\ simple_path path /\ gentle_bends to_int k path /\ off_center to_int k path p.
(** all distances together, in units of the grid: [moved] for the passes of splitting, [delta] for the way back, [eta] for the clean-up; at least 2 for the drawing *)
Definition enough (D m : Z) (delta eta : R) : Prop := (2 <= D)%Z /\ IZR m + delta + eta < IZR D.

Lemma covered_has (to_int : rpt -> pt) (join : line_join RF) k s o path q p : plain_offset to_int join k s o path p -> rplace s o p = rq q ->
  (forall segs, outline_segments RF to_int k (join_normalize RF join) path = Some segs -> clear_of 2 segs q) ->
  (Properties13.covered RF to_int join k path q = true <-> offset_has to_int join k path p).
Proof.
  intros (Nk & Sn & Lo & Si & Ge & Oc) Pq C. unfold Properties13.covered, offset_has. destruct (C33_outline RF to_int k (join_normalize RF join) path) as (segs & Hs & _). rewrite Hs. specialize (C segs Hs).
  destruct (Rltb k 0) eqn:E.
  - apply Rltb_true in E. assert (K : k = - - k) by ring. rewrite K in Hs, Sn, Lo, Ge, Oc |- *. apply (C52_grow to_int join (- k) path segs s o ltac:(lra) Hs Sn Lo Si Ge q p Pq C Oc).
  - apply Rltb_false in E. apply (C52_shrink to_int join k path segs s o ltac:(lra) Hs Sn Lo Si (or_introl Ge) q p Pq C Oc).
Qed.
Lemma count_agree {A} (f g : A -> bool) l : (forall x, In x l -> f x = g x) -> Properties13.count f l = Properties13.count g l.
Proof. intro H. unfold Properties13.count. f_equal. f_equal. induction l as [|x l IH]; auto. cbn [filter]. rewrite (H x) by (left; auto). rewrite IH by (intros; apply H; right; auto). reflexivity. Qed.

Section WithContracts.
  Variable layout_new : Z -> Z -> nat -> option (Z -> nat).
  Hypothesis Lay : layout_ok layout_new.
  Variable query : list (nat * xseg) -> Z * Z -> Z -> list (nat * xseg).
  Hypothesis Qry : query_ok query.
  Variable tree_new : Z * Z -> bool.
  Variable sort_ends : list link -> list (nat * pt).
  Hypothesis Sort : forall ls, ends_ok ls (sort_ends ls).
  Variable clean : bool -> list pt -> list pt * bool.
  Hypothesis Cln : clean_ok clean.
  Hypothesis Ced : clean_edges clean.
  Variable adapter_of : frect RF -> radapter.
  Variable int_area : radapter -> list rpt -> Z.
  Variable float_clean : radapter -> list (list (list rpt)) -> list (list (list rpt)).
  Variables (n : nat) (solver : Solver) (dbg : bool).
  Variables (s : R) (o : rpt) (delta eta : R) (D : Z).
  Hypothesis Eta : 0 <= eta.
  Notation m := (moved (precision solver) n).

  Section Stroke.
    Variables (style : stroke_style RF) (jc cc : nat) (closed clockwise : bool) (filter : rfilter) (paths : list (list rpt)) (segs : list (segment cntO)) (out : list (list (list rpt))).
    Notation a := (adapter_of (stroke_rect RF style paths)).
    Hypothesis Wide : 0 < st_width RF style /\ (1 < Z.abs (ra_len a (st_width RF style / 2)))%Z.
    Hypothesis Drawn : stroke_segments RF (ra_in a) style jc cc closed paths = Some segs.
    Hypothesis Fits : Forall (fun s => sa (sx s) <> sb (sx s) /\ CrossPoint.bounded (sx s)) segs.
    Hypothesis NoGrid : no_grid solver (length (sort_merge segs)).
    Hypothesis Run : stroke_call layout_new query tree_new sort_ends clean adapter_of float_clean (S n) solver dbg style jc cc closed clockwise filter paths = ROk out.
    Hypothesis Snap : snapping (ra_in a) style s o closed paths.
    Hypothesis Caps : plain_caps style closed.
    Hypothesis Back : back_ok (ra_out a) s o delta.
    Hypothesis Clean : rf_clean filter = true -> float_clean_ok (float_clean a) s o eta.
    Hypothesis Dist : enough D m delta eta.

    Lemma stroke_call_shapes : exists shapes, stroke_custom layout_new query tree_new sort_ends clean (S n) solver dbg RF (ra_in a) (ra_len a) style jc cc closed clockwise paths = ROk shapes /\
      out = float_shapes (ra_out a) (float_clean a) (rf_clean filter) shapes.
    Proof. unfold stroke_call in Run. destruct (stroke_custom _ _ _ _ _ _ _ _ _ _ _ _ _ _ _ _ _) as [shapes| |]; try discriminate. cbn [rbind] in Run. injection Run as <-. eauto. Qed.
    Lemma stroke_call_wind q p : rplace s o p = rq q -> clear_of D segs q -> clear_of 2 segs q /\ rcontours_wind (concat out) p = if area segs q then sign_of clockwise else 0%Z.
    Proof.
      intros Pq C. destruct stroke_call_shapes as (shapes & Es & ->). destruct Dist as [D2 Dm]. destruct Back as (_ & D0 & _).
      assert (Lm : (m <= D)%Z) by (apply le_IZR; lra).
      destruct (stroke_drawn layout_new Lay query Qry tree_new sort_ends Sort clean Cln Ced n solver dbg RF (ra_in a) (ra_len a) style jc cc closed clockwise paths segs shapes Drawn Fits NoGrid Es) as [Ed Rg].
      rewrite (back_wind (ra_out a) (float_clean a) s o delta eta Back (rf_clean filter) shapes p q (near_segs m segs) (IZR D - IZR m)); auto; [|apply clear_apart; auto|lra].
      apply (result_area layout_new Lay query Qry tree_new sort_ends Sort clean Cln n solver dbg (ra_len a) (ra_in a) style jc cc closed clockwise paths segs shapes Wide Drawn Fits NoGrid Es).
      eapply clear_mono; [|exact C]. lia.
    Qed.
    (** Around points that are no piece's the contours returned do not wind. *)
    Theorem C53_stroke_only q p : rplace s o p = rq q -> clear_of D segs q -> ~ on_stroke (ra_in a) style closed paths p -> rcontours_wind (concat out) p = 0%Z.
    Proof.
      intros Pq C N. destruct (stroke_call_wind q p Pq C) as [C2 ->]. destruct (area segs q) eqn:A; auto. destruct N. apply (C51_only (ra_in a) style jc cc closed paths segs (proj1 Wide) Drawn s o Snap Caps q p Pq C2 A).
    Qed.
    Theorem C53_stroke_within q p : rplace s o p = rq q -> clear_of D segs q -> ~ near_paths (ra_in a) closed paths (stroke_reach style) p -> rcontours_wind (concat out) p = 0%Z.
    Proof.
      intros Pq C N. destruct (stroke_call_wind q p Pq C) as [C2 ->]. destruct (area segs q) eqn:A; auto. destruct N. apply (C51_within (ra_in a) style jc cc closed paths segs (proj1 Wide) Drawn s o Snap Caps q p Pq C2 A).
    Qed.
    (** No edge returned is far from the segments drawn (without the clean-up). *)
    Theorem C53_stroke_edges q x : rplace s o x = rq q -> rf_clean filter = false -> on_edge (concat out) x -> ~ clear_of D segs q.
    Proof.
      intros Pq Fc (c & f & t & Ic & If & T & X) C. destruct stroke_call_shapes as (shapes & Es & Eo). rewrite Eo, Fc in Ic. destruct Dist as [_ Dm].
      destruct (stroke_drawn layout_new Lay query Qry tree_new sort_ends Sort clean Cln Ced n solver dbg RF (ra_in a) (ra_len a) style jc cc closed clockwise paths segs shapes Drawn Fits NoGrid Es) as [Ed Rg].
      apply (back_edges (ra_out a) (float_clean a) s o delta Back shapes c f x q (near_segs m segs) (IZR D - IZR m)); auto; [eauto|lra|]. apply clear_apart; auto.
    Qed.
    Hypothesis Long : Forall (no_short_sides (ra_in a) style closed) paths.
    (** Around the points of the pieces they wind once, in the direction asked for. *)
    Theorem C53_stroke q p : rplace s o p = rq q -> clear_of D segs q -> Forall (fun path => not_central (ra_in a) style closed path p) paths ->
      on_stroke (ra_in a) style closed paths p -> rcontours_wind (concat out) p = sign_of clockwise.
    Proof.
      intros Pq C Nc On. destruct (stroke_call_wind q p Pq C) as [C2 ->]. replace (area segs q) with true; auto. symmetry.
      apply (C51_stroke (ra_in a) style jc cc closed paths segs (proj1 Wide) Drawn s o Snap Caps Long q p Pq C2 Nc). auto.
    Qed.
    Theorem C53_stroke_round a0 b0 c0 k q p : rplace s o p = rq q -> clear_of D segs q -> Forall (fun path => not_central (ra_in a) style closed path p) paths ->
      st_join RF style = RoundJoin RF a0 -> 0 <= k <= stroke_radius style * cos (3 / 4 * round_angle a0) ->
      (closed = false -> st_start RF style = RoundCap RF b0 /\ st_end RF style = RoundCap RF c0 /\
        k <= stroke_radius style * cos (2 / 3 * round_angle b0) /\ k <= stroke_radius style * cos (2 / 3 * round_angle c0)) ->
      near_paths (ra_in a) closed paths k p -> rcontours_wind (concat out) p = sign_of clockwise.
    Proof.
      intros Pq C Nc Hj Kj Hc Hn. destruct (stroke_call_wind q p Pq C) as [C2 ->].
      rewrite (C51_round (ra_in a) style jc cc closed paths segs (proj1 Wide) Drawn s o Snap Caps Long a0 b0 c0 k q p Pq C2 Nc Hj Kj Hc Hn). reflexivity.
    Qed.
  End Stroke.

  Section Outline.
    Variables (offset inner : R) (join : line_join RF) (clockwise : bool) (filter : rfilter) (path : list rpt) (segs : list (segment cntO)) (out : list (list (list rpt))).
    Notation a := (adapter_of (outline_rect RF offset inner join [path])).
    Notation min_area := (Z.max (ra_sqr a (rf_min_area filter)) 1).
    Hypothesis Area : (int_area a path < -1)%Z.
    Hypothesis Drawn : outline_segments RF (ra_in a) (- offset) (join_normalize RF join) path = Some segs.
    Hypothesis Fits : Forall (fun s => sa (sx s) <> sb (sx s) /\ CrossPoint.bounded (sx s)) segs.
    Hypothesis NoGrid : no_grid solver (length (sort_merge segs)).
    Hypothesis Run : outline_call layout_new query tree_new sort_ends clean adapter_of int_area float_clean (S n) solver dbg offset inner join clockwise filter [path] = ROk out.
    Hypothesis Snap : snaps_near (ra_in a) (join_reach (- offset) join) s o path.
    Hypothesis Back : back_ok (ra_out a) s o delta.
    Hypothesis Clean : rf_clean filter = true -> float_clean_ok (float_clean a) s o eta.
    Hypothesis Dist : enough D m delta eta.
    Lemma outline_call_shapes : exists shapes, outline_custom layout_new query tree_new sort_ends clean (S n) solver dbg RF (ra_in a) (int_area a) offset inner join clockwise min_area [path] = ROk shapes /\
      out = float_shapes (ra_out a) (float_clean a) (rf_clean filter) shapes.
    Proof. unfold outline_call in Run. destruct (outline_custom _ _ _ _ _ _ _ _ _ _ _ _ _ _ _ _ _) as [shapes| |]; try discriminate. cbn [rbind] in Run. injection Run as <-. eauto. Qed.
    Lemma outline_call_drawn shapes : outline_custom layout_new query tree_new sort_ends clean (S n) solver dbg RF (ra_in a) (int_area a) offset inner join clockwise min_area [path] = ROk shapes ->
      edges_at (near_segs m segs) (concat shapes) /\ forall c p, In c (concat shapes) -> In p c -> bounded_pt p.
    Proof.
      intro Es. destruct (single_drawn layout_new Lay query Qry tree_new sort_ends Sort clean Cln Ced n solver dbg RF (ra_in a) (int_area a) offset inner join clockwise min_area path shapes) as [Ed Rg]; auto.
      - intros _ sg Hs. change (n_neg RF offset) with (- offset) in Hs. rewrite Drawn in Hs. injection Hs as <-. auto.
      - split; auto. intros c e q Ic Ie Oq. destruct (Ed c e q Ic Ie Oq) as (sg & Hs & Nr). change (n_neg RF offset) with (- offset) in Hs. rewrite Drawn in Hs. injection Hs as <-. exact Nr.
    Qed.
    (** No edge returned is far from the segments drawn, whatever contours are dropped (without the clean-up). *)
    Theorem C53_outline_edges q x : rplace s o x = rq q -> rf_clean filter = false -> on_edge (concat out) x -> ~ clear_of D segs q.
    Proof.
      intros Pq Fc (c & f & t & Ic & If & T & X) C. destruct outline_call_shapes as (shapes & Es & Eo). rewrite Eo, Fc in Ic. destruct Dist as [_ Dm].
      destruct (outline_call_drawn shapes Es) as [Ed Rg].
      apply (back_edges (ra_out a) (float_clean a) s o delta Back shapes c f x q (near_segs m segs) (IZR D - IZR m)); auto; [eauto|lra|]. apply clear_apart; auto.
    Qed.
    (** every contour found has an edge that was drawn for a side or join, and enough area *)
    Hypothesis All : forall ls g bps, offset_links layout_new query tree_new (S n) solver segs = ROk ls -> graph_new ls (sort_ends ls) = Some g -> offset_pieces g clean clockwise min_area = Some bps ->
      Forall (fun bp => snd bp = true /\ (min_area = 0%Z \/ p_valid (fst bp) = true)) bps.
    Lemma outline_call_wind q p : rplace s o p = rq q -> clear_of D segs q -> clear_of 2 segs q /\ rcontours_wind (concat out) p = if area segs q then sign_of clockwise else 0%Z.
    Proof.
      intros Pq C. destruct outline_call_shapes as (shapes & Es & ->). destruct Dist as [D2 Dm]. destruct Back as (_ & D0 & _).
      assert (Lm : (m <= D)%Z) by (apply le_IZR; lra). destruct (outline_call_drawn shapes Es) as [Ed Rg].
      rewrite (back_wind (ra_out a) (float_clean a) s o delta eta Back (rf_clean filter) shapes p q (near_segs m segs) (IZR D - IZR m)); auto; [|apply clear_apart; auto|lra].
      apply (outline_result layout_new Lay query Qry tree_new sort_ends Sort clean Cln n solver dbg (int_area a) (ra_in a) offset inner join clockwise min_area path segs shapes Area Drawn Fits NoGrid All Es).
      eapply clear_mono; [|exact C]. lia.
    Qed.
    (** [offset] positive: the contour grows.  Negative: it shrinks. *)
    Theorem C53_outline_within q p : rplace s o p = rq q -> clear_of D segs q -> 0 < offset ->
      ~ in_path path p -> ~ along (ra_in a) join (- offset) path p -> rcontours_wind (concat out) p = 0%Z.
    Proof.
      intros Pq C P N1 N2. destruct (outline_call_wind q p Pq C) as [C2 ->]. destruct (area segs q) eqn:A; auto. destruct (C52_grow_only (ra_in a) join offset path segs s o P Drawn Snap q p Pq C2 A); tauto.
    Qed.
    Theorem C53_outline_keeps q p : rplace s o p = rq q -> clear_of D segs q -> offset < 0 ->
      in_path path p -> ~ along (ra_in a) join (- offset) path p -> rcontours_wind (concat out) p = sign_of clockwise.
    Proof.
      intros Pq C P N1 N2. destruct (outline_call_wind q p Pq C) as [C2 ->]. rewrite (C52_shrink_keeps (ra_in a) join (- offset) path segs s o ltac:(lra) Drawn Snap q p); auto.
    Qed.
    Hypothesis Long : long_sides (ra_in a) (- offset) path.
    Theorem C53_outline_inside q p : rplace s o p = rq q -> clear_of D segs q ->
      (0 < offset -> in_path path p -> rcontours_wind (concat out) p = sign_of clockwise) /\
      (offset < 0 -> ~ in_path path p -> rcontours_wind (concat out) p = 0%Z).
    Proof.
      intros Pq C. destruct (outline_call_wind q p Pq C) as [C2 ->]. split; intros P H.
      - rewrite (C52_grow_inside (ra_in a) join offset path segs s o P Drawn Snap Long q p); auto.
      - destruct (area segs q) eqn:A; auto. destruct H. apply (C52_shrink_inside (ra_in a) join (- offset) path segs s o ltac:(lra) Drawn Snap Long q p); auto.
    Qed.
    Hypothesis Simple : simple_path path.
    Hypothesis Gentle : gentle_bends (ra_in a) (- offset) path.
    Theorem C53_outline q p : offset <> 0 -> rplace s o p = rq q -> clear_of D segs q -> off_center (ra_in a) (- offset) path p ->
      along (ra_in a) join (- offset) path p -> rcontours_wind (concat out) p = if Rltb 0 offset then sign_of clockwise else 0%Z.
    Proof.
      intros Nz Pq C Oc Al. destruct (outline_call_wind q p Pq C) as [C2 ->]. destruct (Rltb 0 offset) eqn:E.
      - apply Rltb_true in E. replace (area segs q) with true; auto. symmetry. apply (C52_grow (ra_in a) join offset path segs s o E Drawn Snap Long Simple Gentle q p); auto.
      - apply Rltb_false in E. destruct (area segs q) eqn:A; auto. apply (C52_shrink (ra_in a) join (- offset) path segs s o ltac:(lra) Drawn Snap Long Simple (or_introl Gentle) q p) in A; auto. tauto.
    Qed.
  End Outline.

  (** *** Outlines of several contours: outer contours and holes *)
  Section Several.
    Variables (outer inner : R) (join : line_join RF) (clockwise : bool) (filter : rfilter) (paths : list (list rpt)) (out : list (list (list rpt))).
    Notation a := (adapter_of (outline_rect RF outer inner join paths)).
    Notation min_area := (Z.max (ra_sqr a (rf_min_area filter)) 1).
    Notation contours_of := (outline_contours layout_new query tree_new sort_ends clean (S n) solver dbg RF (ra_in a) (int_area a) outer inner (join_normalize RF join) paths).
    Hypothesis Many : (2 <= length paths)%nat.
    (** no segment of length zero, and the list or tree split, for every offset and for the overlay of the offsets *)
    Hypothesis Fits : fit_paths solver RF (ra_in a) (int_area a) outer inner join paths.
    Hypothesis FitsAll : forall contours, contours_of = ROk contours -> fit_contours solver contours.
    Hypothesis Run : outline_call layout_new query tree_new sort_ends clean adapter_of int_area float_clean (S n) solver dbg outer inner join clockwise filter paths = ROk out.
    Hypothesis Back : back_ok (ra_out a) s o delta.
    Hypothesis Clean : rf_clean filter = true -> float_clean_ok (float_clean a) s o eta.
    (** two rounds of splitting, one after the other *)
    Hypothesis Dist : enough D (2 * m) delta eta.
    (** the point is [D] away from all that is drawn *)
    Definition clear_drawn (q : qpt) : Prop := forall path, In path paths ->
      (is_outer RF (int_area a) path = true -> forall segs, outline_segments RF (ra_in a) (- outer) (join_normalize RF join) path = Some segs -> clear_of D segs q) /\
      (is_inner RF (int_area a) path = true -> forall segs, outline_segments RF (ra_in a) inner (join_normalize RF join) (rev path) = Some segs -> clear_of D segs q).
    Lemma several_call_shapes : exists shapes, outline_custom layout_new query tree_new sort_ends clean (S n) solver dbg RF (ra_in a) (int_area a) outer inner join clockwise min_area paths = ROk shapes /\
      out = float_shapes (ra_out a) (float_clean a) (rf_clean filter) shapes.
    Proof. unfold outline_call in Run. destruct (outline_custom _ _ _ _ _ _ _ _ _ _ _ _ _ _ _ _ _) as [shapes| |]; try discriminate. cbn [rbind] in Run. injection Run as <-. eauto. Qed.
    Lemma clear_drawn_apart q : clear_drawn q -> apart (IZR D - IZR (2 * m)) (near_drawn RF (ra_in a) (int_area a) outer inner join (2 * m) paths) q.
    Proof.
      intros C x (path & Ip & [[Io (segs & Hs & Nr)]|[Ii (segs & Hs & Nr)]]) Cl; destruct (C path Ip) as [Co Ci].
      - exact (clear_apart (2 * m) D segs q (Co Io segs Hs) x Nr Cl).
      - exact (clear_apart (2 * m) D segs q (Ci Ii segs Hs) x Nr Cl).
    Qed.
    Theorem C53_several_edges q x : rplace s o x = rq q -> rf_clean filter = false -> on_edge (concat out) x -> ~ clear_drawn q.
    Proof.
      intros Pq Fc (c & f & t & Ic & If & T & X) C. destruct several_call_shapes as (shapes & Es & Eo). rewrite Eo, Fc in Ic. destruct Dist as [_ Dm].
      destruct (several_drawn layout_new Lay query Qry tree_new sort_ends Sort clean Cln Ced n solver dbg RF (ra_in a) (int_area a) outer inner join clockwise min_area paths shapes Many Fits FitsAll Es) as [Ed Rg].
      apply (back_edges (ra_out a) (float_clean a) s o delta Back shapes c f x q _ (IZR D - IZR (2 * m))) with (3 := Ed); auto; [eauto|lra|]. apply clear_drawn_apart; auto.
    Qed.
    (** nothing is dropped: every contour found has an edge that was drawn for a side or join, and those of the result have enough area *)
    Hypothesis All : kept_paths layout_new query tree_new sort_ends clean n solver RF (ra_in a) (int_area a) outer inner join paths.
    Hypothesis AllAll : forall contours, contours_of = ROk contours -> kept_contours layout_new query tree_new sort_ends clean n solver contours clockwise min_area.
    Lemma several_call_wind q p : rplace s o p = rq q -> clear_drawn q -> rcontours_wind (concat out) p = if outline_region RF (ra_in a) (int_area a) outer inner join paths q then sign_of clockwise else 0%Z.
    Proof.
      intros Pq C. destruct several_call_shapes as (shapes & Es & ->). destruct Dist as [_ Dm]. destruct Back as (_ & D0 & _).
      destruct (several_drawn layout_new Lay query Qry tree_new sort_ends Sort clean Cln Ced n solver dbg RF (ra_in a) (int_area a) outer inner join clockwise min_area paths shapes Many Fits FitsAll Es) as [Ed Rg].
      pose proof (clear_drawn_apart q C) as Ap.
      rewrite (back_wind (ra_out a) (float_clean a) s o delta eta Back (rf_clean filter) shapes p q _ (IZR D - IZR (2 * m)) Pq Clean Eta Rg Ed Ap) by lra.
      destruct (C45_several_near layout_new Lay query Qry tree_new sort_ends Sort clean Cln Ced n solver dbg RF (ra_in a) (int_area a) outer inner join clockwise min_area paths shapes Many Fits All) as (_ & _ & H); auto.
      apply H. intro X. apply (Ap q X). split; rewrite Rminus_diag_eq by reflexivity; rewrite Rabs_R0; lra.
    Qed.
    (** Every contour is offset as C52 says, and the results count: where there are more outer contours than holes, the contours returned wind once, elsewhere not at all. *)
    Theorem C53_several (in_outer in_hole : list rpt -> bool) q p : (2 <= D)%Z -> rplace s o p = rq q -> clear_drawn q ->
      (forall path, In path paths -> is_outer RF (int_area a) path = true -> plain_offset (ra_in a) join (- outer) s o path p /\ (in_outer path = true <-> offset_has (ra_in a) join (- outer) path p)) ->
      (forall path, In path paths -> is_inner RF (int_area a) path = true -> plain_offset (ra_in a) join inner s o (rev path) p /\ (in_hole path = true <-> offset_has (ra_in a) join inner (rev path) p)) ->
      rcontours_wind (concat out) p =
        if (Properties13.count (fun path => is_inner RF (int_area a) path && in_hole path) paths <? Properties13.count (fun path => is_outer RF (int_area a) path && in_outer path) paths)%Z then sign_of clockwise else 0%Z.
    Proof.
      intros D2 Pq C Ho Hi. rewrite (several_call_wind q p Pq C). unfold outline_region. change (n_neg RF outer) with (- outer).
      assert (B : forall x y : bool, (x = true <-> y = true) -> x = y) by (intros [] [] [U V]; auto; try (symmetry; auto)).
      rewrite (count_agree (fun path => is_inner RF (int_area a) path && Properties13.covered RF (ra_in a) join inner (rev path) q) (fun path => is_inner RF (int_area a) path && in_hole path) paths),
        (count_agree (fun path => is_outer RF (int_area a) path && Properties13.covered RF (ra_in a) join (- outer) path q) (fun path => is_outer RF (int_area a) path && in_outer path) paths); auto.
      - intros path Ip. destruct (is_outer RF (int_area a) path) eqn:E; auto. cbn [andb]. destruct (Ho path Ip E) as [Pl De]. apply B. rewrite De. apply (covered_has (ra_in a) join (- outer) s o path q p Pl Pq).
        intros segs Hs. eapply clear_mono; [|apply (proj1 (C path Ip) E segs Hs)]. lia.
      - intros path Ip. destruct (is_inner RF (int_area a) path) eqn:E; auto. cbn [andb]. destruct (Hi path Ip E) as [Pl De]. apply B. rewrite De. apply (covered_has (ra_in a) join inner s o (rev path) q p Pl Pq).
        intros segs Hs. eapply clear_mono; [|apply (proj2 (C path Ip) E segs Hs)]. lia.
    Qed.
  End Several.
End WithContracts.

(** ** Examples: an adapter whose way back is a quarter of a unit off *)
Definition near_back (i : pt) : rpt := (IZR (px i) + 1 / 4, IZR (py i) - 1 / 4).
Definition unit_adapter (_ : frect RF) : radapter := RA r_round near_back real_len real_len.
Lemma unit_back : back_ok near_back 1 (0, 0) (1 / 4).
Proof. split; [lra|]. split; [lra|]. intros i _. unfold rplace, near_back, rz, rclose. cbn [fst snd]. rewrite !Rabs_iff. lra. Qed.
Lemma unit_clean : float_clean_ok (fun x => x) 1 (0, 0) 0.
Proof. split; [lra|auto]. Qed.
Definition kept_filter : rfilter := RFl 0 true.
Example C53_stroke_example : exists out,
  stroke_call lay4 qry (fun _ => true) sorted_ends keep unit_adapter (fun _ x => x) 2 (mk_solver StAuto) true (bend_style (Bevel RF) (Butt RF)) 2 1 false false kept_filter [bend] = ROk out /\
  length (concat out) = 1%nat /\ rcontours_wind (concat out) (50, 5) = 1%Z /\ rcontours_wind (concat out) (50, 50) = 0%Z.
Proof.
  assert (E : from_f64 RF (d_mul RF (d_lit RF (1 # 2)) (to_f64 RF (st_width RF (bend_style (Bevel RF) (Butt RF))))) = IZR 10).
  { cbn [RF from_f64 to_f64 d_mul d_lit]. rewrite q_1_2. cbn [bend_style st_width]. lra. }
  assert (R : stroke_custom lay4 qry (fun _ => true) sorted_ends keep 2 (mk_solver StAuto) true RF r_round real_len (bend_style (Bevel RF) (Butt RF)) 2 1 false false [bend] =
    ROk [[[Pt 0 10; Pt 0 (-10); Pt 100 (-10); Pt 110 0; Pt 110 100; Pt 90 100; Pt 90 10]]]).
  { unfold stroke_custom. rewrite bend_drawn. rewrite E. unfold real_len. rewrite int_part_IZR. cbn [Z.abs Z.leb Z.compare of_opt rbind]. vm_compute. reflexivity. }
  set (style := bend_style (Bevel RF) (Butt RF)) in *.
  eexists. match goal with |- ?A = ROk ?o /\ _ => assert (Run : A = ROk o) end.
  { unfold stroke_call. cbn [unit_adapter ra_in ra_len ra_out kept_filter rf_clean]. rewrite R. cbn [rbind]. reflexivity. }
  split; [exact Run|]. split; [reflexivity|].
  destruct (bend_meets (Bevel RF) (Butt RF) I) as (Sn & Pl & Lo & Nc). destruct C51_example as (W1 & W2 & Ft & Ng & _ & _ & _ & On).
  destruct C45_edges_contract as [Ck Ce].
  assert (Eo : enough 3 (moved (precision (mk_solver StAuto)) 1) (1 / 4) 0) by (split; [lia|]; replace (moved (precision (mk_solver StAuto)) 1) with 2%Z by reflexivity; lra).
  split.
  - apply (C53_stroke lay4 lay4_ok qry qry_ok (fun _ => true) sorted_ends sorted_ends_ok keep Ck Ce unit_adapter (fun _ x => x) 1 (mk_solver StAuto) true 1 (0, 0) (1 / 4) 0 3%Z (Rle_refl 0)
      style 2 1 false false kept_filter [bend] bend_segs _ (conj W1 W2) bend_drawn Ft Ng Run Sn Pl unit_back (fun _ => unit_clean) Eo Lo (50, 5)%Q (50, 5)); auto.
    + unfold rplace, rq, Q2R. cbn -[IZR Rinv]. f_equal; lra.
    + clear_away_from.
  - apply (C53_stroke_within lay4 lay4_ok qry qry_ok (fun _ => true) sorted_ends sorted_ends_ok keep Ck Ce unit_adapter (fun _ x => x) 1 (mk_solver StAuto) true 1 (0, 0) (1 / 4) 0 3%Z (Rle_refl 0)
      style 2 1 false false kept_filter [bend] bend_segs _ (conj W1 W2) bend_drawn Ft Ng Run Sn Pl unit_back (fun _ => unit_clean) Eo (50, 50)%Q (50, 50)).
    + unfold rplace, rq, Q2R. cbn -[IZR Rinv]. f_equal; lra.
    + clear_away_from.
    + intros (path & [<-|[]] & f & t & If & T & Di). cbn [unit_adapter ra_in] in If. rewrite bend_sides in If.
      assert (Rc : stroke_reach style = 10). { unfold stroke_reach. subst style. rewrite bend_radius. cbn [bend_style st_join st_start st_end join_reach cap_reach]. rewrite ?(Rabs_pos_eq 10) by lra. unfold Rmax. repeat destruct (Rle_dec _ _); lra. }
      rewrite Rc in Di. destruct (dist_box (50, 50) (between_pts (fst f) (snd f) t)) as [X Y]. rewrite Rabs_iff in X, Y. unfold between_pts in Di, X, Y.
      repeat (destruct If as [<-|If]; [cbn [fst snd] in *; lra|]). destruct If.
Qed.
(** The contour of C52's example, grown by 10. *)
Lemma real_len_0 : real_len 0 = 0%Z. Proof. exact (int_part_IZR 0). Qed.
Example C53_outline_example : exists out,
  outline_call lay4 qry (fun _ => true) sorted_ends keep unit_adapter (fun _ => r_area) (fun _ x => x) 2 (mk_solver StAuto) true 10 0 (Bevel RF) false kept_filter [ell] = ROk out /\
  length (concat out) = 1%nat /\ rcontours_wind (concat out) (205, 50) = 1%Z.
Proof.
  destruct C45_edges_contract as [Ck Ce]. destruct C52_grow_example as (_ & Ft & Ng & _ & _ & Pq & _ & Al & _).
  destruct (ell_meets (- (10)) (Bevel RF) ltac:(lra) ltac:(rewrite Rabs_left; lra)) as (Sn & Lo & Si & Ge & Oc).
  assert (R : outline_custom lay4 qry (fun _ => true) sorted_ends keep 2 (mk_solver StAuto) true RF r_round r_area 10 0 (Bevel RF) false 1 [ell] =
    ROk [[[Pt (-10) 200; Pt (-10) 0; Pt 0 (-10); Pt 200 (-10); Pt 210 0; Pt 210 100; Pt 200 110; Pt 110 110; Pt 110 200; Pt 100 210; Pt 0 210]]]).
  { unfold outline_custom. rewrite ell_area. unfold outline_one. change (n_neg RF 10) with (- (10)). change (-1 <=? -30000)%Z with false. cbv iota. rewrite ell_drawn_grown. cbn [of_opt rbind]. vm_compute. reflexivity. }
  eexists. match goal with |- ?A = ROk ?o /\ _ => assert (Run : A = ROk o) end.
  { unfold outline_call. cbn [unit_adapter ra_in ra_len ra_out ra_sqr kept_filter rf_clean rf_min_area]. rewrite real_len_0. change (Z.max 0 1) with 1%Z. rewrite R. cbn [rbind]. reflexivity. }
  split; [exact Run|]. split; [reflexivity|]. assert (Ea : (r_area ell < -1)%Z) by (rewrite ell_area; lia).
  assert (Eo : enough 3 (moved (precision (mk_solver StAuto)) 1) (1 / 4) 0) by (split; [lia|]; replace (moved (precision (mk_solver StAuto)) 1) with 2%Z by reflexivity; lra).
  rewrite (C53_outline lay4 lay4_ok qry qry_ok (fun _ => true) sorted_ends sorted_ends_ok keep Ck Ce unit_adapter (fun _ => r_area) (fun _ x => x) 1 (mk_solver StAuto) true 1 (0, 0) (1 / 4) 0 3%Z (Rle_refl 0)
      10 0 (Bevel RF) false kept_filter ell ell_grown _ Ea ell_drawn_grown Ft Ng Run Sn unit_back (fun _ => unit_clean) Eo) with (q := (205, 50)%Q); auto.
  - unfold Rltb. destruct (Rlt_dec 0 10); [reflexivity|lra].
  - cbn [unit_adapter ra_sqr kept_filter rf_min_area]. rewrite real_len_0. change (Z.max 0 1) with 1%Z. ell_all.
  - clear_away_from.
  - destruct Oc as (e & f & F1 & F2). exists e, f. auto.
Qed.
(** The same contour and a square hole, both by 10: the hole gets smaller. *)
Definition sq : list rpt := [(80, 20); (80, 80); (20, 80); (20, 20)].
Definition hole : list rpt := [(20, 20); (20, 80); (80, 80); (80, 20)].
Definition sq_sides : list rside := [((20, 20), (80, 20)); ((80, 20), (80, 80)); ((80, 80), (20, 80)); ((20, 80), (20, 20))].
Lemma sq_sides_of : sides_of r_round true sq = sq_sides.
Proof. unfold sides_of, sq, ring_sides. cbn [last path_sides]. rewrite !(round_at 20 20 20 20), !(round_at 80 20 80 20), !(round_at 80 80 80 80), !(round_at 20 80 20 80) by reflexivity. reflexivity. Qed.
Lemma sq_dirs : dir (20, 20) (80, 20) = (1, 0) /\ dir (80, 20) (80, 80) = (0, 1) /\ dir (80, 80) (20, 80) = (-1, 0) /\ dir (20, 80) (20, 20) = (0, -1).
Proof.
  assert (S1 : sqrt ((80 - 20) * (80 - 20) + (20 - 20) * (20 - 20)) = 60) by (apply sqrt_sq; lra). assert (S2 : sqrt ((80 - 80) * (80 - 80) + (80 - 20) * (80 - 20)) = 60) by (apply sqrt_sq; lra).
  assert (S3 : sqrt ((20 - 80) * (20 - 80) + (80 - 80) * (80 - 80)) = 60) by (apply sqrt_sq; lra). assert (S4 : sqrt ((20 - 20) * (20 - 20) + (20 - 80) * (20 - 80)) = 60) by (apply sqrt_sq; lra).
  unfold dir, r_norm. cbn [fst snd]. rewrite ?S1, ?S2, ?S3, ?S4. repeat split; f_equal; lra.
Qed.
Lemma sq_wind x y : poly_wind (x, y) sq = if Rleb 20 x && negb (Rleb 80 x) && Rltb 20 y && negb (Rltb 80 y) then 1%Z else 0%Z.
Proof.
  unfold poly_wind, closed_steps, sq. cbn [last RealCorner.steps]. rewrite !zsum_cons. change (zsum _ []) with 0%Z. unfold rwind, rleft, rheight. cbn [fst snd].
  replace (20 + (20 - 20) / (80 - 20) * (x - 20)) with 20 by field. replace (80 + (80 - 80) / (20 - 80) * (x - 80)) with 80 by field.
  unfold Rleb, Rltb. destruct (Rle_dec 20 x), (Rle_dec 80 x), (Rlt_dec 20 y), (Rlt_dec 80 y); try lra; cbn [bz andb negb]; lia.
Qed.
Lemma sq_next (P : rside -> rside -> Prop) : P ((20, 20), (80, 20)) ((80, 20), (80, 80)) -> P ((80, 20), (80, 80)) ((80, 80), (20, 80)) -> P ((80, 80), (20, 80)) ((20, 80), (20, 20)) -> P ((20, 80), (20, 20)) ((20, 20), (80, 20)) ->
  forall e f, followed_ring sq_sides e f -> P e f.
Proof.
  intros A0 A1 A2 A3 e f [(l & m & E)|(l & E & ->)].
  - unfold sq_sides in E. do 3 (destruct l as [|? l]; [injection E; intros; subst; assumption|]). do 2 (destruct l as [|? l]; [discriminate E|]). discriminate E.
  - unfold sq_sides in E. injection E as <- <-. exact A3.
Qed.
Example sq_meets j x y : (20 <= x <= 60)%R -> 45 <= y <= 55 -> plain_offset r_round j 10 1 (0, 0) sq (x, y).
Proof.
  intros Hx Hy. destruct sq_dirs as (D0 & D1 & D2 & D3). assert (A10 : Rabs 10 = 10) by (apply Rabs_pos_eq; lra).
  assert (Len : forall e, In e sq_sides -> dist (fst e) (snd e) = 60).
  { intros e H. unfold sq_sides in H. repeat (destruct H as [<-|H]; [unfold dist, dist2; cbn [fst snd]; rewrite (sqrt_sq _ 60) by lra; lra|]). destruct H. }
  split; [lra|]. split; [|split; [|split; [|split]]].
  - split; [lra|]. split; [intros a v _ _; apply round_snaps|]. intros a b A B.
    assert (X : forall a, In a sq -> exists m n, a = (IZR m, IZR n)) by (intros z Iz; unfold sq in Iz; repeat (destruct Iz as [<-|Iz]; [eauto|]); destruct Iz).
    destruct (X a A) as (m & n & ->). destruct (X b B) as (m' & n' & ->). rewrite !(round_at _ _ _ _ eq_refl eq_refl). intro E. injection E as -> ->. reflexivity.
  - unfold long_sides. rewrite sq_sides_of. intros e f Ne _. pose proof (followed_ring_in _ _ _ Ne) as [Ie If]. apply Len in Ie, If. rewrite Ie, If, A10.
    assert (Cr : Rabs (cross (dir_of e) (dir_of f)) <= 1).
    { clear Ie If. revert e f Ne. apply (sq_next (fun e f => Rabs (cross (dir_of e) (dir_of f)) <= 1)); unfold dir_of, cross; cbn [fst snd]; rewrite ?D0, ?D1, ?D2, ?D3; cbn [fst snd]; rewrite Rabs_iff; lra. }
    lra.
  - intros [u v]. rewrite sq_wind. destruct (_ && _ && _ && _); lia.
  - unfold gentle_bends. rewrite sq_sides_of. apply (sq_next (fun e f => bends_in 10 (dir_of e) (dir_of f) = true -> 0 <= dot (dir_of e) (dir_of f))); intros _; unfold dir_of, dot; cbn [fst snd]; rewrite ?D0, ?D1, ?D2, ?D3; cbn [fst snd]; lra.
  - exists ((20, 20), (80, 20)), ((80, 20), (80, 80)). rewrite sq_sides_of. split; [left; exists [], [((80, 80), (20, 80)); ((20, 80), (20, 20))]; reflexivity|]. right. rewrite A10.
    destruct (dist_box (x, y) (80, 20)) as [X _]. cbn [fst snd] in *. rewrite Rabs_iff in X. lra.
Qed.
Definition sq_shrunk : list (segment cntO) :=
  [bold_ab (Pt 20 30) (Pt 80 30); weak_ab (Pt 80 30) (Pt 70 20); bold_ab (Pt 70 20) (Pt 70 80); weak_ab (Pt 70 80) (Pt 80 70); bold_ab (Pt 80 70) (Pt 20 70); weak_ab (Pt 20 70) (Pt 30 80); bold_ab (Pt 30 80) (Pt 30 20); weak_ab (Pt 30 20) (Pt 20 30)].
Lemma sq_drawn : outline_segments RF r_round 10 (join_normalize RF (Bevel RF)) sq = Some sq_shrunk.
Proof.
  unfold outline_segments. rewrite outline_ring. change (ring_sides RF r_round sq) with (sides_of r_round true sq). rewrite sq_sides_of. unfold sq_sides. cbn [MeshStrip.ring strip last app join_normalize outline_join].
  rewrite !osection_real. cbn [fst snd]. destruct sq_dirs as (D0 & D1 & D2 & D3). rewrite D0, D1, D2, D3. unfold o_add_section, join_weak. cbn [os_atop os_btop]. unfold off, normal_of. cbn [fst snd].
  rewrite !(round_at _ _ 20 30), !(round_at _ _ 80 30), !(round_at _ _ 70 20), !(round_at _ _ 70 80), !(round_at _ _ 80 70), !(round_at _ _ 20 70), !(round_at _ _ 30 80), !(round_at _ _ 30 20) by lra.
  vm_compute. reflexivity.
Qed.
Lemma hole_area : r_area hole = 3600%Z.
Proof. unfold r_area, closed_steps, hole. cbn [last RealCorner.steps fold_right]. unfold cross. cbn [fst snd]. match goal with |- Int_part ?x = _ => replace x with (IZR 3600) by lra end. apply int_part_IZR. Qed.
Definition frame : list (list rpt) := [ell; hole].
Definition frame_contours : list (list pt) :=
  [[Pt (-10) 200; Pt (-10) 0; Pt 0 (-10); Pt 200 (-10); Pt 210 0; Pt 210 100; Pt 200 110; Pt 110 110; Pt 110 200; Pt 100 210; Pt 0 210]; [Pt 70 70; Pt 70 30; Pt 30 30; Pt 30 70]].
Lemma frame_parts : outline_contours lay4 qry (fun _ => true) sorted_ends keep 2 (mk_solver StAuto) true RF r_round r_area 10 10 (join_normalize RF (Bevel RF)) frame = ROk frame_contours.
Proof.
  unfold frame. cbn [outline_contours]. rewrite ell_area, hole_area. change (Z.abs (-30000) <=? 1)%Z with false. change (-30000 <? 0)%Z with true. change (Z.abs 3600 <=? 1)%Z with false. change (3600 <? 0)%Z with false. cbv iota.
  change (rev hole) with sq. unfold outline_one. change (n_neg RF 10) with (- (10)). rewrite ell_drawn_grown, sq_drawn. cbn [of_opt rbind]. vm_compute. reflexivity.
Qed.
Lemma frame_paths_ok (P Q : list rpt -> Prop) : P ell -> Q sq ->
  Forall (fun path => (is_outer RF r_area path = true -> P path) /\ (is_inner RF r_area path = true -> Q (rev path))) frame.
Proof.
  intros Hp Hq. unfold frame, is_outer, is_inner. constructor; [|constructor; [|constructor]].
  - rewrite ell_area. split; auto; discriminate.
  - rewrite hole_area. split; auto; discriminate.
Qed.
Example C53_several_example : exists out,
  outline_call lay4 qry (fun _ => true) sorted_ends keep unit_adapter (fun _ => r_area) (fun _ x => x) 2 (mk_solver StAuto) true 10 10 (Bevel RF) false kept_filter frame = ROk out /\
  length (concat out) = 2%nat /\ rcontours_wind (concat out) (23, 50) = 1%Z /\ rcontours_wind (concat out) (50, 50) = 0%Z.
Proof.
  destruct C45_edges_contract as [Ck Ce]. destruct C52_grow_example as (_ & Ft & Ng & _).
  destruct (ell_meets (- (10)) (Bevel RF) ltac:(lra) ltac:(rewrite Rabs_left; lra)) as (Sn & Lo & Si & Ge & Oc).
  eexists. match goal with |- ?A = ROk ?o /\ _ => assert (Run : A = ROk o) end.
  { unfold outline_call. cbn [unit_adapter ra_in ra_len ra_out ra_sqr kept_filter rf_clean rf_min_area]. rewrite real_len_0. change (Z.max 0 1) with 1%Z.
    change (outline_custom lay4 qry (fun _ => true) sorted_ends keep 2 (mk_solver StAuto) true RF r_round r_area 10 10 (Bevel RF) false 1 frame) with
      (rbind (outline_contours lay4 qry (fun _ => true) sorted_ends keep 2 (mk_solver StAuto) true RF r_round r_area 10 10 (join_normalize RF (Bevel RF)) frame) (positive_overlay lay4 qry (fun _ => true) sorted_ends keep 2 (mk_solver StAuto) true false 1)).
    rewrite frame_parts. cbn [rbind].
    match goal with |- rbind ?x _ = _ => let y := eval vm_compute in x in replace x with y by (vm_compute; reflexivity) end. cbn [rbind]. reflexivity. }
  split; [exact Run|]. split; [reflexivity|].
  assert (Eo : enough 5 (2 * moved (precision (mk_solver StAuto)) 1) (1 / 4) 0) by (split; [lia|]; replace (2 * moved (precision (mk_solver StAuto)) 1)%Z with 4%Z by reflexivity; lra).
  assert (Fs : fit_paths (mk_solver StAuto) RF r_round r_area 10 10 (Bevel RF) frame).
  { apply (frame_paths_ok (fit_path (mk_solver StAuto) RF r_round (Bevel RF) (n_neg RF 10)) (fit_path (mk_solver StAuto) RF r_round (Bevel RF) 10)).
    - intros sg E. change (n_neg RF 10) with (- (10)) in E. rewrite ell_drawn_grown in E. injection E as <-. auto.
    - intros sg E. rewrite sq_drawn in E. injection E as <-. split; [apply fits_check; vm_compute; reflexivity|vm_compute; auto]. }
  assert (Kp : kept_paths lay4 qry (fun _ => true) sorted_ends keep 1 (mk_solver StAuto) RF r_round r_area 10 10 (Bevel RF) frame).
  { apply (frame_paths_ok (fun path => kept_path lay4 qry (fun _ => true) sorted_ends keep 1 (mk_solver StAuto) RF r_round (Bevel RF) (n_neg RF 10) path false 0)
      (fun path => kept_path lay4 qry (fun _ => true) sorted_ends keep 1 (mk_solver StAuto) RF r_round (Bevel RF) 10 path false 0)).
    - intros sg ls g bps E. change (n_neg RF 10) with (- (10)) in E. rewrite ell_drawn_grown in E. injection E as <-. revert ls g bps. ell_all.
    - intros sg ls g bps E. rewrite sq_drawn in E. injection E as <-. revert ls g bps. ell_all. }
  assert (Fc : forall contours, outline_contours lay4 qry (fun _ => true) sorted_ends keep 2 (mk_solver StAuto) true RF r_round r_area 10 10 (join_normalize RF (Bevel RF)) frame = ROk contours ->
    fit_contours (mk_solver StAuto) contours).
  { intros cs E. rewrite frame_parts in E. injection E as <-. split; [repeat constructor; discriminate|]. left. vm_compute. reflexivity. }
  assert (Kc : forall contours, outline_contours lay4 qry (fun _ => true) sorted_ends keep 2 (mk_solver StAuto) true RF r_round r_area 10 10 (join_normalize RF (Bevel RF)) frame = ROk contours ->
    kept_contours lay4 qry (fun _ => true) sorted_ends keep 1 (mk_solver StAuto) contours false 1).
  { intros cs E. rewrite frame_parts in E. injection E as <-. intros ls g ps Hl Hg Hp. right. vm_compute in Hl. injection Hl as <-. vm_compute in Hg. injection Hg as <-. vm_compute in Hp. injection Hp as <-. repeat constructor. }
  assert (M1 : Z.max (ra_sqr (unit_adapter (outline_rect RF 10 10 (Bevel RF) frame)) (rf_min_area kept_filter)) 1 = 1%Z) by (cbn [unit_adapter ra_sqr kept_filter rf_min_area]; rewrite real_len_0; reflexivity).
  assert (Main : forall (b : bool) q p, rplace 1 (0, 0) p = rq q -> clear_of 5 ell_grown q -> clear_of 5 sq_shrunk q -> in_path ell p -> plain_offset r_round (Bevel RF) 10 1 (0, 0) sq p ->
     (b = true <-> offset_has r_round (Bevel RF) 10 sq p) -> forall out, outline_call lay4 qry (fun _ => true) sorted_ends keep unit_adapter (fun _ => r_area) (fun _ x => x) 2 (mk_solver StAuto) true 10 10 (Bevel RF) false kept_filter frame = ROk out ->
     rcontours_wind (concat out) p = if b then 0%Z else 1%Z).
  { clear Run. intros b q p Pq C1 C2 Ip Po Hb out Run.
    rewrite (C53_several lay4 lay4_ok qry qry_ok (fun _ => true) sorted_ends sorted_ends_ok keep Ck Ce unit_adapter (fun _ => r_area) (fun _ x => x) 1 (mk_solver StAuto) true 1 (0, 0) (1 / 4) 0 5%Z (Rle_refl 0)
      10 10 (Bevel RF) false kept_filter frame out ltac:(simpl; lia) Fs Fc Run unit_back (fun _ => unit_clean) Eo Kp ltac:(rewrite M1; exact Kc) (fun _ => true) (fun _ => b) q p); auto.
    - unfold frame, Properties13.count. cbn [filter]. unfold is_outer, is_inner. rewrite ell_area, hole_area. destruct b; reflexivity.
    - lia.
    - intros path I. split; intros T sg E.
      + destruct I as [<-|[<-|[]]]; [|unfold is_outer in T; rewrite hole_area in T; discriminate]. cbn [unit_adapter ra_in] in E. rewrite ell_drawn_grown in E. injection E as <-. auto.
      + destruct I as [<-|[<-|[]]]; [unfold is_inner in T; rewrite ell_area in T; discriminate|]. cbn [unit_adapter ra_in] in E. change (rev hole) with sq in E. rewrite sq_drawn in E. injection E as <-. auto.
    - intros path [<-|[<-|[]]] T; [|unfold is_outer in T; rewrite hole_area in T; discriminate]. split.
      + split; [lra|]. split; auto. split; auto. split; auto. split; auto. destruct Oc as (e & f & F1 & F2). exists e, f. auto.
      + split; auto. intros _. unfold offset_has, Rltb. destruct (Rlt_dec (- (10)) 0); [auto|lra].
    - intros path [<-|[<-|[]]] T; [unfold is_inner in T; rewrite ell_area in T; discriminate|]. change (rev hole) with sq. split; auto. }
  split.
  - apply (Main false (23, 50)%Q); auto.
    + unfold rplace, rq, Q2R. cbn -[IZR Rinv]. f_equal; lra.
    + clear_away_from.
    + clear_away_from.
    + apply ell_in; lra.
    + apply sq_meets; lra.
    + split; [discriminate|]. intro H. unfold offset_has, Rltb in H. destruct (Rlt_dec 10 0); [lra|]. destruct H as [_ H]. destruct H. left. exists ((20, 80), (20, 20)). rewrite sq_sides_of. split; [unfold sq_sides; simpl; tauto|].
      destruct sq_dirs as (D0 & D1 & D2 & D3). unfold beside, dir_of, dot, cross, vec, dist, dist2. cbn [fst snd]. rewrite D3. cbn [fst snd]. rewrite (sqrt_sq _ 60) by lra. lra.
  - apply (Main true (50, 50)%Q); auto.
    + unfold rplace, rq, Q2R. cbn -[IZR Rinv]. f_equal; lra.
    + clear_away_from.
    + clear_away_from.
    + apply ell_in; lra.
    + apply sq_meets; lra.
    + split; [|auto]. intros _. unfold offset_has, Rltb. destruct (Rlt_dec 10 0); [lra|]. split.
      * unfold in_path. rewrite sq_wind. unfold Rleb, Rltb. destruct (Rle_dec 20 50), (Rle_dec 80 50), (Rlt_dec 20 50), (Rlt_dec 80 50); try lra. reflexivity.
      * intro H. apply (along_close r_round (Bevel RF) 10 sq) in H; [|lra|apply (sq_meets (Bevel RF) 50 50); lra]. rewrite sq_sides_of in H. cbn [join_reach] in H.
        destruct H as (e & t & I & T & D). rewrite (Rabs_pos_eq 10) in D by lra. destruct (dist_box (50, 50) (between_pts (fst e) (snd e) t)) as [X Y]. rewrite Rabs_iff in X, Y. unfold between_pts in D, X, Y. unfold sq_sides in I.
        repeat (destruct I as [<-|I]; [cbn [fst snd] in *; lra|]). destruct I.
Qed.
Print Assumptions C53_stroke.
Print Assumptions C53_stroke_within.
Print Assumptions C53_outline.
Print Assumptions C53_outline_edges.
Print Assumptions C53_several.
Print Assumptions C53_several_edges.
