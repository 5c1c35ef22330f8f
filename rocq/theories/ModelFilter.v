(** * Model of [core/filter.rs], [core/overlay_rule.rs], link building of [core/link.rs]. *)
From Verif Require Export ModelFill.
Open Scope N_scope.

(** [core/filter.rs:186-206] .. [286-306], [FillFilter for SegmentFill]. *)
Definition is_subject (fill : fill_t) : bool :=
  let s := N.land fill SUBJ_BOTH in (s =? SUBJ_TOP) || (s =? SUBJ_BOTTOM).
Definition is_clip (fill : fill_t) : bool :=
  let s := N.land fill CLIP_BOTH in (s =? CLIP_TOP) || (s =? CLIP_BOTTOM).
Definition is_intersect (fill : fill_t) : bool :=
  let top := N.land fill BOTH_TOP in
  let bottom := N.land fill BOTH_BOTTOM in
  ((top =? BOTH_TOP) || (bottom =? BOTH_BOTTOM)) && negb (fill =? ALL).
Definition is_union (fill : fill_t) : bool :=
  let top := N.land fill BOTH_TOP in
  let bottom := N.land fill BOTH_BOTTOM in
  ((top =? 0) || (bottom =? 0)) && negb (fill =? 0).
Definition is_difference (fill : fill_t) : bool :=
  let top := N.land fill BOTH_TOP in
  let bottom := N.land fill BOTH_BOTTOM in
  ((top =? SUBJ_TOP) || (bottom =? SUBJ_BOTTOM)) && negb (fill =? SUBJ_BOTH).
Definition is_inverse_difference (fill : fill_t) : bool :=
  let top := N.land fill BOTH_TOP in
  let bottom := N.land fill BOTH_BOTTOM in
  ((top =? CLIP_TOP) || (bottom =? CLIP_BOTTOM)) && negb (fill =? CLIP_BOTH).
Definition is_xor (fill : fill_t) : bool :=
  let top := N.land fill BOTH_TOP in
  let bottom := N.land fill BOTH_BOTTOM in
  let any_top := (top =? SUBJ_TOP) || (top =? CLIP_TOP) in
  let any_bottom := (bottom =? SUBJ_BOTTOM) || (bottom =? CLIP_BOTTOM) in
  negb (Bool.eqb any_top any_bottom).
Definition is_filler (fill : fill_t) : bool :=
  (fill =? NONE) || (fill =? SUBJ_BOTH) || (fill =? CLIP_BOTH) || (fill =? ALL).

(** [u8::count_ones] of a two-bit value *)
Definition count_ones2 (n : N) : N := N.land n 1 + N.land (N.shiftr n 1) 1.

Definition is_string_clip_outside_boundary_excluded (fill : fill_t) : bool :=
  if negb (N.land fill CLIP_BOTH =? 0) then count_ones2 (N.land fill SUBJ_BOTH) <? 2 else false.
Definition is_string_clip_outside_boundary_included (fill : fill_t) : bool :=
  if negb (N.land fill CLIP_BOTH =? 0) then count_ones2 (N.land fill SUBJ_BOTH) =? 0 else false.
Definition is_string_clip_inside_boundary_included (fill : fill_t) : bool :=
  if negb (N.land fill CLIP_BOTH =? 0) then 1 <=? count_ones2 (N.land fill SUBJ_BOTH) else false.
Definition is_string_clip_inside_boundary_excluded (fill : fill_t) : bool :=
  if negb (N.land fill CLIP_BOTH =? 0) then count_ones2 (N.land fill SUBJ_BOTH) =? 2 else false.

(** [core/link.rs:48-59]: the filter chosen for an overlay rule;
    [core/filter.rs:9-22] [filter_by_rule] dispatches to the same predicates. *)
Definition is_included (r : OverlayRule) (fill : fill_t) : bool :=
  match r with
  | RSubject => is_subject fill
  | RClip => is_clip fill
  | RIntersect => is_intersect fill
  | RUnion => is_union fill
  | RDifference => is_difference fill
  | RInverseDifference => is_inverse_difference fill
  | RXor => is_xor fill
  end.

(** [core/filter.rs:118-121] FillerFilter *)
Definition is_included_filler (fill : fill_t) : bool := negb (is_filler fill).

(** [string/clip.rs] ClipRule and the dispatch of [core/link.rs:77-82]. *)
Record ClipRule := CR { cr_invert : bool; cr_boundary : bool }.
Definition clip_included (r : ClipRule) (fill : fill_t) : bool :=
  match cr_invert r, cr_boundary r with
  | true, true => is_string_clip_outside_boundary_included fill
  | true, false => is_string_clip_outside_boundary_excluded fill
  | false, true => is_string_clip_inside_boundary_included fill
  | false, false => is_string_clip_inside_boundary_excluded fill
  end.

(** [core/overlay_rule.rs:26-43] *)
Definition is_fill_top (r : OverlayRule) (fill : fill_t) : bool :=
  match r with
  | RSubject => N.land fill SUBJ_TOP =? SUBJ_TOP
  | RClip => N.land fill CLIP_TOP =? CLIP_TOP
  | RIntersect => N.land fill BOTH_TOP =? BOTH_TOP
  | RUnion => N.land fill BOTH_BOTTOM =? NONE
  | RDifference => N.land fill BOTH_TOP =? SUBJ_TOP
  | RInverseDifference => N.land fill BOTH_TOP =? CLIP_TOP
  | RXor => (N.land fill BOTH_TOP =? SUBJ_TOP) || (N.land fill BOTH_TOP =? CLIP_TOP)
  end.

(** [core/link.rs:14-19] with [geom/id_point.rs]: node ids are filled in by the graph. *)
Record link := Lk { l_aid : nat; l_a : pt; l_bid : nat; l_b : pt; l_fill : fill_t }.

(** [core/link.rs:122-141] [build_links]; [core/link.rs:143-154] [build_all_links] *)
Definition mk_link {C} (sf : segment C * fill_t) : link :=
  Lk 0 (sa (sx (fst sf))) 0 (sb (sx (fst sf))) (snd sf).
Definition build_links {C} (inc : fill_t -> bool) (segs : list (segment C)) (fills : list fill_t) : list link :=
  map mk_link (filter (fun sf => inc (snd sf)) (combine segs fills)).
Definition build_all_links {C} (segs : list (segment C)) (fills : list fill_t) : list link :=
  map mk_link (combine segs fills).

Definition l_seg (l : link) : xseg := XS (l_a l) (l_b l).
