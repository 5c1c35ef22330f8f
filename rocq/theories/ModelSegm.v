(** * Model of [segm/*.rs]: winding counts, segments, building from contours, merging. *)
From Verif Require Export Base Spec.
From Coq Require Export NArith.
Open Scope Z_scope.

(** [segm/winding_count.rs:26-36], trait [WindingCount].  [apply] is [add] in place.
    i32 counters are modelled by [Z] (no wrap-around). *)
Class WindingCount (C : Type) := {
  wc_not_empty : C -> bool;
  wc_new : Z -> Z -> C;
  wc_with_shape : ShapeType -> C * C;
  wc_add : C -> C -> C;
  wc_invert : C -> C }.

(** [segm/winding_count.rs:4-8] *)
Record cntB := CB { subj : Z; clip : Z }.

(** [segm/winding_count.rs:38-74] *)
#[export] Instance WC_B : WindingCount cntB := {
  wc_not_empty c := negb (subj c =? 0) || negb (clip c =? 0);
  wc_new s c := CB s c;
  wc_with_shape t := match t with
                     | Subject => (CB 1 0, CB (-1) 0)
                     | Clip => (CB 0 1, CB 0 (-1))
                     end;
  wc_add a b := CB (subj a + subj b) (clip a + clip b);
  wc_invert c := CB (- subj c) (- clip c) }.

(** [segm/winding_count.rs:10-17]; [sclip] is the u8 mask, bit 0 back, bit 1 forward. *)
Record cntS := CS { ssubj : Z; sclip : N }.
Definition STRING_FORWARD_CLIP : N := 2%N.
Definition STRING_BACK_CLIP : N := 1%N.

(** [segm/winding_count.rs:76-118] *)
#[export] Instance WC_S : WindingCount cntS := {
  wc_not_empty c := negb (ssubj c =? 0) || negb (N.eqb (sclip c) 0);
  wc_new s c := CS s (match (c ?= 0)%Z with Gt => STRING_FORWARD_CLIP | Lt => STRING_BACK_CLIP | Eq => 0%N end);
  wc_with_shape t := match t with
                     | Subject => (CS 1 0, CS (-1) 0)
                     | Clip => (CS 0 STRING_FORWARD_CLIP, CS 0 STRING_BACK_CLIP)
                     end;
  wc_add a b := CS (ssubj a + ssubj b) (N.lor (sclip a) (sclip b));
  wc_invert c := CS (- ssubj c)
                    (N.lor (N.shiftl (N.land (sclip c) 1) 1) (N.shiftr (N.land (sclip c) 2) 1)) }.

(** [segm/segment.rs:23-27] *)
Record segment (C : Type) := Seg { sx : xseg; sc : C }.
Arguments Seg {C} _ _.
Arguments sx {C} _.
Arguments sc {C} _.

Section Segm.
  Context {C : Type} {WC : WindingCount C}.

  (** [segm/segment.rs:29-38] [create_and_validate] *)
  Definition create_and_validate (a b : pt) (count : C) : segment C :=
    if pt_ltb a b then Seg (XS a b) count else Seg (XS b a) (wc_invert count).

  (** [segm/build.rs:81-90] [with_ab] *)
  Definition with_ab (p0 p1 : pt) (direct invert : C) : segment C :=
    if pt_ltb p0 p1 then Seg (XS p0 p1) direct else Seg (XS p1 p0) invert.

  (** [segm/build.rs:25-32], first loop: skip points until the first three
      non-collinear ones; returns (p0, p1, rest of the iterator). *)
  Fixpoint append_skip (p0 p1 : pt) (it : list pt) : pt * pt * list pt :=
    match it with
    | [] => (p0, p1, [])
    | p :: rest => if is_not_line_point p0 p1 p then (p1, p, rest) else append_skip p0 p rest
    end.

  (** [segm/build.rs:38-47], second loop: push every non-degenerate corner. *)
  Fixpoint append_loop (p0 p1 : pt) (it : list pt) (direct invert : C) : list (segment C) * pt * pt :=
    match it with
    | [] => ([], p0, p1)
    | p :: rest =>
        if is_line_point p0 p1 p then append_loop p0 p rest direct invert
        else let '(out, e0, e1) := append_loop p1 p rest direct invert in
             (with_ab p0 p1 direct invert :: out, e0, e1)
    end.

  (** [segm/build.rs:49-78], closing the contour. *)
  Definition append_close (p0 p1 q0 q1 : pt) (direct invert : C) : list (segment C) :=
    match is_line_point p0 p1 q0, is_line_point q0 q1 p1 with
    | false, false => [with_ab p0 p1 direct invert; with_ab p1 q0 direct invert; with_ab q0 q1 direct invert]
    | true, true => if pt_eqb p0 q1 then [] else [with_ab p0 q1 direct invert]
    | true, false => (if pt_eqb p0 q0 then [] else [with_ab p0 q0 direct invert])
                     ++ [with_ab q0 q1 direct invert]
    | false, true => with_ab p0 p1 direct invert
                     :: (if pt_eqb p1 q1 then [] else [with_ab p1 q1 direct invert])
    end.

  (** [segm/build.rs:19-79] [private_append_iter]: the segments pushed for a contour. *)
  Definition append_path (path : list pt) (t : ShapeType) : list (segment C) :=
    match path with
    | p0 :: p1 :: it =>
        let '(e0, e1, rest) := append_skip p0 p1 it in
        let '(direct, invert) := wc_with_shape t in
        let '(out, f0, f1) := append_loop e0 e1 rest direct invert in
        out ++ append_close f0 f1 p0 e0 direct invert
    | _ => []
    end.

  (** [segm/merge.rs:26-50] [merge] from a given element on: [prev] is the current
      accumulated segment, the rest is scanned; the written prefix is returned. *)
  Fixpoint merge_from (prev : segment C) (rest : list (segment C)) : list (segment C) :=
    match rest with
    | [] => if wc_not_empty (sc prev) then [prev] else []
    | s :: r =>
        if xseg_eqb (sx prev) (sx s)
        then merge_from (Seg (sx prev) (wc_add (sc prev) (sc s))) r
        else if wc_not_empty (sc prev) then prev :: merge_from s r else merge_from s r
    end.

  (** [segm/merge.rs:8-24] [merge_if_needed]: look for the first pair of equal
      neighbours; only from there on merging (and dropping of empty segments) happens. *)
  Fixpoint merge_scan (prev : segment C) (rest : list (segment C)) : list (segment C) :=
    match rest with
    | [] => [prev]
    | s :: r => if xseg_eqb (sx prev) (sx s) then merge_from prev (s :: r)
                else prev :: merge_scan s r
    end.

  Definition merge_if_needed (l : list (segment C)) : list (segment C) :=
    match l with
    | [] => []
    | s :: r => merge_scan s r
    end.

  (** Sorting of segments by [x_segment] ([split/solver.rs:22], [:187], [:273]). *)
  Definition seg_leb (s t : segment C) : bool := xseg_leb (sx s) (sx t).
  Definition sort_segments : list (segment C) -> list (segment C) := isort seg_leb.

  (** [split/solver.rs:21-23]: sort and merge before splitting. *)
  Definition sort_merge (l : list (segment C)) : list (segment C) := merge_if_needed (sort_segments l).
End Segm.

(** The chains carried by a list of segments. *)
Definition chain_of {C} (f : C -> Z) (l : list (segment C)) : chain :=
  map (fun s => (sx s, f (sc s))) l.

Definition subj_chain (l : list (segment cntB)) : chain := chain_of subj l.
Definition clip_chain (l : list (segment cntB)) : chain := chain_of clip l.

(** [core/overlay.rs:97-135]: contours are appended one after the other. *)
Definition add_contours {C} {WC : WindingCount C} (paths : list (list pt)) (t : ShapeType) : list (segment C) :=
  flat_map (fun p => append_path p t) paths.
