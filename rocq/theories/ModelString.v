(** * Model of [string/overlay.rs], [string/graph.rs], [string/clip.rs] and of the string part
    of [core/link.rs]: clipping lines by shapes. *)
From Verif Require Export ModelOverlay ModelGraph.
Open Scope Z_scope.

(** ** [string/overlay.rs]: what was added to a [StringOverlay], in order. *)
Inductive item :=
| SContour (path : list pt)   (* add_shape_contour *)
| SLine (a b : pt)            (* add_string_line *)
| SPath (path : list pt)      (* add_string_path *)
| SClosed (path : list pt).   (* add_string_contour *)

(** [string/overlay.rs:105-116] [add_string_line] *)
Definition line_segment (a b : pt) : list (segment cntS) :=
  match pt_cmp a b with
  | Lt => [Seg (XS a b) (CS 0 STRING_BACK_CLIP)]
  | Gt => [Seg (XS b a) (CS 0 STRING_FORWARD_CLIP)]
  | Eq => []
  end.
(** the loops of [string/overlay.rs:134-137] and [:148-151] *)
Fixpoint line_loop (a : pt) (it : list pt) : list (segment cntS) :=
  match it with
  | [] => []
  | b :: r => line_segment a b ++ line_loop b r
  end.
(** [string/overlay.rs:129-138] [add_string_path] *)
Definition string_path (path : list pt) : list (segment cntS) :=
  if (length path <? 2)%nat then [] else match path with [] => [] | a :: r => line_loop a r end.
(** [string/overlay.rs:143-152] [add_string_contour] *)
Definition string_contour (path : list pt) : list (segment cntS) :=
  if (length path <? 2)%nat then [] else match path with [] => [] | _ => line_loop (last path (Pt 0 0)) path end.
(** the segments of a [StringOverlay]; [string/overlay.rs:74-76], [:81-83] for contours *)
Definition item_segments (i : item) : list (segment cntS) :=
  match i with
  | SContour p => append_path p Subject
  | SLine a b => line_segment a b
  | SPath p => string_path p
  | SClosed p => string_contour p
  end.
Definition string_segments (items : list item) : list (segment cntS) := flat_map item_segments items.

(** ** [string/graph.rs:13-23] [StringGraph::new] *)
Record sgraph := SG { sg_nodes : list (list nat); sg_links : list link }.
Definition string_graph (links : list link) (ends : list (nat * pt)) : option sgraph :=
  option_map (fun g => SG (map node_links (g_nodes g)) (g_links g)) (graph_new links ends).

(** ** [string/clip.rs:76-78] *)
Definition CLIP_BACK : fill_t := N.shiftl STRING_BACK_CLIP 2.
Definition CLIP_FORWARD : fill_t := N.shiftl STRING_FORWARD_CLIP 2.
Definition CLIP_ALL : fill_t := N.lor CLIP_BACK CLIP_FORWARD.

Definition set_fill (f : fill_t) (l : link) : link := Lk (l_aid l) (l_a l) (l_bid l) (l_b l) f.
(** [string/clip.rs:82-96] [visit_if_possible]: the changed link, if the move is possible *)
Definition visit_if_possible (is_forward : bool) (l : link) : option link :=
  if is_forward then
    if (N.land (l_fill l) CLIP_FORWARD =? CLIP_FORWARD)%N then Some (set_fill (N.ldiff (l_fill l) CLIP_FORWARD) l) else None
  else
    if (N.land (l_fill l) CLIP_BACK =? CLIP_BACK)%N then Some (set_fill (N.ldiff (l_fill l) CLIP_BACK) l) else None.
(** [string/clip.rs:99-107] [visit] *)
Definition visit_start (l : link) : bool * link :=
  let is_back := (N.land (l_fill l) CLIP_BACK =? CLIP_BACK)%N in
  (is_back, if is_back then set_fill (N.ldiff (l_fill l) CLIP_BACK) l else set_fill 0%N l).

(** [core/link.rs:27-29] [other], with the id *)
Definition other_end (l : link) (node_id : nat) : nat * pt :=
  if (l_aid l =? node_id)%nat then (l_bid l, l_b l) else (l_aid l, l_a l).

(** [string/clip.rs:61-74] [find_next_point]: the loop over the links of a node.
    Outer [None]: a link index is out of bounds. *)
Fixpoint next_point (ids : list nat) (links : list link) (a : nat * pt) (is_out : bool)
  : option (option (nat * pt) * list link) :=
  match ids with
  | [] => Some (None, links)
  | i :: r =>
      match nth_error links i with
      | None => None
      | Some l =>
          let b := other_end l (fst a) in
          let is_forward := Bool.eqb is_out (pt_ltb (snd b) (snd a)) in
          match visit_if_possible is_forward l with
          | Some l' => Some (Some b, upd i (fun _ => l') links)
          | None => next_point r links a is_out
          end
      end
  end.

Section Clip.
  Variable nodes : list (list nat).

  (** [string/clip.rs:44-48], the inner loop: the points pushed and the links after it.
      [None]: an index is out of bounds or more than [fuel] moves are needed. *)
  Fixpoint follow (fuel : nat) (links : list link) (a : nat * pt) (is_out : bool) : option (list pt * list link) :=
    match fuel with
    | O => None
    | S fuel' =>
        match nth_error nodes (fst a) with
        | None => None
        | Some ids =>
            match next_point ids links a is_out with
            | None => None
            | Some (None, links') => Some ([], links')
            | Some (Some b, links') =>
                match follow fuel' links' b is_out with
                | None => None
                | Some (ps, links'') => Some (snd b :: ps, links'')
                end
            end
        end
    end.

  (** [string/clip.rs:32-57], the outer loop from [link_index] on; a link is looked at again
      after a path was started with it *)
  Fixpoint clip_loop (fuel : nat) (link_index : nat) (links : list link) : option (list (list pt)) :=
    match fuel with
    | O => None
    | S fuel' =>
        match nth_error links link_index with
        | None => Some []
        | Some l =>
            if (N.land (l_fill l) CLIP_ALL =? 0)%N then clip_loop fuel' (S link_index) links
            else
              let '(is_out, l') := visit_start l in
              match follow (S (2 * length links)) (upd link_index (fun _ => l') links) (l_bid l, l_b l) is_out with
              | None => None
              | Some (ps, links') =>
                  let sub_path := l_a l :: l_b l :: ps in
                  match clip_loop fuel' link_index links' with
                  | None => None
                  | Some paths => Some ((if is_out then sub_path else rev sub_path) :: paths)
                  end
              end
        end
    end.
End Clip.
(** [string/clip.rs:24-59] [into_clip_string_lines]; every round either moves on to the next
    link or uses a direction of a link *)
Definition into_clip_string_lines (g : sgraph) : option (list (list pt)) :=
  clip_loop (sg_nodes g) (S (3 * length (sg_links g))) 0 (sg_links g).

(** ** [core/link.rs:63-84] and [string/overlay.rs:190-193], [:208-211] *)
Section StringOverlay.
  Variable layout_new : Z -> Z -> nat -> option (Z -> nat).
  Variable query : list (nat * xseg) -> Z * Z -> Z -> list (nat * xseg).
  Variable tree_new : Z * Z -> bool.

  (** [core/link.rs:72-84] [build_string_with_clip_rule] for the filter [inc]; [:63-70]
      [build_string_all] is the filter that accepts everything *)
  Definition build_string (inc : fill_t -> bool) (fuel : nat) (segs : list (segment cntS)) (fr : FillRule) (solver : Solver)
    : run (list link) :=
    match segs with
    | [] => ROk []
    | _ =>
        match split_segments layout_new query tree_new fuel solver segs with
        | Panic => RPanic
        | Fuel => RFuel
        | Done [] => ROk []
        | Done l => ROk (build_links inc l (fill_string fr l))
        end
    end.

  (** the sort of the link ends in [core/graph.rs] is unstable: any sorted order *)
  Variable end_order : list link -> list (nat * pt).

  (** [string/overlay.rs:190-193] [clip_string_lines_with_solver] *)
  Definition clip_string_lines (fuel : nat) (solver : Solver) (fr : FillRule) (cr : ClipRule) (items : list item)
    : run (list (list pt)) :=
    match build_string (clip_included cr) fuel (string_segments items) fr solver with
    | RPanic => RPanic
    | RFuel => RFuel
    | ROk links =>
        match string_graph links (end_order links) with
        | None => RPanic
        | Some g => match into_clip_string_lines g with None => RPanic | Some out => ROk out end
        end
    end.

  (** [string/overlay.rs:208-211] [into_graph_with_solver], links of the string graph *)
  Definition string_links (fuel : nat) (solver : Solver) (fr : FillRule) (items : list item) : run (list link) :=
    build_string (fun _ => true) fuel (string_segments items) fr solver.
End StringOverlay.
