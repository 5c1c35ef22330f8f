(** * Model of [vector/edge.rs] and [vector/extract_vectors.rs]: edges and shapes as vectors. *)
From Verif Require Import ModelFill.
From Verif Require Export ModelBind.
Open Scope Z_scope.

(** [vector/edge.rs:17-27] [Reverse for SideFill] ([u8], the shifts lose nothing) *)
Definition side_reverse (f : fill_t) : fill_t :=
  N.lor (N.lor (N.lor (N.shiftl (N.land f 1) 1) (N.shiftr (N.land f 2) 1)) (N.shiftl (N.land f 4) 1)) (N.shiftr (N.land f 8) 1).
(** [vector/edge.rs:29-34] [VectorEdge] *)
Record vedge := VE { ve_a : pt; ve_b : pt; ve_fill : fill_t }.
(** [vector/edge.rs:36-46] *)
Definition vedge_new (f : fill_t) (a b : pt) : vedge := VE a b (if pt_ltb a b then f else side_reverse f).
(** [vector/edge.rs:48-54] [to_path] *)
Definition to_path (p : list vedge) : list pt := map ve_a p.

(** [vector/extract_vectors.rs:16-25] [extract_separate_vectors] *)
Definition separate_vectors (g : graph) : list vedge := map (fun l => VE (l_a l) (l_b l) (l_fill l)) (g_links g).

Section Vector.
  Variable g : graph.

  (** [vector/extract_vectors.rs:94-118], the loop of [get_vector_path]; as [walk] in [ModelExtract] *)
  Fixpoint vwalk (fuel : nat) (clockwise : bool) (link_id node_id last_node_id : nat) (vis : list bool)
    : option (list vedge * list nat * list bool) :=
    if (node_id =? last_node_id)%nat then Some ([], [], vis)
    else match fuel with
         | O => None
         | S fuel' =>
             match nth_error (g_nodes g) node_id with
             | None => None
             | Some n =>
                 match next_link g link_id node_id clockwise n vis with
                 | None => None
                 | Some i =>
                     match nth_error (g_links g) i with
                     | None => None
                     | Some l =>
                         let '(e, nx) := if (l_aid l =? node_id)%nat then (vedge_new (l_fill l) (l_a l) (l_b l), l_bid l)
                                         else (vedge_new (l_fill l) (l_b l) (l_a l), l_aid l) in
                         match vwalk fuel' clockwise i nx last_node_id (visit i vis) with
                         | None => None
                         | Some (c, u, v) => Some (e :: c, i :: u, v)
                         end
                     end
                 end
             end
         end.
  (** [vector/extract_vectors.rs:124-131] [StartVectorPathData] and [:45-65], where it is filled *)
  Record vstart := VS { vs_a : pt; vs_b : pt; vs_node : nat; vs_link : nat; vs_last : nat; vs_fill : fill_t }.
  Definition vstart_of (is_hole : bool) (l : link) (id : nat) : vstart :=
    if is_hole then VS (l_b l) (l_a l) (l_aid l) id (l_bid l) (l_fill l) else VS (l_a l) (l_b l) (l_bid l) id (l_aid l) (l_fill l).
  (** [vector/extract_vectors.rs:76-121] [get_vector_path]: path, links used, flags *)
  Definition get_vector_path (fuel : nat) (s : vstart) (clockwise : bool) (vis : list bool) : option (list vedge * list nat * list bool) :=
    match vwalk fuel clockwise (vs_link s) (vs_node s) (vs_last s) (visit (vs_link s) vis) with
    | None => None
    | Some (c, u, v) => Some (vedge_new (vs_fill s) (vs_a s) (vs_b s) :: c, vs_link s :: u, v)
    end.

  (** one extracted path: hole flag, path, links used *)
  Record vpiece := VP { vp_hole : bool; vp_path : list vedge; vp_used : list nat }.

  (** [vector/extract_vectors.rs:33-70], the loop of [extract_shape_vectors].  The index moves on
      after every path, whether or not the link it points at was used. *)
  Fixpoint vector_loop (fuel : nat) (r : OverlayRule) (link_index : nat) (vis : list bool) : option (list vpiece) :=
    if (length vis <=? link_index)%nat then Some []
    else match fuel with
    | O => None
    | S fuel' =>
        if is_visited vis link_index then vector_loop fuel' r (S link_index) vis
        else
          match find_left_top_link g link_index vis with
          | None => None
          | Some lt =>
              match nth_error (g_links g) lt with
              | None => None
              | Some link =>
                  let is_hole := is_fill_top r (l_fill link) in
                  match get_vector_path (length vis) (vstart_of is_hole link lt) is_hole vis with
                  | None => None
                  | Some (path, used, vis') =>
                      match vector_loop fuel' r (S link_index) vis' with
                      | None => None
                      | Some ps => Some (VP is_hole path used :: ps)
                      end
                  end
              end
          end
    end.
  Definition vector_pieces (r : OverlayRule) (vis : list bool) : option (list vpiece) := vector_loop (length vis) r 0 vis.
End Vector.

Definition vouters (ps : list vpiece) : list (list vedge) := map vp_path (filter (fun p => negb (vp_hole p)) ps).
Definition vholes (ps : list vpiece) : list (list vedge) := map vp_path (filter vp_hole ps).

(** [vector/extract_vectors.rs:157-163]: the anchor of a hole; [path[1]] panics on a short path *)
Definition vanchor (path : list vedge) : option xseg :=
  match nth_error path 1 with
  | None => None
  | Some v => Some (if pt_ltb (ve_a v) (ve_b v) then XS (ve_a v) (ve_b v) else XS (ve_b v) (ve_a v))
  end.
(** [vector/extract_vectors.rs:197-217] [most_left_bottom], only used in a [debug_assert_eq!] *)
Definition most_left_bottom (path : list vedge) : option xseg :=
  match path with
  | [] => None
  | e :: r =>
      let '(ix, a) := min_point 1 (map ve_a r) 0 (ve_a e) in
      let n := length path in
      match nth_error path ix, nth_error path ((ix + n - 1) mod n) with
      | Some e0, Some e1 => Some (if is_under_segment (XS a (ve_b e0)) (XS a (ve_a e1)) then XS a (ve_b e0) else XS a (ve_a e1))
      | _, _ => None
      end
  end.
Definition vanchor_checked (dbg : bool) (path : list vedge) : option xseg :=
  match vanchor path, most_left_bottom path with
  | Some v, Some m => if dbg && negb (xseg_eqb v m) then None else Some v
  | _, _ => None
  end.
(** [bind/segment.rs:111-142] [append_id_segments] of a [VectorPath]; only called with [clockwise = true] *)
Definition vector_id_segments (path : list vedge) (hole : bool) (ix : nat) (x_min x_max : Z) (clockwise : bool) : list idseg :=
  map (fun e => IdS hole ix (XS (ve_a e) (ve_b e)))
    (filter (fun e => (px (ve_a e) <? px (ve_b e)) && (x_min <? px (ve_b e)) && (px (ve_a e) <=? x_max)) (if clockwise then path else rev path)).

(** [vector/extract_vectors.rs:151-194] [scan_join].  [srt]: [smart_bin_sort_by] with a comparison of
    the [x] of the starts only, so the order among equal [x] is not specified.  The edges of the
    holes are not put into the sweep, and the anchors are not sorted by angle. *)
Definition vscan_join (srt : list idseg -> list idseg) (dbg : bool) (shapes : list (list (list vedge))) (holes : list (list vedge)) (clockwise : bool)
    : option (list (list (list vedge))) :=
  match all_some (map (fun ih => option_map (IdS true (fst ih)) (vanchor_checked dbg (snd ih))) (enum holes)), all_some (map (@hd_error (list vedge)) shapes) with
  | Some ((first :: _) as anchors), Some outers =>
      if dbg && negb (is_sorted_a anchors) then None
      else
        let x_min := px (sa (id_seg first)) in
        let x_max := px (sa (id_seg (last anchors first))) in
        let segments := concat (map (fun io => vector_id_segments (snd io) false (fst io) x_min x_max clockwise) (enum outers)) in
        match bind dbg (length shapes) anchors (srt segments) with
        | None => None
        | Some parents => push_holes parents holes shapes
        end
  | _, _ => None
  end.
(** [vector/extract_vectors.rs:137-149] [join] *)
Definition vjoin (srt : list idseg -> list idseg) (dbg : bool) (shapes : list (list (list vedge))) (holes : list (list vedge)) (clockwise : bool)
    : option (list (list (list vedge))) :=
  match shapes, holes with
  | [], _ | _, [] => Some shapes
  | [s], _ => Some [s ++ holes]
  | _, _ => vscan_join srt dbg shapes holes clockwise
  end.
(** [vector/extract_vectors.rs:27-74] [extract_shape_vectors] *)
Definition extract_shape_vectors (srt : list idseg -> list idseg) (dbg : bool) (g : graph) (r : OverlayRule) : option (list (list (list vedge))) :=
  match vector_pieces g r (filter_by_rule r (g_links g)) with
  | None => None
  | Some ps => vjoin srt dbg (map (fun c => [c]) (vouters ps)) (vholes ps) true
  end.
