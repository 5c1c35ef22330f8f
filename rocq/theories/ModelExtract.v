(** * Model of [core/extract.rs] and [core/nearest_vector.rs]: walking the graph. *)
From Verif Require Export ModelGraph.
Open Scope Z_scope.

(** ** [core/nearest_vector.rs] *)
(** [FixVec::cross_product] of [p - c] and [q - c] *)
Definition vcross (c p q : pt) : Z := (px p - px c) * (py q - py c) - (py p - py c) * (px q - px c).
(** [core/nearest_vector.rs:4-11]; the vectors are kept as their end points *)
Record nearest := NV { nv_c : pt; nv_a : pt; nv_b : pt; nv_more : bool; nv_best : nat; nv_cw : bool }.
(** rotation_factor *)
Definition rf (cw : bool) : Z := if cw then 1 else -1.
(** [core/nearest_vector.rs:15-24]; both branches test [cross * factor >= 0] *)
Definition nv_new (c a b : pt) (best : nat) (cw : bool) : nearest :=
  NV c a b (if cw then 0 <=? vcross c a b else vcross c a b <=? 0) best cw.
(** [core/nearest_vector.rs:27-42] *)
Definition nv_add (v : nearest) (p : pt) (id : nat) : nearest :=
  let ap_more := 0 <=? vcross (nv_c v) (nv_a v) p * rf (nv_cw v) in
  if Bool.eqb (nv_more v) ap_more then
    if vcross (nv_c v) p (nv_b v) * rf (nv_cw v) <? 0
    then NV (nv_c v) (nv_a v) p (nv_more v) id (nv_cw v) else v
  else if nv_more v then NV (nv_c v) (nv_a v) p false id (nv_cw v) else v.

(** ** visited flags, [core/extract.rs:358-379].  Reading out of bounds counts as visited
    (proved not to happen: all indices are in bounds). *)
Definition is_visited (vis : list bool) (i : nat) : bool := nth i vis true.
Definition not_visited (vis : list bool) (i : nat) : bool := negb (is_visited vis i).
Definition visit (i : nat) (vis : list bool) : list bool := upd i (fun _ => true) vis.

(** [core/link.rs:27-29] *)
Definition l_other (l : link) (node_id : nat) : pt := if (l_aid l =? node_id)%nat then l_b l else l_a l.

Section Extract.
  Variable g : graph.

  (** [core/extract.rs:217-225], the remaining candidates in order.  [None]: a link index out of bounds. *)
  Fixpoint nearest_loop (node_id : nat) (ids : list nat) (v : nearest) : option nearest :=
    match ids with
    | [] => Some v
    | i :: r =>
        match nth_error (g_links g) i with
        | None => None
        | Some l => nearest_loop node_id r (nv_add v (l_other l node_id) i)
        end
    end.
  (** [core/extract.rs:175-228] [find_nearest_link_to]: the first two unvisited links are
      looked up first, then the other unvisited ones after them. *)
  Definition find_nearest_link_to (target_index node_id : nat) (clockwise : bool) (indices : list nat) (vis : list bool) : option nat :=
    match filter (not_visited vis) indices with
    | [] => Some O
    | [first] => Some first
    | first :: rest =>
        match nth_error (g_links g) target_index, nth_error (g_links g) first with
        | Some target, Some lf =>
            let '(c, a) := if (l_aid target =? node_id)%nat then (l_a target, l_b target) else (l_b target, l_a target) in
            option_map nv_best (nearest_loop node_id rest (nv_new c a (l_other lf node_id) first clockwise))
        | _, _ => None
        end
    end.

  (** [core/extract.rs:147-159], the choice of the next link *)
  Definition next_link (link_id node_id : nat) (clockwise : bool) (n : node) (vis : list bool) : option nat :=
    match n with
    | Bridge i j => Some (if (i =? link_id)%nat then j else i)
    | Cross l => find_nearest_link_to link_id node_id clockwise l vis
    end.

  (** [core/extract.rs:145-171], the loop of [get_contour]: points pushed, links visited, flags.
      [None]: an index is out of bounds or the walk needs more than [fuel] steps. *)
  Fixpoint walk (fuel : nat) (clockwise : bool) (link_id node_id last_node_id : nat) (vis : list bool)
    : option (list pt * list nat * list bool) :=
    if (node_id =? last_node_id)%nat then Some ([], [], vis)
    else match fuel with
         | O => None
         | S fuel' =>
             match nth_error (g_nodes g) node_id with
             | None => None
             | Some n =>
                 match next_link link_id node_id clockwise n vis with
                 | None => None
                 | Some i =>
                     match nth_error (g_links g) i with
                     | None => None
                     | Some l =>
                         let '(p, nx) := if (l_aid l =? node_id)%nat then (l_a l, l_bid l) else (l_b l, l_aid l) in
                         match walk fuel' clockwise i nx last_node_id (visit i vis) with
                         | None => None
                         | Some (c, u, v) => Some (p :: c, i :: u, v)
                         end
                     end
                 end
             end
         end.

  (** [core/extract.rs:302-328] [StartPathData] *)
  Record start_data := SD { sd_begin : pt; sd_node : nat; sd_link : nat; sd_last : nat }.
  Definition start_path (direction : bool) (l : link) (id : nat) : start_data :=
    if direction then SD (l_b l) (l_aid l) id (l_bid l) else SD (l_a l) (l_bid l) id (l_aid l).

  (** [core/extract.rs:129-173] [get_contour]: contour, links used, flags *)
  Definition get_contour (fuel : nat) (s : start_data) (clockwise : bool) (vis : list bool) : option (list pt * list nat * list bool) :=
    match walk fuel clockwise (sd_link s) (sd_node s) (sd_last s) (visit (sd_link s) vis) with
    | None => None
    | Some (c, u, v) => Some (sd_begin s :: c, sd_link s :: u, v)
    end.

  (** [core/extract.rs:246-278] [find_left_top_link_on_indices] *)
  Fixpoint left_top_loop (link_index : nat) (ids : list nat) (top_index : nat) (top : link) (vis : list bool) : option nat :=
    match ids with
    | [] => Some top_index
    | i :: r =>
        if (i =? link_index)%nat then left_top_loop link_index r top_index top vis
        else match nth_error (g_links g) i with
             | None => None
             | Some l =>
                 if negb (pt_ltb (l_a l) (l_b l)) || is_clockwise (l_a top) (l_b top) (l_b l) then left_top_loop link_index r top_index top vis
                 else if is_visited vis i then left_top_loop link_index r top_index top vis
                 else left_top_loop link_index r i l vis
             end
    end.
  (** [core/extract.rs:281-289] [find_left_top_link_on_bridge] *)
  Definition left_top_bridge (i j : nat) : option nat :=
    match nth_error (g_links g) i, nth_error (g_links g) j with
    | Some l0, Some l1 => Some (if is_clockwise (l_a l0) (l_b l0) (l_b l1) then i else j)
    | _, _ => None
    end.
  (** [core/extract.rs:231-243] [find_left_top_link] *)
  Definition find_left_top_link (link_index : nat) (vis : list bool) : option nat :=
    match nth_error (g_links g) link_index with
    | None => None
    | Some top =>
        match nth_error (g_nodes g) (l_aid top) with
        | None => None
        | Some (Bridge i j) => left_top_bridge i j
        | Some (Cross l) => left_top_loop link_index l link_index top vis
        end
    end.

  (** [i_shape] (not in the repository): [simplify_contour] ([true]) and [dedup_contour]
      ([false]): the new contour and whether it was modified. *)
  Variable clean : bool -> list pt -> list pt * bool.

  (** twice the signed area of a contour, [i_shape] [unsafe_area] *)
  Definition area2 (c : list pt) : Z := zsum (fun e => px (fst e) * py (snd e) - px (snd e) * py (fst e)) (edges c).

  (** [core/extract.rs:334-355] [validate] *)
  Definition is_valid (min_area : Z) (c : list pt) : bool :=
    if (length c <? 3)%nat then false
    else if min_area =? 0 then true
    else min_area <=? Z.shiftr (Z.abs (area2 c)) 1.

  (** One extracted contour: hole flag, whether it passed [validate], the contour before and
      after cleaning, the modification flag, the links used. *)
  Record piece := Pc { p_hole : bool; p_valid : bool; p_raw : list pt; p_contour : list pt; p_mod : bool; p_used : list nat }.

  (** [core/extract.rs:70-117], the loop of [extract], up to the collection of holes and shapes. *)
  Fixpoint extract_loop (fuel : nat) (r : OverlayRule) (clockwise simplify : bool) (min_area : Z)
      (link_index : nat) (vis : list bool) : option (list piece) :=
    if (length vis <=? link_index)%nat then Some []
    else match fuel with
    | O => None
    | S fuel' =>
        if is_visited vis link_index then extract_loop fuel' r clockwise simplify min_area (S link_index) vis
        else
          match find_left_top_link link_index vis with
          | None => None
          | Some lt =>
              match nth_error (g_links g) lt with
              | None => None
              | Some link =>
                  let is_hole := is_fill_top r (l_fill link) in
                  let direction := Bool.eqb is_hole clockwise in
                  match get_contour (length vis) (start_path direction link lt) direction vis with
                  | None => None
                  | Some (raw, used, vis') =>
                      let '(c, m) := clean simplify raw in
                      let ok := is_valid min_area c in
                      match extract_loop fuel' r clockwise simplify min_area (if ok then link_index else S link_index) vis' with
                      | None => None
                      | Some ps => Some (Pc is_hole ok raw c m used :: ps)
                      end
                  end
              end
          end
    end.
  (** [core/extract.rs:52-126] without the joining of holes: everything extracted, in order.
      Enough fuel: every round advances the index or visits a link. *)
  Definition extract_pieces (r : OverlayRule) (clockwise simplify : bool) (min_area : Z) (vis : list bool) : option (list piece) :=
    extract_loop (S (2 * length vis)) r clockwise simplify min_area 0 vis.
End Extract.

(** [core/filter.rs:12-22, 128-161] [filter_by_rule]: the flags with which [extract] starts *)
Definition filter_by_rule (r : OverlayRule) (links : list link) : list bool :=
  map (fun l => negb (is_included r (l_fill l))) links.

(** the valid contours *)
Definition outer_contours (ps : list piece) : list (list pt) := map p_contour (filter (fun p => p_valid p && negb (p_hole p)) ps).
Definition hole_contours (ps : list piece) : list (list pt) := map p_contour (filter (fun p => p_valid p && p_hole p) ps).
