(** * Model of [string/extract.rs] and [string/filter.rs]: cutting a shape along strings. *)
From Verif Require Export ModelFill ModelExtract ModelLoops ModelBind ModelString.
Open Scope Z_scope.

(** [string/filter.rs:45-58] [filter], [filter_slice] *)
Definition slice_fills (links : list link) : list fill_t := map (fun l => N.land (l_fill l) SUBJ_BOTH) links.
(** reading out of bounds gives 0 (proved not to happen) *)
Definition fill_at (fills : list fill_t) (i : nat) : fill_t := nth i fills 0%N.

(** [string/filter.rs:8-23] [visit_fill] *)
Definition visit_fill (l : link) (fill : fill_t) (node_id : nat) (clockwise : bool) : fill_t :=
  let is_a := (l_aid l =? node_id)%nat in
  let direct := pt_ltb (l_a l) (l_b l) in
  let same := Bool.eqb clockwise direct in
  let mask := if is_a then (if same then SUBJ_TOP else SUBJ_BOTTOM) else if same then SUBJ_BOTTOM else SUBJ_TOP in
  N.ldiff fill mask.
(** [string/filter.rs:25-42] [is_move_possible] *)
Definition is_move_possible (l : link) (fill : fill_t) (node_id : nat) (clockwise : bool) : bool :=
  if (fill =? SUBJ_BOTH)%N then true
  else if (fill =? 0)%N then false
  else
    let is_a := (l_aid l =? node_id)%nat in
    let direct := pt_ltb (l_a l) (l_b l) in
    let left := if direct then negb (N.land fill SUBJ_TOP =? 0)%N else negb (N.land fill SUBJ_BOTTOM =? 0)%N in
    Bool.eqb is_a (Bool.eqb clockwise left).

Section Slice.
  (** the graph of [StringGraph::new] ([string/graph.rs:13-23]): the links of a node as one list ([node_links]) *)
  Variable g : graph.

  Definition possible (fills : list fill_t) (node_id : nat) (clockwise : bool) (i : nat) : bool :=
    match nth_error (g_links g) i with Some l => is_move_possible l (fill_at fills i) node_id clockwise | None => false end.
  (** [string/extract.rs:128-147]: the loop that looks for the first two possible moves, one step of it: the next possible move and the indices after it *)
  Fixpoint next_move (fills : list fill_t) (target_index node_id : nat) (clockwise : bool) (ids : list nat) : option (nat * list nat) :=
    match ids with
    | [] => None
    | i :: r => if (i =? target_index)%nat then next_move fills target_index node_id clockwise r
                else if possible fills node_id clockwise i then Some (i, r) else next_move fills target_index node_id clockwise r
    end.
  (** [string/extract.rs:121-184] [find_nearest_link_to]; [None] is [panic!("no move found")].  The last loop ([:176-181]) does not skip the target. *)
  Definition slice_next (target_index node_id : nat) (clockwise : bool) (ids : list nat) (fills : list fill_t) : option nat :=
    match next_move fills target_index node_id clockwise ids with
    | None => if possible fills node_id clockwise target_index then Some target_index else None
    | Some (first, r) =>
        match next_move fills target_index node_id clockwise r with
        | None => Some first
        | Some (second, r2) =>
            match nth_error (g_links g) target_index, nth_error (g_links g) first with
            | Some target, Some lf =>
                let '(c, a) := if (l_aid target =? node_id)%nat then (l_a target, l_b target) else (l_b target, l_a target) in
                option_map nv_best (nearest_loop g node_id (second :: filter (possible fills node_id clockwise) r2)
                                      (nv_new c a (l_other lf node_id) first clockwise))
            | _, _ => None
            end
        end
    end.

  (** [string/extract.rs:102-116], the loop of [get_paths].  [None]: panic, an index out of bounds, or more than [fuel] steps. *)
  Fixpoint slice_walk (fuel : nat) (clockwise : bool) (link_id node_id last_node_id : nat) (fills : list fill_t) : option (list pt * list fill_t) :=
    if (node_id =? last_node_id)%nat then Some ([], fills)
    else match fuel with
         | O => None
         | S fuel' =>
             match nth_error (g_nodes g) node_id with
             | None => None
             | Some n =>
                 match slice_next link_id node_id clockwise (node_links n) fills with
                 | None => None
                 | Some i =>
                     match nth_error (g_links g) i with
                     | None => None
                     | Some l =>
                         let '(p, nx) := if (l_aid l =? node_id)%nat then (l_a l, l_bid l) else (l_b l, l_aid l) in
                         option_map (fun cf => (p :: fst cf, snd cf))
                           (slice_walk fuel' clockwise i nx last_node_id (upd i (fun f => visit_fill l f node_id clockwise) fills))
                     end
                 end
             end
         end.
  (** [string/extract.rs:88-119] [get_paths] *)
  Definition get_paths (fuel : nat) (start : nat) (clockwise : bool) (fills : list fill_t) : option (list pt * list fill_t) :=
    match nth_error (g_links g) start with
    | None => None
    | Some l =>
        option_map (fun cf => (l_a l :: fst cf, snd cf))
          (slice_walk fuel clockwise start (l_bid l) (l_aid l) (upd start (fun f => visit_fill l f (l_aid l) clockwise) fills))
    end.

  (** [is_clockwise_ordered] of i_shape *)
  Variable cw_ordered : list pt -> bool.
  (** [string/extract.rs:66-80]: is it a hole, and the contour in its final direction *)
  Definition place_path (clockwise direction : bool) (path : list pt) : bool * list pt :=
    let order := cw_ordered path in
    if Bool.eqb order direction then (true, if Bool.eqb clockwise order then rev path else path)
    else (false, if Bool.eqb clockwise order then path else rev path).

  (** [string/extract.rs:53-81], the main loop: what is pushed, in order, with the hole flag *)
  Fixpoint slice_loop (fuel : nat) (clockwise : bool) (min_area : Z) (link_index : nat) (fills : list fill_t) : option (list (bool * list pt)) :=
    if (length fills <=? link_index)%nat then Some []
    else match fuel with
         | O => None
         | S fuel' =>
             if (fill_at fills link_index =? 0)%N then slice_loop fuel' clockwise min_area (S link_index) fills
             else
               let direction := (N.land (fill_at fills link_index) SUBJ_TOP =? SUBJ_TOP)%N in
               match get_paths (2 * length fills) link_index direction fills with
               | None => None
               | Some (path, fills') =>
                   match split_loops min_area path with
                   | None => None
                   | Some paths => option_map (app (map (place_path clockwise direction) paths)) (slice_loop fuel' clockwise min_area link_index fills')
                   end
               end
         end.
  (** [string/extract.rs:42-81] without the joining; every round advances the index or visits a side *)
  Definition slice_pieces (clockwise : bool) (min_area : Z) : option (list (bool * list pt)) :=
    slice_loop (S (3 * length (g_links g))) clockwise min_area 0 (slice_fills (g_links g)).
  Definition slice_outers (ps : list (bool * list pt)) : list (list pt) := map snd (filter (fun p => negb (fst p)) ps).
  Definition slice_holes (ps : list (bool * list pt)) : list (list pt) := map snd (filter fst ps).
  (** [string/extract.rs:42-86] [extract_shapes_custom] *)
  Definition slice_shapes (dbg clockwise : bool) (min_area : Z) : option (list (list (list pt))) :=
    match slice_pieces clockwise min_area with
    | None => None
    | Some ps => join_unsorted_holes dbg (map (fun c => [c]) (slice_outers ps)) (slice_holes ps) clockwise
    end.
End Slice.

(** [string/slice.rs], for example [:45-49]: string overlay, [into_graph], [extract_shapes] (counter-clockwise, no minimal area) *)
Section SliceBy.
  Variable layout_new : Z -> Z -> nat -> option (Z -> nat).
  Variable query : list (nat * xseg) -> Z * Z -> Z -> list (nat * xseg).
  Variable tree_new : Z * Z -> bool.
  Variable sort_ends : list link -> list (nat * pt).
  Variable cw_ordered : list pt -> bool.
  Definition slice_by (fuel : nat) (solver : Solver) (dbg : bool) (fr : FillRule) (clockwise : bool) (min_area : Z) (items : list item) : run (list (list (list pt))) :=
    match string_links layout_new query tree_new fuel solver fr items with
    | RPanic => RPanic
    | RFuel => RFuel
    | ROk links =>
        match graph_new links (sort_ends links) with
        | None => RPanic
        | Some g => match slice_shapes g cw_ordered dbg clockwise min_area with None => RPanic | Some shapes => ROk shapes end
        end
    end.
End SliceBy.
