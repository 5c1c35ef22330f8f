(** * Model of [mesh/boolean.rs]: from the segments of an offset or stroke to shapes. *)
From Verif Require Export ModelSplit ModelFrag ModelFilter ModelOverlay ModelGraph ModelExtract ModelBind ModelMesh.
Open Scope Z_scope.

(** [mesh/boolean.rs:26] *)
Definition BOLD_BIT : N := 2%N.
(** [mesh/boolean.rs:28-45] [SubjectOffsetStrategy::add_and_fill] *)
Definition add_and_fill_offset (this bot : cntO) : cntO * fill_t :=
  let top_subj := osubj bot + osubj this in
  let bot_subj := osubj bot in
  let subj_top := b2n (top_subj >? 0) in
  let subj_bot := b2n (bot_subj >? 0) in
  (CO top_subj false, N.lor (N.lor subj_top (N.shiftl subj_bot 1)) (N.shiftl (b2n (obold this)) BOLD_BIT)).
(** [mesh/boolean.rs:50-52] *)
Definition is_bold (l : link) : bool := negb (N.land (l_fill l) (N.shiftl 1 BOLD_BIT) =? 0)%N.

Section Offset.
  (** contracts of the dependencies, as in [ModelOverlay] *)
  Variable layout_new : Z -> Z -> nat -> option (Z -> nat).
  Variable query : list (nat * xseg) -> Z * Z -> Z -> list (nat * xseg).
  Variable tree_new : Z * Z -> bool.

  (** [mesh/boolean.rs:95-103] [offset_graph_with_solver], up to [OverlayGraph::new] *)
  Definition offset_links (fuel : nat) (solver : Solver) (segs : list (segment cntO)) : run (list link) :=
    match segs with
    | [] => ROk []
    | _ =>
        match split_segments layout_new query tree_new fuel solver segs with
        | Panic => RPanic
        | Fuel => RFuel
        | Done [] => ROk []
        | Done l => ROk (build_all_links l (fill_solve add_and_fill_offset l))
        end
    end.
End Offset.

Section OffsetExtract.
  Variable g : graph.
  Variable clean : bool -> list pt -> list pt * bool.

  (** [mesh/boolean.rs:190-236] [get_fill_path] is [get_contour] of [core/extract.rs:129-173] with, in
      addition, [bold]: one of the links used is bold.
      [mesh/boolean.rs:125-177], the loop: every contour found, with its [bold].  A contour that
      is not bold is not cleaned or validated by the code; it is dropped, so the fields do not matter. *)
  Fixpoint offset_loop (fuel : nat) (clockwise : bool) (min_area : Z) (link_index : nat) (vis : list bool) : option (list (piece * bool)) :=
    if (length vis <=? link_index)%nat then Some []
    else match fuel with
    | O => None
    | S fuel' =>
        if is_visited vis link_index then offset_loop fuel' clockwise min_area (S link_index) vis
        else
          match find_left_top_link g link_index vis with
          | None => None
          | Some lt =>
              match nth_error (g_links g) lt with
              | None => None
              | Some link =>
                  let is_hole := (N.land (l_fill link) SUBJ_TOP =? SUBJ_TOP)%N in
                  let direction := Bool.eqb is_hole clockwise in
                  match get_contour g (length vis) (start_path direction link lt) direction vis with
                  | None => None
                  | Some (raw, used, vis') =>
                      let bold := existsb (fun i => match nth_error (g_links g) i with Some l => is_bold l | None => false end) used in
                      let '(c, m) := clean true raw in
                      let ok := bold && is_valid min_area c in
                      match offset_loop fuel' clockwise min_area (if ok then link_index else S link_index) vis' with
                      | None => None
                      | Some ps => Some ((Pc is_hole ok raw c m used, bold) :: ps)
                      end
                  end
              end
          end
    end.

  (** [mesh/boolean.rs:105-108] [extract_offset], [:125-177] *)
  Definition offset_pieces (clockwise : bool) (min_area : Z) : option (list (piece * bool)) :=
    let vis := filter_by_rule RSubject (g_links g) in
    offset_loop (S (2 * length vis)) clockwise min_area 0 vis.

  (** [mesh/boolean.rs:105-188] [extract_offset], with the anchors of [:146-171] (the same code as in
      [core/extract.rs:91-113]) and the joining of holes *)
  Definition offset_shapes (dbg clockwise : bool) (min_area : Z) : option (list (list (list pt))) :=
    match offset_pieces clockwise min_area with
    | None => None
    | Some bps =>
        let ps := map fst bps in
        match anchors_of dbg clockwise 0 ps with
        | None => None
        | Some (anchors, srt) =>
            let anchors := if srt then anchors else isort a_leb anchors in
            join_sorted_holes dbg (map (fun c => [c]) (outer_contours ps)) (hole_contours ps) anchors clockwise
        end
    end.
End OffsetExtract.
