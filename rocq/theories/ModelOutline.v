(** * Model of [mesh/outline/offset.rs]: [outline_custom] from the paths to the integer shapes. *)
From Verif Require Export ModelSplit ModelFrag ModelFilter ModelOverlay ModelGraph ModelExtract ModelBind ModelMesh ModelOffset CoreResults.
Open Scope Z_scope.

Section Outline.
  (** contracts of the dependencies, as in [ModelOverlay]; [sort_ends] is the sort of the link ends in [OverlayGraph::new] *)
  Variable layout_new : Z -> Z -> nat -> option (Z -> nat).
  Variable query : list (nat * xseg) -> Z * Z -> Z -> list (nat * xseg).
  Variable tree_new : Z * Z -> bool.
  Variable sort_ends : list link -> list (nat * pt).
  Variable clean : bool -> list pt -> list pt * bool.
  Variables (fuel : nat) (solver : Solver) (dbg : bool).
  Variable F : FloatOps.
  Variable to_int : fp F -> pt.
  (** [unsafe_int_area] of i_shape *)
  Variable int_area : list (fp F) -> Z.

  Definition rbind {A B} (r : run A) (f : A -> run B) : run B := match r with ROk a => f a | RPanic => RPanic | RFuel => RFuel end.
  Definition of_opt {A} (o : option A) : run A := match o with Some a => ROk a | None => RPanic end.

  (** [mesh/outline/offset.rs:116-122], [:133-141], [:145-160]: segments of one path, [offset_graph_with_solver], [extract_offset] *)
  Definition outline_one (radius : num F) (join : line_join F) (path : list (fp F)) (clockwise : bool) (min_area : Z) : run (list (list (list pt))) :=
    rbind (of_opt (outline_segments F to_int radius join path)) (fun segs =>
    rbind (offset_links layout_new query tree_new fuel solver segs) (fun ls =>
    rbind (of_opt (graph_new ls (sort_ends ls))) (fun g =>
    of_opt (offset_shapes g clean dbg clockwise min_area)))).

  (** [mesh/outline/offset.rs:127-162]: the loop, as the list of the contours handed to [overlay.add_shapes] *)
  Fixpoint outline_contours (outer inner : num F) (join : line_join F) (paths : list (list (fp F))) : run (list (list pt)) :=
    match paths with
    | [] => ROk []
    | path :: rest =>
        if Z.abs (int_area path) <=? 1 then outline_contours outer inner join rest
        else if int_area path <? 0 then
          rbind (outline_one (n_neg F outer) join path false 0) (fun shapes =>
          rbind (outline_contours outer inner join rest) (fun r => ROk (concat shapes ++ r)))
        else
          rbind (outline_one inner join (rev path) false 0) (fun shapes =>
          rbind (outline_contours outer inner join rest) (fun r => ROk (map (@rev pt) (concat shapes) ++ r)))
    end.

  (** [core/overlay.rs] [overlay_custom] with the Subject rule, Positive fill rule and [simplify_contour = true], [mesh/outline/offset.rs:164-171] *)
  Definition positive_overlay (clockwise : bool) (min_area : Z) (contours : list (list pt)) : run (list (list (list pt))) :=
    rbind (overlay_links layout_new query tree_new fuel solver RSubject Positive (input_segments (map (fun c => (c, Subject)) contours))) (fun ls =>
    rbind (of_opt (graph_new ls (sort_ends ls))) (fun g =>
    of_opt (extract_shapes dbg g clean RSubject clockwise true min_area (repeat false (length ls))))).

  (** [mesh/outline/offset.rs:61-172] [outline_custom], [style.join.normalize()] included, without the conversion back and [clean_result];
      [min_area] is [int_min_area] *)
  Definition outline_custom (outer inner : num F) (join : line_join F) (clockwise : bool) (min_area : Z) (paths : list (list (fp F))) : run (list (list (list pt))) :=
    let j := join_normalize F join in
    match paths with
    | [] => ROk []
    | [path] => if -1 <=? int_area path then ROk [] else outline_one (n_neg F outer) j path clockwise min_area
    | _ => rbind (outline_contours outer inner j paths) (positive_overlay clockwise min_area)
    end.

  (** [len_float_to_int] of the adapter *)
  Variable int_len : num F -> Z.
  (** [mesh/stroke/offset.rs:64-107] [stroke_custom] without the conversion back and [clean_result]; [jc], [cc]: the numbers in [capacity],
      see [stroke_capacity].  [offset.rs:82]: the radius of the test for thin strokes is half the width, negative widths included *)
  Definition stroke_custom (style : stroke_style F) (jc cc : nat) (closed clockwise : bool) (paths : list (list (fp F))) : run (list (list (list pt))) :=
    match paths with
    | [] => ROk []
    | _ =>
        if Z.abs (int_len (from_f64 F (d_mul F (d_lit F (1 # 2)) (to_f64 F (st_width F style))))) <=? 1 then ROk []
        else
          rbind (of_opt (stroke_segments F to_int style jc cc closed paths)) (fun segs =>
          rbind (offset_links layout_new query tree_new fuel solver segs) (fun ls =>
          rbind (of_opt (graph_new ls (sort_ends ls))) (fun g =>
          of_opt (offset_shapes g clean dbg clockwise 0))))
    end.
End Outline.
