(** * Model of [float/*.rs]: the interface with floating point coordinates.

    Coordinates are rational numbers (finite floating point numbers; NaN and infinities are not modelled).  [FloatPointAdapter] is a
    type of the crate [i_float]: it appears here as a record of arbitrary functions. *)
From Verif Require Import Base Spec QLib ModelSegm CoreResults ModelFill ModelFilter ModelSplit ModelOverlay OverlayProofs ModelGraph ModelExtract ModelBind ModelString ModelSlice.
From Coq Require Import QArith.
Open Scope Z_scope.

(** ** Resources *)
(** one call of [next]: an item and the next state, the end, or an access out of bounds (undefined behaviour) *)
Inductive step (I S : Type) := Yield (x : I) (s : S) | Stop | Bad.
Arguments Yield {I S}. Arguments Stop {I S}. Arguments Bad {I S}.
(** a [for] loop over an iterator; [None]: out of bounds, or more than [fuel] calls of [next] *)
Fixpoint drain {I S} (fuel : nat) (next : S -> step I S) (s : S) : option (list I) :=
  match fuel with
  | O => None
  | S f => match next s with Stop => Some [] | Bad => None | Yield x s' => option_map (cons x) (drain f next s') end
  end.
Section Iterators.
  Context {P : Type}.
  (** [float/source/single.rs:5-28] *)
  Record single := Single { s_slice : list P; s_finished : bool }.
  Definition single_new (slice : list P) : single := Single slice false.
  Definition single_next (s : single) : step (list P) single :=
    if s_finished s then Stop else Yield (s_slice s) (Single (s_slice s) true).
  (** [float/source/double.rs:5-31] *)
  Record double := Double { d_slice : list (list P); d_index : nat }.
  Definition double_new (slice : list (list P)) : double := Double slice 0.
  Definition double_next (s : double) : step (list P) double :=
    if (length (d_slice s) <=? d_index s)%nat then Stop
    else match nth_error (d_slice s) (d_index s) with Some it => Yield it (Double (d_slice s) (S (d_index s))) | None => Bad end.
  (** [float/source/triple.rs:5-37] *)
  Record triple := Triple { t_slice : list (list (list P)); t_i : nat; t_j : nat }.
  Definition triple_new (slice : list (list (list P))) : triple := Triple slice 0 0.
  (** the [while] loop, at most [fuel] rounds *)
  Fixpoint triple_loop (fuel : nat) (s : triple) : step (list P) triple :=
    match fuel with
    | O => Bad
    | S f =>
        if (t_i s <? length (t_slice s))%nat then
          match nth_error (t_slice s) (t_i s) with
          | None => Bad
          | Some sub =>
              if (t_j s <? length sub)%nat then
                match nth_error sub (t_j s) with Some it => Yield it (Triple (t_slice s) (t_i s) (S (t_j s))) | None => Bad end
              else triple_loop f (Triple (t_slice s) (S (t_i s)) 0)
          end
        else Stop
    end.
  Definition triple_next (s : triple) : step (list P) triple := triple_loop (S (length (t_slice s))) s.
End Iterators.
(** [OverlayResource], [float/source/resource.rs:4-15]: what can be passed as subject, clip, shape or string *)
Inductive resource := Contour (c : list qpt) | Contours (cs : list (list qpt)) | Shapes (shapes : list (list (list qpt))).
(** [for contour in resource.iter_paths()], at most [fuel] calls of [next] *)
Definition iter_paths (fuel : nat) (r : resource) : option (list (list qpt)) :=
  match r with
  | Contour c => drain fuel single_next (single_new c)
  | Contours cs => drain fuel double_next (double_new cs)
  | Shapes shapes => drain fuel triple_next (triple_new shapes)
  end.

(** ** The adapter ([i_float::adapter::FloatPointAdapter]) and the filter *)
Record adapter := Adapter { float_to_int : qpt -> pt; int_to_float : pt -> qpt; sqr_float_to_int : Q -> Z }.
(** [float/filter.rs:5-16] *)
Record contour_filter := Filter { f_min_area : Q; f_simplify : bool; f_clean : bool }.
(** [float/filter.rs:17-22]; [bits] is the width of the number type *)
Definition default_filter (bits : nat) : contour_filter := Filter 0 true (bits <=? 32)%nat.

(** [path.windows(2)] *)
Fixpoint windows2 {A} (l : list A) : list (A * A) := match l with a :: ((b :: _) as r) => (a, b) :: windows2 r | _ => [] end.

Section FloatOverlay.
  (** contracts of the dependencies, as in [ModelOverlay]; [sort_ends] is the sort of the link ends in [OverlayGraph::new] *)
  Variable layout_new : Z -> Z -> nat -> option (Z -> nat).
  Variable query : list (nat * xseg) -> Z * Z -> Z -> list (nat * xseg).
  Variable tree_new : Z * Z -> bool.
  Variable sort_ends : list link -> list (nat * pt).
  Variable clean : bool -> list pt -> list pt * bool.
  Variable cw_ordered : list pt -> bool.
  (** [FloatPointAdapter::with_iter] of [i_float]: the adapter for the points given *)
  Variable with_iter : list qpt -> adapter.
  (** [simplify_contour(&adapter)] of [i_shape] for float shapes *)
  Variable float_clean : adapter -> list (list (list qpt)) -> list (list (list qpt)).
  (** calls of [next], passes of splitting *)
  Variables (calls fuel : nat).
  Variable dbg : bool.

  Definition fbind {A B} (r : run A) (f : A -> run B) : run B := match r with ROk a => f a | RPanic => RPanic | RFuel => RFuel end.
  Definition fopt {A} (o : option A) : run A := match o with Some a => ROk a | None => RPanic end.

  (** ** [FloatOverlay] *)
  (** [float/overlay.rs:21-25]; the segments of the overlay are those of the contours added, in order ([input_segments]) *)
  Record float_overlay := FOverlay { fo_input : input; fo_adapter : adapter }.
  (** [float/overlay.rs:103-106] [unsafe_add_contour] *)
  Definition unsafe_add_contour (o : float_overlay) (contour : list qpt) (t : ShapeType) : float_overlay :=
    FOverlay (fo_input o ++ [(map (float_to_int (fo_adapter o)) contour, t)]) (fo_adapter o).
  (** [float/overlay.rs:91-96] [unsafe_add_source] *)
  Definition unsafe_add_source (o : float_overlay) (r : resource) (t : ShapeType) : option float_overlay :=
    option_map (fun cs => fold_left (fun o c => unsafe_add_contour o c t) cs o) (iter_paths calls r).
  (** [float/overlay.rs:46-61] [with_subj_and_clip] *)
  Definition with_subj_and_clip (subj clip : resource) : option float_overlay :=
    match iter_paths calls subj, iter_paths calls clip with
    | Some s, Some c =>
        let o := FOverlay [] (with_iter (concat (s ++ c))) in
        match unsafe_add_source o subj Subject with
        | Some o => unsafe_add_source o clip Clip
        | None => None
        end
    | _, _ => None
    end.
  (** [float/overlay.rs:69-81] [with_subj] *)
  Definition with_subj (subj : resource) : option float_overlay :=
    match iter_paths calls subj with
    | Some s => unsafe_add_source (FOverlay [] (with_iter (concat s))) subj Subject
    | None => None
    end.
  (** [core/overlay.rs:235-240] [Overlay::overlay_custom] *)
  Definition overlay_custom (adds : input) (r : OverlayRule) (fr : FillRule) (clockwise simplify : bool) (min_area : Z) (solver : Solver) : run (list (list (list pt))) :=
    fbind (overlay_links layout_new query tree_new fuel solver r fr (input_segments adds)) (fun ls =>
    fbind (fopt (graph_new ls (sort_ends ls))) (fun g =>
    fopt (extract_shapes dbg g clean r clockwise simplify min_area (repeat false (length ls))))).
  (** [shapes.to_float(&adapter)], then [clean_result]: [float/overlay.rs:195-201], [float/graph.rs:85-91], [float/string_graph.rs:64-70] *)
  Definition to_float (a : adapter) (shapes : list (list (list pt))) : list (list (list qpt)) := map (map (map (int_to_float a))) shapes.
  Definition float_result (a : adapter) (f : contour_filter) (shapes : list (list (list pt))) : list (list (list qpt)) :=
    if f_clean f then float_clean a (to_float a shapes) else to_float a shapes.
  (** [float/overlay.rs:192-202] [overlay_custom] *)
  Definition float_overlay_custom (o : float_overlay) (r : OverlayRule) (fr : FillRule) (clockwise : bool) (f : contour_filter) (solver : Solver) : run (list (list (list qpt))) :=
    let area := sqr_float_to_int (fo_adapter o) (f_min_area f) in
    fbind (overlay_custom (fo_input o) r fr clockwise (f_simplify f) area solver) (fun shapes => ROk (float_result (fo_adapter o) f shapes)).
  (** [float/overlay.rs:162-164] [overlay]; [core/solver.rs:101-105], [:131-137]: the default solver is [AUTO] with precision [HIGH] *)
  Definition auto : Solver := Slv StAuto (MkPrec 0 1).
  Definition float_overlay_default (bits : nat) (o : float_overlay) (r : OverlayRule) (fr : FillRule) : run (list (list (list qpt))) :=
    float_overlay_custom o r fr false (default_filter bits) auto.
  (** [float/single.rs:39-41] [SingleFloatOverlay::overlay] *)
  Definition single_overlay (bits : nat) (subj clip : resource) (r : OverlayRule) (fr : FillRule) : run (list (list (list qpt))) :=
    match with_subj_and_clip subj clip with Some o => float_overlay_default bits o r fr | None => RPanic end.
  (** [float/simplify.rs:51-55] [simplify_shape_with_solver]; [:44-48] is the same with the default solver *)
  Definition simplify_shape (subj : resource) (fr : FillRule) (clockwise : bool) (min_area : Q) (solver : Solver) : run (list (list (list qpt))) :=
    match with_subj subj with
    | Some o => float_overlay_custom o RSubject fr clockwise (Filter min_area true true) solver
    | None => RPanic
    end.

  (** ** [FloatOverlayGraph] *)
  (** [float/graph.rs:20-23]; [core/graph.rs]: the graph and its links *)
  Record float_graph := FGraph { fg_links : list link; fg_graph : graph; fg_adapter : adapter }.
  (** [float/overlay.rs:119-122] [into_graph_with_solver], [core/overlay.rs:157-160] *)
  Definition into_graph (o : float_overlay) (fr : FillRule) (solver : Solver) : run float_graph :=
    fbind (graph_links layout_new query tree_new fuel solver fr (input_segments (fo_input o))) (fun ls =>
    fbind (fopt (graph_new ls (sort_ends ls))) (fun g => ROk (FGraph ls g (fo_adapter o)))).
  (** [float/graph.rs:82-92] [extract_shapes_custom], [core/extract.rs:47-50] *)
  Definition graph_shapes (g : float_graph) (r : OverlayRule) (clockwise : bool) (f : contour_filter) : run (list (list (list qpt))) :=
    let area := sqr_float_to_int (fg_adapter g) (f_min_area f) in
    fbind (fopt (extract_shapes dbg (fg_graph g) clean r clockwise (f_simplify f) area (filter_by_rule r (fg_links g)))) (fun shapes =>
      ROk (float_result (fg_adapter g) f shapes)).

  (** ** [FloatStringOverlay] *)
  (** [float/string_overlay.rs:16-19] *)
  Record float_strings := FStrings { fs_items : list item; fs_adapter : adapter }.
  (** [float/string_overlay.rs:96-99] [unsafe_add_shape_contour] *)
  Definition add_shape_contour (o : float_strings) (contour : list qpt) : float_strings :=
    FStrings (fs_items o ++ [SContour (map (float_to_int (fs_adapter o)) contour)]) (fs_adapter o).
  (** [float/string_overlay.rs:105-113] [unsafe_add_string_line] *)
  Definition add_string_line (o : float_strings) (path : list qpt) : float_strings :=
    fold_left (fun o w => FStrings (fs_items o ++ [SLine (float_to_int (fs_adapter o) (fst w)) (float_to_int (fs_adapter o) (snd w))]) (fs_adapter o)) (windows2 path) o.
  (** [float/string_overlay.rs:46-62] [with_shape_and_string], with [:71-76] [unsafe_add_shapes] and [:85-90] [unsafe_add_string_lines] *)
  Definition with_shape_and_string (shape string : resource) : option float_strings :=
    match iter_paths calls shape, iter_paths calls string with
    | Some s, Some l =>
        let o := FStrings [] (with_iter (concat (s ++ l))) in
        Some (fold_left add_string_line l (fold_left add_shape_contour s o))
    | _, _ => None
    end.
  (** [float/string_overlay.rs:143-146] [clip_string_lines_with_solver] *)
  Definition float_clip_lines (o : float_strings) (fr : FillRule) (cr : ClipRule) (solver : Solver) : run (list (list qpt)) :=
    fbind (clip_string_lines layout_new query tree_new sort_ends fuel solver fr cr (fs_items o)) (fun paths => ROk (map (map (int_to_float (fs_adapter o))) paths)).
  (** [float/clip.rs:57-60] [clip_by_with_solver]: [self] are the lines *)
  Definition clip_by (lines shape : resource) (fr : FillRule) (cr : ClipRule) (solver : Solver) : run (list (list qpt)) :=
    match with_shape_and_string shape lines with Some o => float_clip_lines o fr cr solver | None => RPanic end.
  (** [float/slice.rs:69-73] [slice_custom_by]: [self] is the shape; [float/string_graph.rs:61-71] ([f_simplify] is not used) *)
  Definition slice_custom_by (shape lines : resource) (fr : FillRule) (clockwise : bool) (f : contour_filter) (solver : Solver) : run (list (list (list qpt))) :=
    match with_shape_and_string shape lines with
    | Some o =>
        let area := sqr_float_to_int (fs_adapter o) (f_min_area f) in
        fbind (slice_by layout_new query tree_new sort_ends cw_ordered fuel solver dbg fr clockwise area (fs_items o)) (fun shapes =>
          ROk (float_result (fs_adapter o) f shapes))
    | None => RPanic
    end.
  (** [float/slice.rs:62-66] [slice_by] *)
  Definition float_slice_by (bits : nat) (shape lines : resource) (fr : FillRule) : run (list (list (list qpt))) :=
    slice_custom_by shape lines fr false (default_filter bits) auto.
End FloatOverlay.
