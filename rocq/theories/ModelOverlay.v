(** * Model of the overlay pipeline up to the list of result links:
    [core/overlay.rs] and [OverlayLinkBuilder] of [core/link.rs]. *)
From Verif Require Export ModelSplit ModelFrag ModelFilter.
Open Scope Z_scope.

(** The value of a run: [ROk], a panic, or "more rounds needed than allowed". *)
Inductive run (A : Type) := ROk (a : A) | RPanic | RFuel.
Arguments ROk {A} a. Arguments RPanic {A}. Arguments RFuel {A}.

Section Overlay.
  (** contracts of the two dependencies: [i_key_sort::BinLayout], [i_tree::SegExpTree] *)
  Variable layout_new : Z -> Z -> nat -> option (Z -> nat).
  Variable query : list (nat * xseg) -> Z * Z -> Z -> list (nat * xseg).
  Variable tree_new : Z * Z -> bool.

  (** [core/link.rs:106-112] [build_boolean] (and [:114-120], [build_boolean_all], with
      the filter that accepts everything) for the filter [inc] *)
  Definition build_boolean (inc : fill_t -> bool) (fuel : nat) (segs : list (segment cntB)) (fr : FillRule) (solver : Solver)
    : run (list link) :=
    match segs with
    | [] => ROk []
    | _ =>
        match split_segments layout_new query tree_new fuel solver segs with
        | Panic => RPanic
        | Fuel => RFuel
        | Done [] => ROk []
        | Done l => ROk (build_links inc l (fill_boolean fr l))
        end
    end.

  (** [core/link.rs:48-59] [build_with_overlay_filter], called by [core/overlay.rs:232-236]
      [overlay_custom]: the links of the answer for the contours added so far. *)
  Definition overlay_links (fuel : nat) (solver : Solver) (r : OverlayRule) (fr : FillRule) (segs : list (segment cntB)) : run (list link) :=
    build_boolean (is_included r) fuel segs fr solver.

  (** [core/link.rs:43-46] [build_with_filler_filter], called by [core/overlay.rs:149-161] [into_graph] *)
  Definition graph_links (fuel : nat) (solver : Solver) (fr : FillRule) (segs : list (segment cntB)) : run (list link) :=
    build_boolean is_included_filler fuel segs fr solver.

  (** [core/link.rs:38-41] [build_without_filter], called by [core/overlay.rs:141-144] [into_separate_vectors] *)
  Definition separate_links (fuel : nat) (solver : Solver) (fr : FillRule) (segs : list (segment cntB)) : run (list link) :=
    build_boolean (fun _ => true) fuel segs fr solver.
End Overlay.
