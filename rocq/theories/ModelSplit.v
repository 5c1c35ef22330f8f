(** * Model of [split/solver.rs], [split/solver_list.rs], [split/solver_tree.rs],
    [split/snap_radius.rs], [core/solver.rs]. *)
From Verif Require Export ModelSegm ModelFill ModelCross.
Open Scope Z_scope.

(** ** Snap radius, solver configuration *)

(** [core/solver.rs:31-36] *)
Record Precision := MkPrec { start : nat; progression : nat }.
(** [core/solver.rs:13-18] *)
Inductive Strategy := StList | StTree | StFrag | StAuto.
(** [core/solver.rs:95-99]; multithreading only selects a parallel sort. *)
Record Solver := Slv { strategy : Strategy; precision : Precision }.

(** [split/snap_radius.rs:3-6] *)
Record SnapRadius := SR { current : nat; step : nat }.
(** [split/snap_radius.rs:9-11] *)
Definition sr_increment (r : SnapRadius) : SnapRadius := SR (Nat.min 60 (current r + step r)) (step r).
(** [split/snap_radius.rs:13-15]: [1 << current], an i64 *)
Definition sr_radius (r : SnapRadius) : Z := 2 ^ Z.of_nat (current r).
(** [split/snap_radius.rs:18-24] *)
Definition snap_radius (s : Solver) : SnapRadius := SR (start (precision s)) (progression (precision s)).

(** [core/solver.rs:140] *)
Definition MAX_SPLIT_LIST_COUNT : N := 4000%N.
(** [core/solver.rs:164-170] *)
Definition is_list_split (s : Solver) (n : nat) : bool :=
  match strategy s with StList => true | StTree | StFrag => false | StAuto => (N.of_nat n <? MAX_SPLIT_LIST_COUNT)%N end.

(** ** One pass of the list solver *)

(** [geom/x_segment.rs:14-20] [y_range] *)
Definition y_min (s : xseg) : Z := if py (sa s) <? py (sb s) then py (sa s) else py (sb s).
Definition y_max (s : xseg) : Z := if py (sa s) <? py (sb s) then py (sb s) else py (sa s).
(** [geom/x_segment.rs:29-31] [self.is_not_intersect_y_range(range of o)] *)
Definition is_not_intersect_y_range (self o : xseg) : bool :=
  (y_min o >? py (sa self)) && (y_min o >? py (sb self)) || (y_max o <? py (sa self)) && (y_max o <? py (sb self)).

(** [split/solver_list.rs:24-36]: the inner loop for segment [i]. *)
Fixpoint list_row (radius : Z) (i : nat) (ei : xseg) (l : list (nat * xseg)) : list mark * bool :=
  match l with
  | [] => ([], false)
  | (j, ej) :: r =>
      if px (sb ei) <? px (sa ej) then ([], false)
      else if is_not_intersect_y_range ej ei then list_row radius i ei r
      else let '(ms, rd) := cross_marks i j ei ej radius in
           let '(ms', rd') := list_row radius i ei r in
           (ms ++ ms', rd || rd')
  end.

(** [split/solver_list.rs:21-37]; the last row (empty) is not executed by the code. *)
Fixpoint list_rows (radius : Z) (l : list (nat * xseg)) : list mark * bool :=
  match l with
  | [] => ([], false)
  | (i, ei) :: r =>
      let '(ms, rd) := list_row radius i ei r in
      let '(ms', rd') := list_rows radius r in
      (ms ++ ms', rd || rd')
  end.
Definition list_pass (radius : Z) (l : list xseg) : list mark * bool := list_rows radius (enum l).

(** ** One pass of the tree solver.  [query inserted (ymin, ymax) time] models
    [SegExpTree::iter_by_range] ([i_tree], not in the repository). *)
Section TreePass.
  Variable query : list (nat * xseg) -> Z * Z -> Z -> list (nat * xseg).

  (** [split/solver_tree.rs:49-71] *)
  Fixpoint tree_row (radius : Z) (i : nat) (si : xseg) (l : list (nat * xseg)) : list mark * bool :=
    match l with
    | [] => ([], false)
    | (id, sj) :: r =>
        let '(ms, rd) := if xseg_ltb si sj then cross_marks i id si sj radius else cross_marks id i sj si radius in
        let '(ms', rd') := tree_row radius i si r in
        (ms ++ ms', rd || rd')
    end.
  Fixpoint tree_rows (radius : Z) (inserted : list (nat * xseg)) (l : list (nat * xseg)) : list mark * bool :=
    match l with
    | [] => ([], false)
    | (i, si) :: r =>
        let '(ms, rd) := tree_row radius i si (query inserted (y_min si, y_max si) (px (sa si))) in
        let '(ms', rd') := tree_rows radius (inserted ++ [(i, si)]) r in
        (ms ++ ms', rd || rd')
    end.
  Definition tree_pass (radius : Z) (l : list xseg) : list mark * bool := tree_rows radius [] (enum l).
End TreePass.

(** ** Sorting and filtering of marks *)
Definition mark_eqb (m n : mark) : bool := (fst m =? fst n)%nat && pt_eqb (snd m) (snd n).
(** the comparison in [split/solver.rs:309] *)
Definition mark_leb (m n : mark) : bool :=
  (fst m <? fst n)%nat || ((fst m =? fst n)%nat && pt_leb (snd m) (snd n)).

(** [Vec::dedup] *)
Fixpoint dedup (l : list mark) : list mark :=
  match l with
  | [] => []
  | m :: r => match dedup r with
              | n :: r' => if mark_eqb m n then n :: r' else m :: n :: r'
              | [] => [m]
              end
  end.

(** maximal runs of consecutive related elements *)
Fixpoint runs {A} (same : A -> A -> bool) (l : list A) : list (list A) :=
  match l with
  | [] => []
  | x :: r => match runs same r with
              | (y :: g) :: gs => if same x y then (x :: y :: g) :: gs else [x] :: (y :: g) :: gs
              | _ => [[x]]
              end
  end.

(** [split/solver.rs:338-382] [sort_sub_marks], [y_range], [sort_sub_marks_by_y]: the
    groups of equal x are visited from left to right; [y0] is the y of the mark before
    the group (or of the start of the segment).  A group of one mark is not touched by
    the code; reversing it would change nothing. *)
Fixpoint order_groups (y0 : Z) (s : xseg) (gs : list (list pt)) : list pt :=
  match gs with
  | [] => []
  | g :: rest =>
      let y1 := match rest with (m :: _) :: _ => py m | _ => py (sb s) end in
      let g' := if y0 >? y1 then rev g else g in
      g' ++ order_groups (py (last g' (Pt 0 y0))) s rest
  end.
Definition sort_sub_marks (s : xseg) (ps : list pt) : list pt :=
  order_groups (py (sa s)) s (runs (fun p q => px p =? px q) ps).

(** [split/solver.rs:308-335] [sort_and_filter_marks]; the result is grouped by segment
    index, as all its uses are.  [nth] is total; indices are in range (proved). *)
Definition sort_and_filter_marks (segs : list xseg) (ms : list mark) : list (nat * list pt) :=
  map (fun g => match g with
                | (i, p) :: r => (i, sort_sub_marks (nth i segs (XS (Pt 0 0) (Pt 0 0))) (map snd ((i, p) :: r)))
                | [] => (O, [])
                end)
      (runs (fun m n => fst m =? fst n)%nat (dedup (isort mark_leb ms))).

Section Apply.
  Context {C : Type} {WC : WindingCount C}.

  (** the pieces of a segment: [split/solver.rs:287-305] and [:150-180] *)
  Fixpoint chop (count : C) (p : pt) (ms : list pt) (b : pt) : list (segment C) :=
    match ms with
    | [] => [create_and_validate p b count]
    | m :: r => create_and_validate p m count :: chop count m r b
    end.

  (** [split/solver.rs:267-279], [multi_split_edge]: overwrite with the first piece, push the others. *)
  Definition split_edge (segs : list (segment C)) (g : nat * list pt) : list (segment C) :=
    match nth_error segs (fst g) with
    | Some s => match chop (sc s) (sa (sx s)) (snd g) (sb (sx s)) with
                | e0 :: rest => set_nth (fst g) e0 segs ++ rest
                | [] => segs
                end
    | None => segs
    end.

  (** [split/solver.rs:251-284] [one_bin_merge] *)
  Definition one_bin_merge (groups : list (nat * list pt)) (segs : list (segment C)) : list (segment C) :=
    merge_if_needed (sort_segments (fold_left split_edge groups segs)).

  (** ** the bucketed path, [split/solver.rs:125-196].  The buffer is filled front to
      back inside every bin. *)
  (** [split/solver.rs:138-182]: the segments in the order in which they are written *)
  Fixpoint emit (l : list (nat * segment C)) (groups : list (nat * list pt)) : list (segment C) :=
    match l with
    | [] => []
    | (i, s) :: r =>
        match groups with
        | (k, ps) :: gs => if (i =? k)%nat
                           then chop (sc s) (sa (sx s)) ps (sb (sx s)) ++ emit r gs
                           else s :: emit r groups
        | [] => s :: emit r []
        end
    end.

  Section Bins.
    Variable index : Z -> nat.     (* BinLayout::index *)

    (** [split/solver.rs:204-236]: number of segments per bin; the code computes the key
        as the smaller x of the two ends, which is the x of [a] after validation. *)
    Definition bin_counts (nbins : nat) (l : list (segment C)) : list nat :=
      fold_left (fun bins s => let k := index (px (sa (sx s))) in set_nth k (S (nth k bins O)) bins)
                l (repeat O nbins).

    (** [split/solver.rs:238-244]: (offset, data) of every bin *)
    Fixpoint bin_offsets (off : nat) (counts : list nat) : list (nat * nat) :=
      match counts with
      | [] => []
      | c :: r => (off, off) :: bin_offsets (off + c) r
      end.

    (** a write [slice[bin.data] = s; bin.data += 1]; the code uses unchecked accesses, the
        model returns [None] when an index is out of range or a slot is written twice. *)
    Definition bin_write (st : option (list (option (segment C)) * list (nat * nat))) (s : segment C) :=
      match st with
      | None => None
      | Some (buf, bins) =>
          let k := index (px (sa (sx s))) in
          match nth_error bins k with
          | None => None
          | Some (off, data) =>
              match nth_error buf data with
              | Some None => Some (set_nth data (Some s) buf, set_nth k (off, S data) bins)
              | _ => None
              end
          end
      end.

    (** [split/solver.rs:185-191]: sort the used part of every bin in place *)
    Definition sort_range (buf : list (segment C)) (r : nat * nat) : list (segment C) :=
      let '(lo, hi) := r in
      firstn lo buf ++ isort seg_leb (firstn (hi - lo) (skipn lo buf)) ++ skipn hi buf.

    (** every slot of the buffer must have been written *)
    Fixpoint all_written (buf : list (option (segment C))) : option (list (segment C)) :=
      match buf with
      | [] => Some []
      | Some s :: r => match all_written r with Some l => Some (s :: l) | None => None end
      | None :: _ => None
      end.

    (** [split/solver.rs:125-196]; [new_len] slots, [nbins] bins *)
    Definition bins_merge (new_len nbins : nat) (groups : list (nat * list pt)) (segs : list (segment C))
      : option (list (segment C)) :=
      let l := emit (enum segs) groups in
      match fold_left bin_write l (Some (repeat None new_len, bin_offsets 0 (bin_counts nbins l))) with
      | Some (buf, bins) =>
          match all_written buf with
          | Some b => Some (merge_if_needed (fold_left sort_range bins b))
          | None => None
          end
      | None => None
      end.
  End Bins.

  (** [split/solver.rs:98-196] [apply].  [layout_new] is [i_key_sort::BinLayout::new]
      composed with [index] (not in the repository). *)
  Variable layout_new : Z -> Z -> nat -> option (Z -> nat).

  Definition apply (ms : list mark) (segs : list (segment C)) : option (list (segment C)) :=
    match segs, ms with
    | s0 :: rest, _ :: _ =>
        let groups := sort_and_filter_marks (map sx segs) ms in
        let marks := flat_map snd groups in
        let min := px (sa (sx s0)) in
        let max := fold_left (fun m s => Z.max m (px (sb (sx s)))) rest
                     (fold_left (fun m p => Z.max m (px p)) marks (px (sb (sx s0)))) in
        let new_len := (length segs + length marks)%nat in
        if (new_len <=? 16)%nat then Some (one_bin_merge groups segs)
        else match layout_new min max new_len with
             | None => Some (one_bin_merge groups segs)
             | Some index => bins_merge index new_len (S (index max)) groups segs
             end
    | _, _ => None
    end.

  (** ** The loops.  [Panic]: the code would panic (or access memory out of bounds);
      [Fuel]: the number of rounds given was not enough. *)
  Inductive outcome := Done (l : list (segment C)) | Panic | Fuel.

  Variable query : list (nat * xseg) -> Z * Z -> Z -> list (nat * xseg).
  (** [SegExpTree::new(range)] succeeds *)
  Variable tree_new : Z * Z -> bool.

  (** [split/solver_tree.rs:111-127] [ver_range] (of a non-empty list) *)
  Definition ver_range (segs : list (segment C)) : Z * Z :=
    match segs with
    | [] => (0, 0)
    | s0 :: _ =>
        fold_left (fun r s => (Z.min (Z.min (fst r) (py (sa (sx s)))) (py (sb (sx s))),
                               Z.max (Z.max (snd r) (py (sa (sx s)))) (py (sb (sx s)))))
                  segs (py (sa (sx s0)), py (sa (sx s0)))
    end.

  (** [split/solver_list.rs:7-50] and [split/solver_tree.rs:25-86]: [tree] tells in which
      of the two loops the execution is. *)
  Fixpoint split_loop (fuel : nat) (solver : Solver) (tree : bool) (r : SnapRadius) (segs : list (segment C)) : outcome :=
    match fuel with
    | O => Fuel
    | S fuel' =>
        if (length segs <=? (if tree then 2 else 1))%nat then Done segs
        else
          let '(ms, need_to_fix) :=
            (if tree then tree_pass query else list_pass) (sr_radius r) (map sx segs) in
          match ms with
          | [] => Done segs
          | _ =>
              match apply ms segs with
              | None => Panic
              | Some segs' =>
                  let r' := sr_increment r in
                  if negb need_to_fix then Done segs'
                  else if tree then split_loop fuel' solver true r' segs'
                  else if is_list_split solver (length segs') then split_loop fuel' solver false r' segs'
                  else match segs' with
                       | [] => Panic
                       | _ => split_loop fuel' solver (tree_new (ver_range segs')) r' segs'
                       end
              end
          end
    end.
End Apply.
