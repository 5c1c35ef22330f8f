(** * Model of the grid strategy: [split/grid_layout.rs], [split/fragment.rs],
    [split/solver_fragment.rs]. *)
From Verif Require Export ModelSplit.
Open Scope Z_scope.

(** [i_float::IntRect] (not in the repository): fields and the two tests used. *)
Record rect := Rect { r_min_x : Z; r_max_x : Z; r_min_y : Z; r_max_y : Z }.
Definition is_intersect_border_include (a b : rect) : bool :=
  (r_min_x a <=? r_max_x b) && (r_min_x b <=? r_max_x a) && (r_min_y a <=? r_max_y b) && (r_min_y b <=? r_max_y a).
Definition contains_with_radius (a : rect) (p : pt) (r : Z) : bool :=
  (r_min_x a - r <=? px p) && (px p <=? r_max_x a + r) && (r_min_y a - r <=? py p) && (py p <=? r_max_y a + r).

(** [split/fragment.rs:5-9] *)
Record fragment := Frg { f_index : nat; f_rect : rect; f_seg : xseg }.
(** [split/fragment.rs:14-34] *)
Definition with_index_and_segment (i : nat) (s : xseg) : fragment :=
  Frg i (Rect (px (sa s)) (px (sb s)) (y_min s) (y_max s)) s.

(** [split/grid_layout.rs:163-167] *)
Record grid := Grid { g_min : Z; g_max : Z; g_power : Z }.
(** [split/grid_layout.rs:170-173] *)
Definition grid_index (g : grid) (x : Z) : Z := Z.shiftr (x - g_min g) (g_power g).
(** [split/grid_layout.rs:175-178] *)
Definition grid_pos (g : grid) (i : Z) : Z := Z.shiftl i (g_power g) + g_min g.
(** [split/grid_layout.rs:200-213] *)
Definition with_min_max (mn mx max_power : Z) : option grid :=
  let dx := mx - mn in
  if dx <? 4 then None
  else let log := Z.log2 dx in
       Some (Grid mn mx (if log >? max_power then log - max_power else 1)).
(** [split/grid_layout.rs:180-198] *)
Definition grid_new (xs : list xseg) (count : nat) : option grid :=
  match xs with
  | [] => None
  | s0 :: _ =>
      with_min_max (px (sa s0)) (fold_left (fun m s => Z.max (px (sb s)) m) xs (px (sb s0)))
                   (Z.shiftr (Z.log2 (Z.of_nat count)) 1)
  end.

(** [split/grid_layout.rs:104-137], the loop over the columns [i0 .. i1-1] ([n] of them),
    and the last fragment.  The loop at 107-110 increments [h_max] from [h_min] while
    [h_max * width < height * w]; its result is written in closed form. *)
Section Columns.
  Variables (index : nat) (s : xseg) (width height p k dw : Z) (is_inc : bool).
  Fixpoint frag_cols (n : nat) (i w prev_x prev_y : Z) : list (Z * fragment) :=
    match n with
    | O => [(i, Frg index (if is_inc then Rect prev_x (px (sb s)) prev_y (py (sb s))
                           else Rect prev_x (px (sb s)) (py (sb s)) prev_y) s)]
    | S n' =>
        let h_min := Z.shiftr (w * k) p in
        let h_max := Z.max h_min (- ((- (height * w)) / width)) in
        let max_x := px (sa s) + w in
        let '(r, prev_y') :=
          if is_inc then (Rect prev_x max_x prev_y (py (sa s) + h_max), py (sa s) + h_min)
          else (Rect prev_x max_x (py (sa s) - h_max) prev_y, py (sa s) - h_min) in
        (i, Frg index r s) :: frag_cols n' (i + 1) (w + dw) max_x prev_y'
    end.
  (** [split/grid_layout.rs:140-159] [add_horizontal] *)
  Fixpoint frag_horizontal (g : grid) (n : nat) (i x0 : Z) : list (Z * fragment) :=
    let y := py (sa s) in
    match n with
    | O => [(i, Frg index (Rect x0 (px (sb s)) y y) s)]
    | S n' => let x := grid_pos g (i + 1) in
              (i, Frg index (Rect x0 x y y) s) :: frag_horizontal g n' (i + 1) x
    end.
End Columns.

(** [split/grid_layout.rs:75-138] [add_segment]: the fragments of a segment with their columns *)
Definition add_segment (g : grid) (index : nat) (s : xseg) : list (Z * fragment) :=
  let i0 := grid_index g (px (sa s)) in
  if py (sa s) =? py (sb s) then
    frag_horizontal index s g (Z.to_nat (grid_index g (px (sb s) - 1) - i0)) i0 (px (sa s))
  else if px (sa s) =? px (sb s) then [(i0, with_index_and_segment index s)]
  else
    let i1 := grid_index g (px (sb s) - 1) in
    if i1 <=? i0 then [(i0, with_index_and_segment index s)]
    else
      let width := px (sb s) - px (sa s) in
      let height := Z.abs (py (sb s) - py (sa s)) in
      let p := 63 - Z.log2 (width * height) in
      let k := Z.shiftl height p / width in
      frag_cols index s width height p k (Z.shiftl 1 (g_power g)) (py (sa s) <=? py (sb s))
                (Z.to_nat (i1 - i0)) i0 (grid_pos g (i0 + 1) - px (sa s)) (px (sa s)) (py (sa s)).

(** all fragments of a column, in the order of insertion *)
Definition column (l : list (Z * fragment)) (i : Z) : list fragment :=
  map snd (filter (fun f => fst f =? i) l).

(** [split/grid_layout.rs:52-63] [insert_vertical]: the vertical segments on the left border of column [i] *)
Definition on_border (g : grid) (l : list (Z * fragment)) (i : Z) : list fragment :=
  filter (fun f => (px (sa (f_seg f)) =? px (sb (f_seg f))) && (0 <? i) && (px (sa (f_seg f)) =? grid_pos g i))
         (column l i).

(** a cast to i32 *)
Definition wrap32 (z : Z) : Z := (z + 2 ^ 31) mod 2 ^ 32 - 2 ^ 31.

(** [split/solver_fragment.rs:192-246] [cross_fragments] *)
Definition cross_fragments (fi fj : fragment) (radius : Z) : list mark * bool :=
  match cross (f_seg fi) (f_seg fj) radius with
  | None => ([], false)
  | Some c =>
      let r := wrap32 radius in
      match c_type c with
      | Overlay =>
          let '(ta, tb, oa, ob) := collinear (f_seg fi) (f_seg fj) in
          if negb (ta || tb || oa || ob) then ([], false)
          else if negb (contains_with_radius (f_rect fi) (sa (f_seg fi)) r || contains_with_radius (f_rect fj) (sa (f_seg fi)) r)
          then ([], false)
          else ((if ta then [(f_index fj, sa (f_seg fi))] else []) ++ (if tb then [(f_index fj, sb (f_seg fi))] else []) ++
                (if oa then [(f_index fi, sa (f_seg fj))] else []) ++ (if ob then [(f_index fi, sb (f_seg fj))] else []),
                c_round c)
      | ty =>
          if negb (contains_with_radius (f_rect fi) (c_point c) r) || negb (contains_with_radius (f_rect fj) (c_point c) r)
          then ([], false)
          else (match ty with
                | Pure => [(f_index fi, c_point c); (f_index fj, c_point c)]
                | TargetEnd => [(f_index fj, c_point c)]
                | _ => [(f_index fi, c_point c)]
                end, c_round c)
      end
  end.

(** [split/solver_fragment.rs:130-159] [bin_split]; the unstable sort is modelled by a stable one *)
Fixpoint bin_row (radius : Z) (fi : fragment) (l : list fragment) : list mark * bool :=
  match l with
  | [] => ([], false)
  | fj :: r =>
      if r_max_y (f_rect fi) <? r_min_y (f_rect fj) then ([], false)
      else if negb (is_intersect_border_include (f_rect fi) (f_rect fj)) then bin_row radius fi r
      else let '(ms, rd) := if xseg_ltb (f_seg fi) (f_seg fj) then cross_fragments fi fj radius
                            else cross_fragments fj fi radius in
           let '(ms', rd') := bin_row radius fi r in
           (ms ++ ms', rd || rd')
  end.
Fixpoint bin_rows (radius : Z) (l : list fragment) : list mark * bool :=
  match l with
  | [] => ([], false)
  | fi :: r => let '(ms, rd) := bin_row radius fi r in
               let '(ms', rd') := bin_rows radius r in
               (ms ++ ms', rd || rd')
  end.
Definition bin_split (radius : Z) (l : list fragment) : list mark * bool :=
  bin_rows radius (isort (fun a b => r_min_y (f_rect a) <=? r_min_y (f_rect b)) l).

(** [split/solver_fragment.rs:161-190] [on_border_split] for one border *)
Fixpoint drop_le (y : Z) (ps : list pt) : list pt :=
  match ps with [] => [] | p :: r => if py p <=? y then drop_le y r else ps end.
Fixpoint take_lt (y : Z) (ps : list pt) : list pt :=
  match ps with [] => [] | p :: r => if py p <? y then p :: take_lt y r else [] end.
Fixpoint border_marks (ps : list pt) (vs : list fragment) : list mark :=
  match vs with
  | [] => []
  | v :: r => let ps' := drop_le (y_min (f_seg v)) ps in
              map (fun p => (f_index v, p)) (take_lt (y_max (f_seg v)) ps') ++ border_marks ps' r
  end.
Definition on_border_split (border_x : Z) (fragments vs : list fragment) : list mark :=
  border_marks (isort (fun p q => py p <=? py q)
                  (map (fun f => sb (f_seg f)) (filter (fun f => px (sb (f_seg f)) =? border_x) fragments)))
               (isort (fun a b => y_min (f_seg a) <=? y_min (f_seg b)) vs).

Definition columns (g : grid) : list Z := map Z.of_nat (seq 0 (S (Z.to_nat (grid_index g (g_max g))))).

(** [split/solver_fragment.rs:26-42] and [:70-78] (serial) or [:81-128] (parallel: the same
    marks, column by column): one round over all columns *)
Definition frag_pass (g : grid) (radius : Z) (xs : list xseg) : list mark * bool :=
  let l := flat_map (fun ix => add_segment g (fst ix) (snd ix)) (enum xs) in
  let res := map (fun i => bin_split radius (column l i)) (columns g) in
  (flat_map fst res ++
   flat_map (fun i => on_border_split (grid_pos g i) (column l i) (on_border g l i)) (columns g),
   existsb snd res).

Section Frag.
  Context {C : Type} {WC : WindingCount C}.
  Variable layout_new : Z -> Z -> nat -> option (Z -> nat).
  Variable query : list (nat * xseg) -> Z * Z -> Z -> list (nat * xseg).
  Variable tree_new : Z * Z -> bool.

  (** [split/solver_fragment.rs:24-57] *)
  Fixpoint frag_loop (fuel : nat) (g : grid) (r : SnapRadius) (segs : list (segment C)) : outcome :=
    match fuel with
    | O => Fuel
    | S fuel' =>
        if (length segs <=? 2)%nat then Done segs
        else
          let '(ms, need_to_fix) := frag_pass g (sr_radius r) (map sx segs) in
          match ms with
          | [] => Done segs
          | _ =>
              match apply layout_new ms segs with
              | None => Panic
              | Some segs' =>
                  if negb need_to_fix then Done segs' else frag_loop fuel' g (sr_increment r) segs'
              end
          end
    end.

  (** [split/solver_tree.rs:25-35] entering the tree solver *)
  Definition tree_split (fuel : nat) (solver : Solver) (r : SnapRadius) (segs : list (segment C)) : outcome :=
    match segs with
    | [] => Panic
    | _ => split_loop layout_new query tree_new fuel solver (tree_new (ver_range segs)) r segs
    end.

  (** [split/solver_fragment.rs:11-16] *)
  Definition fragment_split (fuel : nat) (solver : Solver) (r : SnapRadius) (segs : list (segment C)) : outcome :=
    match grid_new (map sx segs) (length segs) with
    | None => tree_split fuel solver r segs
    | Some g => frag_loop fuel g r segs
    end.

  (** [core/solver.rs:141] *)
  Definition MIN_FRAGMENT_COUNT : N := 16000%N.
  (** [core/solver.rs:172-174] *)
  Definition is_fragmentation_required (s : Solver) (n : nat) : bool :=
    (MIN_FRAGMENT_COUNT <? N.of_nat n)%N || match strategy s with StFrag => true | _ => false end.

  (** [split/solver.rs:38-53] [split] *)
  Definition solver_split (fuel : nat) (solver : Solver) (segs : list (segment C)) : outcome :=
    if is_list_split solver (length segs) then split_loop layout_new query tree_new fuel solver false (snap_radius solver) segs
    else if is_fragmentation_required solver (length segs) then fragment_split fuel solver (snap_radius solver) segs
    else tree_split fuel solver (snap_radius solver) segs.

  (** [split/solver.rs:17-26] [split_segments] *)
  Definition split_segments (fuel : nat) (solver : Solver) (segs : list (segment C)) : outcome :=
    solver_split fuel solver (sort_merge segs).
End Frag.
