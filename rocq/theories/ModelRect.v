(** * Model of the working rectangle of [stroke] and [outline]: the rectangle handed to
    [FloatPointAdapter::new], which fixes the scale of the integer grid. *)
From Verif Require Export ModelMesh.

Section Rect.
  Variable F : FloatOps.
  Notation num := (num F). Notation fp := (fp F). Notation f64 := (f64 F).

  (** [FloatNumber::max], [min] (as [f32::max], [f64::max] away from NaN) *)
  Definition n_max (a b : num) : num := if n_lt F a b then b else a.
  Definition n_min (a b : num) : num := if n_lt F b a then b else a.

  (** [FloatRect] of i_float (not in /repo): [with_iter], [add_offset], [width], [height] by their documented meaning *)
  Record frect := FR { fr_minx : num; fr_maxx : num; fr_miny : num; fr_maxy : num }.
  Definition rect_grow (r : frect) (p : fp) : frect :=
    FR (n_min (fr_minx r) (f_x F p)) (n_max (fr_maxx r) (f_x F p)) (n_min (fr_miny r) (f_y F p)) (n_max (fr_maxy r) (f_y F p)).
  Definition rect_of (points : list fp) : option frect :=
    match points with
    | [] => None
    | p :: r => Some (fold_left rect_grow r (FR (f_x F p) (f_x F p) (f_y F p) (f_y F p)))
    end.
  Definition rect_zero : frect := FR (lit F 0) (lit F 0) (lit F 0) (lit F 0).
  Definition rect_add (r : frect) (a : num) : frect :=
    FR (n_sub F (fr_minx r) a) (n_add F (fr_maxx r) a) (n_sub F (fr_miny r) a) (n_add F (fr_maxy r) a).
  Definition rect_width (r : frect) : num := n_sub F (fr_maxx r) (fr_minx r).
  Definition rect_height (r : frect) : num := n_sub F (fr_maxy r) (fr_miny r).

  (** [max_offset] of both miter builders ([mesh/stroke/builder_join.rs:95-108], [mesh/outline/builder_join.rs:85-99]; [r] already without sign in the latter) *)
  Definition miter_offset (angle : num) (r : f64) : num :=
    let fixed := d_max F (to_f64 F angle) (d_lit F (1 # 100)) in
    let tan := d_tan F (d_mul F (d_lit F (1 # 2)) fixed) in
    let l := d_div F r tan in
    from_f64 F (d_mul F (d_lit F (11 # 10)) (d_sqrt F (d_add F (d_mul F r r) (d_mul F l l)))).
  (** [additional_offset] of the stroke joins, [mesh/stroke/builder_join.rs:82-85], [:211-213], [:294-297]: [built] is the
      radius of the builder, [radius] the argument *)
  Definition stroke_join_offset (built : num) (j : line_join F) (radius : num) : num :=
    match j with
    | MiterJoin _ a => miter_offset a (to_f64 F built)
    | _ => n_mul F (lit F (11 # 10)) radius
    end.
  (** [mesh/outline/builder_join.rs:68-71], [:181-183], [:275-278], through [mesh/outline/builder.rs:122-124] *)
  Definition outline_join_offset (built : num) (j : line_join F) (radius : num) : num :=
    match j with
    | MiterJoin _ a => miter_offset a (d_abs F (to_f64 F built))
    | _ => n_mul F (lit F (11 # 10)) radius
    end.
  (** [mesh/stroke/builder_cap.rs:111-121] *)
  Definition cap_offset (points : option (list fp)) : num :=
    match points with
    | Some l => match rect_of l with Some r => n_add F (rect_width r) (rect_height r) | None => lit F 0 end
    | None => lit F 0
    end.
  (** [mesh/stroke/builder.rs:124-129] *)
  Definition stroke_offset (style : stroke_style F) (radius : num) : num :=
    let built := from_f64 F (d_mul F (d_lit F (1 # 2)) (d_max F (to_f64 F (st_width F style)) (d_lit F 0))) in
    let start_cap := cap_offset (cap_points F (cap_normalize F (st_start F style)) built) in
    let end_cap := cap_offset (cap_points F (cap_normalize F (st_end F style)) built) in
    n_max (stroke_join_offset built (join_normalize F (st_join F style)) radius) (n_max start_cap end_cap).
  (** [mesh/stroke/offset.rs:82-88] *)
  Definition stroke_rect (style : stroke_style F) (paths : list (list fp)) : frect :=
    let r := from_f64 F (d_mul F (d_lit F (1 # 2)) (to_f64 F (st_width F style))) in
    let a := stroke_offset style r in
    rect_add (match rect_of (concat paths) with Some q => q | None => rect_zero end) a.
  (** [mesh/outline/offset.rs:81-98]: the outer builder has the negated offset as its radius *)
  Definition outline_rect (outer inner : num) (join : line_join F) (paths : list (list fp)) : frect :=
    let j := join_normalize F join in
    let a := n_add F (n_abs F (outline_join_offset (n_neg F outer) j outer)) (n_abs F (outline_join_offset inner j inner)) in
    rect_add (match rect_of (concat paths) with Some q => q | None => rect_zero end) a.
End Rect.
