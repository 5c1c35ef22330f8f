(** * Model of the segment generation of [mesh/outline/*] and [mesh/stroke/*] (offsets of contours and
    strokes of paths), up to the call of [offset_graph_with_solver]. *)
From Verif Require Export ModelSegm.
From Coq Require Export QArith.
Open Scope Z_scope.

(** [mesh/boolean.rs:19-23] [OffsetCountBoolean] *)
Record cntO := CO { osubj : Z; obold : bool }.
(** [mesh/boolean.rs:56-91] *)
#[export] Instance WC_O : WindingCount cntO := {
  wc_not_empty c := negb (osubj c =? 0);
  wc_new s _ := CO s true;
  wc_with_shape t := match t with Subject => (CO 1 true, CO (-1) true) | Clip => (CO 0 true, CO 0 true) end;
  wc_add a b := CO (osubj a + osubj b) (obold a || obold b);
  wc_invert c := CO (- osubj c) (obold c) }.

(** [mesh/subject.rs:9-21] and [:24-36] *)
Definition bold_ab (p0 p1 : pt) : segment cntO := if pt_ltb p0 p1 then Seg (XS p0 p1) (CO 1 true) else Seg (XS p1 p0) (CO (-1) true).
Definition weak_ab (p0 p1 : pt) : segment cntO := if pt_ltb p0 p1 then Seg (XS p0 p1) (CO 1 false) else Seg (XS p1 p0) (CO (-1) false).

(** Floating point: the number type of the caller ([FloatNumber]), [f64], the point type of the
    caller ([FloatPointCompatible]) and the operations on them that the code calls.  There are no laws:
    whatever is proved holds for every rounding, for NaN, for any implementation of the point
    type, of the operations of [i_float] ([FloatPointMath]) and of [FloatPointAdapter::float_to_int]. *)
Record FloatOps := FO {
  num : Type; f64 : Type; fp : Type;
  n_add : num -> num -> num; n_sub : num -> num -> num; n_mul : num -> num -> num; n_div : num -> num -> num;
  n_neg : num -> num; n_abs : num -> num;
  n_lt : num -> num -> bool;  n_le : num -> num -> bool;
  to_f64 : num -> f64; from_f64 : f64 -> num;
  d_lit : Q -> f64; d_pi : f64; d_add : f64 -> f64 -> f64; d_mul : f64 -> f64 -> f64; d_div : f64 -> f64 -> f64; d_neg : f64 -> f64;
  d_max : f64 -> f64 -> f64; d_min : f64 -> f64 -> f64; d_clamp : f64 -> f64 -> f64 -> f64; d_abs : f64 -> f64;
  d_cos : f64 -> f64; d_sin : f64 -> f64; d_tan : f64 -> f64; d_acos : f64 -> f64; d_sqrt : f64 -> f64; d_round : f64 -> f64;
  d_usize : f64 -> nat;   (* as usize *)
  d_of_nat : nat -> f64;  (* as f64 *)
  f_xy : num -> num -> fp; f_x : fp -> num; f_y : fp -> num;
  p_add : fp -> fp -> fp; p_sub : fp -> fp -> fp; p_scale : fp -> num -> fp; p_norm : fp -> fp;
  p_cross : fp -> fp -> num; p_dot : fp -> fp -> num }.

Section Mesh.
  Variable F : FloatOps.
  Notation num := (num F). Notation fp := (fp F). Notation f64 := (f64 F).
  (** [adapter.float_to_int] *)
  Variable to_int : fp -> pt.

  Definition lit (q : Q) : num := from_f64 F (d_lit F q).

  (** [mesh/math.rs:10-14], [:16-20] *)
  Definition normal (a b : fp) : fp := p_norm F (p_sub F a b).
  Definition ortho_and_scale (p : fp) (s : num) : fp := p_scale F (f_xy F (n_neg F (f_y F p)) (f_x F p)) s.

  (** [mesh/rotator.rs:4-48] *)
  Record rotator := Rot { r_ax : num; r_ay : num; r_bx : num; r_by : num }.
  Definition rot_new (cs sn : num) : rotator := Rot cs sn (n_neg F sn) cs.
  Definition rot_angle (angle : f64) : rotator := rot_new (from_f64 F (d_cos F angle)) (from_f64 F (d_sin F angle)).
  Definition rot_vector (v : fp) : rotator := rot_new (f_x F v) (f_y F v).
  Definition rotate (r : rotator) (v : fp) : fp :=
    f_xy F (n_add F (n_mul F (r_ax r) (f_x F v)) (n_mul F (r_bx r) (f_y F v))) (n_add F (n_mul F (r_ay r) (f_x F v)) (n_mul F (r_by r) (f_y F v))).

  (** [mesh/style.rs:7-32] [LineCap], [LineJoin], and [:55-80] [normalize] *)
  Inductive line_cap := Butt | RoundCap (angle : num) | Square | Custom (points : list fp).
  Inductive line_join := Bevel | MiterJoin (angle : num) | RoundJoin (angle : num).
  Definition clamp_pi (a : num) (lo hi : Q) : num := from_f64 F (d_clamp F (to_f64 F a) (d_mul F (d_lit F lo) (d_pi F)) (d_mul F (d_lit F hi) (d_pi F))).
  Definition cap_normalize (c : line_cap) : line_cap :=
    match c with RoundCap angle => RoundCap (clamp_pi angle (1 # 100) (25 # 100)) | _ => c end.
  Definition join_normalize (j : line_join) : line_join :=
    match j with
    | MiterJoin a => MiterJoin (clamp_pi a (1 # 100) (99 # 100))
    | RoundJoin a => RoundJoin (clamp_pi a (1 # 100) (25 # 100))
    | Bevel => Bevel
    end.

  (** [mesh/miter.rs:8-60] [Miter::sharp] *)
  Inductive sharp_miter := Degenerate | AB (a b : pt) | AcB (a c b : pt).
  Definition sharp (pa pb va vb : fp) : sharp_miter :=
    let ia := to_int pa in
    let ib := to_int pb in
    if pt_eqb ia ib then Degenerate
    else
      let xx := n_add F (f_x F va) (f_x F vb) in
      let yy := n_add F (f_y F va) (f_y F vb) in
      let k := if n_lt F (n_abs F yy) (n_abs F xx) then n_div F (n_sub F (f_x F pb) (f_x F pa)) xx
               else n_div F (n_sub F (f_y F pb) (f_y F pa)) yy in
      let x := n_add F (f_x F pa) (n_mul F k (f_x F va)) in
      let y := n_add F (f_y F pa) (n_mul F k (f_y F va)) in
      let ic := to_int (f_xy F x y) in
      if pt_eqb ia ic || pt_eqb ib ic then AB ia ib else AcB ia ic ib.

  (** [path.iter().enumerate().skip(index)] of [next_unique_point], [mesh/outline/builder.rs:129-139] =
      [mesh/stroke/builder.rs:211-220]; [None] stands for [usize::MAX].  [path[start]] is never out of range. *)
  Fixpoint find_from (a : pt) (index j : nat) (path : list fp) : option nat :=
    match path with
    | [] => None
    | p :: r => if (j <? index)%nat then find_from a index (S j) r
                else if pt_eqb a (to_int p) then find_from a index (S j) r else Some j
    end.
  Definition next_unique_point (start index : nat) (path : list fp) : option nat :=
    match nth_error path start with None => None | Some p => find_from (to_int p) index 0 path end.

  (** the limits [if sq_len < 4] of the outline miter: [ia.sqr_distance(ib)] in i64 *)
  Definition sqr_distance (a b : pt) : Z := (px a - px b) * (px a - px b) + (py a - py b) * (py a - py b).

  (** ** Outline: [mesh/outline/*] *)
  (** [mesh/outline/section.rs:10-35] *)
  Record osection := OS { os_b : fp; os_atop : fp; os_btop : fp; os_dir : fp }.
  Definition osection_new (radius : num) (a b : fp) : osection :=
    let dir := normal b a in
    let t := ortho_and_scale dir radius in
    OS b (p_add F a t) (p_add F b t) dir.
  (** [mesh/outline/section.rs:42-46] [add_section] *)
  Definition o_add_section (s : osection) : list (segment cntO) := [bold_ab (to_int (os_atop s)) (to_int (os_btop s))].
  (** [mesh/outline/builder_join.rs:28-49] [join_weak], [add_weak_segment] *)
  Definition join_weak (s0 s1 : osection) : list (segment cntO) :=
    let ia := to_int (os_btop s0) in
    let ib := to_int (os_atop s1) in
    if pt_eqb ia ib then [] else [weak_ab ia ib].
  Definition push_ne (a b : pt) : list (segment cntO) := if pt_eqb a b then [] else [bold_ab a b].

  (** [mesh/outline/builder_join.rs:85-108] [MiterJoinBuilder::new] without [max_offset], which only
      widens the bounding box ([tan] and [r / tan] as in the code) *)
  Record omiter := OM { om_limit : num; om_expand : bool; om_len : num }.
  Definition omiter_new (angle radius : num) : omiter :=
    let fixed := d_max F (to_f64 F angle) (d_lit F (1 # 100)) in
    let tan := d_tan F (d_mul F (d_lit F (1 # 2)) fixed) in
    let l := d_div F (d_abs F (to_f64 F radius)) tan in
    OM (n_neg F (from_f64 F (d_cos F fixed))) (n_le F (lit 0) radius) (from_f64 F l).
  (** [mesh/outline/builder_join.rs:111-173] *)
  Definition omiter_join (m : omiter) (s0 s1 : osection) : list (segment cntO) :=
    let turn := n_le F (lit 0) (p_cross F (os_dir s0) (os_dir s1)) in
    if Bool.eqb turn (om_expand m) then join_weak s0 s1
    else
      let pa := os_btop s0 in
      let pb := os_atop s1 in
      let ia := to_int pa in
      let ib := to_int pb in
      if sqr_distance ia ib <? 4 then join_weak s0 s1
      else if n_lt F (p_dot F (os_dir s0) (os_dir s1)) (om_limit m) then
        let ac := f_xy F (n_add F (f_x F pa) (n_mul F (om_len m) (f_x F (os_dir s0)))) (n_add F (f_y F pa) (n_mul F (om_len m) (f_y F (os_dir s0)))) in
        let bc := f_xy F (n_sub F (f_x F pb) (n_mul F (om_len m) (f_x F (os_dir s1)))) (n_sub F (f_y F pb) (n_mul F (om_len m) (f_y F (os_dir s1)))) in
        let iac := to_int ac in
        let ibc := to_int bc in
        push_ne ia iac ++ push_ne iac ibc ++ push_ne ibc ib
      else
        match sharp pa pb (os_dir s0) (os_dir s1) with
        | AB a b => [bold_ab a b]
        | AcB a c b => [bold_ab a c; bold_ab c b]
        | Degenerate => []
        end.

  (** the loop of both round joins ([mesh/outline/builder_join.rs:252-264], [mesh/stroke/builder_join.rs:271-283]):
      [emit a b] is what is pushed, [k] the number of points left *)
  Fixpoint arc_loop (emit : pt -> pt -> segment cntO) (rot : rotator) (center : fp) (radius : num) (k : nat) (v : fp) (a : pt) (last : pt) : list (segment cntO) :=
    match k with
    | O => if pt_eqb a last then [] else [emit a last]
    | S k' =>
        let v' := rotate rot v in
        let b := to_int (p_add F center (p_scale F v' radius)) in
        if pt_eqb a b then arc_loop emit rot center radius k' v' a last
        else emit a b :: arc_loop emit rot center radius k' v' b last
    end.

  (** [mesh/outline/builder_join.rs:196-216] [RoundJoinBuilder::new] without [average_count] (a capacity) *)
  Record oround := ORd { or_inv : f64; or_radius : num; or_limit : num; or_expand : bool; or_rot : f64 }.
  Definition fixed_ratio (ratio : num) : f64 := d_min F (to_f64 F ratio) (d_mul F (d_lit F (1 # 4)) (d_pi F)).
  Definition oround_new (ratio radius : num) : oround :=
    let expand := n_le F (lit 0) radius in
    ORd (d_div F (d_lit F 1) (fixed_ratio ratio)) radius (from_f64 F (d_cos F (fixed_ratio ratio))) expand (d_lit F (if expand then -1 else 1)%Q).
  (** [mesh/outline/builder_join.rs:218-268] *)
  Definition oround_join (r : oround) (s0 s1 : osection) : list (segment cntO) :=
    let turn := n_le F (lit 0) (p_cross F (os_dir s0) (os_dir s1)) in
    if Bool.eqb turn (or_expand r) then join_weak s0 s1
    else
      let dot := p_dot F (os_dir s0) (os_dir s1) in
      if n_lt F (or_limit r) dot then join_weak s0 s1
      else
        let angle := d_acos F (to_f64 F dot) in
        let n := d_round F (d_mul F angle (or_inv r)) in
        let rot := rot_angle (d_mul F (or_rot r) (d_div F angle n)) in
        arc_loop bold_ab rot (os_b s0) (or_radius r) (d_usize F n - 1)
          (f_xy F (n_neg F (f_y F (os_dir s0))) (f_x F (os_dir s0))) (to_int (os_btop s0)) (to_int (os_atop s1)).

  (** [mesh/outline/builder.rs:35-57] [OutlineBuilder::new]: which joins are made *)
  Definition outline_join (radius : num) (j : line_join) : osection -> osection -> list (segment cntO) :=
    match j with
    | MiterJoin a => omiter_join (omiter_new a radius)
    | RoundJoin a => oround_join (oround_new a radius)
    | Bevel => join_weak
    end.
  (** [mesh/outline/builder.rs:100-110]: the loop; [path[i]] is in range *)
  Fixpoint outline_loop (fuel : nat) (radius : num) (join : osection -> osection -> list (segment cntO)) (path : list fp) (start s0 : osection) (i : option nat)
      : option (list (segment cntO)) :=
    match i with
    | None => Some (join s0 start)
    | Some i =>
        match fuel, nth_error path i with
        | S fuel', Some p =>
            let si := osection_new radius (os_b s0) p in
            option_map (fun r => join s0 si ++ o_add_section si ++ r)
              (outline_loop fuel' radius join path start si (next_unique_point i (S i) path))
        | _, _ => None
        end
    end.
  (** [mesh/outline/builder.rs:85-114] [Builder::build] *)
  Definition outline_build (radius : num) (join : osection -> osection -> list (segment cntO)) (path : list fp) : option (list (segment cntO)) :=
    if (length path <? 2)%nat then Some []
    else
      let i0 := (length path - 1)%nat in
      match next_unique_point i0 0 path with
      | None => Some []
      | Some i1 =>
          match nth_error path i0, nth_error path i1 with
          | Some p0, Some p1 =>
              let start := osection_new radius p0 p1 in
              option_map (fun r => o_add_section start ++ r)
                (outline_loop (length path) radius join path start start (next_unique_point i1 (S i1) path))
          | _, _ => None
          end
      end.
  Definition outline_segments (radius : num) (j : line_join) (path : list fp) : option (list (segment cntO)) :=
    outline_build radius (outline_join radius j) path.

  (** ** Stroke: [mesh/stroke/*] *)
  (** [mesh/stroke/section.rs:10-43] *)
  Record section := SC { s_a : fp; s_b : fp; s_atop : fp; s_btop : fp; s_abot : fp; s_bbot : fp; s_dir : fp }.
  Definition section_new (radius : num) (a b : fp) : section :=
    let dir := normal b a in
    let t := ortho_and_scale dir radius in
    SC a b (p_add F a t) (p_add F b t) (p_sub F a t) (p_sub F b t) dir.
  (** [mesh/stroke/section.rs:51-59] [add_section] *)
  Definition add_section (s : section) : list (segment cntO) :=
    [bold_ab (to_int (s_btop s)) (to_int (s_atop s)); bold_ab (to_int (s_abot s)) (to_int (s_bbot s))].
  (** [mesh/stroke/builder_join.rs:28-59] [join_top], [join_bot], [add_segment] *)
  Definition add_segment (a b : fp) : list (segment cntO) :=
    let ia := to_int a in
    let ib := to_int b in
    if pt_eqb ia ib then [] else [bold_ab ib ia].
  Definition join_top (s0 s1 : section) : list (segment cntO) := add_segment (s_btop s0) (s_atop s1).
  Definition join_bot (s0 s1 : section) : list (segment cntO) := add_segment (s_abot s1) (s_bbot s0).
  (** [mesh/stroke/builder_join.rs:65-74] *)
  Definition bevel_join (s0 s1 : section) : list (segment cntO) := join_top s0 s1 ++ join_bot s0 s1.

  (** [mesh/stroke/builder_join.rs:95-115] [MiterJoinBuilder::new] without [max_offset] *)
  Record miter := MB { m_limit : num; m_len : num }.
  Definition miter_new (angle radius : num) : miter :=
    let fixed := d_max F (to_f64 F angle) (d_lit F (1 # 100)) in
    let tan := d_tan F (d_mul F (d_lit F (1 # 2)) fixed) in
    MB (n_neg F (from_f64 F (d_cos F fixed))) (from_f64 F (d_div F (to_f64 F radius) tan)).
  (** [mesh/stroke/builder_join.rs:118-203] *)
  Definition miter_join (m : miter) (s0 s1 : section) : list (segment cntO) :=
    let cross := p_cross F (s_dir s0) (s_dir s1) in
    if n_lt F (n_abs F cross) (lit (1 # 10000)) then join_top s0 s1 ++ join_bot s0 s1
    else
      let turn := n_lt F (lit 0) cross in
      if n_lt F (p_dot F (s_dir s0) (s_dir s1)) (m_limit m) then
        let '(pre, pa, pb, ac, bc) :=
          if turn then
            let '(pa, pb, va, vb) := (s_abot s1, s_bbot s0, s_dir s1, s_dir s0) in
            (join_top s0 s1, pa, pb,
             f_xy F (n_sub F (f_x F pa) (n_mul F (m_len m) (f_x F va))) (n_sub F (f_y F pa) (n_mul F (m_len m) (f_y F va))),
             f_xy F (n_add F (f_x F pb) (n_mul F (m_len m) (f_x F vb))) (n_add F (f_y F pb) (n_mul F (m_len m) (f_y F vb))))
          else
            let '(pa, pb, va, vb) := (s_btop s0, s_atop s1, s_dir s0, s_dir s1) in
            (join_bot s0 s1, pa, pb,
             f_xy F (n_add F (f_x F pa) (n_mul F (m_len m) (f_x F va))) (n_add F (f_y F pa) (n_mul F (m_len m) (f_y F va))),
             f_xy F (n_sub F (f_x F pb) (n_mul F (m_len m) (f_x F vb))) (n_sub F (f_y F pb) (n_mul F (m_len m) (f_y F vb)))) in
        let ia := to_int pa in
        let ib := to_int pb in
        if pt_eqb ia ib then pre
        else
          let iac := to_int ac in
          let ibc := to_int bc in
          pre ++ push_ne iac ia ++ push_ne ibc iac ++ push_ne ib ibc
      else
        let '(pre, pa, pb, va, vb) :=
          if turn then (join_top s0 s1, s_abot s1, s_bbot s0, s_dir s1, s_dir s0)
          else (join_bot s0 s1, s_btop s0, s_atop s1, s_dir s0, s_dir s1) in
        pre ++ match sharp pa pb va vb with
               | AB a b => [bold_ab b a]
               | AcB a c b => [bold_ab c a; bold_ab b c]
               | Degenerate => []
               end.

  (** [mesh/stroke/builder_join.rs:224-235] [RoundJoinBuilder::new] without [average_count] *)
  Record sround := SRd { sr_inv : f64; sr_radius : num; sr_limit : num }.
  Definition sround_new (ratio radius : num) : sround :=
    SRd (d_div F (d_lit F 1) (fixed_ratio ratio)) radius (from_f64 F (d_cos F (fixed_ratio ratio))).
  (** [mesh/stroke/builder_join.rs:238-287] *)
  Definition sround_join (r : sround) (s0 s1 : section) : list (segment cntO) :=
    let dot := p_dot F (s_dir s0) (s_dir s1) in
    if n_lt F (sr_limit r) dot then join_top s0 s1 ++ join_bot s0 s1
    else
      let angle := d_acos F (to_f64 F dot) in
      let n := d_round F (d_mul F angle (sr_inv r)) in
      let '(pre, start, fin, dir) :=
        if n_lt F (lit 0) (p_cross F (s_dir s0) (s_dir s1)) then
          (join_top s0 s1, s_abot s1, s_bbot s0, f_xy F (f_y F (s_dir s1)) (n_neg F (f_x F (s_dir s1))))
        else (join_bot s0 s1, s_btop s0, s_atop s1, f_xy F (n_neg F (f_y F (s_dir s0))) (f_x F (s_dir s0))) in
      pre ++ arc_loop (fun a b => bold_ab b a) (rot_angle (d_neg F (d_div F angle n))) (s_b s0) (sr_radius r) (d_usize F n - 1) dir (to_int start) (to_int fin).

  (** [mesh/stroke/builder_cap.rs:22-67] [CapBuilder::new]: the points of a cap, [None] for a butt cap *)
  Fixpoint round_loop (k : nat) (rot : rotator) (v : fp) (r : num) : list fp :=
    match k with O => [] | S k' => let v' := rotate rot v in p_scale F v' r :: round_loop k' rot v' r end.
  Definition round_points (angle r : num) : list fp :=
    let n := if n_lt F (lit 0) angle then Nat.min (Nat.max (d_usize F (d_div F (d_pi F) (to_f64 F angle))) 2) 1024 else 1024%nat in
    round_loop (n - 1) (rot_angle (d_div F (d_pi F) (d_of_nat F n))) (f_xy F (lit 0) (lit (-1))) r.
  Definition square_points (r : num) : list fp := [f_xy F r (n_neg F r); f_xy F r r].
  Definition cap_points (c : line_cap) (radius : num) : option (list fp) :=
    match c with
    | Butt => None
    | RoundCap ratio => Some (round_points ratio radius)
    | Square => Some (square_points radius)
    | Custom points => Some (map (fun p => p_scale F p radius) points)
    end.
  (** the loops of [add_to_start], [add_to_end] *)
  Fixpoint cap_loop (rot : rotator) (center : fp) (points : list fp) (a : pt) (last : pt) : list (segment cntO) :=
    match points with
    | [] => [bold_ab a last]
    | p :: r => let b := to_int (p_add F (rotate rot p) center) in bold_ab a b :: cap_loop rot center r b last
    end.
  Definition opt_points (points : option (list fp)) : list fp := match points with Some l => l | None => [] end.
  (** [mesh/stroke/builder_cap.rs:69-84], [:86-100] *)
  Definition add_to_start (points : option (list fp)) (s : section) : list (segment cntO) :=
    cap_loop (rot_vector (f_xy F (n_neg F (f_x F (s_dir s))) (n_neg F (f_y F (s_dir s))))) (s_a s) (opt_points points) (to_int (s_atop s)) (to_int (s_abot s)).
  Definition add_to_end (points : option (list fp)) (s : section) : list (segment cntO) :=
    cap_loop (rot_vector (s_dir s)) (s_b s) (opt_points points) (to_int (s_bbot s)) (to_int (s_btop s)).

  (** [mesh/stroke/builder.rs:38-66] [StrokeBuilder::new] *)
  Record stroke_builder := SB { sb_radius : num; sb_join : section -> section -> list (segment cntO); sb_start : option (list fp); sb_end : option (list fp) }.
  Definition stroke_join (radius : num) (j : line_join) : section -> section -> list (segment cntO) :=
    match j with
    | MiterJoin a => miter_join (miter_new a radius)
    | RoundJoin a => sround_join (sround_new a radius)
    | Bevel => bevel_join
    end.
  Record stroke_style := SS { st_width : num; st_start : line_cap; st_end : line_cap; st_join : line_join }.
  Definition stroke_builder_new (style : stroke_style) : stroke_builder :=
    let radius := from_f64 F (d_mul F (d_lit F (1 # 2)) (d_max F (to_f64 F (st_width style)) (d_lit F 0))) in
    SB radius (stroke_join radius (join_normalize (st_join style)))
       (cap_points (cap_normalize (st_start style)) radius) (cap_points (cap_normalize (st_end style)) radius).

  (** [mesh/stroke/builder.rs:137-143]: the loop that looks for the first point that differs from [path[0]] *)
  Fixpoint first_other (ip0 : pt) (rest : list fp) : option (fp * list fp) :=
    match rest with
    | [] => None
    | p :: r => if pt_eqb (to_int p) ip0 then first_other ip0 r else Some (p, r)
    end.
  (** [mesh/stroke/builder.rs:153-171], the main loop: [ip0] is the last point used, [rest] the path from [j] on.
      After a section [j] is not advanced: the next round compares the same point with itself and skips it. *)
  Fixpoint open_loop (b : stroke_builder) (s0 : section) (ip0 : pt) (rest : list fp) : list (segment cntO) :=
    match rest with
    | [] => add_to_end (sb_end b) s0
    | p :: r =>
        if pt_eqb (to_int p) ip0 then open_loop b s0 ip0 r
        else
          let s1 := section_new (sb_radius b) (s_b s0) p in
          sb_join b s0 s1 ++ add_section s1 ++ open_loop b s1 (to_int p) r
    end.
  (** [mesh/stroke/builder.rs:133-177] [open_segments]; [path[0]] and [path[1]] panic on a short path *)
  Definition open_segments (b : stroke_builder) (path : list fp) : option (list (segment cntO)) :=
    match path with
    | p0 :: ((_ :: _) as rest) =>
        match first_other (to_int p0) rest with
        | None => Some []
        | Some (p, r) =>
            let s0 := section_new (sb_radius b) p0 p in
            Some (add_to_start (sb_start b) s0 ++ add_section s0 ++ open_loop b s0 (to_int p) r)
        end
    | _ => None
    end.
  (** [mesh/stroke/builder.rs:179-208] [closed_segments]; as [outline_build] *)
  Fixpoint closed_loop (fuel : nat) (b : stroke_builder) (path : list fp) (start s0 : section) (i : option nat) : option (list (segment cntO)) :=
    match i with
    | None => Some (sb_join b s0 start)
    | Some i =>
        match fuel, nth_error path i with
        | S fuel', Some p =>
            let si := section_new (sb_radius b) (s_b s0) p in
            option_map (fun r => sb_join b s0 si ++ add_section si ++ r)
              (closed_loop fuel' b path start si (next_unique_point i (S i) path))
        | _, _ => None
        end
    end.
  Definition closed_segments (b : stroke_builder) (path : list fp) : option (list (segment cntO)) :=
    if (length path <? 2)%nat then Some []
    else
      let i0 := (length path - 1)%nat in
      match next_unique_point i0 0 path with
      | None => Some []
      | Some i1 =>
          match nth_error path i0, nth_error path i1 with
          | Some p0, Some p1 =>
              let start := section_new (sb_radius b) p0 p1 in
              option_map (fun r => add_section start ++ r)
                (closed_loop (length path) b path start start (next_unique_point i1 (S i1) path))
          | _, _ => None
          end
      end.
  (** [mesh/stroke/builder.rs:98-110] [build] *)
  Definition stroke_build (b : stroke_builder) (closed : bool) (path : list fp) : option (list (segment cntO)) :=
    if closed then closed_segments b path else open_segments b path.
  (** [mesh/stroke/builder.rs:113-121] [capacity]: the subtractions are on usize (an overflow panics in
      a debug build, and in a release build asks for an impossible capacity, which panics too);
      [jc], [cc]: the numbers of the join and cap builders *)
  Definition stroke_capacity (jc cc paths points : nat) (closed : bool) : option nat :=
    if closed then (if (jc * points <? 2)%nat then None else Some (jc * points - 2)%nat)
    else if (points <? 1)%nat then None else Some (jc * (points - 1) + paths * cc)%nat.
  (** [mesh/stroke/offset.rs:64-102] [stroke_custom] up to the graph; the test for a small radius is not
      modelled ([to_int] is the adapter of the whole call).  [jc], [cc] as above. *)
  Fixpoint concat_opt {A} (l : list (option (list A))) : option (list A) :=
    match l with
    | [] => Some []
    | Some x :: r => option_map (app x) (concat_opt r)
    | None :: _ => None
    end.
  Definition stroke_segments (style : stroke_style) (jc cc : nat) (closed : bool) (paths : list (list fp)) : option (list (segment cntO)) :=
    match paths with
    | [] => Some []
    | _ =>
        match stroke_capacity jc cc (length paths) (length (concat paths)) closed with
        | None => None
        | Some _ => concat_opt (map (stroke_build (stroke_builder_new style) closed) paths)
        end
    end.
End Mesh.
