(** * Model of [split/cross_solver.rs] and [split/solver.rs] [cross]. *)
From Verif Require Export Base.
Open Scope Z_scope.

(** ** Machine words *)
Definition W64 : Z := 2 ^ 64.

(** Rust [u64 << n] and [u64 >> n] for n < 64; [<<] drops the high bits silently. *)
Definition shl64 (x n : Z) : Z := (x * 2 ^ n) mod W64.
Definition shr64 (x n : Z) : Z := x / 2 ^ n.

(** [i_float::u128::UInt128]: two u64 words (external crate, by contract). *)
Record u128 := U128 { u_high : Z; u_low : Z }.
(** [UInt128::multiply] *)
Definition u128_mul (a b : Z) : u128 := U128 (a * b / W64) (a * b mod W64).

(** [u64::leading_zeros] of a non-zero word *)
Definition leading_zeros (x : Z) : Z := 63 - Z.log2 x.

(** [split/cross_solver.rs:327-336]: one round of the restoring division. *)
Definition div_step (d : Z) (st : Z * Z * Z) : Z * Z * Z :=
  let '(hi, lo, quo) := st in
  let bit := negb (Z.land hi (2 ^ 63) =? 0) in
  let hi := Z.lor (shl64 hi 1) (shr64 lo 63) in
  let lo := shl64 lo 1 in
  let quo := shl64 quo 1 in
  if (d <=? hi) || bit then ((hi - d) mod W64, lo, Z.lor quo 1) else (hi, lo, quo).

(** [split/cross_solver.rs:308-345] [divide_with_rounding] *)
Definition divide_with_rounding (n : u128) (divisor : Z) : Z :=
  if u_high n =? 0 then
    let result := u_low n / divisor in
    let remainder := u_low n - result * divisor in
    if (divisor + 1) / 2 <=? remainder then result + 1 else result
  else
    let dn := leading_zeros divisor in
    let norm_divisor := shl64 divisor dn in
    let hi := Z.lor (shl64 (u_high n) dn) (shr64 (u_low n) (64 - dn)) in
    let lo := shl64 (u_low n) dn in
    let '(hi, lo, quotient) := Nat.iter 64 (div_step norm_divisor) (hi, lo, 0) in
    let remainder := Z.lor (shl64 hi (64 - dn)) (shr64 lo dn) in
    if (divisor + 1) / 2 <=? remainder then quotient + 1 else quotient.

(** [split/cross_solver.rs:211-300] [cross_point]; Rust [/] truncates towards zero
    ([Z.quot]).  Integers are unbounded here; [cross_point_chk] below is the version
    with overflow detection. *)
Definition cross_point (target other : xseg) : pt :=
  let a0x := px (sa target) in
  let a0y := py (sa target) in
  let a1x := px (sb target) - a0x in
  let b0x := px (sa other) - a0x in
  let b1x := px (sb other) - a0x in
  let a1y := py (sb target) - a0y in
  let b0y := py (sa other) - a0y in
  let b1y := py (sb other) - a0y in
  let dy_b := b0y - b1y in
  let dx_b := b0x - b1x in
  let xy_b := b0x * b1y - b0y * b1x in
  let '(x0, y0) :=
    if a1x =? 0 then (0, Z.quot xy_b dx_b)
    else if a1y =? 0 then (Z.quot (- xy_b) dy_b, 0)
    else
      let div := a1y * dx_b - a1x * dy_b in
      let s := Z.sgn div * Z.sgn xy_b in
      let sx := Z.sgn a1x * s in
      let sy := Z.sgn a1y * s in
      let uxy_b := Z.abs xy_b in
      let udiv := Z.abs div in
      let kx := u128_mul (Z.abs a1x) uxy_b in
      let ky := u128_mul (Z.abs a1y) uxy_b in
      let ux := divide_with_rounding kx udiv in
      let uy := divide_with_rounding ky udiv in
      (sx * ux, sy * uy) in
  Pt (x0 + a0x) (y0 + a0y).

(** ** The same function with every operation checked against its machine type:
    [None] is an overflow (or a division by zero / a shift by 64). *)
Definition chk (lo hi x : Z) : option Z := if (lo <=? x) && (x <? hi) then Some x else None.
Definition ci64 := chk (- 2 ^ 63) (2 ^ 63).
Definition cu64 := chk 0 W64.
Definition ci32 := chk (- 2 ^ 31) (2 ^ 31).
Notation "x <-? e ; k" := (match e with Some x => k | None => None end)
  (at level 60, e at level 50, k at level 60, right associativity).

(** [split/cross_solver.rs:308-345] with checks: divisor non-zero, [divisor + 1],
    [result * divisor], [result + 1], shift counts below 64, quotient + 1. *)
Definition divide_with_rounding_chk (n : u128) (divisor : Z) : option Z :=
  if divisor =? 0 then None else
  d1 <-? cu64 (divisor + 1);
  if u_high n =? 0 then
    m <-? cu64 (u_low n / divisor * divisor);
    r <-? cu64 (u_low n - m);
    cu64 (divide_with_rounding n divisor)
  else
    dn <-? chk 1 64 (leading_zeros divisor);
    cu64 (divide_with_rounding n divisor).

Definition cross_point_chk (target other : xseg) : option pt :=
  let a0x := px (sa target) in
  let a0y := py (sa target) in
  a1x <-? ci64 (px (sb target) - a0x);
  b0x <-? ci64 (px (sa other) - a0x);
  b1x <-? ci64 (px (sb other) - a0x);
  a1y <-? ci64 (py (sb target) - a0y);
  b0y <-? ci64 (py (sa other) - a0y);
  b1y <-? ci64 (py (sb other) - a0y);
  dy_b <-? ci64 (b0y - b1y);
  dx_b <-? ci64 (b0x - b1x);
  m1 <-? ci64 (b0x * b1y);
  m2 <-? ci64 (b0y * b1x);
  xy_b <-? ci64 (m1 - m2);
  xy0 <-? (
    if a1x =? 0 then
      if dx_b =? 0 then None else y0 <-? ci64 (Z.quot xy_b dx_b); Some (0, y0)
    else if a1y =? 0 then
      nxy <-? ci64 (- xy_b);
      if dy_b =? 0 then None else x0 <-? ci64 (Z.quot nxy dy_b); Some (x0, 0)
    else
      n1 <-? ci64 (a1y * dx_b);
      n2 <-? ci64 (a1x * dy_b);
      div <-? ci64 (n1 - n2);
      let s := Z.sgn div * Z.sgn xy_b in
      let sx := Z.sgn a1x * s in
      let sy := Z.sgn a1y * s in
      uxy_b <-? cu64 (Z.abs xy_b);
      udiv <-? cu64 (Z.abs div);
      uax <-? cu64 (Z.abs a1x);
      uay <-? cu64 (Z.abs a1y);
      ux <-? divide_with_rounding_chk (u128_mul uax uxy_b) udiv;
      uy <-? divide_with_rounding_chk (u128_mul uay uxy_b) udiv;
      ix <-? ci64 ux;
      iy <-? ci64 uy;
      x0 <-? ci64 (sx * ix);
      y0 <-? ci64 (sy * iy);
      Some (x0, y0));
  x <-? ci64 (fst xy0 + a0x);
  y <-? ci64 (snd xy0 + a0y);
  x32 <-? ci32 x;
  y32 <-? ci32 y;
  Some (Pt x32 y32).

(** ** Crossing classification *)
(** [split/cross_solver.rs:62-67] *)
Inductive CrossType := Pure | TargetEnd | OtherEnd | Overlay.
(** [split/cross_solver.rs:56-60] *)
Record CrossResult := CRes { c_point : pt; c_type : CrossType; c_round : bool }.

(** [split/cross_solver.rs:149-197] [middle_cross] *)
Definition middle_cross (target other : xseg) (radius : Z) : CrossResult :=
  let p := cross_point target other in
  if is_line_point (sa target) p (sb target) && is_line_point (sa other) p (sb other)
  then CRes p Pure false
  else
    let ra0 := sqr_dist (sa target) p in
    let rb0 := sqr_dist (sb target) p in
    let ra1 := sqr_dist (sa other) p in
    let rb1 := sqr_dist (sb other) p in
    if (ra0 <=? radius) || (ra1 <=? radius) || (rb0 <=? radius) || (rb1 <=? radius) then
      let r0 := Z.min ra0 rb0 in
      let r1 := Z.min ra1 rb1 in
      if r0 <=? r1 then
        let p' := if ra0 <? rb0 then sa target else sb target in
        if is_not_line_point (sa other) p' (sb other) then CRes p' TargetEnd true
        else CRes p Pure true
      else
        let p' := if ra1 <? rb1 then sa other else sb other in
        if is_not_line_point (sa target) p' (sb target) then CRes p' OtherEnd true
        else CRes p Pure true
    else CRes p Pure true.

(** [split/cross_solver.rs:73-124] [cross]; [1 & (x + 1)] for x in -1,0,1 is [x == 0]. *)
Definition cross (target other : xseg) (radius : Z) : option CrossResult :=
  let a0b0a1 := clock_direction (sa target) (sb target) (sa other) in
  let a0b0b1 := clock_direction (sa target) (sb target) (sb other) in
  let a1b1a0 := clock_direction (sa other) (sb other) (sa target) in
  let a1b1b0 := clock_direction (sa other) (sb other) (sb target) in
  let s := Z.land 1 (a0b0a1 + 1) + Z.land 1 (a0b0b1 + 1) + Z.land 1 (a1b1a0 + 1) + Z.land 1 (a1b1b0 + 1) in
  if s =? 4 then Some (CRes (Pt 0 0) Overlay false)
  else
    let is_not_cross := (a0b0a1 =? a0b0b1) || (a1b1a0 =? a1b1b0) in
    if (1 <? s) || is_not_cross then None
    else if negb (s =? 0) then
      if a0b0a1 =? 0 then Some (CRes (sa other) OtherEnd false)
      else if a0b0b1 =? 0 then Some (CRes (sb other) OtherEnd false)
      else if a1b1a0 =? 0 then Some (CRes (sa target) TargetEnd false)
      else Some (CRes (sb target) TargetEnd false)
    else Some (middle_cross target other radius).

Definition dot3 (p o v0 v1 : pt) : Z :=      (* (p - o) . (v1 - v0) *)
  (px p - px o) * (px v1 - px v0) + (py p - py o) * (py v1 - py v0).

(** [split/cross_solver.rs:126-147] [collinear]: target_a, target_b, other_a, other_b. *)
Definition collinear (target other : xseg) : bool * bool * bool * bool :=
  let a0 := sa target in let b0 := sb target in
  let a1 := sa other in let b1 := sb other in
  let aa0 := Z.sgn (dot3 a0 a1 a1 b1) in
  let ab0 := Z.sgn (dot3 a0 b1 a1 b1) in
  let ba0 := Z.sgn (dot3 b0 a1 a1 b1) in
  let bb0 := Z.sgn (dot3 b0 b1 a1 b1) in
  let aa1 := - aa0 in
  let ab1 := - ba0 in
  let ba1 := - ab0 in
  let bb1 := - bb0 in
  ((aa0 =? - ab0) && negb (aa0 =? 0), (ba0 =? - bb0) && negb (ba0 =? 0),
   (aa1 =? - ab1) && negb (aa1 =? 0), (ba1 =? - bb1) && negb (ba1 =? 0)).

(** ** Marks.  [split/line_mark.rs:4-8] *)
Definition mark := (nat * pt)%type.

(** [split/solver.rs:55-94] [SplitSolver::cross]: the marks pushed and [is_round]. *)
Definition cross_marks (i j : nat) (ei ej : xseg) (radius : Z) : list mark * bool :=
  match cross ei ej radius with
  | None => ([], false)
  | Some c =>
      match c_type c with
      | Pure => ([(i, c_point c); (j, c_point c)], c_round c)
      | TargetEnd => ([(j, c_point c)], c_round c)
      | OtherEnd => ([(i, c_point c)], c_round c)
      | Overlay =>
          let '(ta, tb, oa, ob) := collinear ei ej in
          ((if ta then [(j, sa ei)] else []) ++ (if tb then [(j, sb ei)] else []) ++
           (if oa then [(i, sa ej)] else []) ++ (if ob then [(i, sb ej)] else []),
           c_round c && (ta || tb || oa || ob))
      end
  end.
