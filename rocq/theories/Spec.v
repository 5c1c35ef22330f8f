(** * Specification vocabulary.

    Everything here is plain mathematics about integer segments and rational points
    of the plane; nothing refers to the algorithms of the library.  The property
    theorems are stated with these notions. *)
From Coq Require Export QArith Qabs.
From Verif Require Export Base.
Open Scope Z_scope.

(** ** The rational plane. *)
Definition qpt : Type := (Q * Q)%type.
Definition qx (p : pt) : Q := inject_Z (px p).
Definition qy (p : pt) : Q := inject_Z (py p).

Definition Qltb (x y : Q) : bool := negb (Qle_bool y x).

(** y-coordinate of the line through a non-vertical segment at abscissa [x]. *)
Definition height (s : xseg) (x : Q) : Q :=
  (qy (sa s) + (qy (sb s) - qy (sa s)) / (qx (sb s) - qx (sa s)) * (x - qx (sa s)))%Q.

(** The vertical line at [x] meets the half-open x-range of the segment. *)
Definition spans (s : xseg) (x : Q) : bool := Qle_bool (qx (sa s)) x && Qltb x (qx (sb s)).

(** The downward vertical ray from [q] crosses the segment. *)
Definition under (s : xseg) (q : qpt) : bool :=
  spans s (fst q) && Qltb (height s (fst q)) (snd q).

(** A 1-chain: segments with integer multiplicities ([+1]: traversed from [sa] to [sb]). *)
Definition chain := list (xseg * Z).

(** Winding number of a chain around a point (crossing count of the downward ray). *)
Definition wind (c : chain) (q : qpt) : Z :=
  zsum (fun e => if under (fst e) q then snd e else 0) c.

(** Net multiplicity entering the vertex [v]. *)
Definition boundary (c : chain) (v : pt) : Z :=
  zsum (fun e => snd e * (bz (pt_eqb (sb (fst e)) v) - bz (pt_eqb (sa (fst e)) v))) c.

(** Closed chain: what enters a vertex also leaves it. *)
Definition balanced (c : chain) : Prop := forall v, boundary c v = 0.

(** ** Closed polygons given by their vertex list. *)
Definition edges (path : list pt) : list (pt * pt) :=
  match path with
  | [] => []
  | p :: r => combine (p :: r) (r ++ [p])
  end.

Definition edge_wind (q : qpt) (e : pt * pt) : Z :=
  if under (XS (fst e) (snd e)) q then 1
  else if under (XS (snd e) (fst e)) q then -1 else 0.

(** Winding number of a closed polygon around a point: counter-clockwise is positive. *)
Definition contour_wind (path : list pt) (q : qpt) : Z := zsum (edge_wind q) (edges path).
Definition contours_wind (paths : list (list pt)) (q : qpt) : Z :=
  zsum (fun path => contour_wind path q) paths.

(** ** Points on segments, planarity. *)
Definition on_seg (s : xseg) (q : qpt) : Prop :=
  exists t : Q, (0 <= t <= 1)%Q /\
    (fst q == qx (sa s) + t * (qx (sb s) - qx (sa s)))%Q /\
    (snd q == qy (sa s) + t * (qy (sb s) - qy (sa s)))%Q.

Definition q_is (q : qpt) (p : pt) : Prop := (fst q == qx p)%Q /\ (snd q == qy p)%Q.
Definition is_end (s : xseg) (q : qpt) : Prop := q_is q (sa s) \/ q_is q (sb s).

(** Strictly inside the segment. *)
Definition inside_seg (s : xseg) (q : qpt) : Prop := on_seg s q /\ ~ is_end s q.

(** Two different segments meet only in points that are ends of both. *)
Definition planar (l : list xseg) : Prop :=
  forall s t, In s l -> In t l -> s <> t ->
    forall q, on_seg s q -> on_seg t q -> is_end s q /\ is_end t q.

(** "for all sufficiently small positive d". *)
Definition near (P : Q -> Prop) : Prop :=
  exists e : Q, (0 < e)%Q /\ forall d, (0 < d < e)%Q -> P d.

(** ** Fill rules and boolean operations (public enums [core/fill_rule.rs:8-13],
    [core/overlay_rule.rs:14-22]) with their textbook meaning. *)
Inductive FillRule := EvenOdd | NonZero | Positive | Negative.

Definition inside (r : FillRule) (w : Z) : bool :=
  match r with
  | EvenOdd => Z.odd w
  | NonZero => negb (w =? 0)
  | Positive => 0 <? w
  | Negative => w <? 0
  end.

Inductive OverlayRule := RSubject | RClip | RIntersect | RUnion | RDifference | RInverseDifference | RXor.

Definition bool_op (r : OverlayRule) (subj clip : bool) : bool :=
  match r with
  | RSubject => subj
  | RClip => clip
  | RIntersect => subj && clip
  | RUnion => subj || clip
  | RDifference => subj && negb clip
  | RInverseDifference => clip && negb subj
  | RXor => xorb subj clip
  end.

(** Which operand a contour belongs to ([core/overlay.rs:26-30]). *)
Inductive ShapeType := Subject | Clip.
