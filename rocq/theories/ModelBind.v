(** * Model of [bind/segment.rs], [bind/solver.rs] and the shape assembly of
    [core/extract.rs:52-127]: which outer contour a hole is attached to. *)
From Verif Require Import ModelFill.
From Verif Require Export ModelExtract.
Open Scope Z_scope.

(** [bind/segment.rs:7-42] [ContourIndex] (hole flag and index; [EMPTY] is [None] below) and [IdSegment] *)
Record idseg := IdS { id_hole : bool; id_ix : nat; id_seg : xseg }.
Definition owner := (bool * nat)%type.

(** [bind/segment.rs:80-101] [inner] of [IdSegments for IntPath]: [b] the previous point, [a] the next one *)
Fixpoint id_segments (hole : bool) (ix : nat) (x_min x_max : Z) (first b : pt) (l : list pt) : list idseg :=
  let put a := if (px a <? px b) && (x_min <? px b) && (px a <=? x_max) then [IdS hole ix (XS a b)] else [] in
  match l with
  | [] => put first
  | a :: r => put a ++ id_segments hole ix x_min x_max first a r
  end.
(** [bind/segment.rs:73-109] [append_id_segments]; [None]: [iter.next().unwrap()] of an empty contour *)
Definition append_id_segments (c : list pt) (hole : bool) (ix : nat) (x_min x_max : Z) (clockwise : bool) : option (list idseg) :=
  match (if clockwise then c else rev c) with
  | [] => None
  | p :: r => Some (id_segments hole ix x_min x_max p p r)
  end.

(** [geom/v_segment.rs:34-46] *)
Definition is_under_segment (s o : xseg) : bool :=
  match pt_cmp (sa s) (sa o) with
  | Lt => is_clockwise (sa s) (sa o) (sb s)
  | Eq => is_clockwise (sa s) (sb o) (sb s)
  | Gt => is_clockwise (sa o) (sb o) (sa s)
  end.
(** [geom/v_segment.rs:48-56] [0.cmp(&cross)] *)
Definition cmp_by_angle (s o : xseg) : comparison :=
  0 ?= (px (sb s) - px (sa s)) * (py (sb o) - py (sa o)) - (py (sb s) - py (sa s)) * (px (sb o) - px (sa o)).
(** [bind/solver.rs:235-242] *)
Definition cmp_by_a_then_by_angle (s o : idseg) : comparison :=
  match pt_cmp (sa (id_seg s)) (sa (id_seg o)) with Eq => cmp_by_angle (id_seg s) (id_seg o) | c => c end.
Definition a_angle_leb (s o : idseg) : bool := match cmp_by_a_then_by_angle s o with Gt => false | _ => true end.
Definition angle_only_leb (s o : idseg) : bool := match cmp_by_angle (id_seg s) (id_seg o) with Gt => false | _ => true end.
Definition a_leb (s o : idseg) : bool := pt_leb (sa (id_seg s)) (sa (id_seg o)).

(** [bind/solver.rs:205-224] [left_bottom_segment]: index and value of the first smallest point *)
Fixpoint min_point (i : nat) (l : list pt) (ix : nat) (a : pt) : nat * pt :=
  match l with
  | [] => (ix, a)
  | p :: r => if pt_ltb p a then min_point (S i) r i p else min_point (S i) r ix a
  end.
Definition left_bottom_segment (c : list pt) : option xseg :=
  match c with
  | [] => None
  | f :: r =>
      let '(ix, a) := min_point 1 r 0 f in
      let n := length c in
      match nth_error c ((ix + 1) mod n), nth_error c ((ix + n - 1) mod n) with
      | Some b0, Some b1 => Some (if is_under_segment (XS a b0) (XS a b1) then XS a b0 else XS a b1)
      | _, _ => None
      end
  end.

(** [bind/solver.rs:253-272] [add_sort_by_angle]: runs of equal starts, each stably sorted by angle *)
Fixpoint runs (l : list idseg) : list (list idseg) :=
  match l with
  | [] => []
  | s :: r =>
      match runs r with
      | (t :: g) :: gs => if pt_eqb (sa (id_seg s)) (sa (id_seg t)) then (s :: t :: g) :: gs else [s] :: (t :: g) :: gs
      | gs => [s] :: gs
      end
  end.
Definition add_sort_by_angle (l : list idseg) : list idseg := concat (map (isort angle_only_leb) (runs l)).

(** i_tree [first_less]: value of the last entry below the key *)
Fixpoint find_lt (k : xseg) (d : option owner) (s : list (xseg * owner)) : option owner :=
  match s with
  | [] => d
  | (k', v) :: r => match vseg_cmp k' k with Lt => find_lt k (Some v) r | _ => d end
  end.

(** [bind/solver.rs:74-86], the inner [while]: rest of the segments, new scan list *)
Fixpoint feed (anchor : idseg) (segs : list idseg) (scan : list (xseg * owner)) : list idseg * list (xseg * owner) :=
  match segs with
  | [] => ([], scan)
  | s :: r =>
      match cmp_by_a_then_by_angle s anchor with
      | Gt => (segs, scan)
      | _ =>
          let p := sa (id_seg anchor) in
          feed anchor r (if px p <? px (sb (id_seg s)) then scan_insert (id_seg s) (id_hole s, id_ix s) (expire (px p) scan) else scan)
      end
  end.

(** [bind/solver.rs:71-99], the loop over the anchors.  [parents] holds [None] for [usize::MAX].
    Result [None]: an index is out of bounds (panic). *)
Fixpoint bind_loop (shape_count : nat) (anchors : list idseg) (segs : list idseg) (scan : list (xseg * owner))
    (parents : list (option nat)) : option (list (option nat)) :=
  match anchors with
  | [] => Some parents
  | anchor :: rest =>
      let '(segs', scan') := feed anchor segs scan in
      let scan'' := expire (px (sa (id_seg anchor))) scan' in
      match find_lt (id_seg anchor) None scan'' with
      | None => None  (* EMPTY.is_hole(), its index is out of bounds *)
      | Some (hole, ix) =>
          match (if hole then nth_error parents ix else Some (Some ix)) with
          | Some (Some parent) =>
              if (parent <? shape_count)%nat && (id_ix anchor <? length parents)%nat
              then bind_loop shape_count rest segs' scan'' (upd (id_ix anchor) (fun _ => Some parent) parents)
              else None
          | _ => None
          end
      end
  end.
(** [bind/solver.rs:48-105] [private_solve], [bind]; [dbg]: [cfg(debug_assertions)].  Both containers of [bind] have the same contract. *)
Definition bind (dbg : bool) (shape_count : nat) (anchors segs : list idseg) : option (list (option nat)) :=
  bind_loop shape_count anchors segs [] (repeat (if dbg then None else Some O) (length anchors)).

(** [self[shape_index].push(hole)] *)
Fixpoint push_holes {X} (parents : list (option nat)) (holes : list X) (shapes : list (list X)) : option (list (list X)) :=
  match holes, parents with
  | [], _ => Some shapes
  | h :: hs, Some s :: ps => if (s <? length shapes)%nat then push_holes ps hs (upd s (fun sh => sh ++ [h]) shapes) else None
  | _, _ => None
  end.

Fixpoint all_some {A} (l : list (option A)) : option (list A) :=
  match l with
  | [] => Some []
  | None :: _ => None
  | Some x :: r => option_map (cons x) (all_some r)
  end.
Definition id_of_contours (hole : bool) (x_min x_max : Z) (clockwise : bool) (cs : list (list pt)) : option (list idseg) :=
  option_map (@concat idseg) (all_some (map (fun ic => append_id_segments (snd ic) hole (fst ic) x_min x_max clockwise) (enum cs))).

(** [bind/solver.rs:172-198] [scan_join]; the shapes are still single contours here.
    [smart_bin_sort_by] is a sort: among equal segments the order is not specified. *)
Definition scan_join (dbg : bool) (shapes : list (list (list pt))) (holes : list (list pt)) (anchors : list idseg) (clockwise : bool)
    : option (list (list (list pt))) :=
  match anchors, all_some (map (@hd_error (list pt)) shapes) with
  | first :: _, Some outers =>
      let x_min := px (sa (id_seg first)) in
      let x_max := px (sa (id_seg (last anchors first))) in
      match id_of_contours false x_min x_max clockwise outers, id_of_contours true x_min x_max clockwise holes with
      | Some s1, Some s2 =>
          match bind dbg (length shapes) anchors (isort a_angle_leb (s1 ++ s2)) with
          | None => None
          | Some parents => push_holes parents holes shapes
          end
      | _, _ => None
      end
  | _, _ => None
  end.

(** [bind/solver.rs:226-231] *)
Fixpoint is_sorted_a (l : list idseg) : bool :=
  match l with
  | s :: ((t :: _) as r) => pt_leb (sa (id_seg s)) (sa (id_seg t)) && is_sorted_a r
  | _ => true
  end.

(** [bind/solver.rs:147-170] [join_sorted_holes] *)
Definition join_sorted_holes (dbg : bool) (shapes : list (list (list pt))) (holes : list (list pt)) (anchors : list idseg) (clockwise : bool)
    : option (list (list (list pt))) :=
  match shapes, holes with
  | [], _ | _, [] => Some shapes
  | [s], _ => Some [s ++ holes]
  | _, _ => if dbg && negb (is_sorted_a anchors) then None
            else scan_join dbg shapes holes (add_sort_by_angle anchors) clockwise
  end.

(** [bind/solver.rs:120-145] [join_unsorted_holes] *)
Definition join_unsorted_holes (dbg : bool) (shapes : list (list (list pt))) (holes : list (list pt)) (clockwise : bool)
    : option (list (list (list pt))) :=
  match shapes, holes with
  | [], _ | _, [] => Some shapes
  | [s], _ => Some [s ++ holes]
  | _, _ =>
      match all_some (map (fun ih => option_map (IdS true (fst ih)) (left_bottom_segment (snd ih))) (enum holes)) with
      | None => None
      | Some hs => scan_join dbg shapes holes (isort a_angle_leb hs) clockwise
      end
  end.

Definition xseg_eqb (s t : xseg) : bool := pt_eqb (sa s) (sa t) && pt_eqb (sb s) (sb t).

(** [core/extract.rs:91-113]: the anchor of a hole and whether it was changed *)
Definition anchor_of (dbg clockwise : bool) (p : piece) : option (xseg * bool) :=
  let c := p_contour p in
  match (if clockwise then (nth_error c 1, nth_error c 2) else (nth_error c 0, nth_error c (length c - 1))) with
  | (Some a, Some b) =>
      let v := XS a b in
      match left_bottom_segment c with
      | None => None
      | Some ml =>
          if p_mod p then if xseg_eqb ml v then Some (v, false) else Some (ml, true)
          else if dbg && negb (xseg_eqb v ml) then None else Some (v, false)
      end
  | _ => None
  end.
(** anchors of the valid holes in order; [ix] = [holes.len()] *)
Fixpoint anchors_of (dbg clockwise : bool) (ix : nat) (ps : list piece) : option (list idseg * bool) :=
  match ps with
  | [] => Some ([], true)
  | p :: r =>
      if p_valid p && p_hole p then
        match anchor_of dbg clockwise p, anchors_of dbg clockwise (S ix) r with
        | Some (v, ch), Some (l, srt) => Some (IdS true ix v :: l, negb ch && srt)
        | _, _ => None
        end
      else anchors_of dbg clockwise ix r
  end.

(** [core/extract.rs:52-127] [extract] *)
Definition extract_shapes (dbg : bool) (g : graph) (clean : bool -> list pt -> list pt * bool)
    (r : OverlayRule) (clockwise simplify : bool) (min_area : Z) (vis : list bool) : option (list (list (list pt))) :=
  match extract_pieces g clean r clockwise simplify min_area vis with
  | None => None
  | Some ps =>
      match anchors_of dbg clockwise 0 ps with
      | None => None
      | Some (anchors, srt) =>
          let anchors := if srt then anchors else isort a_leb anchors in
          join_sorted_holes dbg (map (fun c => [c]) (outer_contours ps)) (hole_contours ps) anchors clockwise
      end
  end.
