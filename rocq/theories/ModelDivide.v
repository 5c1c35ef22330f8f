(** * Model of [core/divide.rs]: [decompose_contours]. *)
From Verif Require Export ModelLoops.
Open Scope nat_scope.

Notation idpt := (nat * pt)%type.
(** the comparison in [core/divide.rs:45] *)
Definition by_point_leb (a b : idpt) : bool :=
  match pt_cmp (snd a) (snd b) with Lt => true | Gt => false | Eq => fst a <=? fst b end.
Definition by_id_leb (a b : idpt) : bool := fst a <=? fst b.

(** [core/divide.rs:47-62]: [run] is [id_points[i - n - 1 .. i]], the current group of equal points;
    a group is appended when the next point differs, so the last group never is *)
Fixpoint anchors_go (p0 : pt) (run : list idpt) (l : list idpt) : list idpt :=
  match l with
  | [] => []
  | e :: r =>
      if pt_eqb p0 (snd e) then anchors_go p0 (run ++ [e]) r
      else (if 1 <? length run then run else []) ++ anchors_go (snd e) [e] r
  end.
Definition anchors_of_contour (c : list pt) : list idpt :=
  match isort by_point_leb (enum c) with
  | [] => []
  | e :: r => isort by_id_leb (anchors_go (snd e) [e] r)
  end.

(** [core/divide.rs:6-10] *)
Record sub_path := SubPath { sp_last : nat; sp_node : pt; sp_path : list pt }.
(** [core/divide.rs:13-19] *)
Definition sp_start (a : idpt) : sub_path := SubPath (S (fst a)) (snd a) [snd a].
(** [&source[i..j]]; [None]: out of range *)
Definition slice (l : list pt) (i j : nat) : option (list pt) :=
  if (i <=? j) && (j <=? length l) then Some (firstn (j - i) (skipn i l)) else None.
(** [core/divide.rs:21-24] *)
Definition sp_join (s : sub_path) (a : idpt) (source : list pt) : option sub_path :=
  match slice source (sp_last s) (fst a) with
  | Some l => Some (SubPath (fst a) (sp_node s) (sp_path s ++ l))
  | None => None
  end.
(** [core/divide.rs:26-28] *)
Definition sp_shift (s : sub_path) (a : idpt) : sub_path := SubPath (fst a) (sp_node s) (sp_path s).

(** [core/divide.rs:75-101]; the queue with its last element first *)
Fixpoint divide_loop (source : list pt) (anchors : list idpt) (queue : list sub_path) (contours : list (list pt))
    : option (list sub_path * list (list pt)) :=
  match anchors with
  | [] => Some (queue, contours)
  | a :: r =>
      match queue with
      | [] => divide_loop source r [sp_start a] contours
      | s :: rest =>
          match sp_join s a source with
          | None => None
          | Some s' =>
              if pt_eqb (sp_node s) (snd a)
              then divide_loop source r (match rest with prev :: q => sp_shift prev a :: q | [] => [sp_start a] end) (contours ++ [sp_path s'])
              else divide_loop source r (sp_start a :: s' :: rest) contours
          end
      end
  end.

(** [core/divide.rs:36-117]; outer [None]: panic *)
Definition decompose_contours (c : list pt) : option (option (list (list pt))) :=
  if length c <? 3 then Some None
  else match anchors_of_contour c with
       | [] => Some None
       | (a0 :: _) as anchors =>
           match divide_loop c anchors [] [] with
           | Some (s :: _, contours) =>
               let p1 := if sp_last s <? length c then sp_path s ++ skipn (sp_last s) c else sp_path s in
               let p2 := if 0 <? fst a0 then p1 ++ firstn (fst a0) c else p1 in
               Some (Some (contours ++ [p2]))
           | _ => None
           end
       end.
