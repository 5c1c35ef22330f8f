(** * Model of [string/split.rs]: splitting a closed path in its repeated vertices. *)
From Verif Require Export ModelExtract.
Open Scope Z_scope.

(** [HashMap<IntPoint, usize>] as an association list, latest entry first *)
Fixpoint hm_get (p : pt) (m : list (pt * nat)) : option nat :=
  match m with [] => None | (q, i) :: r => if pt_eqb q p then Some i else hm_get p r end.

(** [string/split.rs:47-57] [validate_area] *)
Definition validate_area (min_area : Z) (c : list pt) : bool :=
  if min_area =? 0 then true else Z.shiftr (Z.abs (area2 c)) 1 <? min_area.

(** [string/split.rs:18-36] the loop over the points; the state is the open path, the map and
    [result].  [None]: the position found is beyond the end of the path, so that [path.len() - pos]
    overflows (debug) or [split_off] panics (release). *)
Fixpoint split_go (min_area : Z) (l path : list pt) (m : list (pt * nat)) (result : list (list pt)) : option (list pt * list (list pt)) :=
  match l with
  | [] => Some (path, result)
  | p :: r =>
      match hm_get p m with
      | Some pos =>
          if (length path <? pos)%nat then None
          else if (length path - pos <? 2)%nat then split_go min_area r (firstn pos path) m result
          else let tail := skipn pos path ++ [p] in
               split_go min_area r (firstn pos path) m (if validate_area min_area tail then result ++ [tail] else result)
      | None => split_go min_area r (path ++ [p]) ((p, S (length path)) :: m) result
      end
  end.

(** [string/split.rs:12-42] [split_loops] *)
Definition split_loops (min_area : Z) (l : list pt) : option (list (list pt)) :=
  match split_go min_area l [] [] [] with
  | None => None
  | Some (path, result) => Some (if (2 <? length path)%nat then result ++ [path] else result)
  end.
