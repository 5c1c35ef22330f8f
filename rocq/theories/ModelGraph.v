(** * Model of [core/graph.rs] and [core/node.rs]: nodes of the overlay graph. *)
From Verif Require Export ModelFilter.
Open Scope nat_scope.

(** [core/node.rs:1-5] *)
Inductive node := Bridge (i j : nat) | Cross (l : list nat).
(** [core/node.rs:7-16] *)
Definition node_new (l : list nat) : node := match l with [i; j] => Bridge i j | _ => Cross l end.
(** the links registered at a node *)
Definition node_links (n : node) : list nat := match n with Bridge i j => [i; j] | Cross l => l end.

(** [core/graph.rs:20-24] *)
Record graph := Graph { g_nodes : list node; g_links : list link }.

(** write access to one element of a vector; writing out of bounds changes nothing
    (proved not to happen) *)
Fixpoint upd {A} (i : nat) (f : A -> A) (l : list A) : list A :=
  match l, i with
  | [], _ => []
  | x :: r, O => f x :: r
  | x :: r, S j => x :: upd j f r
  end.
Definition set_aid (id : nat) (l : link) : link := Lk id (l_a l) (l_bid l) (l_b l) (l_fill l).
Definition set_bid (id : nat) (l : link) : link := Lk (l_aid l) (l_a l) id (l_b l) (l_fill l).

(** [core/graph.rs:107-126] [size]: the run of equal points at the head: its indices and the rest.
    The element at the head has the given point by construction. *)
Fixpoint run_of (p : pt) (l : list (nat * pt)) : list nat * list (nat * pt) :=
  match l with
  | (i, q) :: r => if pt_eqb q p then let '(g, rest) := run_of p r in (i :: g, rest) else ([], l)
  | [] => ([], [])
  end.
Definition head_run (p : pt) (l : list (nat * pt)) : list nat * list (nat * pt) :=
  match l with
  | [] => ([], [])
  | (i, _) :: r => let '(g, rest) := run_of p r in (i :: g, rest)
  end.
Definition head_point (l : list (nat * pt)) (d : pt) : pt := match l with (_, p) :: _ => p | [] => d end.

(** [core/graph.rs:54-97], the loop.  [la]: links whose start is not yet assigned, [lb]:
    ends not yet assigned; [next_a_cnt > 0] iff [la] is not empty.  [a], [b] keep their old
    value when a list is exhausted. *)
Fixpoint build_loop (fuel : nat) (a b : pt) (la lb : list (nat * pt)) (links : list link) (nodes : list node)
  : option (list node * list link) :=
  match fuel with
  | O => None
  | S fuel' =>
      match la, lb with
      | [], [] => Some (nodes, links)
      | _, _ =>
          let '(ta, tb) :=
            if pt_eqb a b then (true, true)
            else if (match la with [] => false | _ => true end) && pt_ltb a b then (true, false)
            else (false, true) in
          let id := length nodes in
          let '(ga, la') := if ta then head_run a la else ([], la) in
          let '(gb, lb') := if tb then head_run b lb else ([], lb) in
          build_loop fuel' (if ta then head_point la' a else a) (if tb then head_point lb' b else b) la' lb'
            (fold_left (fun ls i => upd i (set_bid id) ls) gb (fold_left (fun ls i => upd i (set_aid id) ls) ga links))
            (nodes ++ [node_new (ga ++ gb)])
      end
  end.

(** [core/graph.rs:34-100] [build_nodes_and_connect_links].  [ends] is the vector [end_bs]
    after sorting; the sort is unstable, so the theorems hold for every sorted permutation. *)
Definition build_graph (links : list link) (ends : list (nat * pt)) : option (list node * list link) :=
  match links with
  | [] => Some ([], [])
  | l0 :: _ =>
      let la := enum (map l_a links) in
      build_loop (S (length la + length ends)) (l_a l0) (head_point ends (l_b l0)) la ends links []
  end.
(** the ends in one possible order *)
Definition sorted_ends (links : list link) : list (nat * pt) :=
  isort (fun e f => pt_leb (snd e) (snd f)) (enum (map l_b links)).
Definition ends_ok (links : list link) (ends : list (nat * pt)) : Prop :=
  Permutation ends (enum (map l_b links)) /\
  StronglySorted (fun e f => pt_leb (snd e) (snd f) = true) ends.

(** [core/graph.rs:28-32] [OverlayGraph::new] *)
Definition graph_new (links : list link) (ends : list (nat * pt)) : option graph :=
  match build_graph links ends with
  | Some (nodes, links') => Some (Graph nodes links')
  | None => None
  end.
