(** * Iterators: the shape shared by the search iterators of core/src/iter *)
From Coq Require Import List NArith ZArith Bool.
From Verif Require Import Base Graph Path Queue.
Import ListNotations.

(** Result of one call to [Iterator::next]. E.g. iter_best.rs l.27. *)
Inductive step (A S : Type) :=
| Yield (a : A) (s : S)
| Stop
| Crash.
Arguments Yield {A S} a s.
Arguments Stop {A S}.
Arguments Crash {A S}.

(** [Iterator::collect]: call [next] until it returns [None]. E.g. hamiltonian.rs l.95. *)
Fixpoint collect {A S} (next : S -> step A S) (fuel : nat) (s : S) : outcome (list A) :=
  match fuel with
  | O => OutOfFuel
  | S n => match next s with
           | Stop => Done []
           | Crash => Panic
           | Yield a s' => obind (collect next n s') (fun l => Done (a :: l))
           end
  end.

(** [Iterator::find]; a_star.rs l.31, l.60 *)
Fixpoint iter_find {A S} (pred : A -> bool) (next : S -> step A S) (fuel : nat) (s : S)
  : outcome (option A) :=
  match fuel with
  | O => OutOfFuel
  | S n => match next s with
           | Stop => Done None
           | Crash => Panic
           | Yield a s' => if pred a then Done (Some a) else iter_find pred next n s'
           end
  end.

(** ** Searches with a visited set
    Common shape of [BreadthFirstIter::next] (iter_breadth.rs l.16-35),
    [DepthFirstIter::next] (iter_depth.rs l.17-40) and [BestFirstIter::next]
    (iter_best.rs l.27-50): pop a node, push a node for each unvisited
    out-neighbour (marking it visited), yield the popped node.
    [lastv] is the vertex of a node ([None] is the [unwrap] panic of
    iter_best.rs l.31), [mk a v] the node pushed for neighbour [v] of [a]. *)
Section Visit.
  Variables (A : Type) (Q : squeue A) (g : graph).
  Variables (lastv : A -> option N) (mk : A -> N -> A).

  (** The queue and the set of visited vertices, e.g. iter_best.rs l.12-20. *)
  Definition vstate := (list N * q_car Q)%type.

  (** One neighbour, e.g. iter_best.rs l.35-45. *)
  Definition visit_edge (a : A) (st : vstate) (e : edge) : vstate :=
    let (vis, q) := st in
    let v := snd e in
    if negb (memN v vis) then (v :: vis, q_push Q q (mk a v)) else st.

  (** One call of [next], e.g. iter_best.rs l.27-49. *)
  Definition visit_next (st : vstate) : step A vstate :=
    let (vis, q) := st in
    match q_pop Q q with
    | None => Stop
    | Some (a, q') =>
      match lastv a with
      | None => Crash
      | Some vid => Yield a (fold_left (visit_edge a) (outbound_edges g vid) (vis, q'))
      end
    end.

  (** l.46-51 of iter_breadth.rs and its siblings: start node pushed and
      marked visited. *)
  Definition visit_from (a : A) (s : N) : vstate := ([s], q_push Q (q_empty Q) a).
End Visit.

(** *** iter_breadth.rs l.16-59 *)
Definition bfs_next (g : graph) := visit_next N (Queue N) g (fun v => Some v) (fun _ v => v).
(** iter_breadth.rs l.46-51 *)
Definition bfs_iter_from (s : N) := visit_from N (Queue N) s s.
(** iter_breadth.rs l.38-43 *)
Definition bfs_iter (g : graph) : vstate N (Queue N) :=
  match head_option g with
  | None => ([], q_empty (Queue N))
  | Some h => bfs_iter_from h
  end.

(** *** iter_depth.rs l.17-65 *)
Definition dfs_next (g : graph) := visit_next N (Stack N) g (fun v => Some v) (fun _ v => v).
(** iter_depth.rs l.51-56 *)
Definition dfs_iter_from (s : N) := visit_from N (Stack N) s s.
(** iter_depth.rs l.43-48 *)
Definition dfs_iter (g : graph) : vstate N (Stack N) :=
  match head_option g with
  | None => ([], q_empty (Stack N))
  | Some h => dfs_iter_from h
  end.

(** *** iter_best.rs l.12-67.  [Q] is the [MinPriorityQueue]; the score function
    is total here; Score.v has score functions that panic or wrap around. *)
Definition scored_child (f : path -> Z) (sp : scored) (v : N) : scored :=
  let p := path_append (sp_path sp) v in {| sp_path := p; sp_score := f p |}.
(** iter_best.rs l.22-50 *)
Definition best_next (Q : squeue scored) (g : graph) (f : path -> Z) :=
  visit_next scored Q g (fun sp => path_last (sp_path sp)) (scored_child f).
(** iter_best.rs l.53-67 *)
Definition best_iter_from (Q : squeue scored) (f : path -> Z) (s : N) :=
  let p := path_append path_empty s in
  visit_from scored Q {| sp_path := p; sp_score := f p |} s.

(** ** Searches without a visited set
    Common shape of [BreadthFirstPathIter::next] (iter_breadth.rs l.69-90),
    [DepthFirstPathIter::next] (iter_depth.rs l.74-99) and
    [ConstrainedBestFirstIter::next] (iter_best_constraint.rs l.22-51): pop a
    node, push its children in order, yield it.  [kids a = None] is the panic of
    the [expect]/[unwrap] on the last vertex. *)
Section Tree.
  Variables (A : Type) (Q : squeue A) (kids : A -> option (list A)).

  (** One call of [next], e.g. iter_depth.rs l.80-98. *)
  Definition tree_next (q : q_car Q) : step A (q_car Q) :=
    match q_pop Q q with
    | None => Stop
    | Some (a, q') =>
      match kids a with
      | None => Crash
      | Some l => Yield a (push_all Q l q')
      end
    end.
End Tree.

(** iter_breadth.rs l.78-88, iter_depth.rs l.86-96 *)
Definition path_kids (g : graph) (p : path) : option (list path) :=
  match path_last p with
  | None => None
  | Some vid =>
    Some (map (fun e => path_append p (snd e))
            (filter (fun e => negb (path_contains_vertex p (snd e))) (outbound_edges g vid)))
  end.

(** iter_breadth.rs l.69-105 *)
Definition bfs_path_next (g : graph) := tree_next path (Queue path) (path_kids g).
(** iter_breadth.rs l.93-97 *)
Definition bfs_path_iter_from (s : N) : list path := [path_from [s]].
(** iter_depth.rs l.74-114 *)
Definition dfs_path_next (g : graph) := tree_next path (Stack path) (path_kids g).
(** iter_depth.rs l.102-106 *)
Definition dfs_iter_path_from (s : N) : list path := [path_from [s]].

(** iter_best_constraint.rs l.53-55 *)
Definition check_all_partial (cs : list constraint) (sp : scored) : bool :=
  forallb (fun c => check_partial c sp) cs.
(** iter_best_constraint.rs l.30-47 *)
Definition constrained_kids (g : graph) (f : path -> Z) (cs : list constraint) (sp : scored)
  : option (list scored) :=
  match path_last (sp_path sp) with
  | None => None
  | Some vid =>
    Some (filter (check_all_partial cs)
            (map (fun e => scored_child f sp (snd e)) (outbound_edges g vid)))
  end.
(** iter_best_constraint.rs l.22-51 *)
Definition constrained_next (Q : squeue scored) (g : graph) (f : path -> Z) (cs : list constraint) :=
  tree_next scored Q (constrained_kids g f cs).
(** iter_best_constraint.rs l.59-73: the start path is pushed without any check. *)
Definition constrained_iter_from (Q : squeue scored) (f : path -> Z) (s : N) : q_car Q :=
  let p := path_append path_empty s in
  q_push Q (q_empty Q) {| sp_path := p; sp_score := f p |}.

(** ** core/src/search/a_star.rs *)

(** a_star.rs l.67-70.  The subtraction underflows on an empty path, which the searches
    never build; on naturals it is then 0. *)
Definition one_weighted_edge (p : path) : Z := Z.of_nat (path_size p - 1).
(** a_star.rs l.74-76 *)
Definition zero_heuristic (p : path) : Z := 0%Z.

(** a_star.rs l.15-64: the test that a path ends at the target. *)
Definition last_is (t : N) (sp : scored) : bool :=
  match path_last (sp_path sp) with Some x => N.eqb x t | None => false end.

(** a_star.rs l.15-32; [g + h] is modelled without overflow here, see Score.v. *)
Definition a_star (Q : squeue scored) (g : graph) (cost heur : path -> Z) (s t : N) (fuel : nat)
  : outcome (option scored) :=
  let f := fun p => (cost p + heur p)%Z in
  iter_find (last_is t) (best_next Q g f) fuel (best_iter_from Q f s).

(** a_star.rs l.41-64 *)
Definition constrained_shortest_path (Q : squeue scored) (g : graph) (cost heur : path -> Z)
  (s t : N) (cs : list constraint) (fuel : nat) : outcome (option scored) :=
  let f := fun p => (cost p + heur p)%Z in
  iter_find (fun sp => last_is t sp && forallb (fun c => check_complete c sp) cs)
    (constrained_next Q g f cs) fuel (constrained_iter_from Q f s).
