(** * Model of core/src/algorithm/topo_sort.rs, shortest_path.rs and
      longest_path.rs *)
From Coq Require Import List NArith ZArith Bool Arith.
From Verif Require Import Base Graph Path Queue.
Import ListNotations.

(** ** core/src/algorithm/topo_sort.rs *)

(** topo_sort.rs l.71-73 [is_start_vertex] *)
Definition is_start_vertex (g : graph) (v : N) : bool :=
  Nat.eqb (length (inbound_edges g v)) 0.
(** topo_sort.rs l.63-68 [find_start_vertices] *)
Definition find_start_vertices (g : graph) : list N :=
  filter (is_start_vertex g) (vertices g).

(** [HashSet::insert] on the set [removed_edges] (topo_sort.rs l.39, l.46); a set is the list
    of its members. *)
Definition hs_insert (e : edge) (l : list edge) : list edge :=
  if memE e l then l else l ++ [e].

(** topo_sort.rs l.45-52: the loop over the children of a vertex.  [q] is the linked list
    [start_vertices], [rm] the set [removed_edges]. *)
Fixpoint topo_children (g : graph) (children : list edge) (q : list N) (rm : list edge)
  : list N * list edge :=
  match children with
  | [] => (q, rm)
  | e :: t =>
    let rm' := hs_insert e rm in
    if forallb (fun x => memE x rm') (inbound_edges g (snd e))
    then topo_children g t (q ++ [snd e]) rm'
    else topo_children g t q rm'
  end.

(** topo_sort.rs l.41-53: the [while let] loop, one fuel unit per popped vertex. *)
Fixpoint topo_loop (g : graph) (fuel : nat) (q : list N) (rm : list edge) (res : list N)
  : outcome (list N * list edge) :=
  match fuel with
  | O => OutOfFuel
  | S n =>
    match q with
    | [] => Done (res, rm)
    | start :: q' =>
      let children := filter (fun x => negb (memE x rm)) (outbound_edges g start) in
      let (q2, rm2) := topo_children g children q' rm in
      topo_loop g n q2 rm2 (res ++ [start])
    end
  end.

(** topo_sort.rs l.35-60 *)
Definition topological_sort (g : graph) (fuel : nat) : outcome (option (list N)) :=
  obind (topo_loop g fuel (find_start_vertices g) [] [])
    (fun r => let (res, rm) := r in
       Done (if negb (Nat.eqb (length rm) (edge_count g)) then None else Some res)).

(** topo_sort.rs l.20-22 *)
Definition is_dag (g : graph) (fuel : nat) : outcome bool :=
  obind (topological_sort g fuel)
    (fun r => Done (match r with Some _ => true | None => false end)).

(** topo_sort.rs l.9-17, l.25-31: a [DAG] is the graph it wraps. *)
Definition try_dag (g : graph) (fuel : nat) : outcome (option graph) :=
  obind (is_dag g fuel) (fun b => Done (if b then Some g else None)).

(** ** i64 arithmetic
    Built with overflow checks, as cargo does for the dev and test profiles:
    leaving the range is a panic. shortest_path.rs l.44, l.79. *)
Definition i64_min : Z := (- 2 ^ 63)%Z.
(** [i64::MAX]; shortest_path.rs l.156 *)
Definition i64_max : Z := (2 ^ 63 - 1)%Z.
(** The range of i64. shortest_path.rs l.44, l.79. *)
Definition i64_ok (z : Z) : bool := (i64_min <=? z)%Z && (z <=? i64_max)%Z.
(** An i64 operation with overflow check, as in every sum of shortest_path.rs.
    shortest_path.rs l.44, l.79, longest_path.rs l.28, l.34. *)
Definition i64 (z : Z) : outcome Z := if i64_ok z then Done z else Panic.

(** ** core/src/algorithm/shortest_path.rs *)

(** The map [HashMap<VertexId, ScoredPath>], shortest_path.rs l.24. *)
Definition scores := list (N * scored).
(** [scores.get]; shortest_path.rs l.41, l.78, l.122 *)
Definition sc_get (v : N) (m : scores) : option scored := hm_get N.eqb v m.
(** [scores.insert]; shortest_path.rs l.32, l.49, l.81, l.125 *)
Definition sc_put (v : N) (s : scored) (m : scores) : scores := hm_insert N.eqb v s m.

(** shortest_path.rs l.137-149 *)
Definition scored_path_of_one (v : N) (score : Z) : scored :=
  {| sp_path := path_from [v]; sp_score := score |}.
(** shortest_path.rs l.144-149 *)
Definition scored_path_of (p : path) (score : Z) : scored :=
  {| sp_path := p; sp_score := score |}.

(** shortest_path.rs l.152-157 *)
Definition current_score_of_vertex (m : scores) (v : N) : Z :=
  match sc_get v m with Some sp => sp_score sp | None => i64_max end.

(** A loop whose body may panic. shortest_path.rs l.34-56, l.74-85. *)
Fixpoint ofold {A S} (f : S -> A -> outcome S) (l : list A) (s : S) : outcome S :=
  match l with
  | [] => Done s
  | a :: t => obind (f s a) (ofold f t)
  end.

(** shortest_path.rs l.38-55: body of the inner [for_each].  The check on [w e] itself is for
    longest_path.rs l.28, where the closure computes [-1 * scorefn(e)]. *)
Definition dag_relax (w : edge -> Z) (v : N) (m : scores) (e : edge) : outcome scores :=
  match sc_get v m with
  | None => Panic (* shortest_path.rs l.42 expect *)
  | Some sp =>
    obind (i64 (w e)) (fun weight => obind (i64 (sp_score sp + weight)) (fun new_score =>
      match sc_get (snd e) m with
      | Some cur =>
        Done (if (new_score <? sp_score cur)%Z
              then sc_put (snd e) (scored_path_of (path_append (sp_path sp) (snd e)) new_score) m
              else m)
      | None => Done (sc_put (snd e) (scored_path_of (path_append (sp_path sp) (snd e)) new_score) m)
      end))
  end.

(** shortest_path.rs l.36 [Iterator::skip_while] *)
Fixpoint skip_while {A} (f : A -> bool) (l : list A) : list A :=
  match l with
  | [] => []
  | a :: t => if f a then skip_while f t else l
  end.

(** shortest_path.rs l.34-56 *)
Definition dag_visit (g : graph) (w : edge -> Z) (order : list N) (m : scores) : outcome scores :=
  ofold (fun m v => ofold (dag_relax w v) (outbound_edges g v) m) order m.

(** shortest_path.rs l.24-58; l.30 [expect] panics when there is no order. *)
Definition dag_shortest_paths (dag : graph) (w : edge -> Z) (start : N) (fuel : nat)
  : outcome scores :=
  obind (topological_sort dag fuel) (fun r =>
    match r with
    | None => Panic
    | Some order =>
      dag_visit dag w (skip_while (fun v => negb (N.eqb v start)) order)
        (sc_put start (scored_path_of_one start 0) [])
    end).

(** shortest_path.rs l.11-21 *)
Definition dag_shortest_path (dag : graph) (w : edge -> Z) (start end_ : N) (fuel : nat)
  : outcome (option scored) :=
  obind (dag_shortest_paths dag w start fuel) (fun m => Done (sc_get end_ m)).

(** shortest_path.rs l.76-83: one edge of Bellman-Ford; the third component says whether the
    entry was improved.  The two evaluations of [*score + weight] are one. *)
Definition relax (w : edge -> Z) (m : scores) (e : edge) : outcome (scores * bool) :=
  match sc_get (fst e) m with
  | None => Done (m, false)
  | Some sp =>
    obind (i64 (sp_score sp + w e)) (fun new_score =>
      Done (if (new_score <? current_score_of_vertex m (snd e))%Z
            then (sc_put (snd e) (scored_path_of (path_append (sp_path sp) (snd e)) new_score) m, true)
            else (m, false)))
  end.

(** shortest_path.rs l.75-84 *)
Definition bf_pass (g : graph) (w : edge -> Z) (m : scores) : outcome scores :=
  ofold (fun m e => obind (relax w m e) (fun r => Done (fst r))) (edges g) m.
(** shortest_path.rs l.74-85 *)
Fixpoint bf_passes (g : graph) (w : edge -> Z) (n : nat) (m : scores) : outcome scores :=
  match n with
  | O => Done m
  | S n => obind (bf_pass g w m) (bf_passes g w n)
  end.
(** shortest_path.rs l.90-98: true when some edge can still be improved. *)
Fixpoint bf_check (w : edge -> Z) (es : list edge) (m : scores) : outcome bool :=
  match es with
  | [] => Done false
  | e :: t => obind (relax w m e) (fun r => if snd r then Done true else bf_check w t m)
  end.
(** shortest_path.rs l.63-102 *)
Definition bellman_ford (g : graph) (w : edge -> Z) (start : N) : outcome (option scores) :=
  obind (bf_passes g w (vertex_count g - 1) (sc_put start (scored_path_of_one start 0) []))
    (fun m => obind (bf_check w (edges g) m)
       (fun b => Done (if b then None else Some m))).

(** shortest_path.rs l.119-129 *)
Definition spfa_edge (w : edge -> Z) (s : scores * list N) (e : edge) : outcome (scores * list N) :=
  obind (relax w (fst s) e) (fun r =>
    Done (if snd r then (fst r, snd s ++ [snd e]) else (fst r, snd s))).
(** shortest_path.rs l.118-130: FIFO queue, one fuel unit per popped vertex. *)
Fixpoint spfa_loop (g : graph) (w : edge -> Z) (fuel : nat) (s : scores * list N) : outcome scores :=
  match fuel with
  | O => OutOfFuel
  | S n =>
    match snd s with
    | [] => Done (fst s)
    | v :: q => obind (ofold (spfa_edge w) (outbound_edges g v) (fst s, q)) (spfa_loop g w n)
    end
  end.
(** shortest_path.rs l.107-133 *)
Definition spfa (g : graph) (w : edge -> Z) (start : N) (fuel : nat) : outcome scores :=
  spfa_loop g w fuel (sc_put start (scored_path_of_one start 0) [], [start]).

(** ** core/src/algorithm/longest_path.rs *)

(** longest_path.rs l.32-37; [-1 * score] can overflow too. *)
Fixpoint negate_scores (m : scores) : outcome scores :=
  match m with
  | [] => Done []
  | (v, sp) :: t =>
    obind (i64 (-1 * sp_score sp)) (fun s =>
    obind (negate_scores t) (fun t' => Done ((v, scored_path_of (sp_path sp) s) :: t')))
  end.
(** longest_path.rs l.24-30 *)
Definition dag_longest_paths (dag : graph) (w : edge -> Z) (start : N) (fuel : nat)
  : outcome scores :=
  obind (dag_shortest_paths dag (fun e => -1 * w e)%Z start fuel) negate_scores.
(** longest_path.rs l.10-20 *)
Definition dag_longest_path (dag : graph) (w : edge -> Z) (start end_ : N) (fuel : nat)
  : outcome (option scored) :=
  obind (dag_longest_paths dag w start fuel) (fun m => Done (sc_get end_ m)).
