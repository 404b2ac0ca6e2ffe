(** * Model of core/src/graph.rs, core/src/directed_graph.rs and
      core/src/graph_command.rs *)
From Coq Require Import List NArith Bool Permutation.
From Verif Require Import Base.
Import ListNotations.

Set Implicit Arguments.

(** core/src/graph.rs l.6 and l.11: [VertexId(u64)] is an [N] (the 64-bit bound
    is only a hypothesis of the text-format theorems), [Edge] is a pair [edge]
    (Base.v). *)
Definition vid := N.

(** core/src/graph.rs l.14-17: [Edge::reverse]. *)
Definition edge_reverse (e : edge) : edge := (snd e, fst e).

(** core/src/directed_graph.rs l.10-13: the [edge_map]. *)
Definition graph := list (N * list edge).

(** [edge_map.get], e.g. directed_graph.rs l.56 *)
Definition g_get (v : N) (g : graph) : option (list edge) := hm_get N.eqb v g.

(** directed_graph.rs l.16-20 [new] *)
Definition g_new : graph := [].

(** directed_graph.rs l.30-32 [vertex_count] *)
Definition vertex_count (g : graph) : nat := length g.

(** directed_graph.rs l.22-24 [is_empty] *)
Definition is_empty (g : graph) : bool := Nat.eqb (vertex_count g) 0.

(** directed_graph.rs l.47-49 [vertices] *)
Definition vertices (g : graph) : list N := hm_keys g.

(** directed_graph.rs l.26-28 [head_option] *)
Definition head_option (g : graph) : option N := hd_error (vertices g).

(** directed_graph.rs l.34-41 [edge_count]: the loop sums the lengths; usize overflow is not
    modelled (it needs 2^64 stored edges). *)
Definition edge_count (g : graph) : nat :=
  Nat.div (fold_left (fun acc kv => acc + length (snd kv)) g 0) 2.

(** directed_graph.rs l.43-45 [contains_vertex] *)
Definition contains_vertex (g : graph) (v : N) : bool := hm_mem N.eqb v g.

(** directed_graph.rs l.51-64 [contains_edge], with the [unwrap] of l.56-57 explicit. *)
Definition contains_edge_m (g : graph) (e : edge) : outcome bool :=
  let (v1, v2) := e in
  if contains_vertex g v1 && contains_vertex g v2 then
    match g_get v1 g with
    | Some es => Done (existsb (fun x => edge_eqb x e) es)
    | None => Panic
    end
  else Done false.

(** directed_graph.rs l.51-64 [contains_edge], total version; [contains_edge_m_total] in
    GraphFacts.v shows that it is the panic-free result of
    [contains_edge_m]. *)
Definition contains_edge (g : graph) (e : edge) : bool :=
  let (v1, v2) := e in
  if contains_vertex g v1 && contains_vertex g v2 then
    match g_get v1 g with
    | Some es => existsb (fun x => edge_eqb x e) es
    | None => false
    end
  else false.

(** directed_graph.rs l.66-75 [edges] *)
Definition edges (g : graph) : list edge :=
  flat_map (fun kv => filter (fun e => N.eqb (fst kv) (fst e)) (snd kv)) g.

(** directed_graph.rs l.77-83 [outbound_edges] *)
Definition outbound_edges (g : graph) (v : N) : list edge :=
  match g_get v g with
  | None => []
  | Some es => filter (fun e => N.eqb (fst e) v) es
  end.

(** directed_graph.rs l.85-91 [inbound_edges] *)
Definition inbound_edges (g : graph) (v : N) : list edge :=
  match g_get v g with
  | None => []
  | Some es => filter (fun e => N.eqb (snd e) v) es
  end.

(** directed_graph.rs l.93-95, l.97-99 *)
Definition degree_out (g : graph) (v : N) : nat := length (outbound_edges g v).
(** directed_graph.rs l.97-99 *)
Definition degree_in (g : graph) (v : N) : nat := length (inbound_edges g v).

(** directed_graph.rs l.101-108 [add_vertex]: [entry(v).or_insert_with(|| vec![])]; the result
    tells whether the vertex was already there. *)
Definition add_vertex (g : graph) (v : N) : graph * bool :=
  match g_get v g with
  | Some _ => (g, true)
  | None => (hm_insert N.eqb v [] g, false)
  end.

(** directed_graph.rs l.138-147 [remove_edge] *)
Definition remove_edge (g : graph) (e : edge) : graph * bool :=
  let (src, dst) := e in
  let keep := filter (fun x => negb (edge_eqb x e)) in
  let g1 := hm_update N.eqb src keep g in
  let g2 := hm_update N.eqb dst keep g1 in
  (g2, true).

(** directed_graph.rs l.110-121 [remove_vertex] *)
Definition remove_vertex (g : graph) (v : N) : graph * bool :=
  let (found, es) :=
    match g_get v g with
    | None => (false, [])
    | Some es => (true, es)
    end in
  let g1 := hm_remove N.eqb v g in
  (fold_left (fun h e => fst (remove_edge h e)) es g1, found).

(** directed_graph.rs l.123-136 [add_edge], with the two [unwrap]s (l.128, l.130) explicit. *)
Definition push_m (g : graph) (v : N) (e : edge) : outcome graph :=
  match g_get v g with
  | Some _ => Done (hm_update N.eqb v (fun es => es ++ [e]) g)
  | None => Panic
  end.

(** directed_graph.rs l.123-136 *)
Definition add_edge_m (g : graph) (e : edge) : outcome (graph * bool) :=
  obind (contains_edge_m g e) (fun present =>
  if negb present then
    let (v1, v2) := e in
    let g1 := fst (add_vertex g v1) in
    let g2 := fst (add_vertex g1 v2) in
    obind (push_m g2 v1 e) (fun g3 =>
    if negb (N.eqb v1 v2) then
      obind (push_m g3 v2 e) (fun g4 => Done (g4, true))
    else Done (g3, true))
  else Done (g, false)).

(** directed_graph.rs l.123-136 [add_edge], total version; see [add_edge_m_total]. *)
Definition push (g : graph) (v : N) (e : edge) : graph :=
  hm_update N.eqb v (fun es => es ++ [e]) g.

(** directed_graph.rs l.123-136 *)
Definition add_edge (g : graph) (e : edge) : graph * bool :=
  if negb (contains_edge g e) then
    let (v1, v2) := e in
    let g1 := fst (add_vertex g v1) in
    let g2 := fst (add_vertex g1 v2) in
    let g3 := push g2 v1 e in
    if negb (N.eqb v1 v2) then (push g3 v2 e, true) else (g3, true)
  else (g, false).

(** ** core/src/graph_command.rs *)

(** graph_command.rs l.6-11 *)
Inductive graph_command :=
| AddVertex (v : N)
| RemoveVertex (v : N)
| AddEdge (v1 v2 : N)
| RemoveEdge (v1 v2 : N).

(** graph_command.rs l.14-22 [revert] *)
Definition revert (c : graph_command) : graph_command :=
  match c with
  | AddVertex v => RemoveVertex v
  | RemoveVertex v => AddVertex v
  | AddEdge v1 v2 => RemoveEdge v1 v2
  | RemoveEdge v1 v2 => AddEdge v1 v2
  end.

(** graph_command.rs l.30-46 [apply_to] *)
Definition apply_to (c : graph_command) (g : graph) : graph :=
  match c with
  | AddVertex v => fst (add_vertex g v)
  | RemoveVertex v => fst (remove_vertex g v)
  | AddEdge v1 v2 => fst (add_edge g (v1, v2))
  | RemoveEdge v1 v2 => fst (remove_edge g (v1, v2))
  end.

(** graph_command.rs l.24-28 [apply_commands] *)
Definition apply_commands (cs : list graph_command) (g : graph) : graph :=
  fold_left (fun h c => apply_to c h) cs g.

(** graph_command.rs l.48-58 [as_commands] *)
Definition as_commands (g : graph) : list graph_command :=
  map AddVertex (vertices g) ++ map (fun e => AddEdge (fst e) (snd e)) (edges g).

(** ** Graphs built through the public API

    [built_by cs g]: [g] is a possible state of a [DirectedGraph] after the
    mutations [cs] on a new graph.  The mutators are the four of
    [graph_command]; the field [edge_map] is private, so there is no other way
    to change it.  [built_rehash] lets the hash map change its iteration order
    at any point: theorems about [built_by] hold for every hash order.
    directed_graph.rs l.16, graph_command.rs l.24-46. *)
Inductive built_by : list graph_command -> graph -> Prop :=
| built_new : built_by [] g_new
| built_cmd cs g c : built_by cs g -> built_by (cs ++ [c]) (apply_to c g)
| built_rehash cs g g' : built_by cs g -> Permutation g g' -> built_by cs g'.

(** A graph some history of calls builds; see [built_by]. directed_graph.rs l.16, graph_command.rs l.24-46. *)
Definition built (g : graph) : Prop := exists cs, built_by cs g.

(** ** [#[derive(PartialEq)]] on [DirectedGraph] (directed_graph.rs l.9)
    HashMap equality: same length and each key of one maps to an equal value
    in the other; vectors compare in order. *)
Fixpoint vec_eqb (a b : list edge) : bool :=
  match a, b with
  | [], [] => true
  | x :: a', y :: b' => edge_eqb x y && vec_eqb a' b'
  | _, _ => false
  end.

(** directed_graph.rs l.9, the map itself *)
Definition graph_eqb (g h : graph) : bool :=
  Nat.eqb (length g) (length h) &&
  forallb (fun kv => match g_get (fst kv) h with
                     | Some es => vec_eqb (snd kv) es
                     | None => false
                     end) g.
