(** * Model of the query binaries gc-short-path, gc-csp, gc-cycle and
      gc-topo-sort

    As in Cli.v an option is given as the values clap (Clap.v) returns for it
    ([None] when absent).  A program ends with [Done lines]
    (status 0 and the lines printed), with [Panic] (a failure status) or, when
    the fuel is too small for its search, with [OutOfFuel].  What gc-csp prints
    before a search that never ends is in Stream.v. *)
From Coq Require Import String.
From Coq Require Import List NArith ZArith Bool Arith.
From Verif Require Import Base Graph Path Queue Iter Topo Cycle Text Format Store Cli.
Import ListNotations.
Open Scope N_scope.

(** ** Numbers *)
(** [i64::from_str] and, for [usize::from_str], [parse_u64] (64-bit target):
    optional sign, then at least one ASCII digit, with an overflow check at each
    digit. gc-csp.rs l.172-197, gc-cycle.rs l.182-224. *)
Fixpoint parse_digits_max (max acc : N) (s : text) : option N :=
  match s with
  | [] => Some acc
  | c :: t =>
    if ascii_digit c then
      let v := acc * 10 + (c - 48) in
      if v <=? max then parse_digits_max max v t else None
    else None
  end.
(** At least one digit. gc-csp.rs l.187-197. *)
Definition parse_magnitude (max : N) (s : text) : option N :=
  match s with [] => None | _ => parse_digits_max max 0 s end.
(** [i64::from_str], used at gc-csp.rs l.170-198 *)
Definition parse_i64 (s : text) : option Z :=
  match s with
  | [] => None
  | c :: t =>
    if c =? 43 then option_map Z.of_N (parse_magnitude (2 ^ 63 - 1) t)
    else if c =? 45 then option_map (fun n => (- Z.of_N n)%Z) (parse_magnitude (2 ^ 63) t)
    else option_map Z.of_N (parse_magnitude (2 ^ 63 - 1) s)
  end.
(** [usize::from_str], used at gc-csp.rs l.170-198 *)
Definition parse_usize (s : text) : option nat := option_map N.to_nat (parse_u64 s).
(** [Display] for i64. gc-csp.rs l.221-224, gc-short-path.rs l.62-65. *)
Definition show_i64 (z : Z) : text :=
  if (z <? 0)%Z then txt "-" ++ show (Z.abs_N z) else show (Z.to_N z).

(** ** Debug output *)
(** [#[derive(Debug)]] of [VertexId], [Edge] (graph.rs l.5, l.10) and
    [Constraint] (constraint.rs l.9), printed by gc-csp.rs l.244-247. *)
Definition debug_vertex (v : N) : text := txt "VertexId(" ++ show v ++ txt ")".
(** graph.rs l.10 *)
Definition debug_edge (e : edge) : text :=
  txt "Edge(" ++ debug_vertex (fst e) ++ txt ", " ++ debug_vertex (snd e) ++ txt ")".
(** Items separated by a comma and a space. gc-csp.rs l.246, gc-cycle.rs l.344-347. *)
Fixpoint commas (l : list text) : text :=
  match l with
  | [] => []
  | [x] => x
  | x :: t => x ++ txt ", " ++ commas t
  end.
(** [Debug] of a vector, constraint.rs l.10-40 *)
Definition debug_vec (l : list text) : text := txt "[" ++ commas l ++ txt "]".
(** constraint.rs l.9-40 *)
Fixpoint debug_constraint (c : constraint) : text :=
  match c with
  | ContainsVertex v => txt "ContainsVertex(" ++ debug_vertex v ++ txt ")"
  | ContainsEdge e => txt "ContainsEdge(" ++ debug_edge e ++ txt ")"
  | OrderedVertices vs => txt "OrderedVertices(" ++ debug_vec (map debug_vertex vs) ++ txt ")"
  | ContainsCycle => txt "ContainsCycle"
  | MinLength n => txt "MinLength(" ++ show (N.of_nat n) ++ txt ")"
  | MaxLength n => txt "MaxLength(" ++ show (N.of_nat n) ++ txt ")"
  | MinScore z => txt "MinScore(" ++ show_i64 z ++ txt ")"
  | MaxScore z => txt "MaxScore(" ++ show_i64 z ++ txt ")"
  | COr a b => txt "Or(" ++ debug_constraint a ++ txt ", " ++ debug_constraint b ++ txt ")"
  | CXor a b => txt "Xor(" ++ debug_constraint a ++ txt ", " ++ debug_constraint b ++ txt ")"
  | CAnd a b => txt "And(" ++ debug_constraint a ++ txt ", " ++ debug_constraint b ++ txt ")"
  | CNot a => txt "Not(" ++ debug_constraint a ++ txt ")"
  end.

(** ** Options *)
(** [Option::and_then] on a parser and [map] on a builder; the [for] loops of
    [build_all_constraints] push what is there. gc-csp.rs l.149-198, l.276-308. *)
Definition opt_list {A B} (o : option A) (parse : A -> option B) (build : B -> list constraint) : list constraint :=
  match o with
  | Some a => match parse a with Some b => build b | None => [] end
  | None => []
  end.
(** The same for a builder of one constraint, gc-csp.rs l.291-308 *)
Definition opt_one {A B} (o : option A) (parse : A -> option B) (build : B -> constraint) : list constraint :=
  opt_list o parse (fun b => [build b]).

(** The options on lengths and scores, common to gc-csp and gc-cycle.
    gc-csp.rs l.170-198, gc-cycle.rs l.202-225. *)
Record bound_args := {
  b_min_length : option text; b_max_length : option text; b_exact_length : option text;
  b_min_score : option text; b_max_score : option text; b_exact_score : option text
}.
(** gc-csp.rs l.170-198 and l.291-308, gc-cycle.rs l.202-225 and l.303-320 *)
Definition bound_constraints (b : bound_args) : list constraint :=
  opt_one (b_min_length b) parse_usize build_min_length ++
  opt_one (b_max_length b) parse_usize build_max_length ++
  opt_list (b_exact_length b) parse_usize build_exact_length ++
  opt_one (b_min_score b) parse_i64 build_min_score ++
  opt_one (b_max_score b) parse_i64 build_max_score ++
  opt_list (b_exact_score b) parse_i64 build_exact_score.

(** gc-csp.rs l.136-198: the options clap hands over. *)
Record csp_args := {
  q_include : option (list text); q_exclude : option (list text); q_ordered : option (list text);
  q_include_cycle : bool; q_no_cycle : bool;
  q_bounds : bound_args
}.
(** gc-csp.rs l.149-168 and l.261-310 *)
Definition csp_constraints (a : csp_args) : list constraint :=
  opt_list (q_include a) parse_vertex_id_list build_include ++
  opt_list (q_exclude a) parse_vertex_id_list build_exclude ++
  opt_one (q_ordered a) parse_vertex_id_list build_ordered ++
  (if q_include_cycle a then [build_include_cycle] else []) ++
  (if q_no_cycle a then [build_no_cycle] else []) ++
  bound_constraints (q_bounds a).

(** gc-cycle.rs l.178-225: the options clap hands over. *)
Record cycle_args := {
  c_girth : bool; c_hamiltonian : bool; c_count : bool; c_shortest : bool; c_longest : bool;
  c_head : bool; c_take_n : option text; c_all : bool;
  c_include : option (list text); c_exclude : option (list text);
  c_include_edges : option (list text); c_exclude_edges : option (list text);
  c_bounds : bound_args
}.
(** [parse_edge_list] cannot panic (the length is checked first); here its
    answer is needed as an option. gc-cycle.rs l.196, l.200. *)
Definition edge_list (ids : list text) : option (list edge) :=
  match parse_edge_list ids with Done o => o | _ => None end.
(** gc-cycle.rs l.186-201 and l.277-302 *)
Definition cycle_constraints (a : cycle_args) : list constraint :=
  opt_list (c_include a) parse_vertex_id_list build_include ++
  opt_list (c_exclude a) parse_vertex_id_list build_exclude ++
  opt_list (c_include_edges a) edge_list build_include_edges ++
  opt_list (c_exclude_edges a) edge_list build_exclude_edges ++
  bound_constraints (c_bounds a).

Section Programs.
  Variable nd : N -> bool.
  (** Iteration order of the loaded graph. *)
  Variable order : graph -> graph.
  (** The priority queue of the searches. *)
  Variable Q : squeue scored.

  (** [load_graph(path).expect(..)], then a computation that only prints.
      gc-short-path.rs l.55, gc-csp.rs l.201, gc-topo-sort.rs l.25, gc-cycle.rs l.170. *)
  Definition with_graph (f : graph -> outcome (list text)) : prog (outcome (list text)) :=
    bind (load_graph nd) (fun r => Ret
      (match r with
       | Done (Ok g) => f (order g)
       | _ => Panic
       end)).
  (** [value_of(..).and_then(parse_vertex_id).unwrap()]; gc-short-path.rs l.45-54, gc-csp.rs l.138-147 *)
  Definition with_ids (start end_ : text) (f : N -> N -> prog (outcome (list text))) : prog (outcome (list text)) :=
    match parse_vertex_id start with
    | None => Ret Panic
    | Some s => match parse_vertex_id end_ with None => Ret Panic | Some t => f s t end
    end.
  (** gc-short-path.rs l.66-68, gc-csp.rs l.225-227 *)
  Definition path_lines (p : path) : list text := map show p.

  (** ** gc-short-path.rs l.43-86 *)
  Definition short_path_lines (s t : N) (r : option scored) : list text :=
    match r with
    | Some sp =>
      (txt "Shortest path from vertex " ++ show s ++ txt " to vertex " ++ show t ++
       txt " with total cost of " ++ show_i64 (sp_score sp)) :: path_lines (sp_path sp)
    | None => [txt "Vertex " ++ show t ++ txt " is not reachable from vertex " ++ show s ++ txt "."]
    end.
  (** gc-short-path.rs l.43-75 *)
  Definition gc_short_path (start end_ : text) (fuel : nat) : prog (outcome (list text)) :=
    with_ids start end_ (fun s t => with_graph (fun g =>
      omap (short_path_lines s t) (Iter.a_star Q g one_weighted_edge zero_heuristic s t fuel))).

  (** ** gc-csp.rs l.136-257 *)
  Definition csp_lines (s t : N) (cs : list constraint) (r : option scored) : list text :=
    txt "Constraint that will be applied to search are: " :: map debug_constraint cs ++
    match r with
    | Some sp =>
      (txt "Constrained shortest path from vertex " ++ show s ++ txt " to vertex " ++ show t ++
       txt " with total cost of " ++ show_i64 (sp_score sp) ++ txt ".") :: path_lines (sp_path sp)
    | None => [txt "Vertex " ++ show t ++ txt " is not reachable from vertex " ++ show s ++
               txt " within the given constraints."]
    end.
  (** gc-csp.rs l.136-234 *)
  Definition gc_csp (start end_ : text) (a : csp_args) (fuel : nat) : prog (outcome (list text)) :=
    with_ids start end_ (fun s t => with_graph (fun g =>
      let cs := csp_constraints a in
      omap (csp_lines s t cs) (constrained_shortest_path Q g one_weighted_edge zero_heuristic s t cs fuel))).

  (** ** gc-topo-sort.rs l.22-37 *)
  Definition topo_lines (r : option (list N)) : list text :=
    match r with
    | Some vs => [txt "Topological order: " ++ concat (map (fun v => show v ++ txt " ") vs)]
    | None => [txt "Graph is not a DAG."]
    end.
  (** gc-topo-sort.rs l.22-37 *)
  Definition gc_topo_sort (fuel : nat) : prog (outcome (list text)) :=
    with_graph (fun g => omap topo_lines (topological_sort g fuel)).

  (** ** gc-cycle.rs *)
  (** gc-cycle.rs l.336-341 *)
  Definition format_girth (g : option nat) : text :=
    match g with
    | Some 0%nat | None => txt "Infinity"
    | Some n => show (N.of_nat n)
    end.
  (** gc-cycle.rs l.343-348 *)
  Definition format_cycle (c : cycle) : text := debug_vec (map show c).
  (** gc-cycle.rs l.350-355 *)
  Definition format_cycle_opt (o : option cycle) : text :=
    match o with Some c => format_cycle c | None => txt "N/A" end.

  (** [Iterator::filter]: [next] until the predicate holds; [k] bounds the number
      of items dropped. gc-cycle.rs l.241. *)
  Fixpoint filter_next {A S} (next : nat -> S -> outcome (option (A * S))) (pred : A -> bool) (n k : nat) (s : S)
    : outcome (option (A * S)) :=
    match k with
    | O => OutOfFuel
    | Datatypes.S k' =>
      obind (next n s) (fun r =>
        match r with
        | None => Done None
        | Some (a, s') => if pred a then Done (Some (a, s')) else filter_next next pred n k' s'
        end)
    end.
  (** gc-cycle.rs l.241-248: the iterator of the accepted cycles. *)
  Definition accepted_next (g : graph) (cs : list constraint) (n : nat) : cycle_state -> outcome (option (cycle * cycle_state)) :=
    filter_next (cycle_next g) (fun c => cycle_check c cs) n n.
  (** gc-cycle.rs l.241-248: all of them *)
  Definition accepted (g : graph) (cs : list constraint) (fuel : nat) : outcome (list cycle) :=
    fcollect _ _ (accepted_next g cs) fuel fuel (cycle_iter g).

  (** gc-cycle.rs l.178-183: [take-n] is read only without [head]. *)
  Definition take_count (a : cycle_args) : option nat :=
    if c_head a then Some 1%nat
    else match c_take_n a with Some x => parse_usize x | None => None end.
  (** gc-cycle.rs l.250-273 *)
  Definition gc_cycle (a : cycle_args) (fuel : nat) : prog (outcome (list text)) :=
    with_graph (fun g =>
      let cs := cycle_constraints a in
      if c_girth a then omap (fun r => [txt "girth: " ++ format_girth r]) (girth g fuel)
      else if c_hamiltonian a then omap (fun r => [txt "hamiltonian: " ++ format_cycle_opt r]) (hamiltonian g fuel)
      else if c_count a then omap (fun l => [txt "count: " ++ show (N.of_nat (length l))]) (accepted g cs fuel)
      else if c_shortest a then
        omap (fun l => [txt "shortest cycle: " ++ format_cycle_opt (min_by_key cycle_len l)]) (accepted g cs fuel)
      else if c_longest a then
        omap (fun l => [txt "longest cycle: " ++ format_cycle_opt (max_by_key cycle_len l)]) (accepted g cs fuel)
      else match take_count a with
           | Some n => omap (map format_cycle) (ftake _ _ (accepted_next g cs) fuel n (cycle_iter g))
           | None => if c_all a then omap (map format_cycle) (accepted g cs fuel) else Done []
           end).
End Programs.
