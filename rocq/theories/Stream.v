(** * The query programs line by line

    Same programs as in Query.v and [Cli.gc_desc], but with every [println!] as a step of its own, as in
    Print.v: [out k] says whether line [k] (from 0) can be written, and a [println!] that cannot write panics.
    A search that needs more than the fuel leaves the program [Searching], with the lines written so far.
    gc-topo-sort writes its line in pieces (gc-topo-sort.rs l.29-33); here it is one line. *)
From Coq Require Import String.
From Coq Require Import List NArith ZArith Bool Arith.
From Verif Require Import Base Graph Path Queue Iter Topo Cycle Text Format Store Cli Query.
Import ListNotations.

(** How far a program got: to the end of [main], to a panic, or still at work. gc-cycle.rs l.250-273. *)
Inductive ending := Finished | Stopped | Searching.
(** The lines written, and how far the program got. gc-cycle.rs l.250-273. *)
Definition shown_so_far := (list text * ending)%type.

Section Streams.
  Variable out : nat -> bool.

  (** One [println!] after another, then the rest of the program. gc-csp.rs l.221-228, gc-short-path.rs l.62-69,
      gc-desc.rs l.25-45. *)
  Fixpoint tell (past lines : list text) (rest : list text -> shown_so_far) : shown_so_far :=
    match lines with
    | [] => rest past
    | l :: t => if out (length past) then tell (past ++ [l]) t rest else (past, Stopped)
    end.
  (** The last lines of [main]. gc-short-path.rs l.62-74. *)
  Definition tell_end (past lines : list text) : shown_so_far := tell past lines (fun past => (past, Finished)).
  (** A computation, and then the lines made from its result. gc-short-path.rs l.56-74, gc-cycle.rs l.250-266. *)
  Definition tell_result {A} (past : list text) (o : outcome A) (f : A -> list text) : shown_so_far :=
    match o with
    | Done a => tell_end past (f a)
    | Panic => (past, Stopped)
    | OutOfFuel => (past, Searching)
    end.

  (** [iterator.for_each(|c| println!(..))]: the next item is looked for when the one before is written.
      gc-cycle.rs l.271. *)
  Fixpoint each {A S} (next : nat -> S -> outcome (option (A * S))) (fmt : A -> text) (n fuel : nat)
    (past : list text) (s : S) : shown_so_far :=
    match fuel with
    | O => (past, Searching)
    | Datatypes.S k =>
      match next n s with
      | Panic => (past, Stopped)
      | OutOfFuel => (past, Searching)
      | Done None => (past, Finished)
      | Done (Some (a, s')) => if out (length past) then each next fmt n k (past ++ [fmt a]) s' else (past, Stopped)
      end
    end.
  (** [iterator.take(k).for_each(|c| println!(..))]: [take] does not ask for an item after the last one.
      gc-cycle.rs l.267-269. *)
  Fixpoint each_of {A S} (next : nat -> S -> outcome (option (A * S))) (fmt : A -> text) (n k : nat)
    (past : list text) (s : S) : shown_so_far :=
    match k with
    | O => (past, Finished)
    | Datatypes.S k' =>
      match next n s with
      | Panic => (past, Stopped)
      | OutOfFuel => (past, Searching)
      | Done None => (past, Finished)
      | Done (Some (a, s')) => if out (length past) then each_of next fmt n k' (past ++ [fmt a]) s' else (past, Stopped)
      end
    end.

  Variable nd : N -> bool.
  Variable order : graph -> graph.
  Variable Q : squeue scored.

  (** [load_graph(path).expect(..)] first. gc-short-path.rs l.55, gc-csp.rs l.201, gc-topo-sort.rs l.25, gc-cycle.rs l.170. *)
  Definition stream_graph (f : graph -> shown_so_far) : prog shown_so_far :=
    bind (load_graph nd) (fun r => Ret (match r with Done (Ok g) => f (order g) | _ => ([], Stopped) end)).
  (** The two ids are read before the graph. gc-short-path.rs l.45-54, gc-csp.rs l.138-147. *)
  Definition stream_ids (start end_ : text) (f : N -> N -> prog shown_so_far) : prog shown_so_far :=
    match parse_vertex_id start with
    | None => Ret ([], Stopped)
    | Some s => match parse_vertex_id end_ with None => Ret ([], Stopped) | Some t => f s t end
    end.

  (** gc-desc.rs l.22-45, with the line that names the directory *)
  Definition gc_desc_out (path : text) : prog shown_so_far :=
    stream_graph (fun g => tell_end [] ((txt "Path: " ++ path) :: desc_lines g)).
  (** gc-short-path.rs l.43-86 *)
  Definition gc_short_path_out (start end_ : text) (fuel : nat) : prog shown_so_far :=
    stream_ids start end_ (fun s t => stream_graph (fun g =>
      tell_result [] (Iter.a_star Q g one_weighted_edge zero_heuristic s t fuel) (short_path_lines s t))).
  (** gc-csp.rs l.236-248: what is printed before the search. *)
  Definition csp_before (cs : list constraint) : list text :=
    txt "Constraint that will be applied to search are: " :: map debug_constraint cs.
  (** gc-csp.rs l.217-234: what is printed after it. *)
  Definition csp_after (s t : N) (r : option scored) : list text :=
    match r with
    | Some sp =>
      (txt "Constrained shortest path from vertex " ++ show s ++ txt " to vertex " ++ show t ++
       txt " with total cost of " ++ show_i64 (sp_score sp) ++ txt ".") :: path_lines (sp_path sp)
    | None => [txt "Vertex " ++ show t ++ txt " is not reachable from vertex " ++ show s ++
               txt " within the given constraints."]
    end.
  (** gc-csp.rs l.136-257 *)
  Definition gc_csp_out (start end_ : text) (a : csp_args) (fuel : nat) : prog shown_so_far :=
    stream_ids start end_ (fun s t => stream_graph (fun g =>
      let cs := csp_constraints a in
      tell [] (csp_before cs) (fun past =>
        tell_result past (constrained_shortest_path Q g one_weighted_edge zero_heuristic s t cs fuel) (csp_after s t)))).
  (** gc-topo-sort.rs l.22-37 *)
  Definition gc_topo_sort_out (fuel : nat) : prog shown_so_far :=
    stream_graph (fun g => tell_result [] (topological_sort g fuel) topo_lines).
  (** gc-cycle.rs l.168-273 *)
  Definition gc_cycle_out (a : cycle_args) (fuel : nat) : prog shown_so_far :=
    stream_graph (fun g =>
      let cs := cycle_constraints a in
      if c_girth a then tell_result [] (girth g fuel) (fun r => [txt "girth: " ++ format_girth r])
      else if c_hamiltonian a then tell_result [] (hamiltonian g fuel) (fun r => [txt "hamiltonian: " ++ format_cycle_opt r])
      else if c_count a then tell_result [] (accepted g cs fuel) (fun l => [txt "count: " ++ show (N.of_nat (length l))])
      else if c_shortest a then
        tell_result [] (accepted g cs fuel) (fun l => [txt "shortest cycle: " ++ format_cycle_opt (min_by_key cycle_len l)])
      else if c_longest a then
        tell_result [] (accepted g cs fuel) (fun l => [txt "longest cycle: " ++ format_cycle_opt (max_by_key cycle_len l)])
      else match take_count a with
           | Some n => each_of (accepted_next g cs) format_cycle fuel n [] (cycle_iter g)
           | None => if c_all a then each (accepted_next g cs) format_cycle fuel fuel [] (cycle_iter g) else ([], Finished)
           end).
End Streams.
