(** * The error texts of core/src/constraint/checker.rs

    [validate] in Path.v has one constructor per text; here are the texts. *)
From Coq Require Import String.
From Coq Require Import List NArith ZArith Bool.
From Verif Require Import Base Path Text Query.
Import ListNotations.

(** [collect] into a [HashSet], each element once.  checker.rs l.40, l.51, l.70, l.80. *)
Fixpoint distinct {A} (mem : A -> list A -> bool) (l : list A) : list A :=
  match l with
  | [] => []
  | a :: t => if mem a t then distinct mem t else a :: distinct mem t
  end.

Section Texts.
  (** The iteration order of the [HashSet]s of vertices and of edges: any list of the same
      elements.  checker.rs l.32, l.64. *)
  Variables (order_v : list N -> list N) (order_e : list edge -> list edge).

  (** checker.rs l.54-55: [intersection] goes through the one set and keeps what the other contains. *)
  Definition both_vertices (cs : list constraint) : list N :=
    filter (fun v => memN v (vertex_exclusions cs)) (order_v (distinct memN (vertex_inclusions cs))).
  (** checker.rs l.83 *)
  Definition both_edges (cs : list constraint) : list edge :=
    filter (fun e => memE e (edge_exclusions cs)) (order_e (distinct memE (edge_inclusions cs))).

  (** The lists printed at checker.rs l.127, l.129, l.160 and l.162. *)
  Definition min_lengths (cs : list constraint) : list nat :=
    filter_map (fun c => match c with MinLength n => Some n | _ => None end) cs.
  (** checker.rs l.118-124 *)
  Definition max_lengths (cs : list constraint) : list nat :=
    filter_map (fun c => match c with MaxLength n => Some n | _ => None end) cs.
  (** checker.rs l.144-150 *)
  Definition min_scores (cs : list constraint) : list Z :=
    filter_map (fun c => match c with MinScore n => Some n | _ => None end) cs.
  (** checker.rs l.151-157 *)
  Definition max_scores (cs : list constraint) : list Z :=
    filter_map (fun c => match c with MaxScore n => Some n | _ => None end) cs.

  (** checker.rs l.132, l.165: [{}] of the first of each list, which is there. *)
  Definition first_text {A} (f : A -> text) (l : list A) : text :=
    match l with a :: _ => f a | [] => [] end.
  (** [Debug] and [Display] of a usize, checker.rs l.127-134 *)
  Definition show_usize (n : nat) : text := show (N.of_nat n).

  (** checker.rs l.59, l.87, l.104-106, l.127, l.129, l.132-135, l.160, l.162, l.165-168 *)
  Definition error_text (e : verror) (cs : list constraint) : text :=
    match e with
    | ErrVertex => txt "Incompatible set of constraints leading to vertices " ++
        debug_vec (map debug_vertex (both_vertices cs)) ++ txt " to be included and excluded at the same time."
    | ErrEdge => txt "Incompatible set of constraints leading to edges " ++
        debug_vec (map debug_edge (both_edges cs)) ++ txt " to be included and excluded at the same time."
    | ErrCycle => txt "Incompatible set of constraints about cycle inclusion and exclusion."
    | ErrMinLength => txt "Incompatible set of MinLength constraints: " ++
        debug_vec (map show_usize (min_lengths cs)) ++ txt " were defined, having only one is possible"
    | ErrMaxLength => txt "Incompatible set of MaxLength constraints: " ++
        debug_vec (map show_usize (max_lengths cs)) ++ txt " were defined, having only one is possible"
    | ErrLength => txt "Incompatible set of min/max length constraints: min=" ++
        first_text show_usize (min_lengths cs) ++ txt ", max=" ++ first_text show_usize (max_lengths cs)
    | ErrMinScore => txt "Incompatible set of MinScore constraints: " ++
        debug_vec (map show_i64 (min_scores cs)) ++ txt " were defined, having only one is possible"
    | ErrMaxScore => txt "Incompatible set of MaxScore constraints: " ++
        debug_vec (map show_i64 (max_scores cs)) ++ txt " were defined, having only one is possible"
    | ErrScore => txt "Incompatible set of min/max score constraints: min=" ++
        first_text show_i64 (min_scores cs) ++ txt ", max=" ++ first_text show_i64 (max_scores cs)
    end.
  (** checker.rs l.21-29: [None] is [Ok(())]. *)
  Definition validate_text (cs : list constraint) : option text :=
    match validate cs with VOk => None | VErr e => Some (error_text e cs) end.
End Texts.
