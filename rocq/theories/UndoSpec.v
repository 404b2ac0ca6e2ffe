(** * Specification of undoing (C168) *)
From Coq Require Import List NArith Bool.
From Verif Require Import Spec Base Graph GraphSpec.
Import ListNotations.

(** A history whose every command can be undone where it was applied. *)
Fixpoint each_undoable (g : graph) (cs : list graph_command) : Prop :=
  match cs with
  | [] => True
  | c :: t => undoable g c /\ each_undoable (apply_to c g) t
  end.

(** What a user can write down before giving a command, asking the graph no more than its
    queries: the commands that will undo it. *)
Definition adding (e : N * N) : graph_command := AddEdge (fst e) (snd e).
Definition written_down (g : graph) (c : graph_command) : list graph_command :=
  match c with
  | AddVertex v => if contains_vertex g v then [] else [RemoveVertex v]
  | AddEdge a b =>
    (if contains_edge g (a, b) then [] else [RemoveEdge a b]) ++
    (if contains_vertex g a then [] else [RemoveVertex a]) ++
    (if contains_vertex g b then [] else [RemoveVertex b])
  | RemoveEdge a b => if contains_edge g (a, b) then [AddEdge a b] else []
  | RemoveVertex v =>
    if contains_vertex g v then AddVertex v :: map adding (outbound_edges g v ++ inbound_edges g v) else []
  end.
(** The same for a history, the last command first. *)
Fixpoint notes (g : graph) (cs : list graph_command) : list graph_command :=
  match cs with
  | [] => []
  | c :: t => notes (apply_to c g) t ++ written_down g c
  end.
