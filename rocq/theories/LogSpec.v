(** * Specification of command logs: which commands decide what the graph holds *)
From Coq Require Import List NArith.
From Verif Require Import Spec Graph.
Import ListNotations.

(** The last command of a log that satisfies [P] is [c]. *)
Definition last_such (P : graph_command -> Prop) (cs : list graph_command) (c : graph_command) : Prop :=
  exists p q, cs = p ++ c :: q /\ P c /\ forall d, In d q -> ~ P d.

(** The commands that can make an edge appear or disappear, and likewise a vertex. *)
Definition about_edge (a b : N) (c : graph_command) : Prop :=
  c = AddEdge a b \/ c = RemoveEdge a b \/ c = RemoveVertex a \/ c = RemoveVertex b.
Definition about_vertex (v : N) (c : graph_command) : Prop :=
  c = AddVertex v \/ c = RemoveVertex v \/ exists u, c = AddEdge u v \/ c = AddEdge v u.

(** One adds what the other removes. *)
Definition conflict (c d : graph_command) : Prop :=
  match c, d with
  | AddVertex v, RemoveVertex w | RemoveVertex w, AddVertex v => v = w
  | AddEdge a b, RemoveEdge x y | RemoveEdge x y, AddEdge a b => a = x /\ b = y
  | AddEdge a b, RemoveVertex w | RemoveVertex w, AddEdge a b => w = a \/ w = b
  | _, _ => False
  end.

Definition command_dec (c d : graph_command) : {c = d} + {c <> d}.
Proof. decide equality; apply N.eq_dec. Defined.
(** The occurrences of [c] and of [d] in a log, in order. *)
Definition both (c d : graph_command) : list graph_command -> list graph_command :=
  filter (fun x => if command_dec x c then true else if command_dec x d then true else false).

Definition addition (c : graph_command) : Prop :=
  match c with AddVertex _ | AddEdge _ _ => True | _ => False end.
