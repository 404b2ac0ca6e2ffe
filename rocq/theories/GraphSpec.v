(** * Specification of graph histories

    Commands are interpreted on the abstract sets of Spec.v; a graph is read
    only through its two membership queries. *)
From Coq Require Import List NArith.
From Verif Require Import Spec Base Graph.
Import ListNotations.

(** The abstract effect of a command. *)
Definition a_step (s : aset) (c : graph_command) : aset :=
  match c with
  | AddVertex v => a_add_vertex v s
  | RemoveVertex v => a_remove_vertex v s
  | AddEdge a b => a_add_edge a b s
  | RemoveEdge a b => a_remove_edge a b s
  end.
Definition a_run (cs : list graph_command) : aset := fold_left a_step cs a_empty.

(** What the graph API shows. *)
Definition shown (g : graph) : aset :=
  {| aV := fun v => contains_vertex g v = true;
     aE := fun a b => contains_edge g (a, b) = true |}.

(** The edge relation shown by the API. *)
Definition gE (g : graph) : rel := fun a b => contains_edge g (a, b) = true.

(** When is [revert c] an undo of [c]? *)
Definition undoable (g : graph) (c : graph_command) : Prop :=
  match c with
  | AddVertex v => contains_vertex g v = false
  | AddEdge a b => contains_edge g (a, b) = false /\
                   contains_vertex g a = true /\ contains_vertex g b = true
  | RemoveEdge a b => contains_edge g (a, b) = true
  | RemoveVertex v => contains_vertex g v = true /\
                      forall a b, contains_edge g (a, b) = true -> a <> v /\ b <> v
  end.

(** The edges present after a history, in the order in which they were added; an
    edge that was removed and added again counts from its last addition. *)
Definition pair_dec (x y : N * N) : {x = y} + {x <> y}.
Proof. decide equality; apply N.eq_dec. Defined.
Definition o_step (l : list (N * N)) (c : graph_command) : list (N * N) :=
  match c with
  | AddVertex _ => l
  | RemoveVertex v => filter (fun e => negb (N.eqb (fst e) v) && negb (N.eqb (snd e) v))%bool l
  | AddEdge a b => if in_dec pair_dec (a, b) l then l else l ++ [(a, b)]
  | RemoveEdge a b => remove pair_dec (a, b) l
  end.
Definition insertion_order (cs : list graph_command) : list (N * N) := fold_left o_step cs [].
