(** * Renaming ids, independent of the model of the algorithms *)
From Coq Require Import List NArith.
From Verif Require Import Spec Graph GraphSpec Path.
Import ListNotations.

Definition injective (f : N -> N) : Prop := forall x y, f x = f y -> x = y.

(** The same command about the renamed vertices. *)
Definition rename_command (f : N -> N) (c : graph_command) : graph_command :=
  match c with
  | AddVertex v => AddVertex (f v)
  | RemoveVertex v => RemoveVertex (f v)
  | AddEdge a b => AddEdge (f a) (f b)
  | RemoveEdge a b => RemoveEdge (f a) (f b)
  end.
Definition rename_edge (f : N -> N) (e : N * N) : N * N := (f (fst e), f (snd e)).
(** The same constraint about the renamed vertices. *)
Fixpoint rename_constraint (f : N -> N) (c : constraint) : constraint :=
  match c with
  | ContainsVertex v => ContainsVertex (f v)
  | ContainsEdge e => ContainsEdge (rename_edge f e)
  | OrderedVertices vs => OrderedVertices (map f vs)
  | ContainsCycle => ContainsCycle
  | MinLength n => MinLength n
  | MaxLength n => MaxLength n
  | MinScore s => MinScore s
  | MaxScore s => MaxScore s
  | COr a b => COr (rename_constraint f a) (rename_constraint f b)
  | CXor a b => CXor (rename_constraint f a) (rename_constraint f b)
  | CAnd a b => CAnd (rename_constraint f a) (rename_constraint f b)
  | CNot a => CNot (rename_constraint f a)
  end.
(** The same path with the same score. *)
Definition rename_scored (f : N -> N) (sp : scored) : scored :=
  {| sp_path := map f (sp_path sp); sp_score := sp_score sp |}.
(** The pair of sets [b] is the pair [a] with its ids renamed. *)
Definition renamed (f : N -> N) (a b : aset) : Prop :=
  (forall y, aV b y <-> exists x, aV a x /\ y = f x) /\
  (forall y z, aE b y z <-> exists u v, aE a u v /\ y = f u /\ z = f v).
