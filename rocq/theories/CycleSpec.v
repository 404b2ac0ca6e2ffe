(** * Cycles, independent of the model *)
From Coq Require Import List NArith.
From Verif Require Import Spec.
Import ListNotations.

(** The first vertex of [c] is the least one. *)
Definition least_first (c : list N) : Prop := exists m, starts_with m c /\ forall y, In y c -> (m <= y)%N.

(** No edge enters [v]. *)
Definition source (E : rel) (v : N) : Prop := forall u, ~ E u v.

(** [a -> b] is an edge of the cycle [c], the closing one included. *)
Definition cycle_edge (a b : N) (c : list N) : Prop := adjacent a b c \/ (ends_with a c /\ starts_with b c).

(** Every vertex reaches every other one. *)
Definition strongly_connected (V : N -> Prop) (E : rel) : Prop := forall x y, V x -> V y -> reachable E x y.
(** Connected when the direction of the edges is ignored. *)
Definition weakly_connected (V : N -> Prop) (E : rel) : Prop :=
  forall x y, V x -> V y -> reachable (fun a b => E a b \/ E b a) x y.

(** A path through every vertex exactly once. *)
Definition hamiltonian_path (V : N -> Prop) (E : rel) (p : list N) : Prop :=
  is_walk E p /\ NoDup p /\ forall v, In v p <-> V v.
Definition hamiltonian_cycle (V : N -> Prop) (E : rel) (c : list N) : Prop :=
  simple_cycle E c /\ forall v, In v c <-> V v.
