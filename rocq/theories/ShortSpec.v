(** * Specification of single-source shortest paths, independent of the model *)
From Coq Require Import List NArith ZArith.
From Verif Require Import Spec.
Import ListNotations.

(** No closed walk of negative weight can be reached from [s]. *)
Definition no_negative (E : rel) (w : N -> N -> Z) (s : N) : Prop :=
  forall x l, reachable E s x -> walk_from_to E x x l -> (0 <= weight w l)%Z.

(** A partial answer, vertex to path and score, that lists exactly the vertices
    reachable from [s], each with a walk from [s] of that weight, and no walk to
    that vertex weighs less. *)
Definition shortest_answer (E : rel) (w : N -> N -> Z) (s : N)
    (answer : N -> option (list N * Z)) : Prop :=
  forall x,
    match answer x with
    | Some (p, d) =>
      walk_from_to E s x p /\ weight w p = d /\ forall l, walk_from_to E s x l -> (d <= weight w l)%Z
    | None => ~ reachable E s x
    end.

(** Same with the heaviest walk. *)
Definition longest_answer (E : rel) (w : N -> N -> Z) (s : N)
    (answer : N -> option (list N * Z)) : Prop :=
  forall x,
    match answer x with
    | Some (p, d) =>
      walk_from_to E s x p /\ weight w p = d /\ forall l, walk_from_to E s x l -> (weight w l <= d)%Z
    | None => ~ reachable E s x
    end.
