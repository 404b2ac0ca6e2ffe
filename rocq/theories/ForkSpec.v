(** * Specification: paths of one answer that agree with one another

    One call of a single-source search answers with one path per vertex.  Nothing of the model
    is used here. *)
From Coq Require Import List NArith ZArith.
Import ListNotations.

(** Whatever path is followed up to some vertex [x] of it, what was followed is the very path
    listed for [x]: the listed paths are the branches of one tree. *)
Definition one_tree (answer : N -> option (list N * Z)) : Prop :=
  forall v p c, answer v = Some (p, c) ->
  forall front x rest, p = front ++ x :: rest -> exists c', answer x = Some (front ++ [x], c').

(** No listed path goes twice through the same vertex. *)
Definition no_detour (answer : N -> option (list N * Z)) : Prop :=
  forall v p c, answer v = Some (p, c) -> NoDup p.
