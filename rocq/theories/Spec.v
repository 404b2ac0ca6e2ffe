(** * Specification vocabulary

    Nothing in this file mentions the model of the code.  Graphs are given by
    two predicates, [V : N -> Prop] and [E : N -> N -> Prop]. *)
From Coq Require Import List NArith ZArith Permutation.
Import ListNotations.

Definition rel := N -> N -> Prop.

(** ** Positions in lists *)

Definition starts_with {A} (x : A) (l : list A) : Prop := exists t, l = x :: t.
Definition ends_with {A} (x : A) (l : list A) : Prop := exists t, l = t ++ [x].
(** [x] is immediately followed by [y] somewhere in [l]. *)
Definition adjacent {A} (x y : A) (l : list A) : Prop :=
  exists p q, l = p ++ x :: y :: q.
(** [x] occurs somewhere strictly before [y]. *)
Definition before {A} (x y : A) (l : list A) : Prop :=
  exists p q r, l = p ++ x :: q ++ y :: r.

(** ** Walks and paths: non-empty vertex lists joined by edges *)

Definition is_walk (E : rel) (l : list N) : Prop :=
  l <> [] /\ forall x y, adjacent x y l -> E x y.

Definition walk_from (E : rel) (s : N) (l : list N) : Prop :=
  starts_with s l /\ forall x y, adjacent x y l -> E x y.

Definition walk_from_to (E : rel) (s t : N) (l : list N) : Prop :=
  starts_with s l /\ ends_with t l /\ forall x y, adjacent x y l -> E x y.

(** A simple path repeats no vertex. *)
Definition simple_from (E : rel) (s : N) (l : list N) : Prop :=
  walk_from E s l /\ NoDup l.
Definition simple_from_to (E : rel) (s t : N) (l : list N) : Prop :=
  walk_from_to E s t l /\ NoDup l.

(** Number of edges of a walk. *)
Definition hops (l : list N) : nat := length l - 1.

Definition reachable (E : rel) (s t : N) : Prop :=
  exists l, walk_from_to E s t l.

(** [d] is the least number of edges of a walk from [s] to [t]. *)
Definition distance (E : rel) (s t : N) (d : nat) : Prop :=
  (exists l, walk_from_to E s t l /\ hops l = d) /\
  (forall l, walk_from_to E s t l -> d <= hops l).

(** ** Cycles *)

(** A closed walk with at least one edge. *)
Definition closed_walk (E : rel) (l : list N) : Prop :=
  exists s, walk_from_to E s s l /\ 2 <= length l.
Definition acyclic (E : rel) : Prop := forall l, ~ closed_walk E l.

(** A simple cycle, given by its vertices without repeating the first one at
    the end.  A self-loop is a cycle of one vertex. *)
Definition simple_cycle (E : rel) (c : list N) : Prop :=
  NoDup c /\
  (forall x y, adjacent x y c -> E x y) /\
  (exists x y, starts_with x c /\ ends_with y c /\ E y x).

(** [c'] is a rotation of [c]. *)
Definition rotation {A} (c c' : list A) : Prop :=
  exists p q, c = p ++ q /\ c' = q ++ p.

(** ** Weights *)

Fixpoint weight (w : N -> N -> Z) (l : list N) : Z :=
  match l with
  | x :: ((y :: _) as t) => (w x y + weight w t)%Z
  | _ => 0%Z
  end.

(** ** Abstract mutable graphs: a pair of sets *)

Record aset := { aV : N -> Prop; aE : N -> N -> Prop }.

Definition a_empty : aset :=
  {| aV := fun _ => False; aE := fun _ _ => False |}.
Definition a_add_vertex (v : N) (s : aset) : aset :=
  {| aV := fun x => aV s x \/ x = v; aE := aE s |}.
Definition a_add_edge (a b : N) (s : aset) : aset :=
  {| aV := fun x => aV s x \/ x = a \/ x = b;
     aE := fun x y => aE s x y \/ (x = a /\ y = b) |}.
Definition a_remove_edge (a b : N) (s : aset) : aset :=
  {| aV := aV s; aE := fun x y => aE s x y /\ ~ (x = a /\ y = b) |}.
Definition a_remove_vertex (v : N) (s : aset) : aset :=
  {| aV := fun x => aV s x /\ x <> v;
     aE := fun x y => aE s x y /\ x <> v /\ y <> v |}.

(** Two abstract graphs with the same members. *)
Definition a_same (s t : aset) : Prop :=
  (forall x, aV s x <-> aV t x) /\ (forall x y, aE s x y <-> aE t x y).

(** [l] lists exactly the members of [P], each once. *)
Definition enumerates {A} (l : list A) (P : A -> Prop) : Prop :=
  NoDup l /\ forall x, In x l <-> P x.
