(** * Network flows, independent of the model *)
From Coq Require Import List NArith ZArith Bool.
Import ListNotations.
Open Scope Z_scope.

Definition sum {A} (f : A -> Z) (l : list A) : Z := fold_right (fun a z => f a + z) 0 l.

(** Flow entering and leaving [v], over the list [L] of all edges. *)
Definition inflow (L : list (N * N)) (F : N * N -> Z) (v : N) : Z :=
  sum F (filter (fun e => N.eqb (snd e) v) L).
Definition outflow (L : list (N * N)) (F : N * N -> Z) (v : N) : Z :=
  sum F (filter (fun e => N.eqb (fst e) v) L).

(** [F] respects the capacities, is conserved outside [s] and [t], and carries
    [value] from [s] to [t]. *)
Definition feasible (L : list (N * N)) (cap : N * N -> Z) (s t : N) (F : N * N -> Z) (value : Z) : Prop :=
  (forall e, In e L -> 0 <= F e <= cap e) /\
  (forall v, v <> s -> v <> t -> inflow L F v = outflow L F v) /\
  outflow L F s - inflow L F s = value /\
  inflow L F t - outflow L F t = value.

(** Capacity of the edges leaving the set [S]. *)
Definition cut (L : list (N * N)) (cap : N * N -> Z) (S : N -> bool) : Z :=
  sum cap (filter (fun e => S (fst e) && negb (S (snd e))) L).
