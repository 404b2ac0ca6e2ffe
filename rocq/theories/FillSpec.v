(** * Filling paths one after the other (for C163)
    Nothing here depends on the model. *)
From Coq Require Import List NArith Bool.
Import ListNotations.
Open Scope N_scope.

Definition steps (p : list N) : list (N * N) := combine p (tl p).
Definition same_step (e e' : N * N) : bool := N.eqb (fst e) (fst e') && N.eqb (snd e) (snd e').
(** What all edges of a path have left. *)
Definition room (cap used : N * N -> N) (p : list N) : N :=
  match map (fun e => cap e - used e) (steps p) with
  | [] => 0
  | x :: l => fold_left N.min l x
  end.
Definition sent (d : N) (p : list N) (used : N * N -> N) : N * N -> N :=
  fun e => if existsb (same_step e) (steps p) then used e + d else used e.
(** Each path in turn is given what is left on it: what all get together, and what each edge carries in the end. *)
Fixpoint filled (cap used : N * N -> N) (ps : list (list N)) : N * (N * N -> N) :=
  match ps with
  | [] => (0, used)
  | p :: ps =>
    let d := room cap used p in
    let (v, used') := filled cap (sent d p used) ps in (d + v, used')
  end.
(** The paths of a list that end at [t]. *)
Definition ending_at (t : N) (ps : list (list N)) : list (list N) :=
  filter (fun p => match rev p with x :: _ => N.eqb x t | [] => false end) ps.
