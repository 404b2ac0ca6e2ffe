(** * In which order a depth-first search meets the cycles (for C164)
    Nothing here depends on the model. *)
From Coq Require Import List NArith Bool.
From Verif Require Import Spec CycleSpec.
Import ListNotations.
Local Open Scope N_scope.

Section Closing.
  (** [nb u]: the vertices after [u]. *)
  Variable nb : N -> list N.
  Definition onwards (p : list N) : list (list N) :=
    match rev p with
    | [] => []
    | u :: _ => map (fun v => p ++ [v]) (nb u)
    end.
  (** The last vertex was there before. *)
  Definition comes_back (p : list N) : Prop := exists a v b, p = a ++ v :: b ++ [v].
  (** The walks that begin with [p] and stop as soon as they come back to a vertex of theirs: those through the last vertex
      after [p] first, and so on back to the first. *)
  Inductive closings : list N -> list (list N) -> Prop :=
  | closing_here p : comes_back p -> closings p [p]
  | closing_later p ls : ~ comes_back p -> closings_all (rev (onwards p)) ls -> closings p ls
  with closings_all : list (list N) -> list (list N) -> Prop :=
  | closing_none : closings_all [] []
  | closing_more p ps l ls : closings p l -> closings_all ps ls -> closings_all (p :: ps) (l ++ ls).
End Closing.

(** The cycle at the end of a walk that has just come back, beginning with its least vertex. *)
Definition ring (p c : list N) : Prop :=
  exists a v b, p = a ++ v :: b ++ [v] /\ ~ In v b /\ rotation (v :: b) c /\ least_first c.
(** The first occurrences in a list of what is not in [seen]. *)
Fixpoint fresh (seen l : list (list N)) : list (list N) :=
  match l with
  | [] => []
  | c :: t => if in_dec (list_eq_dec N.eq_dec) c seen then fresh seen t else c :: fresh (c :: seen) t
  end.
(** Where the search begins: at the vertices without an edge into them, or at the first vertex if there is none. *)
Definition beginnings (vs : list N) (es : list (N * N)) : list N :=
  match filter (fun v => negb (existsb (fun e => N.eqb (snd e) v) es)) vs with
  | [] => firstn 1 vs
  | l => l
  end.
