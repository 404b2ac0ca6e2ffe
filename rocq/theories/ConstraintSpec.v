(** * Declarative meaning of constraints

    Written from the documentation comments of
    core/src/constraint/constraint.rs, without the checking functions. *)
From Coq Require Import List NArith ZArith.
From Verif Require Import Spec Base Path.
Import ListNotations.

(** [i] is the last position of [x] in [o]. *)
Definition last_position (o : list N) (x : N) (i : nat) : Prop :=
  nth_error o i = Some x /\ forall j, i < j -> nth_error o j <> Some x.

Fixpoint holds (c : constraint) (p : list N) (score : Z) : Prop :=
  match c with
  | ContainsVertex v => In v p
  | ContainsEdge e => adjacent (fst e) (snd e) p
  | OrderedVertices o =>
      forall x y i j, before x y p -> last_position o x i -> last_position o y j -> i <= j
  | ContainsCycle => exists v, before v v p
  | MinLength n => n <= length p
  | MaxLength n => length p <= n
  | MinScore s => (s <= score)%Z
  | MaxScore s => (score <= s)%Z
  | COr c1 c2 => holds c1 p score \/ holds c2 p score
  | CXor c1 c2 => (holds c1 p score /\ ~ holds c2 p score) \/
                  (~ holds c1 p score /\ holds c2 p score)
  | CAnd c1 c2 => holds c1 p score /\ holds c2 p score
  | CNot c1 => ~ holds c1 p score
  end.

Definition at_most_one {A} (P : A -> bool) (l : list A) : Prop := length (filter P l) <= 1.

Definition is_min_length c := match c with MinLength _ => true | _ => false end.
Definition is_max_length c := match c with MaxLength _ => true | _ => false end.
Definition is_min_score c := match c with MinScore _ => true | _ => false end.
Definition is_max_score c := match c with MaxScore _ => true | _ => false end.

(** The contradictions [validate] documents. *)
Definition contradictory (cs : list constraint) : Prop :=
  (exists v, In (ContainsVertex v) cs /\ In (CNot (ContainsVertex v)) cs) \/
  (exists a b, In (ContainsEdge (a, b)) cs /\
     (In (CNot (ContainsVertex a)) cs \/ In (CNot (ContainsVertex b)) cs)) \/
  (exists e, In (ContainsEdge e) cs /\ In (CNot (ContainsEdge e)) cs) \/
  (In ContainsCycle cs /\ In (CNot ContainsCycle) cs) \/
  ~ at_most_one is_min_length cs \/ ~ at_most_one is_max_length cs \/
  ~ at_most_one is_min_score cs \/ ~ at_most_one is_max_score cs \/
  (exists a b, In (MinLength a) cs /\ In (MaxLength b) cs /\ b < a) \/
  (exists a b, In (MinScore a) cs /\ In (MaxScore b) cs /\ (b < a)%Z).

(** Exactly one of the two cycle constraints is in the list. *)
Definition one_cycle_constraint (cs : list constraint) : Prop :=
  (In ContainsCycle cs /\ ~ In (CNot ContainsCycle) cs) \/
  (~ In ContainsCycle cs /\ In (CNot ContainsCycle) cs).
