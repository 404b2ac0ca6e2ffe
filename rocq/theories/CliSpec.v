(** * Specification of the command-line arguments and of gc-add, gc-delete and
      gc-random *)
From Coq Require Import List NArith.
From Verif Require Import Spec Text FormatSpec.
Import ListNotations.
Open Scope N_scope.

(** An id given on the command line: a numeral, with or without a ['+']. *)
Definition id_argument (s : text) (n : N) : Prop :=
  numeral s n \/ exists d, s = [43] ++ d /\ numeral d n.
Definition id_arguments (vs : list text) (ns : list N) : Prop := Forall2 id_argument vs ns.

(** The ids of a list of edges, in order. *)
Definition flat (es : list (N * N)) : list N := flat_map (fun e => [fst e; snd e]) es.

(** ** The patterns of gc-add, as edge relations on the listed vertices *)
Definition pairs_rel (l : list N) : rel := fun a b => exists p q, l = flat p ++ a :: b :: q.
Definition chain_rel (l : list N) : rel := fun a b => adjacent a b l.
Definition cycle_rel (l : list N) : rel := fun a b => adjacent a b l \/ (ends_with a l /\ starts_with b l).
Definition star_rel (l : list N) : rel := fun a b => exists t, l = a :: t /\ In b t.
Definition clique_rel (l : list N) : rel := fun a b => before a b l \/ before b a l.
Definition flip (reverse : bool) (E : rel) : rel := fun a b => if reverse then E b a else E a b.

(** Adding the vertices [V] and the edges [E] with their ends. *)
Definition a_union (s : aset) (V : N -> Prop) (E : rel) : aset :=
  {| aV := fun x => aV s x \/ V x \/ exists y, E x y \/ E y x;
     aE := fun x y => aE s x y \/ E x y |}.
(** Removing vertices, then edges. *)
Definition a_minus (s : aset) (V : N -> Prop) (E : rel) : aset :=
  {| aV := fun x => aV s x /\ ~ V x;
     aE := fun x y => aE s x y /\ ~ V x /\ ~ V y /\ ~ E x y |}.

(** The values of an option: none given counts as an empty list. *)
Definition option_ids (o : option (list text)) (l : list N) : Prop :=
  match o with None => l = [] | Some vs => id_arguments vs l end.
