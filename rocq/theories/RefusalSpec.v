(** * Specification: what a refusal of a list of constraints says *)
From Coq Require Import String.
From Coq Require Import List NArith ZArith.
From Verif Require Import Path Text FormatSpec QuerySpec.
Import ListNotations.
Local Open Scope nat_scope.

(** Items as Rust prints a list of them. *)
Inductive items {A} (item : A -> text -> Prop) : list A -> text -> Prop :=
| is_nil : items item [] []
| is_one a t : item a t -> items item [a] t
| is_more a t b l u : item a t -> items item (b :: l) u -> items item (a :: b :: l) (t ++ txt ", " ++ u).
Definition bracketed {A} (item : A -> text -> Prop) (l : list A) (t : text) : Prop :=
  exists u, items item l u /\ t = txt "[" ++ u ++ txt "]".

Definition a_vertex (v : N) (t : text) : Prop :=
  exists d, canonical_numeral d v /\ t = txt "VertexId(" ++ d ++ txt ")".
Definition an_edge (e : N * N) (t : text) : Prop :=
  exists a b, a_vertex (fst e) a /\ a_vertex (snd e) b /\ t = txt "Edge(" ++ a ++ txt ", " ++ b ++ txt ")".
Definition a_length (n : nat) (t : text) : Prop := canonical_numeral t (N.of_nat n).

(** A vertex a path must pass, by itself or at an end of an edge it must use. *)
Definition must_pass (cs : list constraint) (v : N) : Prop :=
  In (ContainsVertex v) cs \/ exists a b, In (ContainsEdge (a, b)) cs /\ (v = a \/ v = b).

(** [l] lists what [P] holds of, each once. *)
Definition exactly {A} (P : A -> Prop) (l : list A) : Prop := NoDup l /\ forall a, In a l <-> P a.
(** The values of the constraints of one kind, in their order. *)
Inductive values {A} (kind : A -> constraint) : list constraint -> list A -> Prop :=
| vs_nil : values kind [] []
| vs_take a cs l : values kind cs l -> values kind (kind a :: cs) (a :: l)
| vs_skip c cs l : (forall a, c <> kind a) -> values kind cs l -> values kind (c :: cs) l.

(** Each reason with its text. *)
Definition vertex_reason (cs : list constraint) (t : text) : Prop :=
  exists l u, exactly (fun v => must_pass cs v /\ In (CNot (ContainsVertex v)) cs) l /\ l <> [] /\
    bracketed a_vertex l u /\
    t = txt "Incompatible set of constraints leading to vertices " ++ u ++ txt " to be included and excluded at the same time.".
Definition edge_reason (cs : list constraint) (t : text) : Prop :=
  exists l u, exactly (fun e => In (ContainsEdge e) cs /\ In (CNot (ContainsEdge e)) cs) l /\ l <> [] /\
    bracketed an_edge l u /\
    t = txt "Incompatible set of constraints leading to edges " ++ u ++ txt " to be included and excluded at the same time.".
Definition cycle_reason (cs : list constraint) (t : text) : Prop :=
  (In ContainsCycle cs <-> In (CNot ContainsCycle) cs) /\
  t = txt "Incompatible set of constraints about cycle inclusion and exclusion.".
(** Too many bounds of one kind; bounds that cross. *)
Definition many_reason {A} (kind : A -> constraint) (name : text) (item : A -> text -> Prop) (cs : list constraint) (t : text) : Prop :=
  exists l u, values kind cs l /\ 2 <= length l /\ bracketed item l u /\
    t = txt "Incompatible set of " ++ name ++ txt " constraints: " ++ u ++ txt " were defined, having only one is possible".
Definition cross_reason {A} (least most : A -> constraint) (lt : A -> A -> Prop) (name : text) (item : A -> text -> Prop)
    (cs : list constraint) (t : text) : Prop :=
  exists a b u v, values least cs [a] /\ values most cs [b] /\ lt b a /\ item a u /\ item b v /\
    t = txt "Incompatible set of min/max " ++ name ++ txt " constraints: min=" ++ u ++ txt ", max=" ++ v.

(** The reasons in the order in which they are looked for. *)
Definition reasons (cs : list constraint) : list (text -> Prop) :=
  [vertex_reason cs; edge_reason cs; cycle_reason cs;
   many_reason MinLength (txt "MinLength") a_length cs; many_reason MaxLength (txt "MaxLength") a_length cs;
   cross_reason MinLength MaxLength lt (txt "length") a_length cs;
   many_reason MinScore (txt "MinScore") int_text cs; many_reason MaxScore (txt "MaxScore") int_text cs;
   cross_reason MinScore MaxScore Z.lt (txt "score") int_text cs].
(** The first reason there is, if any. *)
Fixpoint first_reason (l : list (text -> Prop)) (r : option text) : Prop :=
  match l with
  | [] => r = None
  | reason :: l => (exists t, reason t /\ r = Some t) \/ (forall t, ~ reason t) /\ first_reason l r
  end.
