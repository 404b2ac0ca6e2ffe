(** * Specification of command-line histories: what each invocation should do
      to the pair of sets of Spec.v *)
From Coq Require Import List NArith Permutation.
From Verif Require Import Spec Graph Text FormatSpec.
Import ListNotations.
Open Scope N_scope.

Inductive invocation :=
| Init
| AddVertices (vids : list N)
| AddEdges (es : list (N * N))
| RemoveVertices (vids : list N)
| RemoveEdges (es : list (N * N))
| Build.

Definition a_invoke (s : aset) (i : invocation) : aset :=
  match i with
  | Init | Build => s
  | AddVertices vids => fold_left (fun s v => a_add_vertex v s) vids s
  | AddEdges es => fold_left (fun s e => a_add_edge (fst e) (snd e) s) es s
  | RemoveVertices vids => fold_left (fun s v => a_remove_vertex v s) vids s
  | RemoveEdges es => fold_left (fun s e => a_remove_edge (fst e) (snd e) s) es s
  end.

Definition u64_pair (e : N * N) : Prop := u64 (fst e) /\ u64 (snd e).
Definition u64_invocation (i : invocation) : Prop :=
  match i with
  | Init | Build => True
  | AddVertices vids | RemoveVertices vids => Forall u64 vids
  | AddEdges es | RemoveEdges es => Forall u64_pair es
  end.

(** A writer's buffering loses and reorders nothing. *)
Definition buffering (chunks : list text -> list text) : Prop := forall ps, concat (chunks ps) = concat ps.
(** An iteration order of a hash map. *)
Definition hash_order (order : graph -> graph) : Prop := forall g, Permutation g (order g).

Definition prefix {A} (p l : list A) : Prop := exists q, l = p ++ q.

(** [emits ls m rs]: writers with the pieces [ls] have together written the pieces
    [m], each its own in order, and have [rs] left. *)
Inductive emits : list (list text) -> list text -> list (list text) -> Prop :=
| em_none ls : emits ls [] ls
| em_piece ls m pre x r post : emits ls m (pre ++ (x :: r) :: post) -> emits ls (m ++ [x]) (pre ++ r :: post).

(** An invocation that is allowed to finish, or stops somewhere on the way. *)
Inductive event := Finishes (i : invocation) | Stops (i : invocation).
(** The invocations that took effect: all that finished, and some of the others. *)
Inductive effective : list event -> list invocation -> Prop :=
| ef_nil : effective [] []
| ef_finished i es is : effective es is -> effective (Finishes i :: es) (i :: is)
| ef_stopped i es is : effective es is -> effective (Stops i :: es) (i :: is)
| ef_lost i es is : effective es is -> effective (Stops i :: es) is.
