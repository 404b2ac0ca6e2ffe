(** * Model of core/src/iter/iter_datastructure.rs *)
From Coq Require Import List NArith ZArith Bool Permutation Lia.
From Verif Require Import Base.
Import ListNotations.

(** iter_datastructure.rs l.10-14: trait [SearchQueue].  An implementation is a carrier with [push]
    and [pop]; [q_content] is a ghost view of what is stored and [q_valid] a
    representation invariant, used in proofs only. *)
Record squeue (A : Type) := {
  q_car : Type;
  q_empty : q_car;
  q_push : q_car -> A -> q_car;
  q_pop : q_car -> option (A * q_car);
  q_content : q_car -> list A;
  q_valid : q_car -> Prop;
  q_empty_valid : q_valid q_empty;
  q_empty_content : q_content q_empty = [];
  q_push_valid : forall q x, q_valid q -> q_valid (q_push q x);
  q_push_content : forall q x, q_valid q -> Permutation (q_content (q_push q x)) (x :: q_content q);
  q_pop_none : forall q, q_valid q -> q_pop q = None -> q_content q = [];
  q_pop_valid : forall q x q', q_valid q -> q_pop q = Some (x, q') -> q_valid q';
  q_pop_content : forall q x q', q_valid q -> q_pop q = Some (x, q') ->
    Permutation (q_content q) (x :: q_content q') }.
Arguments q_car {A}. Arguments q_empty {A}. Arguments q_push {A}. Arguments q_pop {A}.
Arguments q_content {A}. Arguments q_valid {A}.

(** The queue always pops an element of least key. For iter_datastructure.rs l.85-109. *)
Definition pops_least {A} (Q : squeue A) (key : A -> Z) : Prop :=
  forall q x q' y, q_valid Q q -> q_pop Q q = Some (x, q') -> In y (q_content Q q) ->
    (key x <= key y)%Z.
(** The queue always pops an element of greatest key. For iter_datastructure.rs l.63-83. *)
Definition pops_greatest {A} (Q : squeue A) (key : A -> Z) : Prop :=
  forall q x q' y, q_valid Q q -> q_pop Q q = Some (x, q') -> In y (q_content Q q) ->
    (key y <= key x)%Z.

(** ** iter_datastructure.rs l.17-37: [Stack], a linked list with [push_back] and [pop_back]. *)
Definition pop_back {A} (l : list A) : option (A * list A) :=
  match rev l with
  | [] => None
  | x :: t => Some (x, rev t)
  end.

Lemma pop_back_some A (l : list A) x t : pop_back l = Some (x, t) <-> l = t ++ [x].
Proof.
  unfold pop_back. split.
  - destruct (rev l) as [|a r] eqn:E; [discriminate|]. intros [= -> <-].
    rewrite <- (rev_involutive l), E. reflexivity.
  - intros ->. rewrite rev_app_distr. cbn. now rewrite rev_involutive.
Qed.
Lemma pop_back_none A (l : list A) : pop_back l = None <-> l = [].
Proof.
  unfold pop_back. split.
  - destruct (rev l) as [|a r] eqn:E; [|discriminate]. intros _.
    now rewrite <- (rev_involutive l), E.
  - now intros ->.
Qed.

(** iter_datastructure.rs l.17-37 *)
Program Definition Stack (A : Type) : squeue A :=
  {| q_car := list A; q_empty := [];
     q_push := fun l x => l ++ [x];
     q_pop := pop_back;
     q_content := fun l => l;
     q_valid := fun _ => True |}.
Next Obligation. symmetry. apply Permutation_cons_append. Qed.
Next Obligation. now apply pop_back_none. Qed.
Next Obligation.
  apply pop_back_some in H0. subst. symmetry. apply Permutation_cons_append.
Qed.

(** ** iter_datastructure.rs l.41-61: [Queue], a linked list with [push_back] and [pop_front]. *)
Definition pop_front {A} (l : list A) : option (A * list A) :=
  match l with [] => None | x :: t => Some (x, t) end.

(** iter_datastructure.rs l.41-61 *)
Program Definition Queue (A : Type) : squeue A :=
  {| q_car := list A; q_empty := [];
     q_push := fun l x => l ++ [x];
     q_pop := pop_front;
     q_content := fun l => l;
     q_valid := fun _ => True |}.
Next Obligation. symmetry. apply Permutation_cons_append. Qed.
Next Obligation. destruct q; [reflexivity|discriminate]. Qed.
Next Obligation. destruct q; [discriminate|]. now injection H0 as -> ->. Qed.

(** ** Facts about any queue *)
Section Facts.
  Variables (A : Type) (Q : squeue A).

  (** Several calls of [push], as in iter_breadth.rs l.81-85. *)
  Definition push_all (xs : list A) (q : q_car Q) : q_car Q :=
    fold_left (fun q x => q_push Q q x) xs q.

  Lemma push_all_valid xs : forall q, q_valid Q q -> q_valid Q (push_all xs q).
  Proof.
    induction xs as [|x xs IH]; cbn; intros q H; [assumption|]. apply IH.
    now apply q_push_valid.
  Qed.
  Lemma push_all_content xs : forall q, q_valid Q q ->
    Permutation (q_content Q (push_all xs q)) (xs ++ q_content Q q).
  Proof.
    induction xs as [|x xs IH]; cbn; intros q H; [reflexivity|].
    rewrite IH by now apply q_push_valid. rewrite q_push_content by assumption.
    symmetry. apply Permutation_middle.
  Qed.
End Facts.
Arguments push_all {A}.

Lemma push_all_list A (xs l : list A) : push_all (Queue A) xs l = l ++ xs.
Proof.
  unfold push_all. cbn. revert l. induction xs as [|x xs IH]; cbn; intro l.
  - now rewrite app_nil_r.
  - rewrite IH, <- app_assoc. reflexivity.
Qed.
