(** * Specification of command lines, independent of the parser

    What a user reads in the help texts (README.md): which options there are, how many values each
    takes, which are required; and how a command line is written with them. *)
From Coq Require Import List NArith Bool.
From Verif Require Import Text.
Import ListNotations.
Open Scope N_scope.

(** One line of a help text.  [d_values]: none for a flag; otherwise the least and (if any) the
    greatest number of values. *)
Record decl := {
  d_name : text; d_short : option N; d_values : option (nat * option nat);
  d_repeat : bool; d_required : bool; d_default : option text
}.
(** A help text; of the names in [one_of], if any, exactly one is to be used. *)
Record manual := { decls : list decl; one_of : list text }.

(** Use of an option or flag, with the values given to it there. *)
Definition use : Type := text * list text.

(** A word that is a value when it stands alone: it does not start with a dash, or is a lone dash. *)
Definition plain (w : text) : Prop := forall c t, w <> 45 :: c :: t.
(** [x] is [v] after equals signs (of which one is needed, but more are skipped). *)
Definition after_equals (x : text) (k : nat) (v : text) : Prop := x = repeat 61 k ++ v /\ hd_error v <> Some 61.

Section Written.
  Variable ds : list decl.
  Definition flag (d : decl) : Prop := In d ds /\ d_values d = None.
  Definition option_ (d : decl) : Prop := In d ds /\ d_values d <> None.

  (** The letters after a single dash, the uses they stand for, and whether values may follow. *)
  Inductive letters : text -> list use -> bool -> Prop :=
  | letters_end : letters [] [] false
  | letters_flag d c cs us more : flag d -> d_short d = Some c -> letters cs us more ->
      letters (c :: cs) ((d_name d, []) :: us) more
  | letters_option d c : option_ d -> d_short d = Some c -> letters [c] [(d_name d, [])] true
  | letters_value d c x k v : option_ d -> d_short d = Some c -> x <> [] -> after_equals x k v ->
      letters (c :: x) [(d_name d, [v])] (d_repeat d && Nat.eqb k 0).
  (** A word, the uses it stands for, and whether values may follow. *)
  Inductive word_says : text -> list use -> bool -> Prop :=
  | long_flag d k t : flag d -> (2 <= k)%nat -> (t = [] \/ exists x, t = 61 :: x) ->
      word_says (repeat 45 k ++ d_name d ++ t) [(d_name d, [])] false
  | long_option d k : option_ d -> (2 <= k)%nat -> word_says (repeat 45 k ++ d_name d) [(d_name d, [])] true
  | long_value d k j x v : option_ d -> (2 <= k)%nat -> after_equals x j v ->
      word_says (repeat 45 k ++ d_name d ++ 61 :: x) [(d_name d, [v])] false
  | short_letters cs us more : cs <> [] -> letters cs us more -> word_says (45 :: cs) us more.

  (** The values [vs] belong to the last use. *)
  Definition extended (us : list use) (vs : list text) (us' : list use) : Prop :=
    vs = [] /\ us' = us \/ exists us0 n xs, us = us0 ++ [(n, xs)] /\ us' = us0 ++ [(n, xs ++ vs)].
  (** A command line and the uses it stands for, from left to right. *)
  Inductive written : list use -> list text -> Prop :=
  | written_nothing : written [] []
  | written_end : written [] [[45; 45]]
  | written_word w us more vs us1 us2 ws :
      word_says w us more -> Forall plain vs -> (vs = [] \/ more = true) -> extended us vs us1 ->
      written us2 ws -> written (us1 ++ us2) (w :: vs ++ ws).
End Written.

(** ** What the uses amount to *)
Definition uses_of (n : text) (us : list use) : list use :=
  filter (fun u => if list_eq_dec N.eq_dec (fst u) n then true else false) us.
Definition used (n : text) (us : list use) : Prop := exists vs, In (n, vs) us.
(** All values given to [n], in the order given. *)
Definition values_given (n : text) (us : list use) : list text := concat (map snd (uses_of n us)).
(** The values an option ends up with: those given, or its default.  [fill]: an option used without
    values has its default too (clap's behaviour differs between versions). *)
Definition ends_with_values (fill : bool) (d : decl) (us : list use) : list text :=
  match values_given (d_name d) us, d_default d with
  | [], Some x => match uses_of (d_name d) us with [] => [x] | _ => if fill then [x] else [] end
  | vs, _ => vs
  end.
Definition enough (v : option (nat * option nat)) (k : nat) : Prop :=
  match v with
  | None => True
  | Some (lo, hi) => (lo <= k)%nat /\ match hi with Some n => (k <= n)%nat | None => True end
  end.
(** The help text allows these uses. *)
Definition allowed (fill : bool) (mn : manual) (us : list use) : Prop :=
  (forall d, In d (decls mn) -> used (d_name d) us ->
     enough (d_values d) (length (ends_with_values fill d us)) /\
     (d_repeat d = false -> length (uses_of (d_name d) us) = 1%nat)) /\
  (forall d, In d (decls mn) -> d_required d = true -> d_default d = None -> used (d_name d) us) /\
  (one_of mn <> [] -> exists n, In n (one_of mn) /\ used n us /\ forall k, In k (one_of mn) -> used k us -> k = n).
(** A program that asks for the values of an option (none: not present) is answered by the uses and
    the defaults. *)
Definition understood (fill : bool) (mn : manual) (us : list use) (values : text -> option (list text)) : Prop :=
  forall d, In d (decls mn) ->
    (used (d_name d) us \/ d_default d <> None -> values (d_name d) = Some (ends_with_values fill d us)) /\
    (~ used (d_name d) us -> d_default d = None -> values (d_name d) = None).
(** The same options, each used in the same way in the same order; different options may come in any order. *)
Definition same_uses (us us' : list use) : Prop := forall n, uses_of n us = uses_of n us'.
