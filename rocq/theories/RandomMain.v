(** * gc-random from its command line to its exit status

    [Cli.creates_random_dag] and [Cli.gc_random] put together as in the main function.  As in Cli.v an
    option is given as the value clap returns for it. *)
From Coq Require Import String.
From Coq Require Import List NArith Bool.
From Verif Require Import Base Graph Text Format Store Cli Query.
Import ListNotations.
Open Scope N_scope.

(** gc-random.rs l.24-65: the options clap hands over; [--vertex-count] has a default, so it is always there.
    [--connected] (l.32-39) and [--cycle] (l.40-48) are declared, but main never asks for them. *)
Record random_args := {
  r_connected : bool; r_cycle : option (list text);
  r_vertices : text; r_edges : option text; r_force : bool
}.

(** gc-random.rs l.75: [vertex_count * 3] on usize (64 bits), with or without overflow checks. *)
Definition triple (checked : bool) (n : nat) : outcome nat :=
  let m := N.of_nat n * 3 in
  if m <? u64_limit then Done (N.to_nat m)
  else if checked then Panic else Done (N.to_nat (m mod u64_limit)).
(** gc-random.rs l.70-75.  The argument of [unwrap_or] is computed in any case. *)
Definition random_counts (checked : bool) (a : random_args) : outcome (nat * nat) :=
  match parse_usize (r_vertices a) with
  | None => Panic
  | Some vc =>
    obind (triple checked vc) (fun d =>
      Done (vc, match r_edges a with
                | Some x => match parse_usize x with Some ec => ec | None => d end
                | None => d
                end))
  end.
(** gc-random.rs l.68-108; [OutOfFuel]: the generator has not returned yet.  [order] is the iteration order of
    the generated graph when it is saved. *)
Definition gc_random_main (checked : bool) (chunks : list text -> list text) (order : graph -> graph)
  (rng : nat -> N) (a : random_args) (answer : text) (fuel : nat) : prog (outcome exit) :=
  match random_counts checked a with
  | Done (vc, ec) =>
    match creates_random_dag fuel vc ec rng with
    | Done g => bind (gc_random chunks (order g) (r_force a) answer) (fun r => Ret (Done r))
    | Panic => Ret (Done Failure)
    | OutOfFuel => Ret OutOfFuel
    end
  | _ => Ret (Done Failure)
  end.
