(** * Any call may be refused, and any write cut short

    The grants of Refuse.v for every call except write, and the answers of Disk.v for the write calls, together. *)
From Coq Require Import String.
From Coq Require Import List NArith Bool.
From Verif Require Import Base Graph Text Format Store Cli Disk Refuse.
Import ListNotations.

(** gcmd.rs l.95-103 *)
Definition h_add_commands (gr : grants) (cap : nat) (d : disk) (cs : list graph_command) : prog (io unit) :=
  if may_append gr then disk_add_commands cap d cs else Ret IoErr.
(** graph_utils.rs l.163-168 *)
Definition h_apply (gr : grants) (cap : nat) (d : disk) (cs : list graph_command) : prog (io unit) :=
  r_with_lock gr (h_add_commands gr cap d cs).
(** graph_utils.rs l.64-73 with gcmd.rs l.79-91 *)
Definition h_save (gr : grants) (cap : nat) (d : disk) (g : graph) : prog (io unit) :=
  if may_create gr then disk_save cap d g else Ret IoErr.
(** gc-build.rs l.34-41 *)
Definition h_gc_build (gr : grants) (nd : N -> bool) (cap : nat) (d : disk) (order : graph -> graph) : prog exit :=
  bind (r_load gr nd) (fun r =>
    match r with
    | Done (Ok g) =>
      bind (h_save gr cap d (order g)) (fun w => Ret (match w with IoOk _ => Success | IoErr => Failure end))
    | _ => Ret Failure
    end).
(** gc-random.rs l.79-107, given the generated graph *)
Definition h_gc_random (gr : grants) (cap : nat) (d : disk) (g : graph) (force : bool) (answer : text) : prog exit :=
  if negb force && negb (confirmed answer) then Ret Success
  else
    bind (r_clean gr) (fun r => match r with
    | IoErr => Ret Failure
    | IoOk _ =>
      bind (r_init gr) (fun r => match r with
      | IoErr => Ret Failure
      | IoOk _ =>
        bind (h_save gr cap d g) (fun r => Ret (match r with IoOk _ => Success | IoErr => Failure end))
      end)
    end).
(** gc-add.rs l.87-128; [gr k] and [d k] are the grants and answers during the k-th request. *)
Definition h_gc_add (gr : nat -> grants) (cap : nat) (d : nat -> disk) (a : add_args) : prog exit :=
  add_with (fun k => h_apply (gr k) cap (d k)) a.
(** gc-delete.rs l.42-53 *)
Definition h_gc_delete (gr : nat -> grants) (cap : nat) (d : nat -> disk) (vertex edge : option (list text)) : prog exit :=
  option_call vertex parse_all (fun vs => h_apply (gr 0%nat) cap (d 0%nat) (map RemoveVertex vs)) (
  option_call edge
    (fun vs => obind (parse_all vs) (fun l => obind (as_vertex_tuple l) expect))
    (fun es => h_apply (gr 1%nat) cap (d 1%nat) (map (fun e => RemoveEdge (fst e) (snd e)) es)) (
  Ret Success)).
