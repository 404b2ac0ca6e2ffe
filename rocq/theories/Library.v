(** * Programs that use the functions of graph_utils.rs themselves *)
From Coq Require Import String.
From Coq Require Import List NArith Bool.
From Verif Require Import Base Graph Text Format Store.
Import ListNotations.

Section Calls.
  (** How a [BufWriter] gathers the pieces it is given into write calls. *)
  Variable chunks : list text -> list text.
  (** graph_utils.rs l.84-86 *)
  Definition add_vertex1 (v : N) : prog (io unit) := apply_graph_commands chunks [AddVertex v].
  (** graph_utils.rs l.94-96 *)
  Definition add_edge1 (a b : N) : prog (io unit) := apply_graph_commands chunks [AddEdge a b].
  (** graph_utils.rs l.110-112 *)
  Definition remove_vertex1 (v : N) : prog (io unit) := apply_graph_commands chunks [RemoveVertex v].
  (** graph_utils.rs l.38-40; [Path::exists] is true of a file and of a directory. *)
  Definition is_locked : prog bool :=
    Act (fun s => s) (fun s => Ret (match fs_lock s with Absent => false | _ => true end)).

  (** What a caller can put together: one of the calls of graph_utils.rs l.84-131, or [with_lock] (l.42-50) around several
      uses, one after the other with [?]. *)
  Inductive use := Call (cs : list graph_command) | Guard (l : list use).
  (** Uses one after the other with [?]. graph_utils.rs l.42-50. *)
  Definition in_turn (f : use -> prog (io unit)) : list use -> prog (io unit) :=
    fix go l := match l with
      | [] => Ret (IoOk tt)
      | u :: r => bind (f u) (fun x => match x with IoErr => Ret IoErr | IoOk _ => go r end)
      end.
  (** graph_utils.rs l.42-50, l.163-168 *)
  Fixpoint do_use (u : use) : prog (io unit) :=
    match u with
    | Call cs => apply_graph_commands chunks cs
    | Guard l => with_lock (in_turn do_use l)
    end.
  (** [with_lock] around calls of [gcmd::add_commands], gcmd.rs l.95-103, with [?]. *)
  Fixpoint raw_turn (css : list (list graph_command)) : prog (io unit) :=
    match css with
    | [] => Ret (IoOk tt)
    | cs :: r => bind (add_commands chunks cs) (fun x => match x with IoErr => Ret IoErr | IoOk _ => raw_turn r end)
    end.
  (** A caller that asks first. graph_utils.rs l.38-50. *)
  Definition careful {A} (block : prog (io A)) : prog (io A) :=
    bind is_locked (fun b => if b then Ret IoErr else with_lock block).
End Calls.
