(** * Several users at once: each sends requests one after another

    A user (a shell, a script) calls the functions behind gc-init, gc-add, gc-delete and the query tools one call after
    another; several users work on one directory, and the system interleaves their single file operations. *)
From Coq Require Import List NArith.
From Verif Require Import Base Graph Path Queue Iter Text Format Store Steps Reader.
Import ListNotations.

(** A request: one call of [apply_graph_commands] (graph_utils.rs l.163-168; one call per option of gc-add.rs l.90-128
    and gc-delete.rs l.44-53) with the way its [BufWriter] splits the text, or one [load_graph]
    (graph_utils.rs l.53-62), reading the file in one step or by one step per read call ([Reader.v]: any number of
    characters per call, and [fuel] calls at most), or gc-init (graph_utils.rs l.22-24, gc-init.rs l.23; one step per system
    call, [Steps.v]). *)
Inductive request :=
| SetUp
| Update (chunks : list text -> list text) (cs : list graph_command)
| Ask
| AskSlowly (takes : list text -> text -> nat) (fuel : nat).
(** What the caller gets back. graph_utils.rs l.22, l.53, l.163. *)
Inductive answer :=
| AMade (r : io unit)
| AStored (r : io unit)
| ARead (r : outcome (result graph)).

Section Clients.
  Variable nd : N -> bool.
  (** graph_utils.rs l.22-24, l.53-62 and l.163-168 *)
  Definition serve (o : request) : prog answer :=
    match o with
    | SetUp => bind f_init (fun r => Ret (AMade r))
    | Update chunks cs => bind (apply_graph_commands chunks cs) (fun r => Ret (AStored r))
    | Ask => bind (load_graph nd) (fun r => Ret (ARead r))
    | AskSlowly takes fuel => bind (load_stepwise nd takes fuel) (fun r => Ret (ARead r))
    end.
End Clients.

(** A user: the answers so far, the call in progress, the requests to come. E.g. gc-add.rs l.90-128: one
    call after another. *)
Record client := Client { answers : list answer; current : option (prog answer); todo : list request }.

(** One step of the system: some user starts a call, one file operation of a running call happens, or a call returns.
    A killed process is one that is never chosen again.  A reader that has used up its [fuel] is still reading: it does
    not return; every run is one of the model for readers with enough [fuel]. graph_utils.rs l.42-62 and l.163-168. *)
Inductive cstep (nd : N -> bool) : fs * list client -> fs * list client -> Prop :=
| c_begin s pre a o rest post :
    cstep nd (s, pre ++ Client a None (o :: rest) :: post) (s, pre ++ Client a (Some (serve nd o)) rest :: post)
| c_act s pre a upd k rest post :
    cstep nd (s, pre ++ Client a (Some (Act upd k)) rest :: post) (upd s, pre ++ Client a (Some (k s)) rest :: post)
| c_end s pre a r rest post : r <> ARead OutOfFuel ->
    cstep nd (s, pre ++ Client a (Some (Ret r)) rest :: post) (s, pre ++ Client (a ++ [r]) None rest :: post).
