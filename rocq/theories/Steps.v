(** * Directories made and removed call by call

    [Store.init] makes the directories in one step and [Store.clean] removes the graph directory in one step.
    Here every system call of [fs::create_dir_all] and [fs::remove_dir_all] is one step.  Calls go by path, as in
    Store.v.  A directory at the place of the commands file is taken to be empty. *)
From Coq Require Import List NArith Bool.
From Verif Require Import Base Graph Text Format Store Cli.
Import ListNotations.

(** [mkdir] on [<root>/.graph] when the root exists; graph_utils.rs l.137 *)
Definition mkdir_graph (s : fs) : fs :=
  match fs_graph s with NoGraph => set_graph (GraphDir Absent) s | _ => s end.
(** The open of [touch] on the commands file; graph_utils.rs l.138-142 *)
Definition f_open : prog (io unit) :=
  Act (fun s => match fs_graph s with GraphDir e => set_commands (created e) s | _ => s end)
      (fun s => Ret (match fs_graph s with
                     | GraphDir e => if openable e then IoOk tt else IoErr
                     | _ => IoErr
                     end)).
(** graph_utils.rs l.22-24 with [touch], l.135-143.  [create_dir_all] first tries to make the directory
    itself, then its parent, then itself again; its result is ignored. *)
Definition f_init : prog (io unit) :=
  Act (fun s => if fs_root s then mkdir_graph s else s) (fun s =>
    if fs_root s then f_open
    else Act (set_root true) (fun _ => Act mkdir_graph (fun _ => f_open))).

(** [rmdir] on the graph directory, which has to be empty; graph_utils.rs l.79 *)
Definition f_rmdir : prog (io unit) :=
  Act (fun s => match fs_graph s with GraphDir Absent => set_graph NoGraph s | _ => s end)
      (fun s => Ret (match fs_graph s with GraphDir Absent => IoOk tt | _ => IoErr end)).
(** [fs::remove_dir_all] on the graph directory, graph_utils.rs l.79: list it, remove what was listed, then the
    directory itself.  [tolerant]: whether an entry that somebody else has removed meanwhile is passed
    over (newer versions of the standard library) or is an error. *)
Definition f_remove (tolerant : bool) : prog (io unit) :=
  Act (fun s => s) (fun s =>
    match fs_graph s with
    | GraphDir Absent => f_rmdir
    | GraphDir (File _) =>
      Act (fun s => match fs_graph s with GraphDir (File _) => set_commands Absent s | _ => s end) (fun s =>
        match fs_graph s with
        | GraphDir (File _) => f_rmdir
        | GraphDir Directory => Ret IoErr
        | _ => if tolerant then f_rmdir else Ret IoErr
        end)
    | GraphDir Directory =>
      Act (fun s => match fs_graph s with GraphDir Directory => set_commands Absent s | _ => s end) (fun s =>
        match fs_graph s with
        | GraphDir Directory => f_rmdir
        | GraphDir (File _) => Ret IoErr
        | _ => if tolerant then f_rmdir else Ret IoErr
        end)
    | _ => Ret IoErr
    end).
(** graph_utils.rs l.77-81 *)
Definition f_clean (tolerant : bool) : prog (io unit) := with_lock (f_remove tolerant).

(** gc-init.rs l.23 *)
Definition f_gc_init : prog exit :=
  bind f_init (fun r => Ret (match r with IoOk _ => Success | IoErr => Failure end)).
(** gc-clean.rs l.44-61 *)
Definition f_gc_clean (tolerant force : bool) (answer : text) : prog exit :=
  if negb force && negb (confirmed answer) then Ret Success
  else bind (f_clean tolerant) (fun r => Ret (match r with IoOk _ => Success | IoErr => Failure end)).
(** gc-random.rs l.79-107, given the generated graph *)
Definition f_gc_random (tolerant : bool) (chunks : list text -> list text) (g : graph) (force : bool) (answer : text) : prog exit :=
  if negb force && negb (confirmed answer) then Ret Success
  else
    bind (f_clean tolerant) (fun r => match r with
    | IoErr => Ret Failure
    | IoOk _ =>
      bind f_init (fun r => match r with
      | IoErr => Ret Failure
      | IoOk _ =>
        bind (save_graph_as_commands chunks g) (fun r => Ret
          (match r with IoOk _ => Success | IoErr => Failure end))
      end)
    end).
