(** * Calls other than write that the operating system refuses

    Missing permissions, a read-only file system, no free file descriptor: each call that makes a directory, opens,
    reads or removes something may be refused, whatever the reason.  A refused call changes nothing and returns an
    error.  Write calls succeed; Disk.v is about those. *)
From Coq Require Import String.
From Coq Require Import List NArith Bool.
From Verif Require Import Base Graph Text Format Store Cli Disk.
Import ListNotations.

(** How far [fs::remove_dir_all] gets: it removes the file in the directory, then the directory. graph_utils.rs l.79. *)
Inductive removal := NotAtAll | OnlyTheFile | Everything.
(** Which calls of a process are granted: those of graph_utils.rs l.22-81 and gcmd.rs l.79-103. *)
Record grants := {
  may_mkdir : bool;      (** [create_dir_all]; graph_utils.rs l.137 *)
  may_lock : bool;       (** open of the lock file; graph_utils.rs l.138-142 *)
  may_unlock : bool;     (** [remove_file] of the lock file; graph_utils.rs l.34 *)
  may_touch : bool;      (** open of the commands file by [init]; graph_utils.rs l.138-142 *)
  may_open : bool;       (** open of the commands file to read it; graph_utils.rs l.58 *)
  may_read : bool;       (** the read calls on it; utils.rs l.41-42 *)
  may_append : bool;     (** open of the commands file to append; gcmd.rs l.96 *)
  may_create : bool;     (** [File::create] of the commands file; gcmd.rs l.80 *)
  may_remove : removal   (** graph_utils.rs l.79 *)
}.

(** graph_utils.rs l.28-30, l.135-143: the result of [create_dir_all] is ignored. *)
Definition r_lock (gr : grants) : prog (io unit) :=
  Act (fun s => if may_mkdir gr then set_root true s else s) (fun _ =>
  Act (fun s => if may_lock gr && fs_root s then set_lock (created (fs_lock s)) s else s)
      (fun s => Ret (if may_lock gr && fs_root s && openable (fs_lock s) then IoOk tt else IoErr))).
(** graph_utils.rs l.33-35 *)
Definition r_unlock (gr : grants) : prog (io unit) :=
  Act (fun s => if may_unlock gr then match fs_lock s with File _ => set_lock Absent s | _ => s end else s)
      (fun s => Ret (if may_unlock gr then match fs_lock s with File _ => IoOk tt | _ => IoErr end else IoErr)).
(** graph_utils.rs l.42-50 *)
Definition r_with_lock {A} (gr : grants) (block : prog (io A)) : prog (io A) :=
  bind (r_lock gr) (fun r =>
    match r with
    | IoErr => Ret IoErr
    | IoOk _ =>
      bind block (fun res =>
        bind (r_unlock gr) (fun u => match u with IoErr => Ret IoErr | IoOk _ => Ret res end))
    end).
(** graph_utils.rs l.22-24 with [touch], l.135-143.  [create_dir_all] makes both directories or none; [r_init_half] is
    the one that is refused half-way. *)
Definition r_init (gr : grants) : prog (io unit) :=
  Act (fun s => if may_mkdir gr then
                  match fs_graph s with
                  | NoGraph => set_graph (GraphDir Absent) (set_root true s)
                  | _ => set_root true s
                  end
                else s) (fun _ =>
  Act (fun s => if may_touch gr then match fs_graph s with GraphDir e => set_commands (created e) s | _ => s end else s)
      (fun s => Ret (if may_touch gr then
                       match fs_graph s with
                       | GraphDir e => if openable e then IoOk tt else IoErr
                       | _ => IoErr
                       end
                     else IoErr))).
(** The same when [create_dir_all] is granted the root directory and refused the graph directory: only the root
    directory is there when [touch] opens the file. graph_utils.rs l.22-24, l.135-143. *)
Definition r_init_half (gr : grants) : prog (io unit) :=
  Act (set_root true) (fun _ =>
  Act (fun s => if may_touch gr then match fs_graph s with GraphDir e => set_commands (created e) s | _ => s end else s)
      (fun s => Ret (if may_touch gr then
                       match fs_graph s with
                       | GraphDir e => if openable e then IoOk tt else IoErr
                       | _ => IoErr
                       end
                     else IoErr))).
(** graph_utils.rs l.53-62: a refused open is an error, a refused read a panic (utils.rs l.42, [unwrap]). *)
Definition r_load (gr : grants) (nd : N -> bool) : prog (outcome (result graph)) :=
  Act (fun s => s) (fun s => Ret
    (if negb (may_open gr) then Done (Err (txt "io error"))
     else match commands_entry s with
     | File c => if may_read gr then gcmd_read nd c else Panic
     | Absent => Done (Err (txt "io error"))
     | Directory => Panic
     end)).
(** gcmd.rs l.95-103 *)
Definition r_add_commands (gr : grants) (chunks : list text -> list text) (cs : list graph_command) : prog (io unit) :=
  if may_append gr then add_commands chunks cs else Ret IoErr.
(** graph_utils.rs l.163-168 *)
Definition r_apply (gr : grants) (chunks : list text -> list text) (cs : list graph_command) : prog (io unit) :=
  r_with_lock gr (r_add_commands gr chunks cs).
(** graph_utils.rs l.64-73 with gcmd.rs l.79-91 *)
Definition r_save (gr : grants) (chunks : list text -> list text) (g : graph) : prog (io unit) :=
  if may_create gr then save_graph_as_commands chunks g else Ret IoErr.
(** graph_utils.rs l.77-81.  A graph directory without a commands file has nothing to remove first. *)
Definition r_clean (gr : grants) : prog (io unit) :=
  r_with_lock gr
    (Act (fun s => match fs_graph s, may_remove gr with
                   | GraphDir _, Everything => set_graph NoGraph s
                   | GraphDir _, OnlyTheFile => set_commands Absent s
                   | _, _ => s
                   end)
         (fun s => Ret (match fs_graph s, may_remove gr with GraphDir _, Everything => IoOk tt | _, _ => IoErr end))).

(** gc-init.rs l.23 *)
Definition r_gc_init (gr : grants) : prog exit :=
  bind (r_init gr) (fun r => Ret (match r with IoOk _ => Success | IoErr => Failure end)).
(** gc-build.rs l.34-41 *)
Definition r_gc_build (gr : grants) (nd : N -> bool) (chunks : list text -> list text) (order : graph -> graph) : prog exit :=
  bind (r_load gr nd) (fun r =>
    match r with
    | Done (Ok g) =>
      bind (r_save gr chunks (order g)) (fun w => Ret (match w with IoOk _ => Success | IoErr => Failure end))
    | _ => Ret Failure
    end).
(** gc-clean.rs l.44-61 *)
Definition r_gc_clean (gr : grants) (force : bool) (answer : text) : prog exit :=
  if negb force && negb (confirmed answer) then Ret Success
  else bind (r_clean gr) (fun r => Ret (match r with IoOk _ => Success | IoErr => Failure end)).
(** gc-random.rs l.79-107, given the generated graph *)
Definition r_gc_random (gr : grants) (chunks : list text -> list text) (g : graph) (force : bool) (answer : text) : prog exit :=
  if negb force && negb (confirmed answer) then Ret Success
  else
    bind (r_clean gr) (fun r => match r with
    | IoErr => Ret Failure
    | IoOk _ =>
      bind (r_init gr) (fun r => match r with
      | IoErr => Ret Failure
      | IoOk _ =>
        bind (r_save gr chunks g) (fun r => Ret (match r with IoOk _ => Success | IoErr => Failure end))
      end)
    end).
(** gc-add.rs l.87-128; [gr k] are the grants during the k-th request. *)
Definition r_gc_add (gr : nat -> grants) (chunks : list text -> list text) (a : add_args) : prog exit :=
  add_with (fun k => r_apply (gr k) chunks) a.
(** gc-delete.rs l.42-53 *)
Definition r_gc_delete (gr : nat -> grants) (chunks : list text -> list text) (vertex edge : option (list text)) : prog exit :=
  option_call vertex parse_all (fun vs => r_apply (gr 0%nat) chunks (map RemoveVertex vs)) (
  option_call edge
    (fun vs => obind (parse_all vs) (fun l => obind (as_vertex_tuple l) expect))
    (fun es => r_apply (gr 1%nat) chunks (map (fun e => RemoveEdge (fst e) (snd e)) es)) (
  Ret Success)).
(** The query tools and gc-desc, after the graph is loaded; e.g. gc-topo-sort.rs l.25-36. *)
Definition r_query {A} (gr : grants) (nd : N -> bool) (f : graph -> A) (failed : A) : prog A :=
  bind (r_load gr nd) (fun r => Ret (match r with Done (Ok g) => f g | _ => failed end)).
