(** * Open files and the names they were opened under

    Same programs as in [Store.v], with one difference: a program that has opened the
    commands file keeps that file even if the name is removed or given to a new file,
    as on Unix.  Opening and reading are separate steps.  Lock file and directories
    are as in [Store.v]. *)
From Coq Require Import String.
From Coq Require Import List NArith Bool Arith.
From Verif Require Import Base Graph Text Format Store.
Import ListNotations.

(** The name [<root>/.graph/commands]: a file is given by its number. graph_utils.rs l.155-160. *)
Inductive ientry := IAbsent | IFile (n : nat) | IDirectory.
(** The path [<root>/.graph], graph_utils.rs l.17. *)
Inductive igraph := INoGraph | INotADir | IGraphDir (e : ientry).
(** The paths of graph_utils.rs l.17-19, and the contents of all files, also those
    without a name. *)
Record ifs := { i_root : bool; i_lock : entry; i_graph : igraph; i_files : list text }.

(** [fs::create_dir_all] on the root. graph_utils.rs l.137. *)
Definition i_set_root (s : ifs) : ifs := {| i_root := true; i_lock := i_lock s; i_graph := i_graph s; i_files := i_files s |}.
(** The lock file created or removed, graph_utils.rs l.28-35. *)
Definition i_set_lock (e : entry) (s : ifs) : ifs :=
  {| i_root := i_root s; i_lock := e; i_graph := i_graph s; i_files := i_files s |}.
(** The graph directory created, removed or changed. graph_utils.rs l.79, l.137. *)
Definition i_set_graph (d : igraph) (s : ifs) : ifs :=
  {| i_root := i_root s; i_lock := i_lock s; i_graph := d; i_files := i_files s |}.
(** The contents of file [n]. gcmd.rs l.80, l.96. *)
Definition content (n : nat) (s : ifs) : text := nth n (i_files s) [].
(** The n-th element replaced. For the writes of gcmd.rs l.84-100. *)
Fixpoint replace_nth {A} (n : nat) (x : A) (l : list A) : list A :=
  match n, l with
  | _, [] => []
  | O, _ :: t => x :: t
  | S m, a :: t => a :: replace_nth m x t
  end.
(** File [n] changed. gcmd.rs l.80, l.84-100. *)
Definition i_set_content (n : nat) (c : text) (s : ifs) : ifs :=
  {| i_root := i_root s; i_lock := i_lock s; i_graph := i_graph s; i_files := replace_nth n c (i_files s) |}.
(** The entry [<root>/.graph/commands]. graph_utils.rs l.155-160. *)
Definition i_commands (s : ifs) : ientry := match i_graph s with IGraphDir e => e | _ => IAbsent end.
(** The name given to a new, empty file. graph_utils.rs l.138-142, gcmd.rs l.80. *)
Definition i_create (s : ifs) : ifs :=
  {| i_root := i_root s; i_lock := i_lock s; i_graph := IGraphDir (IFile (length (i_files s))); i_files := i_files s ++ [[]] |}.

(** What the names show, as in [Store.v]. graph_utils.rs l.17-19. *)
Definition shown_fs (s : ifs) : fs :=
  {| fs_root := i_root s; fs_lock := i_lock s;
     fs_graph := match i_graph s with
                 | INoGraph => NoGraph
                 | INotADir => NotADir
                 | IGraphDir IAbsent => GraphDir Absent
                 | IGraphDir (IFile n) => GraphDir (File (content n s))
                 | IGraphDir IDirectory => GraphDir Directory
                 end |}.

(** Programs, as in [Store.v]. The calls of graph_utils.rs l.22-168. *)
Inductive iprog (A : Type) :=
| IRet (a : A)
| IAct (upd : ifs -> ifs) (k : ifs -> iprog A).
Arguments IRet {A} a.
Arguments IAct {A} upd k.
(** One program after another. E.g. graph_utils.rs l.46-49. *)
Fixpoint ibind {A B} (p : iprog A) (f : A -> iprog B) : iprog B :=
  match p with
  | IRet a => f a
  | IAct upd k => IAct upd (fun s => ibind (k s) f)
  end.
(** A run without interference. E.g. graph_utils.rs l.46-49. *)
Fixpoint i_run {A} (p : iprog A) (s : ifs) : ifs * A :=
  match p with
  | IRet a => (s, a)
  | IAct upd k => i_run (k s) (upd s)
  end.
(** One step: some process performs its next call. The calls of graph_utils.rs l.22-168. *)
Definition ii_step {A} (c c' : ifs * list (iprog A)) : Prop :=
  exists pre upd k post,
    snd c = pre ++ IAct upd k :: post /\ fst c' = upd (fst c) /\ snd c' = pre ++ k (fst c) :: post.
(** Any number of steps of any processes. The calls of graph_utils.rs l.22-168. *)
Inductive ii_steps {A} : ifs * list (iprog A) -> ifs * list (iprog A) -> Prop :=
| ii_refl c : ii_steps c c
| ii_more c c' c'' : ii_step c c' -> ii_steps c' c'' -> ii_steps c c''.

(** graph_utils.rs l.28-30 with [touch], l.135-143 *)
Definition i_lock_prog : iprog (io unit) :=
  IAct i_set_root (fun _ =>
  IAct (fun s => if i_root s then i_set_lock (created (i_lock s)) s else s)
       (fun s => IRet (if i_root s && openable (i_lock s) then IoOk tt else IoErr))).
(** graph_utils.rs l.33-35 *)
Definition i_unlock : iprog (io unit) :=
  IAct (fun s => match i_lock s with File _ => i_set_lock Absent s | _ => s end)
       (fun s => IRet (match i_lock s with File _ => IoOk tt | _ => IoErr end)).
(** graph_utils.rs l.48-49: the end of [with_lock]. *)
Definition i_finish {A} (res : io A) : iprog (io A) :=
  ibind i_unlock (fun u => match u with IoErr => IRet IoErr | IoOk _ => IRet res end).
(** graph_utils.rs l.42-50 *)
Definition i_with_lock {A} (block : iprog (io A)) : iprog (io A) :=
  ibind i_lock_prog (fun r =>
    match r with
    | IoErr => IRet IoErr
    | IoOk _ => ibind block i_finish
    end).
(** graph_utils.rs l.22-24 with [touch] *)
Definition i_init : iprog (io unit) :=
  IAct (fun s => match i_graph s with
                 | INoGraph => i_set_graph (IGraphDir IAbsent) (i_set_root s)
                 | _ => i_set_root s
                 end) (fun _ =>
  IAct (fun s => match i_graph s with IGraphDir IAbsent => i_create s | _ => s end)
       (fun s => IRet (match i_graph s with
                       | IGraphDir IDirectory => IoErr
                       | IGraphDir _ => IoOk tt
                       | _ => IoErr
                       end))).
(** graph_utils.rs l.53-62: open, then read what was opened. *)
Definition i_load (nd : N -> bool) : iprog (outcome (result graph)) :=
  IAct (fun s => s) (fun s =>
    match i_commands s with
    | IFile n => IAct (fun s => s) (fun s => IRet (gcmd_read nd (content n s)))
    | IAbsent => IRet (Done (Err (txt "io error")))
    | IDirectory => IRet Panic
    end).
(** The writes of one [BufWriter] in append mode, gcmd.rs l.97-101, on file [n]. *)
Fixpoint i_append (n : nat) (cs : list text) : iprog (io unit) :=
  match cs with
  | [] => IRet (IoOk tt)
  | c :: t => IAct (fun s => i_set_content n (content n s ++ c) s) (fun _ => i_append n t)
  end.
(** gcmd.rs l.95-103 [add_commands]: open for append without creating. *)
Definition i_add_commands (chunks : list text -> list text) (cs : list graph_command) : iprog (io unit) :=
  IAct (fun s => s) (fun s =>
    match i_commands s with
    | IFile n => i_append n (chunks (add_pieces cs))
    | _ => IRet IoErr
    end).
(** graph_utils.rs l.163-168 *)
Definition i_apply (chunks : list text -> list text) (cs : list graph_command) : iprog (io unit) :=
  i_with_lock (i_add_commands chunks cs).
(** The writes of one [BufWriter], gcmd.rs l.81-89, on file [n]. *)
Fixpoint i_write (n off : nat) (cs : list text) : iprog (io unit) :=
  match cs with
  | [] => IRet (IoOk tt)
  | c :: t => IAct (fun s => i_set_content n (write_at off c (content n s)) s) (fun _ => i_write n (off + length c) t)
  end.
(** gcmd.rs l.79-91 [save]: [File::create] truncates the file of that name or makes a
    new one. *)
Definition i_save (chunks : list text -> list text) (g : graph) : iprog (io unit) :=
  IAct (fun s => match i_graph s with
                 | IGraphDir (IFile n) => i_set_content n [] s
                 | IGraphDir IAbsent => i_create s
                 | _ => s
                 end)
       (fun s => match i_graph s with
                 | IGraphDir (IFile n) => i_write n 0 (chunks (save_pieces g))
                 | IGraphDir IAbsent => i_write (length (i_files s)) 0 (chunks (save_pieces g))
                 | _ => IRet IoErr
                 end).
(** graph_utils.rs l.77-81; [remove_dir_all] is one step. *)
Definition i_clean : iprog (io unit) :=
  i_with_lock (IAct (fun s => match i_graph s with IGraphDir _ => i_set_graph INoGraph s | _ => s end)
                    (fun s => IRet (match i_graph s with IGraphDir _ => IoOk tt | _ => IoErr end))).
(** [expect] on an [io::Result], gc-build.rs l.40-41: the exit status. *)
Definition i_exit (r : io unit) : iprog exit := IRet (match r with IoOk _ => Success | IoErr => Failure end).
(** gc-init.rs l.23 *)
Definition i_gc_init : iprog exit := ibind i_init i_exit.
(** gc-build.rs l.34-41 *)
Definition i_gc_build (nd : N -> bool) (chunks : list text -> list text) (order : graph -> graph) : iprog exit :=
  ibind (i_load nd) (fun r =>
    match r with
    | Done (Ok g) => ibind (i_save chunks (order g)) i_exit
    | _ => IRet Failure
    end).
(** gc-random.rs l.79-107 after the question, given the generated graph. *)
Definition i_gc_random (chunks : list text -> list text) (g : graph) : iprog exit :=
  ibind i_clean (fun r => match r with
  | IoErr => IRet Failure
  | IoOk _ =>
    ibind i_init (fun r => match r with
    | IoErr => IRet Failure
    | IoOk _ => ibind (i_save chunks g) i_exit
    end)
  end).
