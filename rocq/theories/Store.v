(** * Model of command/src/graph_utils.rs and of the file effects of the binaries

    Only the paths the tools use are modelled: [<root>], [<root>/lock],
    [<root>/.graph] and [<root>/.graph/commands].  Permission errors and
    symbolic links are not modelled, refused write calls are in Disk.v; every other error (a path that
    is missing, or is a directory or a file when the other is needed) is. *)
From Coq Require Import String.
From Coq Require Import List NArith Bool Arith.
From Verif Require Import Base Graph Text Format.
Import ListNotations.
Open Scope N_scope.

(** What a path holds. graph_utils.rs l.145-160. *)
Inductive entry := Absent | File (content : text) | Directory.
(** The path [<root>/.graph], graph_utils.rs l.17. *)
Inductive graph_dir := NoGraph | NotADir | GraphDir (commands : entry).
(** The paths of graph_utils.rs l.17-19 and l.145-160. *)
Record fs := { fs_root : bool; fs_lock : entry; fs_graph : graph_dir }.

(** [fs::create_dir_all] on the root. graph_utils.rs l.137. *)
Definition set_root (b : bool) (s : fs) : fs := {| fs_root := b; fs_lock := fs_lock s; fs_graph := fs_graph s |}.
(** The lock file created or removed, graph_utils.rs l.28-35. *)
Definition set_lock (e : entry) (s : fs) : fs := {| fs_root := fs_root s; fs_lock := e; fs_graph := fs_graph s |}.
(** The graph directory created or removed. graph_utils.rs l.79, l.137. *)
Definition set_graph (d : graph_dir) (s : fs) : fs := {| fs_root := fs_root s; fs_lock := fs_lock s; fs_graph := d |}.
(** The entry [<root>/.graph/commands]. graph_utils.rs l.155-160. *)
Definition commands_entry (s : fs) : entry := match fs_graph s with GraphDir e => e | _ => Absent end.
(** The commands file changed. graph_utils.rs l.138-142, gcmd.rs l.80-100. *)
Definition set_commands (e : entry) (s : fs) : fs := set_graph (GraphDir e) s.

(** ** Programs: sequences of atomic file-system calls
    [Act upd k]: the call changes the state by [upd]; the rest of the program
    depends on the state the call found. The calls of graph_utils.rs l.22-168. *)
Inductive prog (A : Type) :=
| Ret (a : A)
| Act (upd : fs -> fs) (k : fs -> prog A).
Arguments Ret {A} a.
Arguments Act {A} upd k.

(** One program after another. E.g. graph_utils.rs l.46-49. *)
Fixpoint bind {A B} (p : prog A) (f : A -> prog B) : prog B :=
  match p with
  | Ret a => f a
  | Act upd k => Act upd (fun s => bind (k s) f)
  end.

(** A run without interference. E.g. graph_utils.rs l.46-49. *)
Fixpoint run_prog {A} (p : prog A) (s : fs) : fs * A :=
  match p with
  | Ret a => (s, a)
  | Act upd k => run_prog (k s) (upd s)
  end.

(** [io::Result]; e.g. graph_utils.rs l.22 *)
Inductive io (A : Type) := IoOk (a : A) | IoErr.
Arguments IoOk {A} a.
Arguments IoErr {A}.

(** ** graph_utils.rs *)

(** graph_utils.rs l.138-142: [OpenOptions::new().create(true).write(true).open(path)], no
    truncation. *)
Definition created (e : entry) : entry := match e with Absent => File [] | _ => e end.
(** The open fails on a directory, graph_utils.rs l.138-142. *)
Definition openable (e : entry) : bool := match e with Directory => false | _ => true end.

(** graph_utils.rs l.28-30 with [touch], l.135-143: [create_dir_all] (result ignored), then the
    open. *)
Definition lock : prog (io unit) :=
  Act (set_root true) (fun _ =>
  Act (fun s => if fs_root s then set_lock (created (fs_lock s)) s else s)
      (fun s => Ret (if fs_root s && openable (fs_lock s) then IoOk tt else IoErr))).

(** graph_utils.rs l.33-35: [fs::remove_file] *)
Definition unlock : prog (io unit) :=
  Act (fun s => match fs_lock s with File _ => set_lock Absent s | _ => s end)
      (fun s => Ret (match fs_lock s with File _ => IoOk tt | _ => IoErr end)).

(** graph_utils.rs l.42-50 *)
Definition with_lock {A} (block : prog (io A)) : prog (io A) :=
  bind lock (fun r =>
    match r with
    | IoErr => Ret IoErr
    | IoOk _ =>
      bind block (fun res =>
        bind unlock (fun u => match u with IoErr => Ret IoErr | IoOk _ => Ret res end))
    end).

(** graph_utils.rs l.22-24 with [touch] *)
Definition init : prog (io unit) :=
  Act (fun s => match fs_graph s with
                | NoGraph => set_graph (GraphDir Absent) (set_root true s)
                | _ => set_root true s
                end) (fun _ =>
  Act (fun s => match fs_graph s with GraphDir e => set_commands (created e) s | _ => s end)
      (fun s => Ret (match fs_graph s with
                     | GraphDir e => if openable e then IoOk tt else IoErr
                     | _ => IoErr
                     end))).

Section Policies.
  (** The regex class [\d]. *)
  Variable nd : N -> bool.
  (** How a [BufWriter] gathers the pieces it is given into write calls. *)
  Variable chunks : list text -> list text.

  (** graph_utils.rs l.53-62.  Reading is one step; reading a directory panics (the open
      succeeds, [line.unwrap()] fails).  The text of the error is not
      modelled. *)
  Definition load_graph : prog (outcome (result graph)) :=
    Act (fun s => s) (fun s => Ret
      (match commands_entry s with
       | File c => gcmd_read nd c
       | Absent => Done (Err (txt "io error"))
       | Directory => Panic
       end)).

  (** A write in append mode. gcmd.rs l.96-100. *)
  Definition append_chunk (c : text) (s : fs) : fs :=
    match commands_entry s with File old => set_commands (File (old ++ c)) s | _ => s end.
  (** The writes of one [BufWriter] in append mode. gcmd.rs l.97-101. *)
  Fixpoint append_chunks (cs : list text) : prog (io unit) :=
    match cs with
    | [] => Ret (IoOk tt)
    | c :: t => Act (append_chunk c) (fun _ => append_chunks t)
    end.
  (** gcmd.rs l.95-103 [add_commands]: open for append without creating. *)
  Definition add_commands (cs : list graph_command) : prog (io unit) :=
    Act (fun s => s) (fun s =>
      match commands_entry s with
      | File _ => append_chunks (chunks (add_pieces cs))
      | _ => Ret IoErr
      end).

  (** A write at the offset of the file handle; a gap is filled with zeros. gcmd.rs l.80-88. *)
  Definition write_at (off : nat) (c old : text) : text :=
    firstn off old ++ repeat 0 (off - length old) ++ c ++ skipn (off + length c) old.
  (** One write call at an offset. gcmd.rs l.80-88. *)
  Definition write_chunk (off : nat) (c : text) (s : fs) : fs :=
    match commands_entry s with File old => set_commands (File (write_at off c old)) s | _ => s end.
  (** The writes of one [BufWriter]. gcmd.rs l.81-89. *)
  Fixpoint write_chunks (off : nat) (cs : list text) : prog (io unit) :=
    match cs with
    | [] => Ret (IoOk tt)
    | c :: t => Act (write_chunk off c) (fun _ => write_chunks (off + length c) t)
    end.
  (** l.64-73 with gcmd.rs l.79-91 [save]: [File::create] truncates. *)
  Definition save_graph_as_commands (g : graph) : prog (io unit) :=
    Act (fun s => match fs_graph s with
                  | GraphDir Directory => s
                  | GraphDir _ => set_commands (File []) s
                  | _ => s
                  end)
        (fun s => match fs_graph s with
                  | GraphDir Directory => Ret IoErr
                  | GraphDir _ => write_chunks 0 (chunks (save_pieces g))
                  | _ => Ret IoErr
                  end).

  (** graph_utils.rs l.77-81; [remove_dir_all] is one step. *)
  Definition clean : prog (io unit) :=
    with_lock (Act (fun s => match fs_graph s with GraphDir _ => set_graph NoGraph s | _ => s end)
                   (fun s => Ret (match fs_graph s with GraphDir _ => IoOk tt | _ => IoErr end))).

  (** graph_utils.rs l.163-168 *)
  Definition apply_graph_commands (cs : list graph_command) : prog (io unit) := with_lock (add_commands cs).
  (** graph_utils.rs l.89-91 *)
  Definition add_vertices (vids : list N) := apply_graph_commands (map AddVertex vids).
  (** graph_utils.rs l.99-107 *)
  Definition add_edges (es : list (N * N)) := apply_graph_commands (map (fun e => AddEdge (fst e) (snd e)) es).
  (** graph_utils.rs l.115-120 *)
  Definition remove_vertices (vids : list N) := apply_graph_commands (map RemoveVertex vids).
  (** graph_utils.rs l.123-131 *)
  Definition remove_edges (es : list (N * N)) := apply_graph_commands (map (fun e => RemoveEdge (fst e) (snd e)) es).

  (** ** The binaries: exit status; e.g. gc-init.rs l.23, gc-build.rs l.40-43 *)
  Inductive exit := Success | Failure.

  (** gc-init.rs l.23 *)
  Definition gc_init : prog exit :=
    bind init (fun r => Ret (match r with IoOk _ => Success | IoErr => Failure end)).

  (** gc-build.rs l.34-41.  [order] is the iteration order of the hash map when
      the graph is written. *)
  Definition gc_build (order : graph -> graph) : prog exit :=
    bind load_graph (fun r =>
      match r with
      | Done (Ok g) =>
        bind (save_graph_as_commands (order g)) (fun w =>
          Ret (match w with IoOk _ => Success | IoErr => Failure end))
      | _ => Ret Failure
      end).

  (** arg_utils.rs l.42-52: the answer to the question. *)
  Definition confirmed (answer : text) : bool :=
    match trim answer with
    | [c] => c =? 121
    | [c1; c2; c3] => (c1 =? 121) && (c2 =? 101) && (c3 =? 115)
    | _ => false
    end.
  (** gc-clean.rs l.44-61 *)
  Definition gc_clean (force : bool) (answer : text) : prog exit :=
    if negb force && negb (confirmed answer) then Ret Success
    else bind clean (fun r => Ret (match r with IoOk _ => Success | IoErr => Failure end)).
End Policies.

(** ** Interleaving of processes
    One step: some process performs its next call. The calls of graph_utils.rs l.22-168. *)
Definition istep {A} (c c' : fs * list (prog A)) : Prop :=
  exists pre upd k post,
    snd c = pre ++ Act upd k :: post /\
    fst c' = upd (fst c) /\ snd c' = pre ++ k (fst c) :: post.
(** Any number of steps of any processes. The calls of graph_utils.rs l.22-168. *)
Inductive isteps {A} : fs * list (prog A) -> fs * list (prog A) -> Prop :=
| is_refl c : isteps c c
| is_step c c' c'' : istep c c' -> isteps c' c'' -> isteps c c''.

(** States a process that runs alone goes through; a crash leaves one of them.
    The calls of graph_utils.rs l.22-168. *)
Inductive crash {A} : prog A -> fs -> fs -> Prop :=
| crash_now p s : crash p s s
| crash_later upd k s s' : crash (k s) (upd s) s' -> crash (Act upd k) s s'.
