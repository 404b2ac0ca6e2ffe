(** * The tools in a whole file system

    Store.v knows four paths of one graph.  Here the file system is a tree of directories and files, a graph lives at any
    path ([--path]), and the calls are those of the tools on that tree.  A path is a list of plain names: [.], [..] and
    symbolic links are not modelled, nor are refused calls (Disk.v, Refuse.v). *)
From Coq Require Import String.
From Coq Require Import List NArith Bool.
From Verif Require Import Base Graph Text Format Store Cli.
Import ListNotations.

(** What a path holds. graph_utils.rs l.133-160. *)
Inductive node := Nothing | AFile (content : text) | ADir.
(** A path, from the top of the file system. graph_utils.rs l.145-160. *)
Definition place := list text.
(** The file system. graph_utils.rs l.133-160. *)
Definition tree := place -> node.
(** Equality of paths. graph_utils.rs l.145-160. *)
Definition place_dec (p q : place) : {p = q} + {p <> q} := list_eq_dec (list_eq_dec N.eq_dec) p q.
(** One path changed. graph_utils.rs l.133-143. *)
Definition put (p : place) (n : node) (t : tree) : tree := fun q => if place_dec q p then n else t q.

(** The names of graph_utils.rs l.17-19. *)
Definition lock_name : text := txt "lock".
(** graph_utils.rs l.17 *)
Definition graph_name : text := txt ".graph".
(** graph_utils.rs l.18 *)
Definition commands_name : text := txt "commands".
(** graph_utils.rs l.145-147 *)
Definition lock_path (root : place) : place := root ++ [lock_name].
(** graph_utils.rs l.149-153 *)
Definition root_path (root : place) : place := root ++ [graph_name].
(** graph_utils.rs l.155-160 *)
Definition command_path (root : place) : place := root ++ [graph_name; commands_name].

(** ** The calls *)
(** graph_utils.rs l.137 [create_dir_all]: makes the missing directories from the top; stops at a file. *)
Fixpoint make_dirs (above : place) (names : list text) (t : tree) : tree :=
  match names with
  | [] => t
  | n :: rest =>
    let p := above ++ [n] in
    match t p with
    | Nothing => make_dirs p rest (put p ADir t)
    | ADir => make_dirs p rest t
    | AFile _ => t
    end
  end.
(** Whether a path is a directory. graph_utils.rs l.137. *)
Definition is_dir (t : tree) (p : place) : bool := match t p with ADir => true | _ => false end.
(** An open with [create] succeeds when the parent is a directory and the path is none. graph_utils.rs l.138-142. *)
Definition can_create (p : place) (t : tree) : bool := is_dir t (removelast p) && negb (is_dir t p).
(** graph_utils.rs l.138-142: an existing file keeps its content. *)
Definition open_create (p : place) (t : tree) : tree :=
  if can_create p t then match t p with Nothing => put p (AFile []) t | _ => t end else t.
(** gcmd.rs l.80 [File::create] *)
Definition create_empty (p : place) (t : tree) : tree := if can_create p t then put p (AFile []) t else t.
(** graph_utils.rs l.34 [remove_file] *)
Definition remove_file (p : place) (t : tree) : tree := match t p with AFile _ => put p Nothing t | _ => t end.
(** Whether the second path is the first or below it. graph_utils.rs l.79. *)
Fixpoint below (p q : place) : bool :=
  match p, q with
  | [], _ => true
  | x :: p', y :: q' => (if list_eq_dec N.eq_dec x y then true else false) && below p' q'
  | _ :: _, [] => false
  end.
(** graph_utils.rs l.79 [remove_dir_all]: the directory and all that is in it. *)
Definition remove_dir_all (p : place) (t : tree) : tree :=
  if is_dir t p then fun q => if below p q then Nothing else t q else t.
(** A write to a file. gcmd.rs l.79-103. *)
Definition change (p : place) (f : text -> text) (t : tree) : tree :=
  match t p with AFile old => put p (AFile (f old)) t | _ => t end.

(** ** Programs, as in Store.v. The calls of graph_utils.rs l.22-168. *)
Inductive tprog (A : Type) :=
| TRet (a : A)
| TAct (upd : tree -> tree) (k : tree -> tprog A).
Arguments TRet {A} a.
Arguments TAct {A} upd k.
(** One program after another. E.g. graph_utils.rs l.46-49. *)
Fixpoint tbind {A B} (p : tprog A) (f : A -> tprog B) : tprog B :=
  match p with
  | TRet a => f a
  | TAct upd k => TAct upd (fun t => tbind (k t) f)
  end.
(** A run without interference. E.g. graph_utils.rs l.46-49. *)
Fixpoint trun {A} (p : tprog A) (t : tree) : tree * A :=
  match p with
  | TRet a => (t, a)
  | TAct upd k => trun (k t) (upd t)
  end.
(** The states that a crash can leave. The calls of graph_utils.rs l.22-168. *)
Inductive tcrash {A} : tprog A -> tree -> tree -> Prop :=
| tcrash_now p t : tcrash p t t
| tcrash_later upd k t t' : tcrash (k t) (upd t) t' -> tcrash (TAct upd k) t t'.
(** One step of one of several processes. The calls of graph_utils.rs l.22-168. *)
Definition tistep {A} (c c' : tree * list (tprog A)) : Prop :=
  exists pre upd k post,
    snd c = pre ++ TAct upd k :: post /\
    fst c' = upd (fst c) /\ snd c' = pre ++ k (fst c) :: post.
(** Any number of steps of any processes. The calls of graph_utils.rs l.22-168. *)
Inductive tisteps {A} : tree * list (tprog A) -> tree * list (tprog A) -> Prop :=
| tis_refl c : tisteps c c
| tis_step c c' c'' : tistep c c' -> tisteps c' c'' -> tisteps c c''.

(** graph_utils.rs l.135-143 *)
Definition t_touch (p : place) : tprog (io unit) :=
  TAct (make_dirs [] (removelast p)) (fun _ =>
  TAct (open_create p) (fun t => TRet (if can_create p t then IoOk tt else IoErr))).

Section Tools.
  (** The value of [--path]. *)
  Variable root : place.
  (** The regex class [\d] and the write calls of a [BufWriter], as in Store.v. *)
  Variable nd : N -> bool.
  Variable chunks : list text -> list text.

  (** graph_utils.rs l.28-30 *)
  Definition t_lock : tprog (io unit) := t_touch (lock_path root).
  (** graph_utils.rs l.33-35 *)
  Definition t_unlock : tprog (io unit) :=
    TAct (remove_file (lock_path root)) (fun t =>
      TRet (match t (lock_path root) with AFile _ => IoOk tt | _ => IoErr end)).
  (** graph_utils.rs l.42-50 *)
  Definition t_with_lock {A} (block : tprog (io A)) : tprog (io A) :=
    tbind t_lock (fun r =>
      match r with
      | IoErr => TRet IoErr
      | IoOk _ =>
        tbind block (fun res =>
          tbind t_unlock (fun u => match u with IoErr => TRet IoErr | IoOk _ => TRet res end))
      end).
  (** graph_utils.rs l.22-24 *)
  Definition t_init : tprog (io unit) := t_touch (command_path root).
  (** graph_utils.rs l.53-62, as in Store.v *)
  Definition t_load : tprog (outcome (result graph)) :=
    TAct (fun t => t) (fun t => TRet
      (match t (command_path root) with
       | AFile c => gcmd_read nd c
       | Nothing => Done (Err (txt "io error"))
       | ADir => Panic
       end)).
  (** The writes of one [BufWriter] in append mode. gcmd.rs l.97-101. *)
  Fixpoint t_appends (cs : list text) : tprog (io unit) :=
    match cs with
    | [] => TRet (IoOk tt)
    | c :: rest => TAct (change (command_path root) (fun old => old ++ c)) (fun _ => t_appends rest)
    end.
  (** gcmd.rs l.95-103 *)
  Definition t_add_commands (cs : list graph_command) : tprog (io unit) :=
    TAct (fun t => t) (fun t =>
      match t (command_path root) with
      | AFile _ => t_appends (chunks (add_pieces cs))
      | _ => TRet IoErr
      end).
  (** The writes of one [BufWriter]. gcmd.rs l.81-89. *)
  Fixpoint t_writes (off : nat) (cs : list text) : tprog (io unit) :=
    match cs with
    | [] => TRet (IoOk tt)
    | c :: rest => TAct (change (command_path root) (write_at off c)) (fun _ => t_writes (off + length c) rest)
    end.
  (** graph_utils.rs l.64-73 with gcmd.rs l.79-91 *)
  Definition t_save (g : graph) : tprog (io unit) :=
    TAct (create_empty (command_path root)) (fun t =>
      if can_create (command_path root) t then t_writes 0 (chunks (save_pieces g)) else TRet IoErr).
  (** graph_utils.rs l.77-81 *)
  Definition t_clean : tprog (io unit) :=
    t_with_lock (TAct (remove_dir_all (root_path root)) (fun t =>
      TRet (if is_dir t (root_path root) then IoOk tt else IoErr))).
  (** graph_utils.rs l.163-168 *)
  Definition t_apply (cs : list graph_command) : tprog (io unit) := t_with_lock (t_add_commands cs).

  (** The exit status of a result of a library call, e.g. gc-init.rs l.23. *)
  Definition t_status (p : tprog (io unit)) : tprog exit :=
    tbind p (fun r => TRet (match r with IoOk _ => Success | IoErr => Failure end)).
  (** gc-init.rs l.23 *)
  Definition t_gc_init : tprog exit := t_status t_init.
  (** gc-build.rs l.34-41 *)
  Definition t_gc_build (order : graph -> graph) : tprog exit :=
    tbind t_load (fun r =>
      match r with
      | Done (Ok g) => t_status (t_save (order g))
      | _ => TRet Failure
      end).
  (** gc-clean.rs l.44-61 *)
  Definition t_gc_clean (force : bool) (answer : text) : tprog exit :=
    if negb force && negb (confirmed answer) then TRet Success else t_status t_clean.
  (** gc-random.rs l.79-107, given the generated graph *)
  Definition t_gc_random (g : graph) (force : bool) (answer : text) : tprog exit :=
    if negb force && negb (confirmed answer) then TRet Success
    else
      tbind t_clean (fun r => match r with
      | IoErr => TRet Failure
      | IoOk _ => tbind t_init (fun r => match r with IoErr => TRet Failure | IoOk _ => t_status (t_save g) end)
      end).
  (** One option of gc-add or gc-delete. gc-add.rs l.90-128, gc-delete.rs l.44-53. *)
  Definition t_option {A} (values : option (list text)) (f : list text -> outcome A)
      (call : A -> tprog (io unit)) (next : tprog exit) : tprog exit :=
    match values with
    | None => next
    | Some vs => match f vs with Done a => tbind (call a) (fun _ => next) | _ => TRet Failure end
    end.
  (** graph_utils.rs l.99-107 *)
  Definition t_add_edges (es : list (N * N)) : tprog (io unit) := t_apply (map (fun e => AddEdge (fst e) (snd e)) es).
  (** gc-add.rs l.87-128 *)
  Definition t_gc_add (a : add_args) : tprog exit :=
    let rv := reverse_if_needed (a_reverse a) in
    t_option (a_vertex a) parse_all (fun vs => t_apply (map AddVertex vs)) (
    t_option (a_edge a)
      (fun vs => obind (parse_all vs) (fun l => obind (as_vertex_tuple l) (fun o => obind (expect o) (fun es => Done (rv es)))))
      t_add_edges (
    t_option (a_chain a)
      (fun vs => obind (parse_all vs) (fun l => obind (chain_from_vertices l) (fun es => Done (rv es))))
      t_add_edges (
    t_option (a_cycle a)
      (fun vs => obind (parse_all vs) (fun l => obind (cycle_from_vertices l) (fun o => obind (expect o) (fun es => Done (rv es)))))
      t_add_edges (
    t_option (a_star a)
      (fun vs => obind (parse_all vs) (fun l => obind (star_from_vertices l) (fun es => Done (rv es))))
      t_add_edges (
    t_option (a_clique a)
      (fun vs => obind (parse_all vs) clique_from_vertices)
      t_add_edges (
    TRet Success)))))).
  (** gc-delete.rs l.42-53 *)
  Definition t_gc_delete (vertex edge : option (list text)) : tprog exit :=
    t_option vertex parse_all (fun vs => t_apply (map RemoveVertex vs)) (
    t_option edge
      (fun vs => obind (parse_all vs) (fun l => obind (as_vertex_tuple l) expect))
      (fun es => t_apply (map (fun e => RemoveEdge (fst e) (snd e)) es)) (
    TRet Success)).
End Tools.
