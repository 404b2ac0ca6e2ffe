(** * Paths with [..] and symbolic links

    Where.v reads the value of [--path] without [..] and links.  Here the operating system walks through it name by name
    (Unix): each name is looked up in the directory reached so far, [..] goes to the directory above, a link goes on with
    its text.  The links are fixed: no program of graph-commands makes one, and the theorems leave out links called
    [lock], [.graph] or [commands] in the directory of the graph (the only ones a program could remove). *)
From Coq Require Import String.
From Coq Require Import List NArith Bool.
From Verif Require Import Base Graph Text Format Store Cli Place Where.
Import ListNotations.

(** The name [..]. graph_utils.rs l.145-160. *)
Definition is_up (n : text) : bool := if list_eq_dec N.eq_dec n (txt "..") then true else false.
(** Where a path starts. graph_utils.rs l.145-160. *)
Definition starts (cwd : place) (t : text) : place := match t with 47%N :: _ => [] | _ => cwd end.

Section Links.
  (** The text of the link at a place, if there is one. *)
  Variable links : place -> option text.
  (** Looking up names from the directory [at_], through at most [budget] links. graph_utils.rs l.34, l.58, l.79, l.137-142:
      what the operating system does with the path of each call.  The last name is followed like the others (a call that
      removes does not do that, see above). *)
  Fixpoint follow (budget : nat) (t : tree) : place -> list text -> option place :=
    fix go (at_ : place) (ns : list text) : option place :=
      match ns with
      | [] => Some at_
      | n :: rest =>
        if negb (is_dir t at_) then None
        else if negb (counts n) then go at_ rest
        else if is_up n then go (removelast at_) rest
        else match links (at_ ++ [n]) with
             | None => go (at_ ++ [n]) rest
             | Some target => match budget with
                              | O => None
                              | S b => follow b t (starts at_ target) (names target ++ rest)
                              end
             end
      end.
  (** [create_dir_all]: the missing directories of a path, from the top. graph_utils.rs l.137.  (std tries the whole path first
      and then its parents; the directories made are the same.  The limit on links is that of one name here.) *)
  Fixpoint make_path (budget : nat) (t : tree) (at_ : place) (ns : list text) : tree :=
    match ns with
    | [] => t
    | n :: rest =>
      if is_up n then make_path budget t (removelast at_) rest
      else match links (at_ ++ [n]) with
           | Some _ => match follow budget t at_ [n] with
                       | Some q => if is_dir t q then make_path budget t q rest else t
                       | None => t
                       end
           | None => match t (at_ ++ [n]) with
                     | Nothing => make_path budget (put (at_ ++ [n]) ADir t) (at_ ++ [n]) rest
                     | ADir => make_path budget t (at_ ++ [n]) rest
                     | AFile _ => t
                     end
           end
    end.

  (** The limit on links (40 on Linux), the current directory, the value of [--path]. *)
  Variables (limit : nat) (cwd : place) (root : text).
  Variable nd : N -> bool.
  Variable chunks : list text -> list text.
  (** Where a path leads now. graph_utils.rs l.34, l.58, l.79, l.137-142. *)
  Definition leads (t : tree) (p : text) : option place := follow limit t (starts cwd p) (names p).
  (** A call with a path: nothing happens where it leads nowhere. graph_utils.rs l.34, l.58, l.79, l.137-142. *)
  Definition at_path (p : text) (f : place -> tree -> tree) (t : tree) : tree :=
    match leads t p with Some q => f q t | None => t end.
  (** graph_utils.rs l.135-143 *)
  Definition x_touch (p : text) : tprog (io unit) :=
    TAct (fun t => make_path limit t (starts cwd (parent p)) (filter counts (names (parent p)))) (fun _ =>
    TAct (at_path p open_create) (fun t =>
      TRet (match leads t p with Some q => if can_create q t then IoOk tt else IoErr | None => IoErr end))).
  (** graph_utils.rs l.28-30 *)
  Definition x_lock : tprog (io unit) := x_touch (lock_text root).
  (** graph_utils.rs l.22-24 *)
  Definition x_init : tprog (io unit) := x_touch (command_text root).
  (** graph_utils.rs l.33-35 *)
  Definition x_unlock : tprog (io unit) :=
    TAct (at_path (lock_text root) remove_file) (fun t =>
      TRet (match leads t (lock_text root) with
            | Some q => match t q with AFile _ => IoOk tt | _ => IoErr end
            | None => IoErr
            end)).
  (** graph_utils.rs l.42-50 *)
  Definition x_with_lock {A} (block : tprog (io A)) : tprog (io A) :=
    tbind x_lock (fun r =>
      match r with
      | IoErr => TRet IoErr
      | IoOk _ =>
        tbind block (fun res =>
          tbind x_unlock (fun u => match u with IoErr => TRet IoErr | IoOk _ => TRet res end))
      end).
  (** graph_utils.rs l.53-62 *)
  Definition x_load : tprog (outcome (result graph)) :=
    TAct (fun t => t) (fun t => TRet
      (match leads t (command_text root) with
       | None => Done (Err (txt "io error"))
       | Some q => match t q with
                   | AFile c => gcmd_read nd c
                   | Nothing => Done (Err (txt "io error"))
                   | ADir => Panic
                   end
       end)).
  (** The writes of one [BufWriter] in append mode, to the file that was opened. gcmd.rs l.97-101. *)
  Fixpoint x_appends (q : place) (cs : list text) : tprog (io unit) :=
    match cs with
    | [] => TRet (IoOk tt)
    | c :: rest => TAct (change q (fun old => old ++ c)) (fun _ => x_appends q rest)
    end.
  (** gcmd.rs l.95-103 *)
  Definition x_add_commands (cs : list graph_command) : tprog (io unit) :=
    TAct (fun t => t) (fun t =>
      match leads t (command_text root) with
      | Some q => match t q with AFile _ => x_appends q (chunks (add_pieces cs)) | _ => TRet IoErr end
      | None => TRet IoErr
      end).
  (** The writes of one [BufWriter], to the file that was opened. gcmd.rs l.81-89. *)
  Fixpoint x_writes (q : place) (off : nat) (cs : list text) : tprog (io unit) :=
    match cs with
    | [] => TRet (IoOk tt)
    | c :: rest => TAct (change q (write_at off c)) (fun _ => x_writes q (off + length c) rest)
    end.
  (** graph_utils.rs l.64-73 with gcmd.rs l.79-91 *)
  Definition x_save (g : graph) : tprog (io unit) :=
    TAct (at_path (command_text root) create_empty) (fun t =>
      match leads t (command_text root) with
      | Some q => if can_create q t then x_writes q 0 (chunks (save_pieces g)) else TRet IoErr
      | None => TRet IoErr
      end).
  (** graph_utils.rs l.77-81 *)
  Definition x_clean : tprog (io unit) :=
    x_with_lock (TAct (at_path (root_text root) remove_dir_all) (fun t =>
      TRet (match leads t (root_text root) with Some q => if is_dir t q then IoOk tt else IoErr | None => IoErr end))).
  (** graph_utils.rs l.163-168 *)
  Definition x_apply (cs : list graph_command) : tprog (io unit) := x_with_lock (x_add_commands cs).

  (** gc-init.rs l.23 *)
  Definition x_gc_init : tprog exit := t_status x_init.
  (** gc-build.rs l.34-41 *)
  Definition x_gc_build (order : graph -> graph) : tprog exit :=
    tbind x_load (fun r => match r with Done (Ok g) => t_status (x_save (order g)) | _ => TRet Failure end).
  (** gc-clean.rs l.44-61 *)
  Definition x_gc_clean (force : bool) (answer : text) : tprog exit :=
    if negb force && negb (confirmed answer) then TRet Success else t_status x_clean.
  (** gc-random.rs l.79-107, given the generated graph *)
  Definition x_gc_random (g : graph) (force : bool) (answer : text) : tprog exit :=
    if negb force && negb (confirmed answer) then TRet Success
    else
      tbind x_clean (fun r => match r with
      | IoErr => TRet Failure
      | IoOk _ => tbind x_init (fun r => match r with IoErr => TRet Failure | IoOk _ => t_status (x_save g) end)
      end).
  (** graph_utils.rs l.99-107 *)
  Definition x_add_edges (es : list (N * N)) : tprog (io unit) := x_apply (map (fun e => AddEdge (fst e) (snd e)) es).
  (** gc-add.rs l.87-128 *)
  Definition x_gc_add (a : add_args) : tprog exit :=
    let rv := reverse_if_needed (a_reverse a) in
    t_option (a_vertex a) parse_all (fun vs => x_apply (map AddVertex vs)) (
    t_option (a_edge a)
      (fun vs => obind (parse_all vs) (fun l => obind (as_vertex_tuple l) (fun o => obind (expect o) (fun es => Done (rv es)))))
      x_add_edges (
    t_option (a_chain a)
      (fun vs => obind (parse_all vs) (fun l => obind (chain_from_vertices l) (fun es => Done (rv es))))
      x_add_edges (
    t_option (a_cycle a)
      (fun vs => obind (parse_all vs) (fun l => obind (cycle_from_vertices l) (fun o => obind (expect o) (fun es => Done (rv es)))))
      x_add_edges (
    t_option (a_star a)
      (fun vs => obind (parse_all vs) (fun l => obind (star_from_vertices l) (fun es => Done (rv es))))
      x_add_edges (
    t_option (a_clique a)
      (fun vs => obind (parse_all vs) clique_from_vertices)
      x_add_edges (
    TRet Success)))))).
  (** gc-delete.rs l.42-53 *)
  Definition x_gc_delete (vertex edge : option (list text)) : tprog exit :=
    t_option vertex parse_all (fun vs => x_apply (map RemoveVertex vs)) (
    t_option edge
      (fun vs => obind (parse_all vs) (fun l => obind (as_vertex_tuple l) expect))
      (fun es => x_apply (map (fun e => RemoveEdge (fst e) (snd e)) es)) (
    TRet Success)).
End Links.
