(** * The value of [--path] as text

    How [std::path] puts a path together and how the operating system reads it (Unix): [/] separates, empty names and [.]
    count for nothing, a path that starts with [/] starts at the top and any other at the current directory.  A name [..]
    is not followed here: what is said about a path is about one without it. *)
From Coq Require Import String.
From Coq Require Import List NArith Bool.
From Verif Require Import Base Graph Text Format Store Cli Place.
Import ListNotations.
Open Scope N_scope.

(** The names between the separators, empty ones included. graph_utils.rs l.145-160. *)
Fixpoint names (t : text) : list text :=
  match t with
  | [] => [[]]
  | c :: rest =>
    if c =? 47 then [] :: names rest
    else match names rest with [] => [[c]] | n :: ns => (c :: n) :: ns end
  end.
(** A name that counts. graph_utils.rs l.145-160. *)
Definition counts (n : text) : bool := match n with [] => false | [46] => false | _ => true end.
(** Where a path leads from the current directory. graph_utils.rs l.137-142, l.58, l.34, l.79. *)
Definition resolve (cwd : place) (t : text) : place :=
  (match t with 47 :: _ => [] | _ => cwd end) ++ filter counts (names t).

(** [Path::join] with a name. graph_utils.rs l.146, l.150-152, l.156-159. *)
Definition join (p n : text) : text :=
  match p with
  | [] => n
  | _ => if last p 0 =? 47 then p ++ n else p ++ 47 :: n
  end.
(** graph_utils.rs l.145-147 *)
Definition lock_text (root : text) : text := join root lock_name.
(** graph_utils.rs l.149-153 *)
Definition root_text (root : text) : text := join root graph_name.
(** graph_utils.rs l.155-160 *)
Definition command_text (root : text) : text := join (join root graph_name) commands_name.

(** [Path::parent] of a path that ends with a name: the name and the separators before it are dropped, but not the
    separator at the start. graph_utils.rs l.137. *)
Definition drop_name (t : text) : text := rev ((fix go l := match l with [] => [] | c :: r => if c =? 47 then l else go r end) (rev t)).
(** The separators at the end. graph_utils.rs l.137. *)
Definition drop_seps (t : text) : text := rev ((fix go l := match l with [] => [] | c :: r => if c =? 47 then go r else l end) (rev t)).
(** graph_utils.rs l.137 *)
Definition parent (t : text) : text :=
  match drop_seps (drop_name t) with
  | [] => match t with 47 :: _ => [47] | _ => [] end
  | p => p
  end.

Section Tools.
  (** The current directory. *)
  Variable cwd : place.
  (** graph_utils.rs l.135-143 *)
  Definition w_touch (p : text) : tprog (io unit) :=
    TAct (make_dirs [] (resolve cwd (parent p))) (fun _ =>
    TAct (open_create (resolve cwd p)) (fun t => TRet (if can_create (resolve cwd p) t then IoOk tt else IoErr))).
  (** graph_utils.rs l.28-30 *)
  Definition w_lock (root : text) : tprog (io unit) := w_touch (lock_text root).
  (** graph_utils.rs l.22-24 *)
  Definition w_init (root : text) : tprog (io unit) := w_touch (command_text root).
  (** graph_utils.rs l.33-35 *)
  Definition w_unlock (root : text) : tprog (io unit) :=
    let p := resolve cwd (lock_text root) in
    TAct (remove_file p) (fun t => TRet (match t p with AFile _ => IoOk tt | _ => IoErr end)).
  (** graph_utils.rs l.77-81, under the lock *)
  Definition w_remove (root : text) : tprog (io unit) :=
    let p := resolve cwd (root_text root) in
    TAct (remove_dir_all p) (fun t => TRet (if is_dir t p then IoOk tt else IoErr)).
  (** graph_utils.rs l.53-62 *)
  Definition w_load (root : text) (nd : N -> bool) : tprog (outcome (result graph)) :=
    TAct (fun t => t) (fun t => TRet
      (match t (resolve cwd (command_text root)) with
       | AFile c => gcmd_read nd c
       | Nothing => Done (Err (txt "io error"))
       | ADir => Panic
       end)).
End Tools.
