(** * Write calls that the operating system cuts short or refuses

    A full disk, a quota or a failing device: each write call may take only part of
    what it is given, or fail.  Opening, creating and removing files still work. *)
From Coq Require Import String.
From Coq Require Import List NArith Bool Arith.
From Verif Require Import Base Graph Text Format Store Cli.
Import ListNotations.

(** The answer to one write call: an error, or the number of bytes taken, at most all.
    Interrupted calls, which the standard library repeats, are left out.
    For the writes of gcmd.rs l.84, l.88, l.100. *)
Inductive answer := Refused | Takes (n : nat).
(** The answers to all write calls of a process on one file, in order.
    For the writes of gcmd.rs l.84, l.88, l.100. *)
Definition disk := nat -> answer.

(** The state of a writer: the write calls that took effect, what is left of the bytes
    to write, the number of write calls so far, and whether there was no error.
    The writer of gcmd.rs l.81, l.97. *)
Record pushed := { p_calls : list text; p_rest : text; p_next : nat; p_ok : bool }.

(** [BufWriter::flush_buf] and [Write::write_all] of the standard library: write until
    nothing is left; [Ok(0)] is the error [WriteZero].  What was taken leaves the buffer.
    Behind gcmd.rs l.84, l.88, l.100. *)
Fixpoint push_out (fuel : nat) (d : disk) (i : nat) (buf : text) : pushed :=
  match buf, fuel with
  | [], _ => {| p_calls := []; p_rest := []; p_next := i; p_ok := true |}
  | _, O => {| p_calls := []; p_rest := buf; p_next := i; p_ok := true |} (* not reached: fuel is the length *)
  | _, S f =>
    match d i with
    | Refused | Takes O => {| p_calls := []; p_rest := buf; p_next := S i; p_ok := false |}
    | Takes n =>
      let r := push_out f d (S i) (skipn n buf) in
      {| p_calls := firstn n buf :: p_calls r; p_rest := p_rest r; p_next := p_next r; p_ok := p_ok r |}
    end
  end.
(** One call of [flush_buf] or of [write_all] on the file. Behind gcmd.rs l.84, l.88, l.100. *)
Definition push (d : disk) (i : nat) (buf : text) : pushed := push_out (length buf) d i buf.

(** gcmd.rs l.81-90 and l.97-102: [write_all] of the [BufWriter] on each piece, [?] on its
    result, then [Drop], which flushes once more and ignores the result.  The calls that
    took effect, and whether [Ok] is returned. *)
Fixpoint disk_writes (cap : nat) (d : disk) (i : nat) (buf : text) (pieces : list text) : list text * bool :=
  match pieces with
  | [] => (p_calls (push d i buf), true)
  | p :: t =>
    let full := Nat.ltb cap (length buf + length p) in
    let r := if full then push d i buf
             else {| p_calls := []; p_rest := buf; p_next := i; p_ok := true |} in
    if negb (p_ok r) then (p_calls r ++ p_calls (push d (p_next r) (p_rest r)), false)
    else if Nat.leb cap (length p) then
      let q := push d (p_next r) p in
      if p_ok q then
        let w := disk_writes cap d (p_next q) (p_rest r) t in
        (p_calls r ++ p_calls q ++ fst w, snd w)
      else (p_calls r ++ p_calls q ++ p_calls (push d (p_next q) (p_rest r)), false)
    else
      let w := disk_writes cap d (p_next r) (p_rest r ++ p) t in
      (p_calls r ++ fst w, snd w)
  end.

(** The [io::Result] of [save] and [add_commands]. gcmd.rs l.79, l.95. *)
Definition io_of (ok : bool) : io unit := if ok then IoOk tt else IoErr.

(** gcmd.rs l.95-103 *)
Definition disk_add_commands (cap : nat) (d : disk) (cs : list graph_command) : prog (io unit) :=
  Act (fun s => s) (fun s =>
    match commands_entry s with
    | File _ =>
      let w := disk_writes cap d 0 [] (add_pieces cs) in
      bind (append_chunks (fst w)) (fun _ => Ret (io_of (snd w)))
    | _ => Ret IoErr
    end).
(** graph_utils.rs l.163-168 *)
Definition disk_apply (cap : nat) (d : disk) (cs : list graph_command) : prog (io unit) :=
  with_lock (disk_add_commands cap d cs).
(** gcmd.rs l.79-91 *)
Definition disk_save (cap : nat) (d : disk) (g : graph) : prog (io unit) :=
  Act (fun s => match fs_graph s with
                | GraphDir Directory => s
                | GraphDir _ => set_commands (File []) s
                | _ => s
                end)
      (fun s => match fs_graph s with
                | GraphDir Directory => Ret IoErr
                | GraphDir _ =>
                  let w := disk_writes cap d 0 [] (save_pieces g) in
                  bind (write_chunks 0 (fst w)) (fun _ => Ret (io_of (snd w)))
                | _ => Ret IoErr
                end).

(** gc-build.rs l.34-43: the lines printed without --verbose, and the exit status. *)
Definition disk_build (nd : N -> bool) (cap : nat) (d : disk) (order : graph -> graph) : prog (list text * exit) :=
  bind (load_graph nd) (fun r =>
    match r with
    | Done (Ok g) =>
      bind (disk_save cap d (order g)) (fun w =>
        Ret (match w with IoOk _ => ([txt "Done."], Success) | IoErr => ([], Failure) end))
    | _ => Ret ([], Failure)
    end).

(** gc-add.rs l.87-128; [call k] makes the k-th request. *)
Definition add_with (call : nat -> list graph_command -> prog (io unit)) (a : add_args) : prog exit :=
  let rv := reverse_if_needed (a_reverse a) in
  let add_edges k (es : list (N * N)) := call k (map (fun e => AddEdge (fst e) (snd e)) es) in
  option_call (a_vertex a) parse_all (fun vs => call 0%nat (map AddVertex vs)) (
  option_call (a_edge a)
    (fun vs => obind (parse_all vs) (fun l => obind (as_vertex_tuple l) (fun o => obind (expect o) (fun es => Done (rv es)))))
    (add_edges 1%nat) (
  option_call (a_chain a)
    (fun vs => obind (parse_all vs) (fun l => obind (chain_from_vertices l) (fun es => Done (rv es))))
    (add_edges 2%nat) (
  option_call (a_cycle a)
    (fun vs => obind (parse_all vs) (fun l => obind (cycle_from_vertices l) (fun o => obind (expect o) (fun es => Done (rv es)))))
    (add_edges 3%nat) (
  option_call (a_star a)
    (fun vs => obind (parse_all vs) (fun l => obind (star_from_vertices l) (fun es => Done (rv es))))
    (add_edges 4%nat) (
  option_call (a_clique a)
    (fun vs => obind (parse_all vs) clique_from_vertices)
    (add_edges 5%nat) (
  Ret Success)))))).
(** gc-add with the answers [d k] to the write calls of the k-th request. gc-add.rs l.87-128. *)
Definition disk_add (cap : nat) (d : nat -> disk) (a : add_args) : prog exit :=
  add_with (fun k => disk_apply cap (d k)) a.

(** gc-delete.rs l.42-53, with the answers [d k] to the write calls of the k-th request. *)
Definition disk_delete (cap : nat) (d : nat -> disk) (vertex edge : option (list text)) : prog exit :=
  option_call vertex parse_all (fun vs => disk_apply cap (d 0%nat) (map RemoveVertex vs)) (
  option_call edge
    (fun vs => obind (parse_all vs) (fun l => obind (as_vertex_tuple l) expect))
    (fun es => disk_apply cap (d 1%nat) (map (fun e => RemoveEdge (fst e) (snd e)) es)) (
  Ret Success)).
(** gc-random.rs l.79-107, given the generated graph. *)
Definition disk_random (cap : nat) (d : disk) (g : graph) (force : bool) (answer : text) : prog exit :=
  if negb force && negb (confirmed answer) then Ret Success
  else
    bind clean (fun r => match r with
    | IoErr => Ret Failure
    | IoOk _ =>
      bind init (fun r => match r with
      | IoErr => Ret Failure
      | IoOk _ =>
        bind (disk_save cap d g) (fun r => Ret
          (match r with IoOk _ => Success | IoErr => Failure end))
      end)
    end).
