(** * Model of std::io::BufWriter, through which gcmd.rs l.81-89 and l.97-101
      write

    [BufWriter] is not part of /repo; the algorithm below is the one of the Rust
    standard library.  Every write call is taken to write all it is given, as
    writes to a regular file do.  For errors of the operating system
    see Disk.v. *)
From Coq Require Import List NArith Bool Arith.
From Verif Require Import Text.
Import ListNotations.

(** [flush_buf]: one write call, none when the buffer is empty. Behind gcmd.rs l.84-101. *)
Definition flush_buf (buf : text) : list text := match buf with [] => [] | _ => [buf] end.

(** [write_all] on each piece, then the [Drop] implementation; the result is the
    list of write calls.  [buf] is the content of the buffer. Behind gcmd.rs l.81-101. *)
Fixpoint buf_writes (cap : nat) (buf : text) (pieces : list text) : list text :=
  match pieces with
  | [] => flush_buf buf
  | p :: t =>
    let full := Nat.ltb cap (length buf + length p) in
    let out := if full then flush_buf buf else [] in
    let buf' := if full then [] else buf in
    if Nat.leb cap (length p) then out ++ p :: buf_writes cap buf' t
    else out ++ buf_writes cap (buf' ++ p) t
  end.

(** [BufWriter::with_capacity]; gcmd.rs l.81, l.97 *)
Definition buffered (cap : nat) (pieces : list text) : list text := buf_writes cap [] pieces.
(** [BufWriter::new]: [DEFAULT_BUF_SIZE]; gcmd.rs l.81, l.97 *)
Definition default_capacity : nat := N.to_nat 8192.
