(** * Model of [save] in core/src/format/tgf.rs as a sequence of write calls *)
From Coq Require Import String.
From Coq Require Import List NArith.
From Verif Require Import Base Graph Text Format Disk.
Import ListNotations.

(** The pieces the formatting machinery hands to the writer.  tgf.rs l.61 and l.65 *)
Definition tgf_pieces (g : graph) : list text :=
  concat (map (fun v => [show v; [10%N]]) (vertices g)) ++
  concat (map (fun e => [show (fst e); txt " "; show (snd e); [10%N]]) (edges g)).
(** tgf.rs l.56-68 on a disk that answers each write call: the calls that took
    effect, and whether [Ok] is returned.  The file was created, so that it is empty
    before the first call; the [BufWriter] is the one of [disk_writes]. *)
Definition tgf_save (cap : nat) (d : disk) (g : graph) : list text * bool := disk_writes cap d 0 [] (tgf_pieces g).
(** The file when the process was killed after [n] of these calls; with [n] large, when
    it was not.  tgf.rs l.57-67 *)
Definition tgf_left (cap : nat) (d : disk) (g : graph) (n : nat) : text := concat (firstn n (fst (tgf_save cap d g))).
