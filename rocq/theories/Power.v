(** * What is on the disk after a power loss

    No file of /repo asks for data to be stored before going on (no call of [sync_all] or
    [sync_data]; gcmd.rs l.75-103 and graph_utils.rs l.135-143 only write and drop the handle), so
    a reported success says nothing about the disk.  Two disks are modelled: one that stores the
    effects of the calls in the order in which they were made, and one that in addition may have
    stored the length of the commands file but not all of its contents, in which case the missing
    characters read as zeros. *)
From Coq Require Import List NArith.
From Verif Require Import Base Graph Text Format Store StoreSpec PropStore.
Import ListNotations.
Open Scope N_scope.

(** The disk stored the calls of the invocations (graph_utils.rs l.22-168, each run to its end, each
    with its own hash order and its own way of cutting what it writes, out of the ways [W]) up to
    some call. *)
Inductive power_loss (nd : N -> bool) (W : (list text -> list text) -> Prop) : fs -> list invocation -> fs -> Prop :=
| pl_here s is : power_loss nd W s is s
| pl_in s i is s' chunks order : W chunks -> hash_order order ->
    crash (invoke nd chunks order i) s s' -> power_loss nd W s (i :: is) s'
| pl_later s i is s' chunks order : W chunks -> hash_order order ->
    power_loss nd W (fst (run_prog (invoke nd chunks order i) s)) is s' -> power_loss nd W s (i :: is) s'.

(** Several periods, each ended by a power loss. graph_utils.rs l.22-168. *)
Inductive power_losses (nd : N -> bool) (W : (list text -> list text) -> Prop) : fs -> list (list invocation) -> fs -> Prop :=
| ps_end s : power_losses nd W s [] s
| ps_period s is s1 rest s' : power_loss nd W s is s1 -> power_losses nd W s1 rest s' ->
    power_losses nd W s (is :: rest) s'.

(** A file of which the length was stored, or part of it, and some of the characters.
    gcmd.rs l.75-103. *)
Definition faded (c c' : text) : Prop :=
  (length c' <= length c)%nat /\ forall i x, nth_error c' i = Some x -> x = 0 \/ nth_error c i = Some x.
