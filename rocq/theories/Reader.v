(** * Reading the commands file by several read calls

    [Store.load_graph] reads the file in one step.  Here the file is read as
    [BufReader] and [lines] of core/src/format/utils.rs l.39-50 do it, while other
    processes may change it between two calls. *)
From Coq Require Import String.
From Coq Require Import List NArith Bool Arith.
From Verif Require Import Base Graph Text Format Store.
Import ListNotations.
Open Scope N_scope.

(** Everything up to the last line feed: the lines handed on so far. utils.rs l.41. *)
Fixpoint drop_begun (s : text) : text :=
  match s with
  | [] => []
  | c :: t => if c =? 10 then s else drop_begun t
  end.
(** The text of the lines that ended. utils.rs l.41. *)
Definition complete (s : text) : text := rev (drop_begun (rev s)).
(** No line has been begun. utils.rs l.41. *)
Definition ends_line (s : text) : bool :=
  match rev s with [] => true | c :: _ => c =? 10 end.
(** [Result::is_ok], on results without panic. utils.rs l.44-47. *)
Definition is_ok {A} (r : outcome (result A)) : bool := match r with Done (Ok _) => true | _ => false end.

Section Policies.
  Variable nd : N -> bool.
  (** How much a read call gives when more is there: one code point and so many
      more, in any way. *)
  Variable takes : list text -> text -> nat.

  (** utils.rs l.39-50 and l.22-26 on the lines of some pieces of text.  Each piece
      ended where a read call gave nothing; [lines] hands a line on there even
      without line feed, and the next line starts afresh. *)
  Definition read_pieces (segs : list text) : outcome (result graph) :=
    obind (read_lines (gcmd_parse_line nd) is_comment 0 (flat_map lines segs)) (fun r =>
      Done (match r with Ok cs => Ok (apply_commands cs g_new) | Err m => Err m end)).

  (** One step is one read call at the offset of the handle.  A line that is not
      accepted ends the reading.  When a call gives nothing, [lines] stops if no
      line has been begun, otherwise it hands the line on and calls again.  A file
      that is no longer there counts as ended. utils.rs l.39-50. *)
  Fixpoint read_rest (fuel : nat) (segs : list text) (seg : text) : prog (outcome (result graph)) :=
    match fuel with
    | O => Ret OutOfFuel
    | S n =>
      Act (fun s => s) (fun s =>
        let c := match commands_entry s with File c => c | _ => [] end in
        match firstn (S (takes segs seg)) (skipn (length (concat segs ++ seg)) c) with
        | [] =>
          let r := read_pieces (segs ++ [seg]) in
          if ends_line seg || negb (is_ok r) then Ret r else read_rest n (segs ++ [seg]) []
        | new =>
          let r := read_pieces (segs ++ [complete (seg ++ new)]) in
          if is_ok r then read_rest n segs (seg ++ new) else Ret r
        end)
    end.
  (** graph_utils.rs l.53-62 *)
  Definition load_stepwise (fuel : nat) : prog (outcome (result graph)) :=
    Act (fun s => s) (fun s =>
      match commands_entry s with
      | File _ => read_rest fuel [] []
      | Absent => Ret (Done (Err (txt "io error")))
      | Directory => Ret Panic
      end).
End Policies.

(** Processes of different kinds in one system. The processes of graph_utils.rs l.53-168. *)
Definition proc := prog (io unit + outcome (result graph)).
(** A program that changes the file. graph_utils.rs l.163-168. *)
Definition as_writer (p : prog (io unit)) : proc := bind p (fun r => Ret (inl r)).
(** A program that reads it. graph_utils.rs l.53-62. *)
Definition as_reader (p : prog (outcome (result graph))) : proc := bind p (fun r => Ret (inr r)).
