(** * Specification of the text formats

    Numerals, lines and the two grammars, stated on concatenations of text
    only; nothing here refers to the matcher or to the readers. *)
From Coq Require Import String.
From Coq Require Import List NArith.
From Verif Require Import Graph Text.
Import ListNotations.
Open Scope N_scope.

Definition u64 (n : N) : Prop := n < 18446744073709551616.
(** All ids of a command are u64. *)
Definition u64_command (c : graph_command) : Prop :=
  match c with
  | AddVertex v | RemoveVertex v => u64 v
  | AddEdge a b | RemoveEdge a b => u64 a /\ u64 b
  end.

(** A non-empty run of characters of a class. *)
Definition run (P : N -> Prop) (s : text) : Prop := s <> [] /\ Forall P s.

(** Unicode White_Space. *)
Definition blank (c : N) : Prop :=
  In c [9; 10; 11; 12; 13; 32; 133; 160; 5760;
        8192; 8193; 8194; 8195; 8196; 8197; 8198; 8199; 8200; 8201; 8202;
        8232; 8233; 8239; 8287; 12288].

Definition ascii09 (c : N) : Prop := In c [48; 49; 50; 51; 52; 53; 54; 55; 56; 57].

(** What we assume of the Unicode digit table: below 128 it holds the ASCII
    digits, and no digit is white space. *)
Definition digit_table (nd : N -> bool) : Prop :=
  (forall c, c < 128 -> (nd c = true <-> ascii09 c)) /\
  (forall c, nd c = true -> ~ blank c).

(** The number a run of ASCII digits denotes. *)
Fixpoint decimal (s : text) : N :=
  match s with
  | [] => 0
  | c :: t => (c - 48) * 10 ^ N.of_nat (length t) + decimal t
  end.
(** [s] is an unsigned numeral for the u64 [n]. *)
Definition numeral (s : text) (n : N) : Prop := run ascii09 s /\ decimal s = n /\ u64 n.
(** [s] is the numeral for [n] without leading zeros. *)
Definition canonical_numeral (s : text) (n : N) : Prop :=
  run ascii09 s /\ decimal s = n /\ (hd 0 s = 48 -> s = [48]).

(** ** Lines of a file *)
Definition no_lf (s : text) : Prop := ~ In 10 s.
Inductive file_lines : text -> list text -> Prop :=
| fl_end : file_lines [] []
| fl_last l : l <> [] -> no_lf l -> file_lines l [l]
| fl_lf l t ls : no_lf l -> (forall p, l <> p ++ [13]) -> file_lines t ls ->
    file_lines (l ++ [10] ++ t) (l :: ls)
| fl_crlf l t ls : no_lf l -> file_lines t ls ->
    file_lines (l ++ [13; 10] ++ t) (l :: ls).

(** Lines the readers pass over: empty, or a ['#'] after optional blanks. *)
Definition skipped (l : text) : Prop :=
  l = [] \/ exists w t, l = w ++ [35] ++ t /\ Forall blank w.

(** ** The gcmd grammar, over any notion [num] of numeral *)
Inductive gcmd_line (num : text -> N -> Prop) : text -> graph_command -> Prop :=
| gl_add_vertex d n : num d n -> gcmd_line num (txt "AddVertex " ++ d) (AddVertex n)
| gl_remove_vertex d n : num d n -> gcmd_line num (txt "RemoveVertex " ++ d) (RemoveVertex n)
| gl_add_edge d1 w d2 a b : num d1 a -> run blank w -> num d2 b ->
    gcmd_line num (txt "AddEdge " ++ d1 ++ w ++ d2) (AddEdge a b)
| gl_remove_edge d1 w d2 a b : num d1 a -> run blank w -> num d2 b ->
    gcmd_line num (txt "RemoveEdge " ++ d1 ++ w ++ d2) (RemoveEdge a b).

(** ** The tgf grammar *)
(** A label: no line feed, and not continuing the digits before it. *)
Definition label (digit : N -> Prop) (l : text) : Prop :=
  no_lf l /\ (forall c t, l = c :: t -> ~ digit c).
(** A label that cannot be taken for the second id of an edge. *)
Definition vertex_label (digit : N -> Prop) (l : text) : Prop :=
  label digit l /\ (forall w c t, l = w ++ c :: t -> run blank w -> ~ digit c).
Inductive tgf_line (digit : N -> Prop) (num : text -> N -> Prop) : text -> graph_command -> Prop :=
| tl_edge d1 w d2 l a b : num d1 a -> run blank w -> num d2 b -> label digit l ->
    tgf_line digit num (d1 ++ w ++ d2 ++ l) (AddEdge a b)
| tl_vertex d l n : num d n -> vertex_label digit l -> tgf_line digit num (d ++ l) (AddVertex n).

(** Runs of table digits, whatever they denote. *)
Definition digits (nd : N -> bool) (d : text) (n : N) : Prop := run (fun c => nd c = true) d.

(** What a reader makes of a list of lines, given what its parser makes of a
    line. *)
Inductive reads (accepts : text -> graph_command -> Prop) : list text -> list graph_command -> Prop :=
| reads_end : reads accepts [] []
| reads_skip l ls cs : skipped l -> reads accepts ls cs -> reads accepts (l :: ls) cs
| reads_line l ls c cs : ~ skipped l -> accepts l c -> reads accepts ls cs ->
    reads accepts (l :: ls) (c :: cs).

(** Content that is empty or ends with a line feed. *)
Definition closed (s : text) : Prop := s = [] \/ exists p, s = p ++ [10].

(** Graphs with u64 ids. *)
Definition u64_graph (g : graph) : Prop := forall v, contains_vertex g v = true -> u64 v.
