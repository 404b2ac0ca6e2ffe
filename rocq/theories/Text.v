(** * Text: model of the parts of Rust's standard library and of the regex crate
      that the file formats and the argument parser use *)
From Coq Require Import String Ascii.
From Coq Require Import List NArith Bool Arith.
From Verif Require Import Base.
Import ListNotations.
Open Scope N_scope.

(** Text is a list of Unicode code points; [Utf8.v] has the bytes. E.g. utils.rs l.41. *)
Definition text := list N.

(** String literals of the source (ASCII only). E.g. gcmd.rs l.84, l.108-111. *)
Definition txt (s : string) : text := map N_of_ascii (list_ascii_of_string s).

(** [char::is_whitespace] and the regex class [\s]: the Unicode property
    White_Space. gcmd.rs l.46, l.71, tgf.rs l.32, l.48, arg_utils.rs l.48. *)
Definition ws (c : N) : bool :=
  ((9 <=? c) && (c <=? 13)) || (c =? 32) || (c =? 133) || (c =? 160) || (c =? 5760) ||
  ((8192 <=? c) && (c <=? 8202)) || (c =? 8232) || (c =? 8233) || (c =? 8239) || (c =? 8287) || (c =? 12288).

(** ASCII digits, [char::to_digit(10)]. Behind gcmd.rs l.52, arg_utils.rs l.22. *)
Definition ascii_digit (c : N) : bool := (48 <=? c) && (c <=? 57).

(** 2^64; For the u64 of graph.rs l.6 *)
Definition u64_limit : N := 2 ^ 64.

(** [u64::from_str]: optional ['+'], then at least one ASCII digit, with an
    overflow check at each digit. gcmd.rs l.52-64, tgf.rs l.36-40, arg_utils.rs l.22. *)
Fixpoint parse_digits (acc : N) (s : text) : option N :=
  match s with
  | [] => Some acc
  | c :: t =>
    if ascii_digit c then
      let v := acc * 10 + (c - 48) in
      if v <? u64_limit then parse_digits v t else None
    else None
  end.
(** [u64::from_str], as used at gcmd.rs l.52 and arg_utils.rs l.21-23. *)
Definition parse_u64 (s : text) : option N :=
  match s with
  | [] => None
  | c :: t => if c =? 43 then match t with [] => None | _ => parse_digits 0 t end else parse_digits 0 s
  end.

(** [Display] for u64: decimal, no leading zero.  [fuel] bounds the number of
    further digits. gcmd.rs l.84-111, tgf.rs l.61-65. *)
Fixpoint show_from (fuel : nat) (n : N) (acc : text) : text :=
  let acc' := (48 + n mod 10) :: acc in
  match fuel with
  | O => acc'
  | S f => if n / 10 =? 0 then acc' else show_from f (n / 10) acc'
  end.
(** [Display] for u64, as used at gcmd.rs l.84 and l.105-113. *)
Definition show (n : N) : text := show_from (N.size_nat n) n [].

(** [str::trim]; gcmd.rs l.71, tgf.rs l.48, arg_utils.rs l.48 *)
Fixpoint trim_start (s : text) : text :=
  match s with
  | [] => []
  | c :: t => if ws c then trim_start t else s
  end.
(** [str::trim], arg_utils.rs l.42-52 *)
Definition trim (s : text) : text := rev (trim_start (rev (trim_start s))).
(** [str::starts_with]; gcmd.rs l.71, tgf.rs l.48 *)
Fixpoint starts_with_txt (p s : text) : bool :=
  match p, s with
  | [], _ => true
  | a :: p', b :: s' => (a =? b) && starts_with_txt p' s'
  | _ :: _, [] => false
  end.

(** [BufRead::lines]: split at line feeds, dropping one carriage return before
    each; an unterminated last line is kept as it is unless empty. utils.rs l.41. *)
Definition chomp (l : text) : text :=
  match rev l with
  | c :: t => if c =? 13 then rev t else l
  | [] => l
  end.
(** [BufRead::lines], utils.rs l.41; [cur] is the line begun, reversed. *)
Fixpoint lines_from (cur : text) (s : text) : list text :=
  match s with
  | [] => match cur with [] => [] | _ => [rev cur] end
  | c :: t => if c =? 10 then chomp (rev cur) :: lines_from [] t else lines_from (c :: cur) t
  end.
(** [BufRead::lines], utils.rs l.41 *)
Definition lines (s : text) : list text := lines_from [] s.

(** ** Regular expressions of the shape the code uses: [^ items $], each item a
    literal character or a greedy repetition of a class, captured or not.  The
    matcher is the backtracking one: the longest repetition is tried first.
    gcmd.rs l.45-48, tgf.rs l.31-32. *)
Inductive item :=
| Chr (c : N)
| Rep (cls : N -> bool) (min : nat) (captured : bool).

(** Number of leading characters in the class. Behind gcmd.rs l.51-62, tgf.rs l.35-39. *)
Fixpoint span (cls : N -> bool) (s : text) : nat :=
  match s with
  | c :: t => if cls c then S (span cls t) else O
  | [] => O
  end.

(** A repetition of [k] characters, then fewer, down to [min]; [rest] matches
    what follows. Behind gcmd.rs l.51-62, tgf.rs l.35-39. *)
Fixpoint rep_try (rest : text -> option (list text)) (min : nat) (cap : bool) (s : text) (k : nat)
  : option (list text) :=
  if Nat.ltb k min then None
  else
    match rest (skipn k s) with
    | Some caps => Some (if cap then firstn k s :: caps else caps)
    | None => match k with O => None | S k' => rep_try rest min cap s k' end
    end.

(** The captures of a match, if any. gcmd.rs l.51-62, tgf.rs l.35-39. *)
Fixpoint rx_match (r : list item) (s : text) : option (list text) :=
  match r with
  | [] => match s with [] => Some [] | _ => None end
  | Chr c :: r' =>
    match s with
    | x :: t => if x =? c then rx_match r' t else None
    | [] => None
    end
  | Rep cls min cap :: r' => rep_try (rx_match r') min cap s (span cls s)
  end.

(** The literal part of a regex. gcmd.rs l.45-48. *)
Definition rx_lit (s : string) : list item := map Chr (txt s).
