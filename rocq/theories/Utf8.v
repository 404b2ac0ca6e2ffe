(** * Model of how core/src/format/utils.rs gets lines out of a file of bytes

    [BufRead::lines] and [String::from_utf8] are not part of /repo; the code below
    is the algorithm of the Rust standard library.  A byte is a number; numbers
    above 255 are never produced and are rejected by the decoder. *)
From Coq Require Import String.
From Coq Require Import List NArith Bool.
From Verif Require Import Base Graph Text Format Store.
Import ListNotations.
Open Scope N_scope.

(** The content of a file, utils.rs l.39. *)
Definition bytes := list N.

(** A byte in a range. Behind utils.rs l.41. *)
Definition between (lo hi b : N) : bool := (lo <=? b) && (b <=? hi).
(** A continuation byte, [10xxxxxx]. Behind utils.rs l.41. *)
Definition cont (b : N) : bool := between 128 191 b.

(** [core::str::from_utf8]: the ranges of [run_utf8_validation], with the decoding
    of [next_code_point]. Behind utils.rs l.41. *)
Fixpoint from_utf8 (bs : bytes) : option text :=
  match bs with
  | [] => Some []
  | a :: r =>
    if a <? 128 then option_map (cons a) (from_utf8 r)
    else
      match r with
      | b :: r1 =>
        if between 194 223 a then
          if cont b then option_map (cons ((a - 192) * 64 + (b - 128))) (from_utf8 r1) else None
        else
          match r1 with
          | c :: r2 =>
            if between 224 239 a then
              if (if a =? 224 then between 160 191 b else if a =? 237 then between 128 159 b else cont b) && cont c
              then option_map (cons (((a - 224) * 64 + (b - 128)) * 64 + (c - 128))) (from_utf8 r2)
              else None
            else
              match r2 with
              | d :: r3 =>
                if between 240 244 a then
                  if (if a =? 240 then between 144 191 b else if a =? 244 then between 128 143 b else cont b) && cont c && cont d
                  then option_map (cons ((((a - 240) * 64 + (b - 128)) * 64 + (c - 128)) * 64 + (d - 128))) (from_utf8 r3)
                  else None
                else None
              | [] => None
              end
          | [] => None
          end
      | [] => None
      end
  end.

(** [BufRead::read_until] with the line feed, repeated: the delimiter stays on the
    line. Behind utils.rs l.41. *)
Fixpoint raw_from (cur : bytes) (s : bytes) : list bytes :=
  match s with
  | [] => match cur with [] => [] | _ => [rev cur] end
  | c :: t => if c =? 10 then rev (c :: cur) :: raw_from [] t else raw_from (c :: cur) t
  end.
(** The lines of [BufRead::lines] before decoding, utils.rs l.41. *)
Definition raw_lines (s : bytes) : list bytes := raw_from [] s.
(** [Lines::next]: a line feed at the end is dropped, with a carriage return before
    it. Behind utils.rs l.41. *)
Definition strip_end (l : text) : text :=
  match rev l with
  | c :: t => if c =? 10 then chomp (rev t) else l
  | [] => l
  end.

(** utils.rs l.41-50; [line.unwrap()] panics on a line that is not UTF-8. *)
Fixpoint read_raw (parse : text -> outcome (result graph_command)) (is_comment : text -> bool)
  (index : N) (ls : list bytes) : outcome (result (list graph_command)) :=
  match ls with
  | [] => Done (Ok [])
  | raw :: t =>
    match from_utf8 raw with
    | None => Panic
    | Some s =>
      let l := strip_end s in
      if negb (match l with [] => true | _ => false end) && negb (is_comment l) then
        obind (parse l) (fun r =>
          match r with
          | Ok c => obind (read_raw parse is_comment (index + 1) t) (fun rest =>
                      Done (match rest with Ok cs => Ok (c :: cs) | Err m => Err m end))
          | Err msg => Done (Err (txt "Error at line " ++ show (index + 1) ++ txt ": " ++ msg))
          end)
      else read_raw parse is_comment (index + 1) t
    end
  end.
(** utils.rs l.30-51 *)
Definition read_bytes parse is_comment (content : bytes) : outcome (result (list graph_command)) :=
  read_raw parse is_comment 0 (raw_lines content).
(** gcmd.rs l.38-40 *)
Definition gcmd_read_bytes (nd : N -> bool) := read_bytes (gcmd_parse_line nd) is_comment.
(** tgf.rs l.24-26 *)
Definition tgf_read_bytes (nd : N -> bool) := read_bytes (tgf_parse_line nd) is_comment.

(** graph_utils.rs l.53-62 with utils.rs l.13-27, the content of the file being
    bytes; compare [load_graph]. *)
Definition load_graph_bytes (nd : N -> bool) : prog (outcome (result graph)) :=
  Act (fun s => s) (fun s => Ret
    (match commands_entry s with
     | File c => obind (gcmd_read_bytes nd c) (fun r =>
                   Done (match r with Ok cs => Ok (apply_commands cs g_new) | Err m => Err m end))
     | Absent => Done (Err (txt "io error"))
     | Directory => Panic
     end)).
(** gc-build.rs l.34-41; compare [gc_build]. *)
Definition gc_build_bytes (nd : N -> bool) (chunks : list text -> list text) (order : graph -> graph) : prog exit :=
  bind (load_graph_bytes nd) (fun r =>
    match r with
    | Done (Ok g) =>
      bind (save_graph_as_commands chunks (order g)) (fun w =>
        Ret (match w with IoOk _ => Success | IoErr => Failure end))
    | _ => Ret Failure
    end).
