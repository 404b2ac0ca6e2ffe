(** * Model of core/src/format/gcmd.rs, tgf.rs and utils.rs *)
From Coq Require Import String.
From Coq Require Import List NArith Bool Arith.
From Verif Require Import Base Graph Text.
Import ListNotations.
Open Scope N_scope.

(** [Result<A, String>]; e.g. gcmd.rs l.43, utils.rs l.17 *)
Inductive result (A : Type) := Ok (a : A) | Err (msg : text).
Arguments Ok {A} a.
Arguments Err {A} msg.

(** ** utils.rs *)

(** utils.rs l.41-50.  [parse] may panic. *)
Fixpoint read_lines (parse : text -> outcome (result graph_command)) (is_comment : text -> bool)
  (index : N) (ls : list text) : outcome (result (list graph_command)) :=
  match ls with
  | [] => Done (Ok [])
  | l :: t =>
    if negb (match l with [] => true | _ => false end) && negb (is_comment l) then
      obind (parse l) (fun r =>
        match r with
        | Ok c => obind (read_lines parse is_comment (index + 1) t) (fun rest =>
                    Done (match rest with Ok cs => Ok (c :: cs) | Err m => Err m end))
        | Err msg => Done (Err (txt "Error at line " ++ show (index + 1) ++ txt ": " ++ msg))
        end)
    else read_lines parse is_comment (index + 1) t
  end.
(** utils.rs l.30-51 *)
Definition read_as_commands parse is_comment (content : text) : outcome (result (list graph_command)) :=
  read_lines parse is_comment 0 (lines content).
(** utils.rs l.13-27 *)
Definition read parse is_comment (content : text) : outcome (result graph) :=
  obind (read_as_commands parse is_comment content) (fun r =>
    Done (match r with Ok cs => Ok (apply_commands cs g_new) | Err m => Err m end)).

(** ** gcmd.rs *)

(** [cap.parse::<u64>().unwrap()]; gcmd.rs l.52-64, tgf.rs l.36-40 *)
Definition parse_id (s : text) : outcome N :=
  match parse_u64 s with Some n => Done n | None => Panic end.

(** gcmd.rs l.70-72, tgf.rs l.47-49 *)
Definition is_comment (line : text) : bool := starts_with_txt (txt "#") (trim line).

Section Digits.
  (** The regex class [\d], the Unicode category Nd. *)
  Variable nd : N -> bool.

  (** [(\d+)], gcmd.rs l.45-48 *)
  Definition digits_item : item := Rep nd 1 true.
  (** [\s+], gcmd.rs l.45-48 *)
  Definition space_item : item := Rep ws 1 false.
  (** [.*] at the end of a regex: no line feed; tgf.rs l.31-32 *)
  Definition rest_item : item := Rep (fun c => negb (c =? 10)) 0 true.

  (** gcmd.rs l.45-48 *)
  Definition ADD_VERTEX_RE := rx_lit "AddVertex " ++ [digits_item].
  (** gcmd.rs l.46 *)
  Definition ADD_EDGE_RE := rx_lit "AddEdge " ++ [digits_item; space_item; digits_item].
  (** gcmd.rs l.47 *)
  Definition REMOVE_VERTEX_RE := rx_lit "RemoveVertex " ++ [digits_item].
  (** gcmd.rs l.48 *)
  Definition REMOVE_EDGE_RE := rx_lit "RemoveEdge " ++ [digits_item; space_item; digits_item].

  (** gcmd.rs l.52-54 and l.59-61: the two captures, in order. *)
  Definition two_ids (mk : N -> N -> graph_command) (caps : list text) : outcome (result graph_command) :=
    match caps with
    | [a; b] => obind (parse_id a) (fun v1 => obind (parse_id b) (fun v2 => Done (Ok (mk v1 v2))))
    | _ => Panic
    end.
  (** gcmd.rs l.56-57 and l.63-64 *)
  Definition one_id (mk : N -> graph_command) (caps : list text) : outcome (result graph_command) :=
    match caps with
    | [a] => obind (parse_id a) (fun v1 => Done (Ok (mk v1)))
    | _ => Panic
    end.
  (** gcmd.rs l.66 *)
  Definition parse_error (line : text) : text := txt "Couldn't parse '" ++ line ++ txt "'".

  (** gcmd.rs l.43-68: the regexes are anchored, so the first match is the only one. *)
  Definition gcmd_parse_line (line : text) : outcome (result graph_command) :=
    match rx_match ADD_EDGE_RE line with
    | Some caps => two_ids AddEdge caps
    | None =>
      match rx_match ADD_VERTEX_RE line with
      | Some caps => one_id AddVertex caps
      | None =>
        match rx_match REMOVE_EDGE_RE line with
        | Some caps => two_ids RemoveEdge caps
        | None =>
          match rx_match REMOVE_VERTEX_RE line with
          | Some caps => one_id RemoveVertex caps
          | None => Done (Err (parse_error line))
          end
        end
      end
    end.

  (** gcmd.rs l.33-40 *)
  Definition gcmd_read := read gcmd_parse_line is_comment.
  (** gcmd.rs l.38-40 *)
  Definition gcmd_read_as_commands := read_as_commands gcmd_parse_line is_comment.

  (** ** tgf.rs *)

  (** tgf.rs l.31-32 *)
  Definition VERTEX_RE := [digits_item; rest_item].
  (** tgf.rs l.32 *)
  Definition EDGE_RE := [digits_item; space_item; digits_item; rest_item].

  (** tgf.rs l.29-45 *)
  Definition tgf_parse_line (line : text) : outcome (result graph_command) :=
    match rx_match EDGE_RE line with
    | Some caps => match caps with a :: b :: _ => two_ids AddEdge [a; b] | _ => Panic end
    | None =>
      match rx_match VERTEX_RE line with
      | Some caps => match caps with a :: _ => one_id AddVertex [a] | _ => Panic end
      | None => Done (Err (parse_error line))
      end
    end.
  (** tgf.rs l.19-26 *)
  Definition tgf_read := read tgf_parse_line is_comment.
  (** tgf.rs l.24-26 *)
  Definition tgf_read_as_commands := read_as_commands tgf_parse_line is_comment.
End Digits.

(** gcmd.rs l.105-113 *)
Definition command_into_line (c : graph_command) : text :=
  match c with
  | AddVertex v => txt "AddVertex " ++ show v
  | RemoveVertex v => txt "RemoveVertex " ++ show v
  | AddEdge a b => txt "AddEdge " ++ show a ++ txt " " ++ show b
  | RemoveEdge a b => txt "RemoveEdge " ++ show a ++ txt " " ++ show b
  end.
(** [writeln!]; gcmd.rs l.84, l.88, l.100, tgf.rs l.61, l.65 *)
Definition writeln (l : text) : text := l ++ [10].

(** gcmd.rs l.98-101: what [add_commands] appends. *)
Definition commands_text (cs : list graph_command) : text :=
  concat (map (fun c => writeln (command_into_line c)) cs).
(** gcmd.rs l.82-89: what [save] writes. *)
Definition gcmd_text (g : graph) : text :=
  concat (map (fun v => writeln (txt "AddVertex " ++ show v)) (vertices g)) ++
  concat (map (fun e => writeln (txt "AddEdge " ++ show (fst e) ++ txt " " ++ show (snd e))) (edges g)).
(** The pieces the formatting machinery hands to the writer: each literal part and
    each argument of a [writeln!] is one [write_all].  gcmd.rs l.100 *)
Definition add_pieces (cs : list graph_command) : list text :=
  concat (map (fun c => [command_into_line c; [10]]) cs).
(** gcmd.rs l.84 and l.88 *)
Definition save_pieces (g : graph) : list text :=
  concat (map (fun v => [txt "AddVertex "; show v; [10]]) (vertices g)) ++
  concat (map (fun e => [txt "AddEdge "; show (fst e); txt " "; show (snd e); [10]]) (edges g)).
(** tgf.rs l.59-66 *)
Definition tgf_text (g : graph) : text :=
  concat (map (fun v => writeln (show v)) (vertices g)) ++
  concat (map (fun e => writeln (show (fst e) ++ txt " " ++ show (snd e))) (edges g)).
