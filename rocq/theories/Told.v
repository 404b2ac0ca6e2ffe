(** * Told: the message a program leaves on the error stream when it panics

    Rust prints the payload of a panic; the thread name and the source location
    around it are not modelled.  [None]: the program does not panic.  The error
    value inside a message is printed by its [Debug]; for [io::Error] and
    [ParseIntError] that text depends on the platform and on the release of the
    standard library, so it is a parameter. *)
From Coq Require Import String.
From Coq Require Import List NArith Bool Arith.
From Verif Require Import Base Graph Text Format Store Cli.
Import ListNotations.
Open Scope N_scope.

(** [Result::expect] on an error, e.g. gc-build.rs l.34: the text, a colon and the error. *)
Definition expect_err (what error : text) : text := what ++ txt ": " ++ error.
(** [Result::unwrap] on an error: utils.rs l.42, gcmd.rs l.52-64. *)
Definition unwrap_err (error : text) : text := txt "called `Result::unwrap()` on an `Err` value: " ++ error.
(** [Option::unwrap] on [None]: gc-short-path.rs l.49, l.54, gc-csp.rs l.142, l.147. *)
Definition unwrap_none : text := txt "called `Option::unwrap()` on a `None` value".

Section Messages.
  Variable nd : N -> bool.
  Variable chunks : list text -> list text.
  (** [Debug] of the error [u64::from_str] gives on a text. *)
  Variable debug_parse : text -> text.
  (** [Debug] of an [io::Error]; one text for all of them (a simplification). *)
  Variable debug_io : text.
  (** [Error::description] of the error of opening a missing file, graph_utils.rs l.60. *)
  Variable absent : text.
  (** The escape [Debug] of [str] writes for the apostrophe, control characters
      and characters that are not ASCII. *)
  Variable other : N -> text.

  (** [Debug] of [str], one character; behind gc-build.rs l.34. *)
  Definition debug_char (c : N) : text :=
    if c =? 34 then [92; 34]
    else if c =? 92 then [92; 92]
    else if c =? 9 then txt "\t"
    else if c =? 10 then txt "\n"
    else if c =? 13 then txt "\r"
    else if (32 <=? c) && (c <? 127) && negb (c =? 39) then [c]
    else other c.
  (** [Debug] of [str]: in double quotes. Behind gc-build.rs l.34, gc-desc.rs l.23. *)
  Definition debug_str (s : text) : text := [34] ++ flat_map debug_char s ++ [34].

  (** The first text that is no u64; gcmd.rs l.52-64, gc-add.rs l.91. *)
  Fixpoint first_bad (vs : list text) : option text :=
    match vs with
    | [] => None
    | v :: t => match parse_u64 v with Some _ => first_bad t | None => Some v end
    end.

  (** The captures of the regex that matches, gcmd.rs l.50-66. *)
  Definition captures (line : text) : list text :=
    match rx_match (ADD_EDGE_RE nd) line with
    | Some caps => caps
    | None =>
      match rx_match (ADD_VERTEX_RE nd) line with
      | Some caps => caps
      | None =>
        match rx_match (REMOVE_EDGE_RE nd) line with
        | Some caps => caps
        | None => match rx_match (REMOVE_VERTEX_RE nd) line with Some caps => caps | None => [] end
        end
      end
    end.
  (** The capture whose [parse::<u64>().unwrap()] panics; utils.rs l.41-50, gcmd.rs l.52-64. *)
  Fixpoint panic_capture (ls : list text) : text :=
    match ls with
    | [] => []
    | l :: t => match first_bad (captures l) with Some v => v | None => panic_capture t end
    end.

  (** [load_graph(path).expect(what)] and graph_utils.rs l.53-62; on a directory
      [line.unwrap()] of utils.rs l.42 panics. *)
  Definition load_told (what : text) (s : fs) : option text :=
    match commands_entry s with
    | File c =>
      match gcmd_read nd c with
      | Done (Ok _) => None
      | Done (Err m) => Some (expect_err what (debug_str m))
      | _ => Some (unwrap_err (debug_parse (panic_capture (lines c))))
      end
    | Absent => Some (expect_err what (debug_str absent))
    | Directory => Some (unwrap_err debug_io)
    end.

  (** ** The binaries that only read *)
  (** gc-build.rs l.34, gc-topo-sort.rs l.25, gc-cycle.rs l.170, gc-csp.rs l.201, gc-short-path.rs l.55 *)
  Definition load_what : text := txt "Couldn't load graph".
  (** gc-topo-sort.rs l.23-25 *)
  Definition topo_sort_told : fs -> option text := load_told load_what.
  (** gc-cycle.rs l.168-170 *)
  Definition cycle_told : fs -> option text := load_told load_what.
  (** gc-desc.rs l.22-23 *)
  Definition desc_told (path : text) : fs -> option text :=
    load_told (txt "Couldn't load graph at '" ++ path ++ txt "'").
  (** gc-short-path.rs l.45-55 and gc-csp.rs l.138-147, l.201 *)
  Definition with_ids_told (start end_ : text) (s : fs) : option text :=
    match parse_vertex_id start, parse_vertex_id end_ with
    | Some _, Some _ => load_told load_what s
    | _, _ => Some unwrap_none
    end.

  (** ** The binaries that write *)
  (** The message for a result that is expected. E.g. gc-init.rs l.23. *)
  Definition io_told (what : text) (r : io unit) : option text :=
    match r with IoOk _ => None | IoErr => Some (expect_err what debug_io) end.
  (** gc-init.rs l.23 *)
  Definition init_told : prog (option text) :=
    bind init (fun r => Ret (io_told (txt "Couldn't create graph directory structure") r)).
  (** gc-build.rs l.34-41 *)
  Definition build_told (order : graph -> graph) : prog (option text) :=
    bind (Act (fun s => s) (fun s => Ret (load_told load_what s, commands_entry s))) (fun r =>
      match fst r with
      | Some m => Ret (Some m)
      | None =>
        match snd r with
        | File c =>
          match gcmd_read nd c with
          | Done (Ok g) =>
            bind (save_graph_as_commands chunks (order g)) (fun w =>
              Ret (io_told (txt "Couldn't save graph. Data maybe lost !") w))
          | _ => Ret None
          end
        | _ => Ret None
        end
      end).
  (** gc-clean.rs l.55-58, gc-random.rs l.93-96 *)
  Definition clean_what (path : text) : text :=
    txt "A problem occured. Path '" ++ path ++
    txt "' might not exist, or the graph is currently lock (check 'lock' file)".
  (** gc-clean.rs l.44-58 *)
  Definition clean_told (path : text) (force : bool) (answer : text) : prog (option text) :=
    if negb force && negb (confirmed answer) then Ret None
    else bind clean (fun r => Ret (io_told (clean_what path) r)).
  (** gc-random.rs l.79-107, given the generated graph *)
  Definition random_told (path : text) (g : graph) (force : bool) (answer : text) : prog (option text) :=
    if negb force && negb (confirmed answer) then Ret None
    else
      bind clean (fun r => match io_told (clean_what path) r with
      | Some m => Ret (Some m)
      | None =>
        bind init (fun r => match io_told (txt "A problem occured. Unable to create a new graph at '" ++ path ++
                                           txt "' (check directory structure and 'lock' file)") r with
        | Some m => Ret (Some m)
        | None =>
          bind (save_graph_as_commands chunks g) (fun r => Ret
            (io_told (txt "A problem occured. Unable to save graph at '" ++ path ++
                      txt "' (check directory structure and 'lock' file)") r))
        end)
      end).

  (** The values of an option: [expect("Invalid vertex id")] on each, then
      whatever the rest of the chain of calls says. gc-add.rs l.90-128, gc-delete.rs l.44-53. *)
  Definition values_told (vs : list text) (rest : text) : text :=
    match first_bad vs with
    | Some v => expect_err (txt "Invalid vertex id") (debug_parse v)
    | None => rest
    end.
  (** One option, as [option_call]; [Some], with [rest] used only where a panic
      other than that of an id is possible. gc-add.rs l.90-128, gc-delete.rs l.44-53. *)
  Definition option_told {A} (values : option (list text)) (f : list text -> outcome A) (rest : text)
      (call : A -> prog (io unit)) (next : prog (option text)) : prog (option text) :=
    match values with
    | None => next
    | Some vs =>
      match f vs with
      | Done a => bind (call a) (fun _ => next)
      | _ => Ret (Some (values_told vs rest))
      end
    end.
  (** gc-add.rs l.100, gc-delete.rs l.52: [Option::expect], the text alone *)
  Definition even_what : text := txt "Invalid number of vertices. Must be an even number".
  (** gc-add.rs l.87-128.  The text for an empty chain is that of a build with
      overflow checks; clap lets no empty list through. *)
  Definition add_told (a : add_args) : prog (option text) :=
    let rv := reverse_if_needed (a_reverse a) in
    option_told (a_vertex a) parse_all [] (add_vertices chunks) (
    option_told (a_edge a)
      (fun vs => obind (parse_all vs) (fun l => obind (as_vertex_tuple l) (fun o => obind (expect o) (fun es => Done (rv es)))))
      even_what (add_edges chunks) (
    option_told (a_chain a)
      (fun vs => obind (parse_all vs) (fun l => obind (chain_from_vertices l) (fun es => Done (rv es))))
      (txt "attempt to subtract with overflow") (add_edges chunks) (
    option_told (a_cycle a)
      (fun vs => obind (parse_all vs) (fun l => obind (cycle_from_vertices l) (fun o => obind (expect o) (fun es => Done (rv es)))))
      (txt "Invalid cycle") (add_edges chunks) (
    option_told (a_star a)
      (fun vs => obind (parse_all vs) (fun l => obind (star_from_vertices l) (fun es => Done (rv es))))
      [] (add_edges chunks) (
    option_told (a_clique a)
      (fun vs => obind (parse_all vs) clique_from_vertices)
      [] (add_edges chunks) (
    Ret None)))))).
  (** gc-delete.rs l.42-53 *)
  Definition delete_told (vertex edge : option (list text)) : prog (option text) :=
    option_told vertex parse_all [] (remove_vertices chunks) (
    option_told edge
      (fun vs => obind (parse_all vs) (fun l => obind (as_vertex_tuple l) expect))
      even_what (remove_edges chunks) (
    Ret None)).
End Messages.
