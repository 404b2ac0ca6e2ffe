(** * Printing that fails

    [println!] panics when standard output cannot be written, for instance when it is a closed pipe.  Same
    programs as [Store.gc_build], [Store.gc_clean] and [Cli.gc_random], with every line they print.
    [out k] says whether line [k] (from 0) can be written.  Standard output is line buffered, so each
    [println!] writes its line before it returns. *)
From Coq Require Import String.
From Coq Require Import List NArith Bool.
From Verif Require Import Base Graph Text Format Store Cli Verbose.
Import ListNotations.

(** One [println!], after the lines [past]: a panic ends the process with a failure status.
    gc-build.rs l.36, 37, 43; gc-clean.rs l.47, 53, 60; gc-random.rs l.87; arg_utils.rs l.44. *)
Definition say (out : nat -> bool) (past : list text) (line : text) (rest : list text -> prog (list text * exit)) :
  prog (list text * exit) :=
  if out (length past) then rest (past ++ [line]) else Ret (past, Failure).

(** arg_utils.rs l.42-52: the question and what follows a yes or a no.  [None]: the line read is not UTF-8, or
    cannot be read. *)
Definition asked (out : nat -> bool) (msg : text) (answer : option text)
  (yes no : list text -> prog (list text * exit)) : prog (list text * exit) :=
  say out [] msg (fun past =>
    match answer with
    | None => Ret (past, Failure)
    | Some a => if confirmed a then yes past else no past
    end).

(** gc-build.rs l.31-43 *)
Definition gc_build_out (nd : N -> bool) (chunks : list text -> list text) (order : graph -> graph)
  (verbose : bool) (out : nat -> bool) : prog (list text * exit) :=
  bind (load_graph nd) (fun r =>
    match r with
    | Done (Ok g) =>
      let work past :=
        bind (save_graph_as_commands chunks (order g)) (fun w =>
          match w with
          | IoOk _ => say out past (txt "Done.") (fun past => Ret (past, Success))
          | IoErr => Ret (past, Failure)
          end) in
      if verbose then
        say out [] (txt "Vertices: " ++ show (N.of_nat (vertex_count (order g)))) (fun past =>
        say out past (txt "Edges: " ++ show (N.of_nat (edge_count (order g)))) work)
      else work []
    | _ => Ret ([], Failure)
    end).

(** gc-clean.rs l.44-61 *)
Definition gc_clean_out (path : text) (force silent : bool) (answer : option text) (out : nat -> bool) :
  prog (list text * exit) :=
  let remove past :=
    bind clean (fun r =>
      match r with
      | IoErr => Ret (past, Failure)
      | IoOk _ => if silent then Ret (past, Success) else say out past (txt "Done.") (fun past => Ret (past, Success))
      end) in
  let work past := if silent then remove past else say out past (txt "Cleaning graph under '" ++ path ++ txt "' ...") remove in
  if force then work []
  else asked out (txt "Are you sure you want to clean graph at '" ++ path ++ txt "' ? (yes/no)") answer work
         (fun past => say out past (txt "Aborting.") (fun past => Ret (past, Success))).

(** gc-random.rs l.80-104, given the generated graph *)
Definition gc_random_out (path : text) (chunks : list text -> list text) (g : graph) (force : bool)
  (answer : option text) (out : nat -> bool) : prog (list text * exit) :=
  let work past :=
    bind clean (fun r => match r with
    | IoErr => Ret (past, Failure)
    | IoOk _ =>
      bind init (fun r => match r with
      | IoErr => Ret (past, Failure)
      | IoOk _ =>
        bind (save_graph_as_commands chunks g) (fun r => Ret
          (past, match r with IoOk _ => Success | IoErr => Failure end))
      end)
    end) in
  if force then work []
  else asked out (txt "Creating a random graph will clean existing graph at '" ++ path ++ txt "' ? (yes/no)") answer work
         (fun past => say out past (txt "Aborting.") (fun past => Ret (past, Success))).
