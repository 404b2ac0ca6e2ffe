(** * What gc-build prints

    Same program as [Store.gc_build], together with its lines of standard output. *)
From Coq Require Import String.
From Coq Require Import List NArith Bool.
From Verif Require Import Base Graph Text Format Store.
Import ListNotations.

(** gc-build.rs l.36-37 *)
Definition count_lines (g : graph) : list text :=
  [txt "Vertices: " ++ show (N.of_nat (vertex_count g)); txt "Edges: " ++ show (N.of_nat (edge_count g))].
(** gc-build.rs l.31-43: the lines printed and the exit status. *)
Definition gc_build_print (nd : N -> bool) (chunks : list text -> list text) (order : graph -> graph)
  (verbose : bool) : prog (list text * exit) :=
  bind (load_graph nd) (fun r =>
    match r with
    | Done (Ok g) =>
      let out := if verbose then count_lines (order g) else [] in
      bind (save_graph_as_commands chunks (order g)) (fun w =>
        Ret (match w with
             | IoOk _ => (out ++ [txt "Done."], Success)
             | IoErr => (out, Failure)
             end))
    | _ => Ret ([], Failure)
    end).
