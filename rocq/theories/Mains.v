(** * The programs from the words of the command line on

    [App::get_matches] (Clap.v) and then the main functions of the other files.  A program works below the
    directory [path]; the model of its effects (Store.v) is that of one directory, so a run is the
    directory and the program. *)
From Coq Require Import String.
From Coq Require Import List NArith Bool.
From Verif Require Import Base Graph Text Queue Format Store Cli Query Path Iter RandomMain Verbose Clap.
Import ListNotations.
Open Scope N_scope.

(** How a program starts: it works in a directory, or it stops before touching any file with the exit
    status of [get_matches] or of a panic, e.g. gc-add.rs l.85-87. *)
Inductive start (A : Type) := Runs (path : text) (p : A) | Stops (ok : bool).
Arguments Runs {A}. Arguments Stops {A}.

(** [get_matches()], then [value_of("path").unwrap()]; e.g. gc-add.rs l.85-87 *)
Definition start_of {A} (ap : application) (fill : bool) (run : matches -> A) (ws : list text) : start A :=
  match get_matches ap fill ws with
  | Parsed m => match value_of m (txt "path") with Some p => Runs p (run m) | None => Stops false end
  | Helped => Stops true
  | Refused => Stops false
  end.
(** [value_of(..).unwrap()] before anything else happens, e.g. gc-short-path.rs l.45-54 *)
Definition given (m : matches) (n : text) : text := match value_of m n with Some v => v | None => [] end.

Section Mains.
  Variable nd : N -> bool.
  Variable chunks : list text -> list text.
  Variable order : graph -> graph.
  Variable Q : squeue scored.
  Variable fill : bool.

  (** gc-init.rs l.6-24 *)
  Definition init_main : list text -> start (prog exit) := start_of app_init fill (fun _ => gc_init).
  (** gc-add.rs l.8-128 *)
  Definition add_main : list text -> start (prog exit) := start_of app_add fill (fun m => gc_add chunks (add_of m)).
  (** gc-delete.rs l.8-53 *)
  Definition delete_main : list text -> start (prog exit) :=
    start_of app_delete fill (fun m => gc_delete chunks (values_of m (txt "vertex")) (values_of m (txt "edge"))).
  (** gc-build.rs l.6-44; [verbose] is l.32 *)
  Definition build_main : list text -> start (prog (list text * exit)) :=
    start_of app_build fill (fun m => gc_build_print nd chunks order (is_present m (txt "verbose"))).
  (** gc-clean.rs l.7-60, without what it prints *)
  Definition clean_main (answer : text) : list text -> start (prog exit) :=
    start_of app_clean fill (fun m => gc_clean (is_present m (txt "force")) answer).
  (** gc-desc.rs l.7-47 *)
  Definition desc_main : list text -> start (prog (option (list text))) := start_of app_desc fill (fun _ => gc_desc nd order).
  (** gc-random.rs l.68-75 *)
  Definition random_of (m : matches) : random_args := {|
    r_connected := is_present m (txt "connected"); r_cycle := values_of m (txt "cycle");
    r_vertices := given m (txt "vertex-count"); r_edges := value_of m (txt "edge-count"); r_force := is_present m (txt "force") |}.
  (** gc-random.rs l.11-108 *)
  Definition random_main (checked : bool) (rng : nat -> N) (answer : text) (fuel : nat) : list text -> start (prog (outcome exit)) :=
    start_of app_random fill (fun m => gc_random_main checked chunks order rng (random_of m) answer fuel).
  (** gc-short-path.rs l.10-75 *)
  Definition short_path_main (fuel : nat) : list text -> start (prog (outcome (list text))) :=
    start_of app_short_path fill (fun m => gc_short_path nd order Q (given m (txt "start")) (given m (txt "end")) fuel).
  (** gc-csp.rs l.11-234 *)
  Definition csp_main (fuel : nat) : list text -> start (prog (outcome (list text))) :=
    start_of app_csp fill (fun m => gc_csp nd order Q (given m (txt "start")) (given m (txt "end")) (csp_of m) fuel).
  (** gc-topo-sort.rs l.8-37 *)
  Definition topo_sort_main (fuel : nat) : list text -> start (prog (outcome (list text))) :=
    start_of app_topo_sort fill (fun _ => gc_topo_sort nd order fuel).
  (** gc-cycle.rs l.15-273 *)
  Definition cycle_main (fuel : nat) : list text -> start (prog (outcome (list text))) :=
    start_of app_cycle fill (fun m => gc_cycle nd order (cycle_of m) fuel).
End Mains.
