(** * The help texts (README.md l.42-258, [--help]), as a user reads them

    How many values an option takes is what the sources declare ([min_values], [max_values], [multiple]); an
    option without such a declaration takes one value, once. *)
From Coq Require Import String.
From Coq Require Import List NArith.
From Verif Require Import Text ClapSpec.
Import ListNotations.
Open Scope N_scope.

(** The letter of a short name, e.g. README.md l.53-64. *)
Definition letter (s : string) : option N := hd_error (txt s).
(** A flag: given or not; e.g. README.md l.54. *)
Definition switch (n s : string) : decl := Build_decl (txt n) (letter s) None false false None.
(** An option with one value, given at most once; e.g. README.md l.231. *)
Definition one (n s : string) : decl := Build_decl (txt n) (letter s) (Some (1, Some 1)%nat) false false None.
(** ... that has to be given; e.g. README.md l.249, l.251. *)
Definition needed (n s : string) : decl := Build_decl (txt n) (letter s) (Some (1, Some 1)%nat) false true None.
(** ... or has a default; e.g. README.md l.62. *)
Definition with_default (n s d : string) (required : bool) : decl :=
  Build_decl (txt n) (letter s) (Some (1, Some 1)%nat) false required (Some (txt d)).
(** An option with at least [k] values after it; e.g. gc-add.rs l.39-47. *)
Definition some_of (k : nat) (n s : string) : decl := Build_decl (txt n) (letter s) (Some (k, None)) false false None.
(** An option that may be given several times, with a value or more each time or in all; e.g. gc-add.rs l.21-29. *)
Definition often (n s : string) : decl := Build_decl (txt n) (letter s) (Some (1, None)%nat) true false None.
(** README.md l.62; so in all tools but gc-init *)
Definition path_option : decl := with_default "path" "p" "." true.

(** README.md l.199-213 *)
Definition manual_init : manual := Build_manual [with_default "path" "p" "." false] [].
(** README.md l.44-65 *)
Definition manual_add : manual := Build_manual
  [path_option; often "vertex" "v"; switch "reverse" "r"; some_of 2 "edge" "e"; some_of 2 "chain" "c";
   some_of 2 "cycle" "O"; some_of 2 "star" "X"; some_of 2 "clique" "C"] [].
(** README.md l.165-181 *)
Definition manual_delete : manual := Build_manual [path_option; often "vertex" "v"; some_of 2 "edge" "e"] [].
(** README.md l.67-82 *)
Definition manual_build : manual := Build_manual [path_option; with_default "verbose" "v" "false" false] [].
(** README.md l.84-100 *)
Definition manual_clean : manual := Build_manual [path_option; switch "force" "f"; switch "silent" "s"] [].
(** README.md l.183-197 *)
Definition manual_desc : manual := Build_manual [path_option] [].
(** README.md l.215-234 *)
Definition manual_random : manual := Build_manual
  [path_option; switch "force" "f"; switch "connected" "c"; some_of 2 "cycle" "O";
   with_default "vertex-count" "v" "100" true; one "edge-count" "e"] [].
(** README.md l.236-252 *)
Definition manual_short_path : manual := Build_manual [path_option; needed "start" "s"; needed "end" "e"] [].
(** README.md l.102-129 *)
Definition manual_csp : manual := Build_manual
  [path_option; needed "start" "s"; needed "end" "e"; some_of 1 "include" ""; some_of 1 "exclude" ""; some_of 2 "ordered" "";
   switch "include-cycle" ""; switch "no-cycle" "";
   one "min-length" ""; one "max-length" ""; one "exact-length" ""; one "min-score" ""; one "max-score" ""; one "exact-score" ""] [].
(** README.md l.254-268 *)
Definition manual_topo_sort : manual := Build_manual [path_option] [].
(** README.md l.131-163 *)
Definition manual_cycle : manual := Build_manual
  [path_option; switch "girth" ""; switch "hamiltonian" ""; switch "count" "c"; switch "head" "h"; one "take-n" "n"; switch "all" "a";
   switch "shortest" "s"; switch "longest" "L";
   one "min-length" ""; one "max-length" ""; one "exact-length" ""; one "min-score" ""; one "max-score" ""; one "exact-score" "";
   one "include-all" ""; one "exclude-all" ""; one "include-all-edges" ""; one "exclude-all-edges" ""]
  [txt "girth"; txt "hamiltonian"; txt "count"; txt "head"; txt "take-n"; txt "all"; txt "shortest"; txt "longest"].
