(** * Command lines: the declarations of the binaries and the parser of clap 2.33.0
      (Cargo.lock l.39-41), which [get_matches] runs, e.g. gc-add.rs l.85.

    The declarations are those of the sources, call by call.  The parser is clap's
    [Parser::get_matches_with] and [Validator::validate], restricted to what the
    declarations use: no positional arguments, no subcommands, no settings, no
    environment, no value delimiters, no possible values.  A word of the command line
    is a text; clap hands values that are not UTF-8 to [value_of], which panics. *)
From Coq Require Import String.
From Coq Require Import List NArith Bool Arith.
From Verif Require Import Base Text Store Cli Query.
Import ListNotations.
Open Scope N_scope.

(** Equality of texts, e.g. of the names at gc-add.rs l.87-125. *)
Fixpoint text_eqb (a b : text) : bool :=
  match a, b with
  | [], [] => true
  | x :: a', y :: b' => (x =? y) && text_eqb a' b'
  | _, _ => false
  end.

(** ** Declarations *)
(** The calls on an [Arg], e.g. gc-add.rs l.13-19; [help] only sets a text. *)
Inductive builder :=
| Long (t : text) | Short (t : text) | DefaultValue (t : text) | Required (b : bool)
| TakesValue (b : bool) | Multiple (b : bool) | MinValues (n : nat) | MaxValues (n : nat).
(** An [Arg], e.g. gc-add.rs l.13-19 *)
Record arg := {
  g_name : text; g_long : option text; g_short : option N;
  g_takes : bool; g_multiple : bool; g_required : bool;
  g_min : option nat; g_max : option nat; g_default : option text
}.
(** [trim_left_matches('-')], for e.g. gc-add.rs l.61 [short("-O")] *)
Fixpoint trim_char (c : N) (t : text) : text :=
  match t with
  | [] => []
  | x :: t' => if x =? c then trim_char c t' else t
  end.
(** What each call does, e.g. gc-build.rs l.20-27: [default_value], [min_values] and
    [max_values] also make the argument take a value. *)
Definition build (a : arg) (b : builder) : arg :=
  let 'Build_arg n l s t m r mi ma d := a in
  match b with
  | Long x => Build_arg n (Some x) s t m r mi ma d
  | Short x => Build_arg n l (hd_error (trim_char 45 x)) t m r mi ma d
  | DefaultValue x => Build_arg n l s true m r mi ma (Some x)
  | Required x => Build_arg n l s t m x mi ma d
  | TakesValue x => Build_arg n l s x m r mi ma d
  | Multiple x => Build_arg n l s t x r mi ma d
  | MinValues x => Build_arg n l s true m r (Some x) ma d
  | MaxValues x => Build_arg n l s true m r mi (Some x) d
  end.
(** [Arg::with_name(..)] and the calls after it, e.g. gc-add.rs l.13-19 *)
Definition with_name (n : text) (bs : list builder) : arg :=
  fold_left build bs (Build_arg n None None false false false None None None).
(** An [App]: its arguments and the one group of gc-cycle.rs l.91-94, of which exactly one
    member is to be given ([required(true)], and [multiple] is not called). *)
Record application := { app_args : list arg; app_group : option (list text) }.

(** gc-init.rs l.6-19 *)
Definition app_init : application := {|
  app_args := [
    (* l.11-17 *)
    with_name (txt "path") [Long (txt "path"); Short (txt "p"); DefaultValue (txt "."); Required false; TakesValue true]];
  app_group := None
|}.
(** gc-add.rs l.8-85 *)
Definition app_add : application := {|
  app_args := [
    (* l.13-19 *)
    with_name (txt "path") [Long (txt "path"); Short (txt "p"); DefaultValue (txt "."); Required true; TakesValue true];
    (* l.22-29 *)
    with_name (txt "vertex") [Long (txt "vertex"); Short (txt "v"); Required false; Multiple true; MinValues 1; TakesValue true];
    (* l.32-38 *)
    with_name (txt "reverse") [Long (txt "reverse"); Short (txt "r"); Required false; MaxValues 1; TakesValue false];
    (* l.41-47 *)
    with_name (txt "edge") [Long (txt "edge"); Short (txt "e"); Required false; MinValues 2; TakesValue true];
    (* l.50-56 *)
    with_name (txt "chain") [Long (txt "chain"); Short (txt "c"); Required false; MinValues 2; TakesValue true];
    (* l.59-65 *)
    with_name (txt "cycle") [Long (txt "cycle"); Short (txt "-O"); Required false; MinValues 2; TakesValue true];
    (* l.68-74 *)
    with_name (txt "star") [Long (txt "star"); Short (txt "X"); Required false; MinValues 2; TakesValue true];
    (* l.77-83 *)
    with_name (txt "clique") [Long (txt "clique"); Short (txt "C"); Required false; MinValues 2; TakesValue true]];
  app_group := None
|}.
(** gc-delete.rs l.8-40 *)
Definition app_delete : application := {|
  app_args := [
    (* l.13-19 *)
    with_name (txt "path") [Long (txt "path"); Short (txt "p"); DefaultValue (txt "."); Required true; TakesValue true];
    (* l.22-29 *)
    with_name (txt "vertex") [Long (txt "vertex"); Short (txt "v"); Required false; Multiple true; MinValues 1; TakesValue true];
    (* l.32-38 *)
    with_name (txt "edge") [Long (txt "edge"); Short (txt "e"); Required false; MinValues 2; TakesValue true]];
  app_group := None
|}.
(** gc-build.rs l.6-29 *)
Definition app_build : application := {|
  app_args := [
    (* l.11-17 *)
    with_name (txt "path") [Long (txt "path"); Short (txt "p"); DefaultValue (txt "."); Required true; TakesValue true];
    (* l.20-27 *)
    with_name (txt "verbose") [Long (txt "verbose"); Short (txt "v"); DefaultValue (txt "false"); Required false; TakesValue false; MaxValues 1]];
  app_group := None
|}.
(** gc-clean.rs l.7-38 *)
Definition app_clean : application := {|
  app_args := [
    (* l.12-18 *)
    with_name (txt "path") [Long (txt "path"); Short (txt "p"); DefaultValue (txt "."); Required true; TakesValue true];
    (* l.21-27 *)
    with_name (txt "force") [Long (txt "force"); Short (txt "f"); Required false; MaxValues 1; TakesValue false];
    (* l.30-36 *)
    with_name (txt "silent") [Long (txt "silent"); Short (txt "s"); Required false; MaxValues 1; TakesValue false]];
  app_group := None
|}.
(** gc-desc.rs l.7-20 *)
Definition app_desc : application := {|
  app_args := [
    (* l.12-18 *)
    with_name (txt "path") [Long (txt "path"); Short (txt "p"); DefaultValue (txt "."); Required true; TakesValue true]];
  app_group := None
|}.
(** gc-random.rs l.11-66 *)
Definition app_random : application := {|
  app_args := [
    (* l.16-22 *)
    with_name (txt "path") [Long (txt "path"); Short (txt "p"); DefaultValue (txt "."); Required true; TakesValue true];
    (* l.25-30 *)
    with_name (txt "force") [Long (txt "force"); Short (txt "f"); Required false; TakesValue false];
    (* l.33-38 *)
    with_name (txt "connected") [Long (txt "connected"); Short (txt "c"); Required false; TakesValue false];
    (* l.41-47 *)
    with_name (txt "cycle") [Long (txt "cycle"); Short (txt "-O"); Required false; MinValues 2; TakesValue true];
    (* l.50-56 *)
    with_name (txt "vertex-count") [Long (txt "vertex-count"); Short (txt "-v"); Required true; DefaultValue (txt "100"); TakesValue true];
    (* l.59-64 *)
    with_name (txt "edge-count") [Long (txt "edge-count"); Short (txt "-e"); Required false; TakesValue true]];
  app_group := None
|}.
(** gc-short-path.rs l.10-41 *)
Definition app_short_path : application := {|
  app_args := [
    (* l.15-21 *)
    with_name (txt "path") [Long (txt "path"); Short (txt "p"); DefaultValue (txt "."); Required true; TakesValue true];
    (* l.24-30 *)
    with_name (txt "start") [Long (txt "start"); Short (txt "s"); Required true; TakesValue true; MaxValues 1];
    (* l.33-39 *)
    with_name (txt "end") [Long (txt "end"); Short (txt "e"); Required true; TakesValue true; MaxValues 1]];
  app_group := None
|}.
(** gc-csp.rs l.11-134 *)
Definition app_csp : application := {|
  app_args := [
    (* l.16-22 *)
    with_name (txt "path") [Long (txt "path"); Short (txt "p"); DefaultValue (txt "."); Required true; TakesValue true];
    (* l.25-31 *)
    with_name (txt "start") [Long (txt "start"); Short (txt "s"); Required true; TakesValue true; MaxValues 1];
    (* l.34-40 *)
    with_name (txt "end") [Long (txt "end"); Short (txt "e"); Required true; TakesValue true; MaxValues 1];
    (* l.43-48 *)
    with_name (txt "include") [Long (txt "include"); Required false; TakesValue true; MinValues 1];
    (* l.51-56 *)
    with_name (txt "exclude") [Long (txt "exclude"); Required false; TakesValue true; MinValues 1];
    (* l.59-64 *)
    with_name (txt "ordered") [Long (txt "ordered"); Required false; TakesValue true; MinValues 2];
    (* l.67-71 *)
    with_name (txt "include-cycle") [Long (txt "include-cycle"); Required false; TakesValue false];
    (* l.74-78 *)
    with_name (txt "no-cycle") [Long (txt "no-cycle"); Required false; TakesValue false];
    (* l.81-87 *)
    with_name (txt "min-length") [Long (txt "min-length"); Required false; TakesValue true; MinValues 1; MaxValues 1];
    (* l.90-96 *)
    with_name (txt "max-length") [Long (txt "max-length"); Required false; TakesValue true; MinValues 1; MaxValues 1];
    (* l.99-105 *)
    with_name (txt "exact-length") [Long (txt "exact-length"); Required false; TakesValue true; MinValues 1; MaxValues 1];
    (* l.108-114 *)
    with_name (txt "min-score") [Long (txt "min-score"); Required false; TakesValue true; MinValues 1; MaxValues 1];
    (* l.117-123 *)
    with_name (txt "max-score") [Long (txt "max-score"); Required false; TakesValue true; MinValues 1; MaxValues 1];
    (* l.126-132 *)
    with_name (txt "exact-score") [Long (txt "exact-score"); Required false; TakesValue true; MinValues 1; MaxValues 1]];
  app_group := None
|}.
(** gc-topo-sort.rs l.8-21 *)
Definition app_topo_sort : application := {|
  app_args := [
    (* l.13-19 *)
    with_name (txt "path") [Long (txt "path"); Short (txt "p"); DefaultValue (txt "."); Required true; TakesValue true]];
  app_group := None
|}.
(** gc-cycle.rs l.15-166 *)
Definition app_cycle : application := {|
  app_args := [
    (* l.20-26 *)
    with_name (txt "path") [Long (txt "path"); Short (txt "p"); DefaultValue (txt "."); Required true; TakesValue true];
    (* l.30-34 *)
    with_name (txt "girth") [Long (txt "girth"); Required false; TakesValue false];
    (* l.37-41 *)
    with_name (txt "hamiltonian") [Long (txt "hamiltonian"); Required false; TakesValue false];
    (* l.44-49 *)
    with_name (txt "count") [Long (txt "count"); Short (txt "c"); Required false; TakesValue false];
    (* l.52-57 *)
    with_name (txt "head") [Long (txt "head"); Short (txt "h"); Required false; TakesValue false];
    (* l.60-65 *)
    with_name (txt "take-n") [Long (txt "take-n"); Short (txt "n"); Required false; TakesValue true];
    (* l.68-73 *)
    with_name (txt "all") [Long (txt "all"); Short (txt "a"); Required false; TakesValue false];
    (* l.76-81 *)
    with_name (txt "shortest") [Long (txt "shortest"); Short (txt "s"); Required false; TakesValue false];
    (* l.84-89 *)
    with_name (txt "longest") [Long (txt "longest"); Short (txt "L"); Required false; TakesValue false];
    (* l.97-101 *)
    with_name (txt "min-length") [Long (txt "min-length"); Required false; TakesValue true];
    (* l.104-108 *)
    with_name (txt "max-length") [Long (txt "max-length"); Required false; TakesValue true];
    (* l.111-115 *)
    with_name (txt "exact-length") [Long (txt "exact-length"); Required false; TakesValue true];
    (* l.118-122 *)
    with_name (txt "min-score") [Long (txt "min-score"); Required false; TakesValue true];
    (* l.125-129 *)
    with_name (txt "max-score") [Long (txt "max-score"); Required false; TakesValue true];
    (* l.132-136 *)
    with_name (txt "exact-score") [Long (txt "exact-score"); Required false; TakesValue true];
    (* l.139-143 *)
    with_name (txt "include-all") [Long (txt "include-all"); Required false; TakesValue true];
    (* l.146-150 *)
    with_name (txt "exclude-all") [Long (txt "exclude-all"); Required false; TakesValue true];
    (* l.153-157 *)
    with_name (txt "include-all-edges") [Long (txt "include-all-edges"); Required false; TakesValue true];
    (* l.160-164 *)
    with_name (txt "exclude-all-edges") [Long (txt "exclude-all-edges"); Required false; TakesValue true]];
  (* l.92-94 *)
  app_group := Some [txt "girth"; txt "hamiltonian"; txt "count"; txt "head"; txt "take-n"; txt "all"; txt "shortest"; txt "longest"]
|}.

(** ** Matches *)
(** [ArgMatches]: how often an argument was used, and its values; e.g. gc-add.rs l.87-125. *)
Definition matches := list (text * (nat * list text)).
(** [ArgMatches::args.get], e.g. behind gc-add.rs l.87 *)
Fixpoint look (m : matches) (n : text) : option (nat * list text) :=
  match m with
  | [] => None
  | (k, x) :: m' => if text_eqb k n then Some x else look m' n
  end.
(** The entry of an argument, made with no use and no value if missing, is changed. Behind gc-add.rs l.85. *)
Fixpoint update (m : matches) (n : text) (f : nat * list text -> nat * list text) : matches :=
  match m with
  | [] => [(n, f (O, []))]
  | (k, x) :: m' => if text_eqb k n then (k, f x) :: m' else (k, x) :: update m' n f
  end.
(** [ArgMatcher::add_val_to]; behind gc-add.rs l.85 *)
Definition add_val (v : text) (x : nat * list text) : nat * list text := (fst x, snd x ++ [v]).
(** [ArgMatcher::inc_occurrence_of]; behind gc-add.rs l.85 *)
Definition inc (x : nat * list text) : nat * list text := (S (fst x), snd x).
(** [is_present], e.g. gc-add.rs l.88 *)
Definition is_present (m : matches) (n : text) : bool := match look m n with Some _ => true | None => false end.
(** [values_of], e.g. gc-add.rs l.90 *)
Definition values_of (m : matches) (n : text) : option (list text) := option_map snd (look m n).
(** [value_of]: the first value, e.g. gc-add.rs l.87 *)
Definition value_of (m : matches) (n : text) : option text :=
  match values_of m n with Some (v :: _) => Some v | _ => None end.

(** ** Parsing; all of it behind [get_matches], e.g. gc-add.rs l.85 *)
(** What a command line leads to (behind gc-add.rs l.85): the matches, the help or version text and exit status 0, or
    an error message and exit status 1. *)
Inductive reply A := Parsed (a : A) | Helped | Refused.
Arguments Parsed {A} a.
Arguments Helped {A}.
Arguments Refused {A}.
(** [ParseResult]: an option that may take more values, an argument that may not, a flag (or nothing yet).
    Behind gc-add.rs l.85. *)
Inductive need := Wants (a : arg) | ValuesDone | AfterFlag.

(** [find_opt_by_short!] and so on, behind gc-add.rs l.85 *)
Definition by_short (c : N) (a : arg) : bool := match g_short a with Some x => x =? c | None => false end.
(** The same for a long name, behind gc-add.rs l.85 *)
Definition by_long (t : text) (a : arg) : bool := match g_long a with Some x => text_eqb x t | None => false end.

Section Parser.
  Variable ap : application.
  (** Options and flags are kept apart; behind gc-add.rs l.85 *)
  Definition opts := filter g_takes (app_args ap).
  (** The others, behind gc-add.rs l.85 *)
  Definition flags := filter (fun a => negb (g_takes a)) (app_args ap).
  (** [create_help_and_version]: -h and -V only where they are free (gc-cycle.rs l.54 takes -h). *)
  Definition builtin (c : N) : bool := ((c =? 104) || (c =? 86)) && negb (existsb (by_short c) (app_args ap)).

  (** [ArgMatcher::needs_more_vals], for the declarations of e.g. gc-csp.rs l.34-64 *)
  Definition needs_more (a : arg) (m : matches) : bool :=
    match look m (g_name a) with
    | Some (_, vs) =>
      match g_max a with
      | Some n => negb (Nat.ltb n (length vs))
      | None => match g_min a with Some _ => true | None => g_multiple a end
      end
    | None => true
    end.
  (** [Parser::add_val_to_arg], behind gc-add.rs l.85 *)
  Definition add_val_to_arg (a : arg) (v : text) (m : matches) : need * matches :=
    let m' := update m (g_name a) (add_val v) in
    (if needs_more a m' then Wants a else ValuesDone, m').
  (** [Parser::parse_opt]: an option, with the value attached to it if there is one. Behind gc-add.rs l.85. *)
  Definition parse_opt (val : option text) (had_eq : bool) (a : arg) (m : matches) : need * matches :=
    match val with
    | Some fv =>
      let has_eq := had_eq || (match fv with c :: _ => c =? 61 | [] => false end) in
      let m' := update (snd (add_val_to_arg a (trim_char 61 fv) m)) (g_name a) inc in
      (if g_multiple a && negb has_eq && needs_more a m' then Wants a else ValuesDone, m')
    | None => (Wants a, update m (g_name a) inc)
    end.
  (** [split_at_byte(b'=')]; behind gc-add.rs l.85 *)
  Fixpoint split_eq (t : text) : text * option text :=
    match t with
    | [] => ([], None)
    | c :: t' => if c =? 61 then ([], Some t') else let (p, q) := split_eq t' in (c :: p, q)
    end.
  (** [Parser::parse_long_arg]; a value given to a flag is ignored. Behind gc-add.rs l.85. *)
  Definition parse_long (w : text) (m : matches) : reply (need * matches) :=
    let (name, val) := split_eq (trim_char 45 w) in
    match find (by_long name) opts with
    | Some a => Parsed (parse_opt val (match val with Some _ => true | None => false end) a m)
    | None =>
      match find (by_long name) flags with
      | Some a => Parsed (AfterFlag, update m (g_name a) inc)
      | None => if text_eqb name (txt "help") || text_eqb name (txt "version") then Helped else Refused
      end
    end.
  (** [arg.splitn(2, c)]: what follows the first [c]. Behind gc-add.rs l.85. *)
  Fixpoint after_first (c : N) (t : text) : text :=
    match t with
    | [] => []
    | x :: t' => if x =? c then t' else after_first c t'
    end.
  (** [Parser::parse_short_arg], the loop over the characters [cs] of [word]. Behind gc-add.rs l.85. *)
  Fixpoint parse_chars (word cs : text) (m : matches) : reply (need * matches) :=
    match cs with
    | [] => Parsed (AfterFlag, m)
    | c :: cs' =>
      match find (by_short c) opts with
      | Some a => Parsed (parse_opt (match after_first c word with [] => None | v => Some v end) false a m)
      | None =>
        match find (by_short c) flags with
        | Some a => parse_chars word cs' (update m (g_name a) inc)
        | None => if builtin c then Helped else Refused
        end
      end
    end.
  (** [Parser::parse_short_arg], behind gc-add.rs l.85 *)
  Definition parse_short (w : text) (m : matches) : reply (need * matches) :=
    parse_chars (trim_char 45 w) (trim_char 45 w) m.

  (** [Parser::is_new_arg], behind gc-add.rs l.85; a lone dash is a value. *)
  Definition dashed (w : text) : bool := match w with c :: _ :: _ => c =? 45 | _ => false end.
  (** Two dashes first, behind gc-add.rs l.85 *)
  Definition dashed2 (w : text) : bool := match w with c :: d :: _ => (c =? 45) && (d =? 45) | _ => false end.
  (** [Parser::is_new_arg], behind gc-add.rs l.85 *)
  Definition is_new_arg (nd : need) (w : text) : bool := match nd with ValuesDone => true | _ => dashed w end.
  (** The loop of [Parser::get_matches_with]; [trailing]: after two dashes only positional arguments
      follow, of which there are none. Behind gc-add.rs l.85. *)
  Fixpoint parse_words (trailing : bool) (nd : need) (m : matches) (ws : list text) : reply (need * matches) :=
    match ws with
    | [] => Parsed (nd, m)
    | w :: ws' =>
      if trailing then Refused
      else if is_new_arg nd w && text_eqb w (txt "--") then parse_words true nd m ws'
      else if negb (is_new_arg nd w) then
        match nd with
        | Wants a => let (nd', m') := add_val_to_arg a w m in parse_words false nd' m' ws'
        | _ => Refused
        end
      else
        match (if dashed2 w then parse_long w m else if dashed w then parse_short w m else Refused) with
        | Parsed (nd', m') => parse_words false nd' m' ws'
        | Helped => Helped
        | Refused => Refused
        end
    end.

  (** [Parser::add_defaults].  [fill]: whether an option used without a value gets its default value
      (the theorems hold for both). Behind gc-add.rs l.85. *)
  Definition add_default (fill : bool) (m : matches) (a : arg) : matches :=
    match g_default a with
    | Some d =>
      match look m (g_name a) with
      | None => update m (g_name a) (add_val d)
      | Some (_, []) => if fill then update m (g_name a) (add_val d) else m
      | Some _ => m
      end
    | None => m
    end.
  (** All arguments, behind gc-add.rs l.85; only options can have a default value. *)
  Definition add_defaults (fill : bool) (m : matches) : matches := fold_left (add_default fill) opts m.

  (** [Validator::validate_arg_num_vals] and [validate_arg_num_occurs], behind gc-add.rs l.85 *)
  Definition valid_arg (m : matches) (a : arg) : bool :=
    match look m (g_name a) with
    | None => true
    | Some (k, vs) =>
      (if g_takes a then
         match g_max a with Some n => Nat.leb (length vs) n | None => true end &&
         match g_min a with Some n => Nat.leb n (length vs) | None => true end &&
         (match vs with [] => match g_min a with Some O => true | _ => false end | _ => true end)
       else true) &&
      (Nat.leb k 1 || g_multiple a)
    end.
  (** [Validator::validate_required] for an argument, behind gc-add.rs l.85 *)
  Definition valid_required (m : matches) (a : arg) : bool := negb (g_required a) || is_present m (g_name a).
  (** [validate_required] and [validate_blacklist] for the group of gc-cycle.rs l.91-94 *)
  Definition valid_group (m : matches) : bool :=
    match app_group ap with
    | None => true
    | Some ns => Nat.eqb (length (filter (is_present m) ns)) 1
    end.
  (** [Validator::validate], where an option at the end of the line without a value is an error too.
      Behind gc-add.rs l.85. *)
  Definition valid (nd : need) (m : matches) : bool :=
    match nd with
    | Wants a => match look m (g_name a) with
                 | Some (_, []) => match g_min a with Some O => true | _ => false end
                 | Some _ => true
                 | None => false
                 end
    | _ => true
    end &&
    valid_group m && forallb (valid_required m) (app_args ap) && forallb (valid_arg m) (app_args ap).
  (** [App::get_matches], e.g. gc-add.rs l.85; [ws] are the words after the program name. *)
  Definition get_matches (fill : bool) (ws : list text) : reply matches :=
    match parse_words false AfterFlag [] ws with
    | Parsed (nd, m) =>
      let m' := add_defaults fill m in
      if valid nd m' then Parsed m' else Refused
    | Helped => Helped
    | Refused => Refused
    end.
End Parser.

(** ** The programs read the matches *)
(** gc-add.rs l.87-128 *)
Definition add_of (m : matches) : add_args := {|
  a_vertex := values_of m (txt "vertex"); a_reverse := is_present m (txt "reverse");
  a_edge := values_of m (txt "edge"); a_chain := values_of m (txt "chain"); a_cycle := values_of m (txt "cycle");
  a_star := values_of m (txt "star"); a_clique := values_of m (txt "clique") |}.
(** gc-csp.rs l.170-198, gc-cycle.rs l.202-225 *)
Definition bounds_of (m : matches) : bound_args := {|
  b_min_length := value_of m (txt "min-length"); b_max_length := value_of m (txt "max-length");
  b_exact_length := value_of m (txt "exact-length"); b_min_score := value_of m (txt "min-score");
  b_max_score := value_of m (txt "max-score"); b_exact_score := value_of m (txt "exact-score") |}.
(** gc-csp.rs l.149-198 *)
Definition csp_of (m : matches) : csp_args := {|
  q_include := values_of m (txt "include"); q_exclude := values_of m (txt "exclude"); q_ordered := values_of m (txt "ordered");
  q_include_cycle := is_present m (txt "include-cycle"); q_no_cycle := is_present m (txt "no-cycle"); q_bounds := bounds_of m |}.
(** gc-cycle.rs l.172-225 *)
Definition cycle_of (m : matches) : cycle_args := {|
  c_girth := is_present m (txt "girth"); c_hamiltonian := is_present m (txt "hamiltonian"); c_count := is_present m (txt "count");
  c_shortest := is_present m (txt "shortest"); c_longest := is_present m (txt "longest"); c_head := is_present m (txt "head");
  c_take_n := value_of m (txt "take-n"); c_all := is_present m (txt "all");
  c_include := values_of m (txt "include-all"); c_exclude := values_of m (txt "exclude-all");
  c_include_edges := values_of m (txt "include-all-edges"); c_exclude_edges := values_of m (txt "exclude-all-edges");
  c_bounds := bounds_of m |}.
