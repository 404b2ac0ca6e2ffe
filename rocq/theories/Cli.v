(** * Model of command/src/arg_utils.rs (parsing) and of the binaries gc-add,
      gc-delete, gc-desc and gc-random

    An option is given to the model as the values clap returns for it ([None] when
    absent); Clap.v models the parser. *)
From Coq Require Import String.
From Coq Require Import List NArith Bool Arith.
From Verif Require Import Base Graph Text Format Store.
Import ListNotations.
Open Scope N_scope.

(** ** Vectors: indexing panics out of bounds; e.g. arg_utils.rs l.13, gc-add.rs l.134 *)
Definition index (l : list N) (i : nat) : outcome N :=
  match nth_error l i with Some x => Done x | None => Panic end.
(** [for i in is { result.push(f(i)) }]; arg_utils.rs l.12-14, gc-add.rs l.133-135, l.148-150 *)
Fixpoint for_push (f : nat -> outcome edge) (is : list nat) : outcome (list edge) :=
  match is with
  | [] => Done []
  | i :: t => obind (f i) (fun x => obind (for_push f t) (fun r => Done (x :: r)))
  end.
(** [(vids[i], vids[j])], e.g. arg_utils.rs l.9-19 *)
Definition pair_at (l : list N) (i j : nat) : outcome edge :=
  obind (index l i) (fun x => obind (index l j) (fun y => Done (x, y))).

(** ** arg_utils.rs *)
(** arg_utils.rs l.9-19; [(0..len).step_by(2)] are the even numbers below [len]. *)
Definition as_vertex_tuple (vids : list N) : outcome (option (list edge)) :=
  if Nat.even (length vids) then
    obind (for_push (fun i => pair_at vids i (i + 1)) (filter Nat.even (seq 0 (length vids))))
          (fun r => Done (Some r))
  else Done None.
(** arg_utils.rs l.21-23 *)
Definition parse_vertex_id (v : text) : option N := parse_u64 v.
(** arg_utils.rs l.25-34 *)
Fixpoint parse_vertex_id_list (ids : list text) : option (list N) :=
  match ids with
  | [] => Some []
  | id :: t =>
    match parse_vertex_id id with
    | Some n => option_map (cons n) (parse_vertex_id_list t)
    | None => None
    end
  end.
(** arg_utils.rs l.36-40 *)
Definition parse_edge_list (ids : list text) : outcome (option (list edge)) :=
  match parse_vertex_id_list ids with
  | Some l => as_vertex_tuple l
  | None => Done None
  end.

(** ** gc-add.rs *)
(** gc-add.rs l.131-137; on an empty vector [len() - 1] underflows: a panic with overflow
    checks, otherwise the first index is out of bounds, a panic too. *)
Definition chain_from_vertices (l : list N) : outcome (list edge) :=
  match l with
  | [] => Panic
  | _ => for_push (fun i => pair_at l i (i + 1)) (seq 0 (length l - 1))
  end.
(** gc-add.rs l.139-144 *)
Definition cycle_from_vertices (l : list N) : outcome (option (list edge)) :=
  match l with
  | [] => Done None
  | x :: _ => obind (chain_from_vertices (l ++ [x])) (fun r => Done (Some r))
  end.
(** gc-add.rs l.146-152 *)
Definition star_from_vertices (l : list N) : outcome (list edge) :=
  for_push (fun i => pair_at l 0 i) (seq 1 (length l - 1)).
(** gc-add.rs l.154-164: the two nested loops as one list of index pairs. *)
Fixpoint for_push2 (f : nat -> nat -> outcome edge) (is : list (nat * nat)) : outcome (list edge) :=
  match is with
  | [] => Done []
  | (i, j) :: t => obind (f i j) (fun x => obind (for_push2 f t) (fun r => Done (x :: r)))
  end.
(** gc-add.rs l.154-164 *)
Definition clique_from_vertices (l : list N) : outcome (list edge) :=
  let n := seq 0 (length l) in
  for_push2 (pair_at l) (filter (fun ij => negb (Nat.eqb (fst ij) (snd ij))) (list_prod n n)).
(** gc-add.rs l.166-175 *)
Definition reverse_if_needed (should_reverse : bool) (es : list edge) : list edge :=
  if should_reverse then map (fun e => (snd e, fst e)) es else es.

(** [Option::expect]: a panic on [None]. gc-add.rs l.100, l.114, gc-delete.rs l.52. *)
Definition expect {A} (o : option A) : outcome A := match o with Some a => Done a | None => Panic end.
(** [.map(|v| v.parse::<u64>().expect(..))] over the values, e.g. gc-add.rs l.91. *)
Fixpoint parse_all (vs : list text) : outcome (list N) :=
  match vs with
  | [] => Done []
  | v :: t => obind (expect (parse_u64 v)) (fun n => obind (parse_all t) (fun r => Done (n :: r)))
  end.

(** One option of gc-add or gc-delete: compute the argument of the call, make
    the call, ignore its result and go on with the next option.  A panic ends
    the process with a failure status. gc-add.rs l.90-128, gc-delete.rs l.44-53. *)
Definition option_call {A} (values : option (list text)) (f : list text -> outcome A)
    (call : A -> prog (io unit)) (next : prog exit) : prog exit :=
  match values with
  | None => next
  | Some vs =>
    match f vs with
    | Done a => bind (call a) (fun _ => next)
    | _ => Ret Failure
    end
  end.

(** gc-add.rs l.87-128: the options clap hands over. *)
Record add_args := {
  a_vertex : option (list text);
  a_reverse : bool;
  a_edge : option (list text);
  a_chain : option (list text);
  a_cycle : option (list text);
  a_star : option (list text);
  a_clique : option (list text)
}.
Section Programs.
  Variable nd : N -> bool.
  Variable chunks : list text -> list text.

  (** gc-add.rs l.87-128 *)
  Definition gc_add (a : add_args) : prog exit :=
    let rv := reverse_if_needed (a_reverse a) in
    option_call (a_vertex a) parse_all (add_vertices chunks) (
    option_call (a_edge a)
      (fun vs => obind (parse_all vs) (fun l => obind (as_vertex_tuple l) (fun o => obind (expect o) (fun es => Done (rv es)))))
      (add_edges chunks) (
    option_call (a_chain a)
      (fun vs => obind (parse_all vs) (fun l => obind (chain_from_vertices l) (fun es => Done (rv es))))
      (add_edges chunks) (
    option_call (a_cycle a)
      (fun vs => obind (parse_all vs) (fun l => obind (cycle_from_vertices l) (fun o => obind (expect o) (fun es => Done (rv es)))))
      (add_edges chunks) (
    option_call (a_star a)
      (fun vs => obind (parse_all vs) (fun l => obind (star_from_vertices l) (fun es => Done (rv es))))
      (add_edges chunks) (
    option_call (a_clique a)
      (fun vs => obind (parse_all vs) clique_from_vertices)
      (add_edges chunks) (
    Ret Success)))))).

  (** gc-delete.rs l.42-53 *)
  Definition gc_delete (vertex edge : option (list text)) : prog exit :=
    option_call vertex parse_all (remove_vertices chunks) (
    option_call edge
      (fun vs => obind (parse_all vs) (fun l => obind (as_vertex_tuple l) expect))
      (remove_edges chunks) (
    Ret Success)).

  (** ** gc-desc.rs *)
  (** [Iterator::min] and [max] on u64; gc-desc.rs l.33, l.42 *)
  Definition iter_min (l : list N) : option N :=
    match l with [] => None | x :: t => Some (fold_left N.min t x) end.
  (** [Iterator::max], gc-desc.rs l.25-45 *)
  Definition iter_max (l : list N) : option N :=
    match l with [] => None | x :: t => Some (fold_left N.max t x) end.
  (** gc-desc.rs l.30-47: [.map(|x| x.to_string()).unwrap_or_else(|| "-")] *)
  Definition show_or_dash (o : option N) : text := match o with Some n => show n | None => txt "-" end.
  (** gc-desc.rs l.25-45, the lines printed after the path; [order] is the iteration order
      of the loaded graph. *)
  Definition desc_lines (g : graph) : list text :=
    [ txt "Vertices: " ++ show (N.of_nat (vertex_count g));
      txt "Edges: " ++ show (N.of_nat (edge_count g));
      txt "Min vertex id: " ++ show_or_dash (iter_min (vertices g));
      txt "Max vertex id: " ++ show_or_dash (iter_max (vertices g)) ].
  (** gc-desc.rs l.22-45; [None]: the process panicked ([expect]). *)
  Definition gc_desc (order : graph -> graph) : prog (option (list text)) :=
    bind (load_graph nd) (fun r => Ret
      (match r with
       | Done (Ok g) => Some (desc_lines (order g))
       | _ => None
       end)).

  (** ** gc-random.rs *)
  (** gc-random.rs l.122-128, one round of the for loop.  [rng] is the stream of random
      numbers, [k] the number of those already used. *)
  Definition dag_step (layer_size : N) (rng : nat -> N) (st : graph * nat) (vid : nat) : graph * nat :=
    let (g, k) := st in
    let this := N.of_nat vid in
    let other := rng k in
    let src := N.min this other in
    let dst := N.max this other in
    (if layer_size <? dst - src then fst (add_edge g (src, dst)) else g, S k).
  (** gc-random.rs l.122-128, the whole for loop *)
  Definition dag_round (vertex_count : nat) (layer_size : N) (rng : nat -> N) (st : graph * nat) : graph * nat :=
    fold_left (dag_step layer_size rng) (seq 1 (vertex_count - 1)) st.
  (** gc-random.rs l.121-129, the while loop. *)
  Fixpoint dag_loop (fuel vc ec : nat) (layer_size : N) (rng : nat -> N) (st : graph * nat) : outcome graph :=
    if Nat.ltb (edge_count (fst st)) ec then
      match fuel with
      | O => OutOfFuel
      | S f => dag_loop f vc ec layer_size rng (dag_round vc layer_size rng st)
      end
    else Done (fst st).
  (** gc-random.rs l.115-133; the result is always [Some]. *)
  Definition creates_random_dag (fuel vc ec : nat) (rng : nat -> N) : outcome graph :=
    dag_loop fuel vc ec (N.of_nat (Nat.div vc 10)) rng (g_new, O).

  (** gc-random.rs l.79-107, given the generated graph; [expect] ends the process. *)
  Definition gc_random (g : graph) (force : bool) (answer : text) : prog exit :=
    if negb force && negb (confirmed answer) then Ret Success
    else
      bind clean (fun r => match r with
      | IoErr => Ret Failure
      | IoOk _ =>
        bind init (fun r => match r with
        | IoErr => Ret Failure
        | IoOk _ =>
          bind (save_graph_as_commands chunks g) (fun r => Ret
            (match r with IoOk _ => Success | IoErr => Failure end))
        end)
      end).
End Programs.
