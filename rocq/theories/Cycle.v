(** * Model of core/src/iter/iter_cycle.rs, core/src/algorithm/cycle.rs,
      core/src/algorithm/hamiltonian.rs and the filter of command/src/bin/gc-cycle.rs *)
From Coq Require Import List NArith ZArith Bool Arith.
From Verif Require Import Base Graph Path Queue Iter.
Import ListNotations.

(** ** iter_cycle.rs *)

(** iter_cycle.rs l.13-15: [Cycle], its vertices without the closing one. *)
Definition cycle := list N.

(** [Itertools::unique] used at iter_cycle.rs l.24: keeps the first occurrences. *)
Fixpoint unique_from (seen l : list N) : list N :=
  match l with
  | [] => []
  | x :: t => if memN x seen then unique_from seen t else x :: unique_from (x :: seen) t
  end.
(** [Itertools::unique], iter_cycle.rs l.24 *)
Definition unique (l : list N) : list N := unique_from [] l.

(** iter_cycle.rs l.23-31 *)
Definition from_vertices (l : list N) : option cycle :=
  if Nat.ltb (length l) 2 || negb (Nat.eqb (length l) (length (unique l))) then None else Some l.
(** iter_cycle.rs l.18-20 *)
Definition from_path (p : path) : option cycle := from_vertices p.
(** iter_cycle.rs l.35-37: the closing vertex is not added. *)
Definition as_path (c : cycle) : path := path_from c.
(** iter_cycle.rs l.40-42 *)
Definition cycle_len (c : cycle) : nat := length c.

(** iter_cycle.rs l.53-58: [enumerate().min_by(..)], the position of the first least element.
    [best] is the best position and value so far, [i] the next position. *)
Fixpoint min_position (i : nat) (best : nat * N) (l : list N) : nat :=
  match l with
  | [] => fst best
  | x :: t => min_position (S i) (if N.ltb x (snd best) then (i, x) else best) t
  end.
(** [slice::rotate_left]; iter_cycle.rs l.60 *)
Definition rotate_left {A} (k : nat) (l : list A) : list A := skipn k l ++ firstn k l.
(** iter_cycle.rs l.51-64; [None] is the [expect] on an empty cycle. *)
Definition canonical (c : cycle) : option cycle :=
  match c with
  | [] => None
  | x :: t => Some (rotate_left (min_position 1 (0, x) t) c)
  end.
(** iter_cycle.rs l.67-74 *)
Definition is_canonical (c : cycle) : option bool :=
  match c with
  | [] => None
  | x :: t => Some (N.eqb x (fold_left N.min t x))
  end.

(** [rposition(|x| x == last)]; iter_cycle.rs l.155 *)
Fixpoint rposition (v : N) (l : list N) : option nat :=
  match l with
  | [] => None
  | x :: t => match rposition v t with
              | Some k => Some (S k)
              | None => if N.eqb x v then Some 0 else None
              end
  end.
(** iter_cycle.rs l.150-161; the outer [None] is the panic of [canonical]. *)
Definition extract_canonical_cycle_from_last (p : path) : option (option cycle) :=
  match path_last p with
  | None => Some None
  | Some last =>
    match rposition last (firstn (length p - 1) p) with
    | None => Some None
    | Some start =>
      match canonical (skipn start (firstn (length p - 1) p)) with
      | None => None
      | Some c => Some (Some c)
      end
    end
  end.

(** [HashSet::contains] on cycles, iter_cycle.rs l.87-109 *)
Definition memC (c : cycle) (l : list cycle) : bool :=
  existsb (fun x => if list_eq_dec N.eq_dec x c then true else false) l.

(** iter_cycle.rs l.77-81: the stack and the set of returned cycles. *)
Definition cycle_state := (list path * list cycle)%type.

(** iter_cycle.rs l.87-109 [next], one fuel unit per popped path. *)
Fixpoint cycle_next (g : graph) (fuel : nat) (st : cycle_state) : outcome (option (cycle * cycle_state)) :=
  match fuel with
  | O => OutOfFuel
  | S n =>
    let (stack, returned) := st in
    match q_pop (Stack path) stack with
    | None => Done None
    | Some (p, stack') =>
      match extract_canonical_cycle_from_last p with
      | None => Panic
      | Some (Some c) =>
        if negb (memC c returned) then Done (Some (c, (stack', c :: returned)))
        else cycle_next g n (stack', returned)
      | Some None =>
        match path_last p with
        | None => Panic
        | Some v =>
          cycle_next g n
            (push_all (Stack path) (map (fun e => path_append p (snd e)) (outbound_edges g v)) stack', returned)
        end
      end
    end
  end.

(** iter_cycle.rs l.133-144 *)
Definition find_starting_edges (g : graph) : list N :=
  let res := filter (fun v => Nat.eqb (length (inbound_edges g v)) 0) (vertices g) in
  match res with
  | [] => match head_option g with Some h => [h] | None => [] end
  | _ => res
  end.

(** iter_cycle.rs l.113-121 *)
Definition cycle_iter (g : graph) : cycle_state :=
  (push_all (Stack path) (map (fun v => path_from [v]) (find_starting_edges g)) [], []).

(** ** Iterator adaptors over a [next] that may itself run on: [n] is the fuel
    of each call of [next]. *)
Section Adaptors.
  Variables (A S : Type) (next : nat -> S -> outcome (option (A * S))).

  (** [collect]; cycle.rs l.12, l.23, l.28 *)
  Fixpoint fcollect (n fuel : nat) (s : S) : outcome (list A) :=
    match fuel with
    | O => OutOfFuel
    | Datatypes.S k =>
      obind (next n s) (fun r =>
        match r with
        | None => Done []
        | Some (a, s') => obind (fcollect n k s') (fun l => Done (a :: l))
        end)
    end.
  (** [take(k).collect()]; cycle.rs l.17 *)
  Fixpoint ftake (n k : nat) (s : S) : outcome (list A) :=
    match k with
    | O => Done []
    | Datatypes.S k' =>
      obind (next n s) (fun r =>
        match r with
        | None => Done []
        | Some (a, s') => obind (ftake n k' s') (fun l => Done (a :: l))
        end)
    end.
  (** [filter(pred).next()]; cycle.rs l.7, l.46-48 *)
  Fixpoint ffind (pred : A -> bool) (n fuel : nat) (s : S) : outcome (option A) :=
    match fuel with
    | O => OutOfFuel
    | Datatypes.S k =>
      obind (next n s) (fun r =>
        match r with
        | None => Done None
        | Some (a, s') => if pred a then Done (Some a) else ffind pred n k s'
        end)
    end.
End Adaptors.

(** [Option::map] on results, cycle.rs l.27-39 *)
Definition omap {A B} (f : A -> B) (o : outcome A) : outcome B := obind o (fun a => Done (f a)).

(** [Iterator::min_by_key] keeps the first least element, [max_by_key] the last
    greatest one. cycle.rs l.33, l.38. *)
Definition min_by_key {A} (key : A -> nat) (l : list A) : option A :=
  match l with
  | [] => None
  | a :: t => Some (fold_left (fun b x => if Nat.ltb (key x) (key b) then x else b) t a)
  end.
(** [Iterator::max_by_key], cycle.rs l.37-39 *)
Definition max_by_key {A} (key : A -> nat) (l : list A) : option A :=
  match l with
  | [] => None
  | a :: t => Some (fold_left (fun b x => if Nat.ltb (key x) (key b) then b else x) t a)
  end.

(** ** algorithm/cycle.rs *)

(** cycle.rs l.6-8 *)
Definition cycle_first (g : graph) (fuel : nat) : outcome (option cycle) :=
  omap (option_map fst) (cycle_next g fuel (cycle_iter g)).
(** cycle.rs l.22-24 *)
Definition cycle_take_all (g : graph) (fuel : nat) : outcome (list cycle) :=
  fcollect _ _ (cycle_next g) fuel fuel (cycle_iter g).
(** cycle.rs l.11-13 *)
Definition cycle_count (g : graph) (fuel : nat) : outcome nat := omap (@length _) (cycle_take_all g fuel).
(** cycle.rs l.16-18 *)
Definition cycle_take (g : graph) (k fuel : nat) : outcome (list cycle) :=
  ftake _ _ (cycle_next g) fuel k (cycle_iter g).
(** cycle.rs l.27-29 *)
Definition girth (g : graph) (fuel : nat) : outcome (option nat) :=
  omap (fun l => min_by_key (fun n => n) (map cycle_len l)) (cycle_take_all g fuel).
(** cycle.rs l.32-34 *)
Definition shortest (g : graph) (fuel : nat) : outcome (option cycle) :=
  omap (min_by_key cycle_len) (cycle_take_all g fuel).
(** cycle.rs l.37-39 *)
Definition longest (g : graph) (fuel : nat) : outcome (option cycle) :=
  omap (max_by_key cycle_len) (cycle_take_all g fuel).
(** cycle.rs l.45-49 *)
Definition hamiltonian (g : graph) (fuel : nat) : outcome (option cycle) :=
  ffind _ _ (cycle_next g) (fun c => Nat.eqb (cycle_len c) (vertex_count g)) fuel fuel (cycle_iter g).

(** ** gc-cycle.rs *)

(** gc-cycle.rs l.324-332 with the score of l.246 (the number of vertices; it fits i64). *)
Definition cycle_check (c : cycle) (cs : list constraint) : bool :=
  forallb (fun k => check_complete k {| sp_path := as_path c; sp_score := Z.of_nat (path_size (as_path c)) |}) cs.
(** gc-cycle.rs l.241-248 and l.270-272: all cycles passing the constraints. *)
Definition gc_cycle_all (g : graph) (cs : list constraint) (fuel : nat) : outcome (list cycle) :=
  omap (filter (fun c => cycle_check c cs)) (cycle_take_all g fuel).

(** ** algorithm/hamiltonian.rs *)

(** [flat_map] over the vertices of the exhausted path iterators. hamiltonian.rs l.18-20. *)
Fixpoint ham_paths (g : graph) (fuel : nat) (vs : list N) : outcome (list path) :=
  match vs with
  | [] => Done []
  | v :: t =>
    obind (collect (dfs_path_next g) fuel (dfs_iter_path_from v)) (fun l =>
    obind (ham_paths g fuel t) (fun l' =>
      Done (filter (fun p => Nat.eqb (path_size p) (vertex_count g)) l ++ l')))
  end.
(** hamiltonian.rs l.15-22 *)
Definition iter_hamiltonian_paths (g : graph) (fuel : nat) : outcome (list path) := ham_paths g fuel (vertices g).
(** hamiltonian.rs l.25-27: the iterator stops at the first path found. *)
Fixpoint ham_first (g : graph) (fuel : nat) (vs : list N) : outcome (option path) :=
  match vs with
  | [] => Done None
  | v :: t =>
    obind (iter_find (fun p => Nat.eqb (path_size p) (vertex_count g)) (dfs_path_next g) fuel (dfs_iter_path_from v))
      (fun r => match r with Some p => Done (Some p) | None => ham_first g fuel t end)
  end.
(** hamiltonian.rs l.25-27 *)
Definition first_path (g : graph) (fuel : nat) : outcome (option path) := ham_first g fuel (vertices g).
(** hamiltonian.rs l.9-11 *)
Definition is_hamiltonian (g : graph) (fuel : nat) : outcome bool :=
  if is_empty g then Done true
  else omap (fun r => match r with Some _ => true | None => false end) (first_path g fuel).
(** hamiltonian.rs l.31-33 *)
Definition is_path_hamiltonian (p : path) (g : graph) : bool :=
  negb (contains_cycle p) && Nat.eqb (path_size p) (vertex_count g).
