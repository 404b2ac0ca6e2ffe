(** * Model of core/src/algorithm/max_flow.rs *)
From Coq Require Import List NArith ZArith Bool Arith.
From Verif Require Import Base Graph Path Queue Topo.
Import ListNotations.
Open Scope N_scope.

(** max_flow.rs l.12-16 *)
Inductive direction := Forward | Backward.

(** max_flow.rs l.21-23 *)
Definition aug_path := list (N * direction).
(** max_flow.rs l.26-30 *)
Definition aug_new (start : N) : aug_path := [(start, Forward)].
(** max_flow.rs l.32-38: the path zipped with its tail; the direction is that of the second
    vertex. *)
Definition aug_edges (p : aug_path) : list (edge * direction) :=
  map (fun x => ((fst (fst x), fst (snd x)), snd (snd x))) (combine p (tl p)).
(** max_flow.rs l.40-44 *)
Definition aug_append (p : aug_path) (v : N) (d : direction) : aug_path := p ++ [(v, d)].
(** max_flow.rs l.46-48 *)
Definition aug_contains (p : aug_path) (v : N) : bool :=
  match find (fun x => N.eqb v (fst x)) p with Some _ => true | None => false end.
(** max_flow.rs l.50-52 *)
Definition aug_last (p : aug_path) : option (N * direction) := hd_error (rev p).

(** The map [HashMap<Edge, (Flow, Capacity)>]. max_flow.rs l.67. *)
Definition flows := list (edge * (N * N)).
(** [current_flow.get], max_flow.rs l.135-155 *)
Definition fl_get (e : edge) (m : flows) : option (N * N) := hm_get edge_eqb e m.

(** u64 arithmetic with overflow checks, as for i64 in Topo.v. max_flow.rs l.7-9. *)
Definition u64_max : N := 2 ^ 64 - 1.
(** Checked [+]. max_flow.rs l.76, l.115. *)
Definition u64_add (a b : N) : outcome N := if a + b <=? u64_max then Done (a + b) else Panic.
(** Checked [-]. max_flow.rs l.118, l.146. *)
Definition u64_sub (a b : N) : outcome N := if b <=? a then Done (a - b) else Panic.

(** max_flow.rs l.135-155 *)
Definition edge_residual_capacity (e : edge) (d : direction) (m : flows) : outcome N :=
  match d with
  | Forward =>
    match fl_get e m with
    | Some (flow, cap) => u64_sub cap flow
    | None => Panic
    end
  | Backward =>
    match fl_get (edge_reverse e) m with
    | Some (flow, _) => Done flow
    | None => Panic
    end
  end.

(** max_flow.rs l.124-132: [map] then [min]; [None] is the [expect] on an empty path. *)
Fixpoint min_residual (l : list (edge * direction)) (m : flows) : outcome (option N) :=
  match l with
  | [] => Done None
  | (e, d) :: t =>
    obind (edge_residual_capacity e d m) (fun r =>
    obind (min_residual t m) (fun o =>
      Done (match o with None => Some r | Some r' => Some (N.min r r') end)))
  end.
(** max_flow.rs l.124-132 *)
Definition residual_capacity (p : aug_path) (m : flows) : outcome N :=
  obind (min_residual (aug_edges p) m) (fun o =>
    match o with Some r => Done r | None => Panic end).

(** max_flow.rs l.105-121: [entry(edge).and_modify(..)] does nothing on an absent key; the
    overflow check applies to the modified value only. *)
Definition modify (f : N -> outcome N) (e : edge) (m : flows) : outcome flows :=
  match fl_get e m with
  | None => Done m
  | Some (flow, cap) => obind (f flow) (fun v => Done (hm_insert edge_eqb e (v, cap) m))
  end.
(** max_flow.rs l.105-121 *)
Definition update_flow (m : flows) (p : aug_path) (delta : N) : outcome flows :=
  ofold (fun m x =>
    match snd x with
    | Forward => modify (fun v => u64_add v delta) (fst x) m
    | Backward => modify (fun v => u64_sub v delta) (edge_reverse (fst x)) m
    end) (aug_edges p) m.

(** max_flow.rs l.197-209: the children of a path; the source maps both kinds of edges to
    their second vertex. *)
Definition aug_kids (g : graph) (p : aug_path) (vid : N) : list aug_path :=
  map (fun x => aug_append p (fst x) (snd x))
    (filter (fun x => negb (aug_contains p (fst x)))
       (map (fun e => (snd e, Forward)) (outbound_edges g vid) ++
        map (fun e => (snd e, Backward)) (inbound_edges g vid))).

(** max_flow.rs l.188-226 [next] on the FIFO queue of paths; only the first item is used
    (l.92), so the rest of the queue is dropped. *)
Fixpoint aug_next (g : graph) (m : flows) (target : N) (fuel : nat) (q : list aug_path)
  : outcome (option (aug_path * N)) :=
  match fuel with
  | O => OutOfFuel
  | S n =>
    match q with
    | [] => Done None
    | p :: q' =>
      match aug_last p with
      | None => Panic
      | Some (vid, _) =>
        let q2 := q' ++ aug_kids g p vid in
        if N.eqb vid target then
          obind (residual_capacity p m) (fun r =>
            if 0 <? r then Done (Some (p, r)) else aug_next g m target n q2)
        else aug_next g m target n q2
      end
    end
  end.

(** max_flow.rs l.83-102 *)
Definition find_augmenting_path (g : graph) (m : flows) (start target : N) (fuel : nat) :=
  aug_next g m target fuel [aug_new start].

(** max_flow.rs l.74-77: one unit of [fuel] per round; [n] is the fuel of each search. *)
Fixpoint flow_loop (g : graph) (start end_ : N) (n fuel : nat) (value : N) (m : flows)
  : outcome (N * flows) :=
  match fuel with
  | O => OutOfFuel
  | S k =>
    obind (find_augmenting_path g m start end_ n) (fun r =>
      match r with
      | None => Done (value, m)
      | Some (p, delta) =>
        obind (update_flow m p delta) (fun m' =>
        obind (u64_add value delta) (fun value' => flow_loop g start end_ n k value' m'))
      end)
  end.

(** max_flow.rs l.67-70 *)
Definition flow_init (g : graph) (cap : edge -> N) : flows :=
  fold_left (fun m e => hm_insert edge_eqb e (0, cap e) m) (edges g) [].

(** max_flow.rs l.57-80 *)
Definition max_flow (g : graph) (cap : edge -> N) (start end_ : N) (fuel : nat) : outcome (N * flows) :=
  flow_loop g start end_ fuel fuel 0 (flow_init g cap).
