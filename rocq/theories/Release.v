(** * The algorithms of Topo.v and MaxFlow.v as compiled with the release profile

    Same source, cited there; the arithmetic wraps around instead of panicking
    (no [overflow-checks] in /repo/Cargo.toml).  [expect] and [unwrap] still
    panic. *)
From Coq Require Import List NArith ZArith Bool Arith.
From Verif Require Import Base Graph Path Queue Topo MaxFlow.
Import ListNotations.

(** i64 in two's complement, u64 modulo 2^64. shortest_path.rs l.44, l.79, longest_path.rs l.28, l.34. *)
Definition wrap (z : Z) : Z := ((z + 2 ^ 63) mod 2 ^ 64 - 2 ^ 63)%Z.
(** [+] of an optimised build. max_flow.rs l.76, l.115. *)
Definition wrap_add (a b : N) : N := ((a + b) mod 2 ^ 64)%N.
(** [-] of an optimised build. max_flow.rs l.118, l.146. *)
Definition wrap_sub (a b : N) : N := ((a + 2 ^ 64 - b) mod 2 ^ 64)%N.

(** ** shortest_path.rs *)
(** shortest_path.rs l.38-55 *)
Definition r_dag_relax (w : edge -> Z) (v : N) (m : scores) (e : edge) : outcome scores :=
  match sc_get v m with
  | None => Panic
  | Some sp =>
    let new_score := wrap (sp_score sp + wrap (w e)) in
    match sc_get (snd e) m with
    | Some cur =>
      Done (if (new_score <? sp_score cur)%Z
            then sc_put (snd e) (scored_path_of (path_append (sp_path sp) (snd e)) new_score) m
            else m)
    | None => Done (sc_put (snd e) (scored_path_of (path_append (sp_path sp) (snd e)) new_score) m)
    end
  end.
(** shortest_path.rs l.34-56 *)
Definition r_dag_visit (g : graph) (w : edge -> Z) (order : list N) (m : scores) : outcome scores :=
  ofold (fun m v => ofold (r_dag_relax w v) (outbound_edges g v) m) order m.
(** shortest_path.rs l.24-58 *)
Definition r_dag_shortest_paths (dag : graph) (w : edge -> Z) (start : N) (fuel : nat) : outcome scores :=
  obind (topological_sort dag fuel) (fun r =>
    match r with
    | None => Panic
    | Some order =>
      r_dag_visit dag w (skip_while (fun v => negb (N.eqb v start)) order)
        (sc_put start (scored_path_of_one start 0) [])
    end).
(** shortest_path.rs l.76-83 *)
Definition r_relax (w : edge -> Z) (m : scores) (e : edge) : scores * bool :=
  match sc_get (fst e) m with
  | None => (m, false)
  | Some sp =>
    let new_score := wrap (sp_score sp + w e) in
    if (new_score <? current_score_of_vertex m (snd e))%Z
    then (sc_put (snd e) (scored_path_of (path_append (sp_path sp) (snd e)) new_score) m, true)
    else (m, false)
  end.
(** shortest_path.rs l.75-84 *)
Definition r_bf_pass (g : graph) (w : edge -> Z) (m : scores) : scores :=
  fold_left (fun m e => fst (r_relax w m e)) (edges g) m.
(** shortest_path.rs l.74-85 *)
Fixpoint r_bf_passes (g : graph) (w : edge -> Z) (n : nat) (m : scores) : scores :=
  match n with
  | O => m
  | S n => r_bf_passes g w n (r_bf_pass g w m)
  end.
(** shortest_path.rs l.90-98 *)
Definition r_bf_check (w : edge -> Z) (es : list edge) (m : scores) : bool :=
  existsb (fun e => snd (r_relax w m e)) es.
(** shortest_path.rs l.63-102 *)
Definition r_bellman_ford (g : graph) (w : edge -> Z) (start : N) : option scores :=
  let m := r_bf_passes g w (vertex_count g - 1) (sc_put start (scored_path_of_one start 0) []) in
  if r_bf_check w (edges g) m then None else Some m.
(** shortest_path.rs l.119-129 *)
Definition r_spfa_edge (w : edge -> Z) (s : scores * list N) (e : edge) : scores * list N :=
  let r := r_relax w (fst s) e in
  if snd r then (fst r, snd s ++ [snd e]) else (fst r, snd s).
(** shortest_path.rs l.118-130 *)
Fixpoint r_spfa_loop (g : graph) (w : edge -> Z) (fuel : nat) (s : scores * list N) : outcome scores :=
  match fuel with
  | O => OutOfFuel
  | S n =>
    match snd s with
    | [] => Done (fst s)
    | v :: q => r_spfa_loop g w n (fold_left (r_spfa_edge w) (outbound_edges g v) (fst s, q))
    end
  end.
(** shortest_path.rs l.107-133 *)
Definition r_spfa (g : graph) (w : edge -> Z) (start : N) (fuel : nat) : outcome scores :=
  r_spfa_loop g w fuel (sc_put start (scored_path_of_one start 0) [], [start]).

(** ** longest_path.rs *)
(** longest_path.rs l.32-37 *)
Definition r_negate_scores (m : scores) : scores :=
  map (fun x => (fst x, scored_path_of (sp_path (snd x)) (wrap (-1 * sp_score (snd x))))) m.
(** longest_path.rs l.24-30 *)
Definition r_dag_longest_paths (dag : graph) (w : edge -> Z) (start : N) (fuel : nat) : outcome scores :=
  obind (r_dag_shortest_paths dag (fun e => -1 * w e)%Z start fuel) (fun m => Done (r_negate_scores m)).

(** ** max_flow.rs *)
(** max_flow.rs l.135-155 *)
Definition r_edge_residual_capacity (e : edge) (d : direction) (m : flows) : outcome N :=
  match d with
  | Forward =>
    match fl_get e m with
    | Some (flow, cap) => Done (wrap_sub cap flow)
    | None => Panic
    end
  | Backward =>
    match fl_get (edge_reverse e) m with
    | Some (flow, _) => Done flow
    | None => Panic
    end
  end.
(** max_flow.rs l.124-132 *)
Fixpoint r_min_residual (l : list (edge * direction)) (m : flows) : outcome (option N) :=
  match l with
  | [] => Done None
  | (e, d) :: t =>
    obind (r_edge_residual_capacity e d m) (fun r =>
    obind (r_min_residual t m) (fun o =>
      Done (match o with None => Some r | Some r' => Some (N.min r r') end)))
  end.
(** max_flow.rs l.124-132 *)
Definition r_residual_capacity (p : aug_path) (m : flows) : outcome N :=
  obind (r_min_residual (aug_edges p) m) (fun o =>
    match o with Some r => Done r | None => Panic end).
(** max_flow.rs l.105-121 *)
Definition r_modify (f : N -> N) (e : edge) (m : flows) : flows :=
  match fl_get e m with
  | None => m
  | Some (flow, cap) => hm_insert edge_eqb e (f flow, cap) m
  end.
(** max_flow.rs l.105-121 *)
Definition r_update_flow (m : flows) (p : aug_path) (delta : N) : flows :=
  fold_left (fun m x =>
    match snd x with
    | Forward => r_modify (fun v => wrap_add v delta) (fst x) m
    | Backward => r_modify (fun v => wrap_sub v delta) (edge_reverse (fst x)) m
    end) (aug_edges p) m.
(** max_flow.rs l.188-226 *)
Fixpoint r_aug_next (g : graph) (m : flows) (target : N) (fuel : nat) (q : list aug_path)
  : outcome (option (aug_path * N)) :=
  match fuel with
  | O => OutOfFuel
  | S n =>
    match q with
    | [] => Done None
    | p :: q' =>
      match aug_last p with
      | None => Panic
      | Some (vid, _) =>
        let q2 := q' ++ aug_kids g p vid in
        if N.eqb vid target then
          obind (r_residual_capacity p m) (fun r =>
            if (0 <? r)%N then Done (Some (p, r)) else r_aug_next g m target n q2)
        else r_aug_next g m target n q2
      end
    end
  end.
(** max_flow.rs l.74-77 *)
Fixpoint r_flow_loop (g : graph) (start end_ : N) (n fuel : nat) (value : N) (m : flows) : outcome (N * flows) :=
  match fuel with
  | O => OutOfFuel
  | S k =>
    obind (r_aug_next g m end_ n [aug_new start]) (fun r =>
      match r with
      | None => Done (value, m)
      | Some (p, delta) => r_flow_loop g start end_ n k (wrap_add value delta) (r_update_flow m p delta)
      end)
  end.
(** max_flow.rs l.57-80 *)
Definition r_max_flow (g : graph) (cap : edge -> N) (start end_ : N) (fuel : nat) : outcome (N * flows) :=
  r_flow_loop g start end_ fuel fuel 0%N (flow_init g cap).
