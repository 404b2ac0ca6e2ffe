(** * Searches whose score may overflow

    core/src/search/a_star.rs l.28 and l.56 add the cost and the heuristic of a path
    in i64; [Iter.a_star] adds them as integers.  Here the score closure of
    iter_best.rs and iter_best_constraint.rs may panic: [None]. *)
From Coq Require Import List NArith ZArith Bool.
From Verif Require Import Base Graph Path Queue Iter Topo Release.
Import ListNotations.

(** A loop whose body may panic. iter_best.rs l.35-45, iter_best_constraint.rs l.35-47. *)
Fixpoint opt_fold {A S} (f : S -> A -> option S) (l : list A) (s : S) : option S :=
  match l with
  | [] => Some s
  | a :: t => match f s a with Some s' => opt_fold f t s' | None => None end
  end.

Section Scores.
  Variables (Q : squeue scored) (g : graph) (f : path -> option Z).

  (** iter_best.rs l.38-42, iter_best_constraint.rs l.36-40 *)
  Definition p_child (sp : scored) (v : N) : option scored :=
    let p := path_append (sp_path sp) v in
    match f p with Some z => Some {| sp_path := p; sp_score := z |} | None => None end.
  (** iter_best.rs l.35-45 *)
  Definition p_visit_edge (a : scored) (st : vstate scored Q) (e : edge) : option (vstate scored Q) :=
    let (vis, q) := st in
    let v := snd e in
    if negb (memN v vis) then
      match p_child a v with Some c => Some (v :: vis, q_push Q q c) | None => None end
    else Some st.
  (** iter_best.rs l.27-49 *)
  Definition p_best_next (st : vstate scored Q) : step scored (vstate scored Q) :=
    let (vis, q) := st in
    match q_pop Q q with
    | None => Stop
    | Some (a, q') =>
      match path_last (sp_path a) with
      | None => Crash
      | Some vid =>
        match opt_fold (p_visit_edge a) (outbound_edges g vid) (vis, q') with
        | Some st' => Yield a st'
        | None => Crash
        end
      end
    end.
  (** iter_best.rs l.53-67 *)
  Definition p_best_iter_from (s : N) : option (vstate scored Q) :=
    let p := path_append path_empty s in
    match f p with
    | Some z => Some (visit_from scored Q {| sp_path := p; sp_score := z |} s)
    | None => None
    end.
  (** iter_best_constraint.rs l.35-46 *)
  Definition p_constrained_edge (cs : list constraint) (a : scored) (q : q_car Q) (e : edge) : option (q_car Q) :=
    match p_child a (snd e) with
    | Some c => Some (if check_all_partial cs c then q_push Q q c else q)
    | None => None
    end.
  (** iter_best_constraint.rs l.27-50 *)
  Definition p_constrained_next (cs : list constraint) (q : q_car Q) : step scored (q_car Q) :=
    match q_pop Q q with
    | None => Stop
    | Some (a, q') =>
      match path_last (sp_path a) with
      | None => Crash
      | Some vid =>
        match opt_fold (p_constrained_edge cs a) (outbound_edges g vid) q' with
        | Some q'' => Yield a q''
        | None => Crash
        end
      end
    end.
  (** iter_best_constraint.rs l.59-73 *)
  Definition p_constrained_iter_from (s : N) : option (q_car Q) :=
    let p := path_append path_empty s in
    match f p with
    | Some z => Some (q_push Q (q_empty Q) {| sp_path := p; sp_score := z |})
    | None => None
    end.

  (** a_star.rs l.15-32 *)
  Definition p_a_star (s t : N) (fuel : nat) : outcome (option scored) :=
    match p_best_iter_from s with
    | Some st => iter_find (last_is t) p_best_next fuel st
    | None => Panic
    end.
  (** a_star.rs l.41-64 *)
  Definition p_constrained_shortest_path (s t : N) (cs : list constraint) (fuel : nat) : outcome (option scored) :=
    match p_constrained_iter_from s with
    | Some q =>
      iter_find (fun sp => last_is t sp && forallb (fun c => check_complete c sp) cs) (p_constrained_next cs) fuel q
    | None => Panic
    end.
End Scores.

(** a_star.rs l.28 and l.56 in a build with overflow checks. *)
Definition checked_score (cost heur : path -> Z) (p : path) : option Z :=
  let z := (cost p + heur p)%Z in if i64_ok z then Some z else None.
(** The same in an optimised build. a_star.rs l.28, l.56. *)
Definition wrapped_score (cost heur : path -> Z) (p : path) : option Z := Some (wrap (cost p + heur p)%Z).
(** a_star.rs l.15-32 in a build with overflow checks. *)
Definition a_star_checked (Q : squeue scored) (g : graph) (cost heur : path -> Z) :=
  p_a_star Q g (checked_score cost heur).
(** a_star.rs l.15-32 in an optimised build. *)
Definition a_star_release (Q : squeue scored) (g : graph) (cost heur : path -> Z) :=
  p_a_star Q g (wrapped_score cost heur).
(** a_star.rs l.41-64 in a build with overflow checks. *)
Definition constrained_checked (Q : squeue scored) (g : graph) (cost heur : path -> Z) :=
  p_constrained_shortest_path Q g (checked_score cost heur).
(** a_star.rs l.41-64 in an optimised build. *)
Definition constrained_release (Q : squeue scored) (g : graph) (cost heur : path -> Z) :=
  p_constrained_shortest_path Q g (wrapped_score cost heur).
