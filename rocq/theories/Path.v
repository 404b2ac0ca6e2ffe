(** * Model of core/src/path.rs, core/src/constraint/constraint.rs,
      core/src/constraint/checker.rs and the constraint builders of
      command/src/arg_utils.rs *)
From Coq Require Import List NArith ZArith Bool Arith.
From Verif Require Import Base.
Import ListNotations.

Set Implicit Arguments.

(** ** core/src/path.rs *)

(** path.rs l.6-9: a path is its vector of vertices. *)
Definition path := list N.
(** path.rs l.12, l.16, l.22, l.26, l.30, l.34 *)
Definition path_empty : path := [].
(** path.rs l.16-20 *)
Definition path_from (vs : list N) : path := vs.
(** path.rs l.22-24 *)
Definition path_is_empty (p : path) : bool := match p with [] => true | _ => false end.
(** path.rs l.26-28 *)
Definition path_size (p : path) : nat := length p.
(** path.rs l.30-32 *)
Definition path_first (p : path) : option N := hd_error p.
(** path.rs l.34-36 *)
Definition path_last (p : path) : option N := hd_error (rev p).

(** path.rs l.38-40 *)
Definition path_contains_vertex (p : path) (v : N) : bool := existsb (N.eqb v) p.

(** path.rs l.50-54: [windows(2)]. *)
Fixpoint to_edge_list (p : path) : list edge :=
  match p with
  | x :: ((y :: _) as t) => (x, y) :: to_edge_list t
  | _ => []
  end.

(** path.rs l.42-44 *)
Definition path_contains_edge (p : path) (e : edge) : bool :=
  existsb (fun x => edge_eqb x e) (to_edge_list p).

(** path.rs l.57-66: loop with the set of vertices seen so far. *)
Fixpoint contains_cycle_from (seen : list N) (p : path) : bool :=
  match p with
  | [] => false
  | v :: t => if memN v seen then true else contains_cycle_from (v :: seen) t
  end.
(** path.rs l.57-66 *)
Definition contains_cycle (p : path) : bool := contains_cycle_from [] p.

(** path.rs l.69-76 *)
Definition path_append (p : path) (v : N) : path := p ++ [v].

(** path.rs l.82-85: [ScoredPath]; i64 scores are integers. *)
Record scored := { sp_path : path; sp_score : Z }.

(** ** core/src/constraint/constraint.rs *)

(** constraint.rs l.10-40 *)
Inductive constraint :=
| ContainsVertex (v : N)
| ContainsEdge (e : edge)
| OrderedVertices (vs : list N)
| ContainsCycle
| MinLength (n : nat)
| MaxLength (n : nat)
| MinScore (s : Z)
| MaxScore (s : Z)
| COr (c1 c2 : constraint)
| CXor (c1 c2 : constraint)
| CAnd (c1 c2 : constraint)
| CNot (c : constraint).

(** constraint.rs l.94-112: the index map is filled in order, so the last index wins. *)
Fixpoint index_map_from (i : nat) (vs : list N) (m : list (N * nat)) : list (N * nat) :=
  match vs with
  | [] => m
  | v :: t => index_map_from (S i) t (hm_insert N.eqb v i m)
  end.
(** constraint.rs l.97-100 *)
Definition index_map (vs : list N) : list (N * nat) := index_map_from 0 vs [].

(** constraint.rs l.101-111 *)
Fixpoint check_order_from (m : list (N * nat)) (start_from : nat) (p : path) : bool :=
  match p with
  | [] => true
  | v :: t =>
    match hm_get N.eqb v m with
    | Some i => if Nat.ltb i start_from then false else check_order_from m i t
    | None => check_order_from m start_from t
    end
  end.
(** constraint.rs l.94-112 *)
Definition check_vertices_order (p : path) (ordered : list N) : bool :=
  check_order_from (index_map ordered) 0 p.

(** constraint.rs l.46-70 *)
Fixpoint check_partial (c : constraint) (sp : scored) : bool :=
  match c with
  | ContainsVertex _ | ContainsEdge _ => true
  | OrderedVertices o => check_vertices_order (sp_path sp) o
  | ContainsCycle => true
  | MinLength _ | MinScore _ => true
  | MaxLength n => Nat.leb (path_size (sp_path sp)) n
  | MaxScore s => Z.leb (sp_score sp) s
  | CNot x =>
    match x with
    | ContainsVertex v => negb (path_contains_vertex (sp_path sp) v)
    | ContainsEdge e => negb (path_contains_edge (sp_path sp) e)
    | ContainsCycle => negb (contains_cycle (sp_path sp))
    | _ => true
    end
  | COr c1 c2 => check_partial c1 sp || check_partial c2 sp
  | CAnd c1 c2 => check_partial c1 sp && check_partial c2 sp
  | CXor c1 c2 => check_partial c1 sp || check_partial c2 sp
  end.

(** constraint.rs l.73-90 *)
Fixpoint check_complete (c : constraint) (sp : scored) : bool :=
  match c with
  | ContainsVertex v => path_contains_vertex (sp_path sp) v
  | ContainsEdge e => path_contains_edge (sp_path sp) e
  | OrderedVertices o => check_vertices_order (sp_path sp) o
  | ContainsCycle => contains_cycle (sp_path sp)
  | MinLength n => Nat.leb n (path_size (sp_path sp))
  | MaxLength n => Nat.leb (path_size (sp_path sp)) n
  | MinScore s => Z.leb s (sp_score sp)
  | MaxScore s => Z.leb (sp_score sp) s
  | COr c1 c2 => check_complete c1 sp || check_complete c2 sp
  | CXor c1 c2 => xorb (check_complete c1 sp) (check_complete c2 sp)
  | CAnd c1 c2 => check_complete c1 sp && check_complete c2 sp
  | CNot c1 => negb (check_complete c1 sp)
  end.

(** ** core/src/constraint/checker.rs
    The error strings are replaced by one constructor per message.
    checker.rs l.59, l.87, l.104, l.127-134, l.160-167. *)
Inductive verror :=
| ErrVertex | ErrEdge | ErrCycle
| ErrMinLength | ErrMaxLength | ErrLength
| ErrMinScore | ErrMaxScore | ErrScore.
(** checker.rs l.21: [Result<(), String>] *)
Inductive vresult := VOk | VErr (e : verror).

(** checker.rs l.22-27: the operator [?] *)
Definition vthen (a b : vresult) : vresult := match a with VOk => b | _ => a end.

(** [Iterator::filter_map], checker.rs l.34 *)
Definition filter_map {A B} (f : A -> option B) (l : list A) : list B :=
  flat_map (fun x => match f x with Some y => [y] | None => [] end) l.

(** checker.rs l.31-61 *)
Definition vertex_inclusions (cs : list constraint) : list N :=
  flat_map (fun c => match c with
                     | ContainsVertex v => [v]
                     | ContainsEdge (a, b) => [a; b]
                     | _ => [] end) cs.
(** checker.rs l.41-51 *)
Definition vertex_exclusions (cs : list constraint) : list N :=
  flat_map (fun c => match c with CNot (ContainsVertex v) => [v] | _ => [] end) cs.
(** checker.rs l.31-61 *)
Definition check_vertex_incl_excl (cs : list constraint) : vresult :=
  match filter (fun v => memN v (vertex_exclusions cs)) (vertex_inclusions cs) with
  | [] => VOk
  | _ => VErr ErrVertex
  end.

(** checker.rs l.63-89 *)
Definition edge_inclusions (cs : list constraint) : list edge :=
  filter_map (fun c => match c with ContainsEdge e => Some e | _ => None end) cs.
(** checker.rs l.63-89 *)
Definition edge_exclusions (cs : list constraint) : list edge :=
  filter_map (fun c => match c with CNot (ContainsEdge e) => Some e | _ => None end) cs.
(** checker.rs l.63-89 *)
Definition check_edge_incl_excl (cs : list constraint) : vresult :=
  match filter (fun e => memE e (edge_exclusions cs)) (edge_inclusions cs) with
  | [] => VOk
  | _ => VErr ErrEdge
  end.

(** checker.rs l.91-94 *)
Definition check_order_constraint (cs : list constraint) : vresult := VOk.

(** checker.rs l.96-108 and the helper [negated_constraints] l.186-194 *)
Definition check_cycle_incl_excl (cs : list constraint) : vresult :=
  let contains := existsb (fun c => match c with ContainsCycle => true | _ => false end) cs in
  let contains_no :=
    existsb (fun c => match c with CNot ContainsCycle => true | _ => false end) cs in
  if negb (Bool.eqb contains contains_no) then VOk else VErr ErrCycle.

(** checker.rs l.110-141 and l.143-174 *)
Definition check_min_max {A} (gtb : A -> A -> bool) (mins maxs : list A)
  (emin emax eboth : verror) : vresult :=
  if Nat.ltb 1 (length mins) then VErr emin
  else if Nat.ltb 1 (length maxs) then VErr emax
  else match mins, maxs with
       | a :: _, b :: _ => if gtb a b then VErr eboth else VOk
       | _, _ => VOk
       end.
(** checker.rs l.110-141 *)
Definition check_min_max_length (cs : list constraint) : vresult :=
  check_min_max (fun a b => Nat.ltb b a)
    (filter_map (fun c => match c with MinLength n => Some n | _ => None end) cs)
    (filter_map (fun c => match c with MaxLength n => Some n | _ => None end) cs)
    ErrMinLength ErrMaxLength ErrLength.
(** checker.rs l.143-174 *)
Definition check_min_max_score (cs : list constraint) : vresult :=
  check_min_max (fun a b => Z.ltb b a)
    (filter_map (fun c => match c with MinScore n => Some n | _ => None end) cs)
    (filter_map (fun c => match c with MaxScore n => Some n | _ => None end) cs)
    ErrMinScore ErrMaxScore ErrScore.

(** checker.rs l.21-29 *)
Definition validate (cs : list constraint) : vresult :=
  vthen (check_vertex_incl_excl cs)
  (vthen (check_edge_incl_excl cs)
  (vthen (check_order_constraint cs)
  (vthen (check_cycle_incl_excl cs)
  (vthen (check_min_max_length cs)
  (check_min_max_score cs))))).

(** ** command/src/arg_utils.rs l.56-111 *)
Definition build_include (ids : list N) := map ContainsVertex ids.
(** arg_utils.rs l.60-64 *)
Definition build_exclude (ids : list N) := map (fun v => CNot (ContainsVertex v)) ids.
(** arg_utils.rs l.66-68 *)
Definition build_include_edges (es : list edge) := map ContainsEdge es.
(** arg_utils.rs l.70-75 *)
Definition build_exclude_edges (es : list edge) := map (fun e => CNot (ContainsEdge e)) es.
(** arg_utils.rs l.77-79 *)
Definition build_ordered (ids : list N) := OrderedVertices ids.
(** arg_utils.rs l.81-83 *)
Definition build_include_cycle := ContainsCycle.
(** arg_utils.rs l.85-87 *)
Definition build_no_cycle := CNot ContainsCycle.
(** arg_utils.rs l.89-91 *)
Definition build_min_length (n : nat) := MinLength n.
(** arg_utils.rs l.93-95 *)
Definition build_max_length (n : nat) := MaxLength n.
(** arg_utils.rs l.97-99 *)
Definition build_exact_length (n : nat) := [MinLength n; MaxLength n].
(** arg_utils.rs l.101-103 *)
Definition build_min_score (s : Z) := MinScore s.
(** arg_utils.rs l.105-107: as written in the source, [MinScore]. *)
Definition build_max_score (s : Z) := MinScore s.
(** arg_utils.rs l.109-111 *)
Definition build_exact_score (s : Z) := [MinScore s; MaxScore s].
