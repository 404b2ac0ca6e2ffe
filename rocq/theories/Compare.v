(** * Comparing the values of the library: [==], [cmp], and ordered sets of them *)
From Coq Require Import List NArith ZArith Bool.
From Verif Require Import Base Graph Path Cycle.
Import ListNotations.

(** graph.rs l.5-6, derived [Ord] of [VertexId]; [u64] compares as a number. *)
Definition cmp_vertex (a b : N) : comparison := N.compare a b.
(** [Ordering::then], used by the derived [Ord]s. graph.rs l.10, iter_cycle.rs l.12. *)
Definition cmp_then (c d : comparison) : comparison := match c with Eq => d | _ => c end.
(** graph.rs l.10-11, derived [Ord] of [Edge]: field by field. *)
Definition cmp_edge (a b : N * N) : comparison := cmp_then (cmp_vertex (fst a) (fst b)) (cmp_vertex (snd a) (snd b)).
(** iter_cycle.rs l.12-15, derived [Ord] of [Cycle]: that of [Vec], element by element, a beginning before the whole. *)
Fixpoint cmp_cycle (a b : list N) : comparison :=
  match a, b with
  | [], [] => Eq
  | [], _ :: _ => Lt
  | _ :: _, [] => Gt
  | x :: a', y :: b' => cmp_then (cmp_vertex x y) (cmp_cycle a' b')
  end.
(** path.rs l.93-97, [Ord] of [ScoredPath] *)
Definition cmp_scored (a b : scored) : comparison := Z.compare (sp_score a) (sp_score b).
(** path.rs l.87-91, [PartialOrd] of [ScoredPath] *)
Definition partial_cmp_scored (a b : scored) : option comparison := Some (Z.compare (sp_score a) (sp_score b)).
(** path.rs l.5, derived [==] of [Path], that of [Vec]. *)
Fixpoint eq_path (a b : list N) : bool :=
  match a, b with
  | [], [] => true
  | x :: a', y :: b' => N.eqb x y && eq_path a' b'
  | _, _ => false
  end.
(** path.rs l.81, derived [==] of [ScoredPath]: field by field. *)
Definition eq_scored (a b : scored) : bool := eq_path (sp_path a) (sp_path b) && Z.eqb (sp_score a) (sp_score b).

(** [BTreeSet::insert] of the standard library (no file of /repo uses it; the [Ord]s of graph.rs l.5, l.10, path.rs l.93,
    iter_cycle.rs l.12 exist for such uses): the elements in increasing order; one that compares equal to one already there is not added. *)
Fixpoint bt_insert {A} (cmp : A -> A -> comparison) (x : A) (s : list A) : list A :=
  match s with
  | [] => [x]
  | y :: t => match cmp x y with
              | Lt => x :: s
              | Eq => s
              | Gt => y :: bt_insert cmp x t
              end
  end.
(** [.collect::<BTreeSet<_>>()]; see [bt_insert]. E.g. of the items of iter_cycle.rs l.87-109. *)
Definition bt_collect {A} (cmp : A -> A -> comparison) (l : list A) : list A := fold_left (fun s x => bt_insert cmp x s) l [].
(** [slice::sort]: stable, by insertion; see [bt_insert]. E.g. of the items of iter_best_constraint.rs l.27-51. *)
Fixpoint sort_insert {A} (cmp : A -> A -> comparison) (x : A) (s : list A) : list A :=
  match s with
  | [] => [x]
  | y :: t => match cmp x y with
              | Gt => y :: sort_insert cmp x t
              | _ => x :: s
              end
  end.
(** See [sort_insert]. E.g. of the items of iter_best_constraint.rs l.27-51. *)
Definition sorted {A} (cmp : A -> A -> comparison) (l : list A) : list A := fold_right (sort_insert cmp) [] l.
(** [Vec::dedup], [==] of neighbours; see [bt_insert]. E.g. of the items of iter_cycle.rs l.87-109. *)
Fixpoint dedup {A} (eqb : A -> A -> bool) (l : list A) : list A :=
  match l with
  | [] => []
  | x :: t => match dedup eqb t with
              | y :: t' => if eqb x y then x :: t' else x :: y :: t'
              | [] => [x]
              end
  end.
