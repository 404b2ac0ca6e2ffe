(** * Which path a best-first search follows next (for C43, C46)
    Nothing here depends on the model. *)
From Coq Require Import List NArith ZArith.
From Verif Require Import Spec.
Import ListNotations.

Section Rule.
  Variables (E : rel) (f : list N -> Z) (s : N).
  (** After the paths [ps], the path [p] is open: it goes one edge beyond a path [q] of [ps], to a vertex at which no path
      of [ps] ends, and no path before [q] ends next to that vertex.  A vertex is thus approached from the first
      vertex next to it, never again from another one. *)
  Definition open_path (ps : list (list N)) (p : list N) : Prop :=
    exists l q r u v, ps = l ++ q :: r /\ p = q ++ [v] /\ ends_with u q /\ E u v /\
      (forall q' u', In q' l -> ends_with u' q' -> ~ E u' v) /\ (forall q', In q' ps -> ~ ends_with v q').
  (** The first path is the start; each further one is open, and no open one has a lower score; at the end none is open. *)
  Inductive greedy : list (list N) -> Prop :=
  | greedy_start : greedy [[s]]
  | greedy_next ps p : greedy ps -> open_path ps p -> (forall p', open_path ps p' -> (f p <= f p')%Z) -> greedy (ps ++ [p]).
  Definition greedy_order (ps : list (list N)) : Prop := greedy ps /\ forall p, ~ open_path ps p.
End Rule.

(** ** The orders of the other traversals, given the neighbours of each vertex in the order its edges are listed (for C39-C42) *)
Section Orders.
  Variables (nb : N -> list N) (s : N).
  (** A list without its repeated entries, each kept where it occurs first. *)
  Fixpoint once (l : list N) : list N :=
    match l with [] => [] | x :: t => x :: filter (fun y => negb (N.eqb y x)) (once t) end.
  (** What has been seen once the vertices [p] have been visited: the start and, for each of them in turn, its neighbours;
      waiting are those not among [p]. *)
  Definition waiting (p : list N) : list N :=
    filter (fun v => negb (existsb (N.eqb v) p)) (once (s :: flat_map nb p)).
  (** Always the one seen first, until none is waiting. *)
  Definition oldest_first (out : list N) : Prop :=
    (forall p v r, out = p ++ v :: r -> exists t, waiting p = v :: t) /\ waiting out = [].
  (** Always the one seen last. *)
  Definition newest_first (out : list N) : Prop :=
    (forall p v r, out = p ++ v :: r -> exists t, waiting p = t ++ [v]) /\ waiting out = [].

  (** The paths one edge longer than [p] that visit a new vertex, in the order of the edges. *)
  Definition extensions (p : list N) : list (list N) :=
    match rev p with
    | [] => []
    | u :: _ => map (fun v => p ++ [v]) (filter (fun v => negb (existsb (N.eqb v) p)) (nb u))
    end.
  (** The start, then the extensions of each path in turn. *)
  Definition level_order (out : list (list N)) : Prop :=
    (forall p x r, out = p ++ x :: r -> exists t, [s] :: flat_map extensions p = p ++ x :: t) /\
    [s] :: flat_map extensions out = out.
  (** A path, then everything that begins with its last extension, and so on back to its first. *)
  Inductive depth_order : list N -> list (list N) -> Prop :=
  | depth_node p ls : depth_orders (rev (extensions p)) ls -> depth_order p (p :: ls)
  with depth_orders : list (list N) -> list (list N) -> Prop :=
  | depth_none : depth_orders [] []
  | depth_more p ps l ls : depth_order p l -> depth_orders ps ls -> depth_orders (p :: ps) (l ++ ls).
End Orders.

(** ** A best-first search over walks, which may visit a vertex again (for C47) *)
Section Walks.
  Variables (E : rel) (f : list N -> Z) (keep : list N -> Prop) (s : N).
  (** One edge beyond one of [ps], not thrown away, and not among [ps]. *)
  Definition open_walk (ps : list (list N)) (p : list N) : Prop :=
    ~ In p ps /\ keep p /\ exists q u v, In q ps /\ p = q ++ [v] /\ ends_with u q /\ E u v.
  Inductive tried_walks : list (list N) -> Prop :=
  | tried_start : tried_walks [[s]]
  | tried_next ps p : tried_walks ps -> open_walk ps p -> (forall p', open_walk ps p' -> (f p <= f p')%Z) -> tried_walks (ps ++ [p]).
End Walks.
