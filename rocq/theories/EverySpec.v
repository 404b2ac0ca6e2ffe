(** * Specification: what gc-csp and gc-cycle do with every command line

    [QuerySpec] describes command lines whose values are all well formed and
    that avoid the two options that do not do what they say.  Here every
    command line is described. *)
From Coq Require Import List NArith ZArith.
From Verif Require Import Spec Path Text FormatSpec CliSpec Query QuerySpec ConstraintSpec.
Import ListNotations.
Open Scope N_scope.

(** An option whose value denotes nothing is as good as absent. *)
Definition understood {A B} (denotes : A -> B -> Prop) (o : option A) (r : option B) : Prop :=
  match o with
  | None => r = None
  | Some a => (exists b, denotes a b /\ r = Some b) \/ ((forall b, ~ denotes a b) /\ r = None)
  end.
Definition bounds_understood (b : bound_args) (r : bounds) : Prop :=
  understood id_argument (b_min_length b) (r_min_length r) /\
  understood id_argument (b_max_length b) (r_max_length r) /\
  understood id_argument (b_exact_length b) (r_exact_length r) /\
  understood int_argument (b_min_score b) (r_min_score r) /\
  understood int_argument (b_max_score b) (r_max_score r) /\
  understood int_argument (b_exact_score b) (r_exact_score r).
Definition csp_understood (a : csp_args) (r : csp_request) : Prop :=
  understood id_arguments (q_include a) (r_include r) /\
  understood id_arguments (q_exclude a) (r_exclude r) /\
  understood id_arguments (q_ordered a) (r_ordered r) /\
  q_include_cycle a = r_include_cycle r /\ q_no_cycle a = r_no_cycle r /\
  bounds_understood (q_bounds a) (r_bounds r).
Definition cycle_understood (a : cycle_args) (r : cycle_request) : Prop :=
  understood id_arguments (c_include a) (k_include r) /\
  understood id_arguments (c_exclude a) (k_exclude r) /\
  understood edge_arguments (c_include_edges a) (k_include_edges r) /\
  understood edge_arguments (c_exclude_edges a) (k_exclude_edges r) /\
  bounds_understood (c_bounds a) (k_bounds r).

(** The bounds as they are applied: both bounds on the score are lower bounds. *)
Definition bounds_applied (r : bounds) (len : N) (score : Z) : Prop :=
  (forall n, r_min_length r = Some n -> n <= len) /\
  (forall n, r_max_length r = Some n -> len <= n) /\
  (forall n, r_exact_length r = Some n -> len = n) /\
  (forall z, r_min_score r = Some z -> (z <= score)%Z) /\
  (forall z, r_max_score r = Some z -> (z <= score)%Z) /\
  (forall z, r_exact_score r = Some z -> score = z).
(** Vertices listed twice in --ordered count where they are listed last. *)
Definition in_order (l : list N) (p : list N) : Prop :=
  forall x y i j, last_position l x i -> last_position l y j -> (i < j)%nat -> ~ before y x p.
Definition obeys (r : csp_request) (p : list N) : Prop :=
  (forall l v, r_include r = Some l -> In v l -> In v p) /\
  (forall l v, r_exclude r = Some l -> In v l -> ~ In v p) /\
  (forall l, r_ordered r = Some l -> in_order l p) /\
  (r_include_cycle r = true -> ~ NoDup p) /\
  (r_no_cycle r = true -> NoDup p) /\
  bounds_applied (r_bounds r) (N.of_nat (length p)) (Z.of_nat (hops p)).
Definition cycle_obeys (r : cycle_request) (c : list N) : Prop :=
  (forall l v, k_include r = Some l -> In v l -> In v c) /\
  (forall l v, k_exclude r = Some l -> In v l -> ~ In v c) /\
  (forall l a b, k_include_edges r = Some l -> In (a, b) l -> adjacent a b c) /\
  (forall l a b, k_exclude_edges r = Some l -> In (a, b) l -> ~ adjacent a b c) /\
  bounds_applied (k_bounds r) (N.of_nat (length c)) (Z.of_nat (length c)).

(** The constraints listed before the answer. *)
Definition applied (r : csp_request) : list constraint :=
  when (r_include r) (map ContainsVertex) ++
  when (r_exclude r) (map (fun v => CNot (ContainsVertex v))) ++
  when (r_ordered r) (fun vs => [OrderedVertices vs]) ++
  (if r_include_cycle r then [ContainsCycle] else []) ++
  (if r_no_cycle r then [CNot ContainsCycle] else []) ++
  when (r_min_length (r_bounds r)) (fun n => [MinLength (N.to_nat n)]) ++
  when (r_max_length (r_bounds r)) (fun n => [MaxLength (N.to_nat n)]) ++
  when (r_exact_length (r_bounds r)) (fun n => [MinLength (N.to_nat n); MaxLength (N.to_nat n)]) ++
  when (r_min_score (r_bounds r)) (fun z => [MinScore z]) ++
  when (r_max_score (r_bounds r)) (fun z => [MinScore z]) ++
  when (r_exact_score (r_bounds r)) (fun z => [MinScore z; MaxScore z]).

(** The walks the search may try: past the start vertex, the options that forbid
    something restrict them.  A bound from below restricts nothing. *)
Definition explored (E : rel) (r : csp_request) (x : N) (p : list N) : Prop :=
  walk_from E x p /\ ((2 <= length p)%nat ->
    (forall l v, r_exclude r = Some l -> In v l -> ~ In v p) /\
    (forall l, r_ordered r = Some l -> in_order l p) /\
    (r_no_cycle r = true -> NoDup p) /\
    (forall n, r_max_length (r_bounds r) = Some n \/ r_exact_length (r_bounds r) = Some n -> N.of_nat (length p) <= n) /\
    (forall z, r_exact_score (r_bounds r) = Some z -> (Z.of_nat (hops p) <= z)%Z)).
