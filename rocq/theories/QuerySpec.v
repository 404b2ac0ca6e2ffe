(** * Specification of the options and outputs of the query tools *)
From Coq Require Import String.
From Coq Require Import List NArith ZArith.
From Verif Require Import Spec Path Text FormatSpec CliSpec Query.
Import ListNotations.
Open Scope N_scope.

(** A signed number given on the command line. *)
Definition int_argument (s : text) (z : Z) : Prop :=
  (- 9223372036854775808 <= z <= 9223372036854775807)%Z /\
  exists d, run ascii09 d /\
    ((s = d \/ s = [43] ++ d) /\ z = Z.of_N (decimal d) \/
     s = [45] ++ d /\ z = (- Z.of_N (decimal d))%Z).

(** ** Requests: the values the options denote *)
(** An option is absent, or its value denotes something. *)
Definition given {A B} (denotes : A -> B -> Prop) (o : option A) (r : option B) : Prop :=
  match o, r with
  | None, None => True
  | Some a, Some b => denotes a b
  | _, _ => False
  end.

Record bounds := {
  r_min_length : option N; r_max_length : option N; r_exact_length : option N;
  r_min_score : option Z; r_max_score : option Z; r_exact_score : option Z
}.
Definition bounds_given (b : bound_args) (r : bounds) : Prop :=
  given id_argument (b_min_length b) (r_min_length r) /\
  given id_argument (b_max_length b) (r_max_length r) /\
  given id_argument (b_exact_length b) (r_exact_length r) /\
  given int_argument (b_min_score b) (r_min_score r) /\
  given int_argument (b_max_score b) (r_max_score r) /\
  given int_argument (b_exact_score b) (r_exact_score r).
(** What the options on lengths and scores ask for. *)
Definition within (r : bounds) (len : N) (score : Z) : Prop :=
  (forall n, r_min_length r = Some n -> n <= len) /\
  (forall n, r_max_length r = Some n -> len <= n) /\
  (forall n, r_exact_length r = Some n -> len = n) /\
  (forall z, r_min_score r = Some z -> (z <= score)%Z) /\
  (forall z, r_max_score r = Some z -> (score <= z)%Z) /\
  (forall z, r_exact_score r = Some z -> score = z).

Record csp_request := {
  r_include : option (list N); r_exclude : option (list N); r_ordered : option (list N);
  r_include_cycle : bool; r_no_cycle : bool;
  r_bounds : bounds
}.
Definition csp_given (a : csp_args) (r : csp_request) : Prop :=
  given id_arguments (q_include a) (r_include r) /\
  given id_arguments (q_exclude a) (r_exclude r) /\
  given id_arguments (q_ordered a) (r_ordered r) /\
  q_include_cycle a = r_include_cycle r /\ q_no_cycle a = r_no_cycle r /\
  bounds_given (q_bounds a) (r_bounds r).
(** What the options of gc-csp ask of a path; its length is its number of
    vertices, its score its number of edges. *)
Definition meets (r : csp_request) (p : list N) : Prop :=
  (forall l v, r_include r = Some l -> In v l -> In v p) /\
  (forall l v, r_exclude r = Some l -> In v l -> ~ In v p) /\
  (forall l x y, r_ordered r = Some l -> before x y l -> ~ before y x p) /\
  (r_include_cycle r = true -> ~ NoDup p) /\
  (r_no_cycle r = true -> NoDup p) /\
  within (r_bounds r) (N.of_nat (length p)) (Z.of_nat (hops p)).
(** Without the two options that do not do what they say (C36, C33). *)
Definition usual (r : csp_request) : Prop :=
  r_max_score (r_bounds r) = None /\ forall l, r_ordered r = Some l -> NoDup l.

(** An edge list given on the command line. *)
Definition edge_arguments (vs : list text) (es : list (N * N)) : Prop := id_arguments vs (flat es).
Record cycle_request := {
  k_include : option (list N); k_exclude : option (list N);
  k_include_edges : option (list (N * N)); k_exclude_edges : option (list (N * N));
  k_bounds : bounds
}.
Definition cycle_given (a : cycle_args) (r : cycle_request) : Prop :=
  given id_arguments (c_include a) (k_include r) /\
  given id_arguments (c_exclude a) (k_exclude r) /\
  given edge_arguments (c_include_edges a) (k_include_edges r) /\
  given edge_arguments (c_exclude_edges a) (k_exclude_edges r) /\
  bounds_given (c_bounds a) (k_bounds r).
(** What the options of gc-cycle ask of a cycle; its length and score are its
    number of vertices.  The edges considered are those between listed
    neighbours: the closing edge is overlooked (C70). *)
Definition cycle_meets (r : cycle_request) (c : list N) : Prop :=
  (forall l v, k_include r = Some l -> In v l -> In v c) /\
  (forall l v, k_exclude r = Some l -> In v l -> ~ In v c) /\
  (forall l a b, k_include_edges r = Some l -> In (a, b) l -> adjacent a b c) /\
  (forall l a b, k_exclude_edges r = Some l -> In (a, b) l -> ~ adjacent a b c) /\
  within (k_bounds r) (N.of_nat (length c)) (Z.of_nat (length c)).

(** The actions of gc-cycle; clap accepts exactly one of them. *)
Inductive action := Girth | Hamiltonian | Count | Shortest | Longest | Head | Take (n : text) | All.
Definition asks (a : cycle_args) (x : action) : Prop :=
  (c_girth a, c_hamiltonian a, c_count a, c_shortest a, c_longest a, c_head a, c_take_n a, c_all a) =
  match x with
  | Girth => (true, false, false, false, false, false, None, false)
  | Hamiltonian => (false, true, false, false, false, false, None, false)
  | Count => (false, false, true, false, false, false, None, false)
  | Shortest => (false, false, false, true, false, false, None, false)
  | Longest => (false, false, false, false, true, false, None, false)
  | Head => (false, false, false, false, false, true, None, false)
  | Take n => (false, false, false, false, false, false, Some n, false)
  | All => (false, false, false, false, false, false, None, true)
  end.

(** ** Output *)
(** One number per line. *)
Definition listed (vs : list N) (ls : list text) : Prop := Forall2 (fun v l => canonical_numeral l v) vs ls.
(** A vector as Rust prints it. *)
Inductive vec_body : list N -> text -> Prop :=
| vb_nil : vec_body [] []
| vb_one v d : canonical_numeral d v -> vec_body [v] d
| vb_more v d w vs t : canonical_numeral d v -> vec_body (w :: vs) t ->
    vec_body (v :: w :: vs) (d ++ [44; 32] ++ t).
Definition vec_text (vs : list N) (t : text) : Prop := exists b, vec_body vs b /\ t = [91] ++ b ++ [93].
(** Numbers each followed by a space. *)
Inductive spaced : list N -> text -> Prop :=
| sp_nil : spaced [] []
| sp_cons v d vs t : canonical_numeral d v -> spaced vs t -> spaced (v :: vs) (d ++ [32] ++ t).

(** ** The listing of constraints *)
Definition int_text (z : Z) (t : text) : Prop :=
  (0 <= z)%Z /\ canonical_numeral t (Z.to_N z) \/
  (z < 0)%Z /\ exists d, canonical_numeral d (Z.to_N (- z)) /\ t = [45] ++ d.
Inductive ids_text : list N -> text -> Prop :=
| it_nil : ids_text [] []
| it_one v d : canonical_numeral d v -> ids_text [v] (txt "VertexId(" ++ d ++ txt ")")
| it_more v d w vs t : canonical_numeral d v -> ids_text (w :: vs) t ->
    ids_text (v :: w :: vs) (txt "VertexId(" ++ d ++ txt "), " ++ t).
(** A constraint as it is printed. *)
Inductive printed : constraint -> text -> Prop :=
| pr_vertex v d : canonical_numeral d v -> printed (ContainsVertex v) (txt "ContainsVertex(VertexId(" ++ d ++ txt "))")
| pr_edge a b d e : canonical_numeral d a -> canonical_numeral e b ->
    printed (ContainsEdge (a, b)) (txt "ContainsEdge(Edge(VertexId(" ++ d ++ txt "), VertexId(" ++ e ++ txt ")))")
| pr_ordered vs t : ids_text vs t -> printed (OrderedVertices vs) (txt "OrderedVertices([" ++ t ++ txt "])")
| pr_cycle : printed ContainsCycle (txt "ContainsCycle")
| pr_min_length n d : canonical_numeral d (N.of_nat n) -> printed (MinLength n) (txt "MinLength(" ++ d ++ txt ")")
| pr_max_length n d : canonical_numeral d (N.of_nat n) -> printed (MaxLength n) (txt "MaxLength(" ++ d ++ txt ")")
| pr_min_score z d : int_text z d -> printed (MinScore z) (txt "MinScore(" ++ d ++ txt ")")
| pr_max_score z d : int_text z d -> printed (MaxScore z) (txt "MaxScore(" ++ d ++ txt ")")
| pr_or a b t u : printed a t -> printed b u -> printed (COr a b) (txt "Or(" ++ t ++ txt ", " ++ u ++ txt ")")
| pr_xor a b t u : printed a t -> printed b u -> printed (CXor a b) (txt "Xor(" ++ t ++ txt ", " ++ u ++ txt ")")
| pr_and a b t u : printed a t -> printed b u -> printed (CAnd a b) (txt "And(" ++ t ++ txt ", " ++ u ++ txt ")")
| pr_not a t : printed a t -> printed (CNot a) (txt "Not(" ++ t ++ txt ")").

(** The constraints a request to gc-csp stands for, in the order of the listing. *)
Definition when {A B} (o : option A) (f : A -> list B) : list B := match o with Some a => f a | None => [] end.
Definition requested (r : csp_request) : list constraint :=
  when (r_include r) (map ContainsVertex) ++
  when (r_exclude r) (map (fun v => CNot (ContainsVertex v))) ++
  when (r_ordered r) (fun vs => [OrderedVertices vs]) ++
  (if r_include_cycle r then [ContainsCycle] else []) ++
  (if r_no_cycle r then [CNot ContainsCycle] else []) ++
  when (r_min_length (r_bounds r)) (fun n => [MinLength (N.to_nat n)]) ++
  when (r_max_length (r_bounds r)) (fun n => [MaxLength (N.to_nat n)]) ++
  when (r_exact_length (r_bounds r)) (fun n => [MinLength (N.to_nat n); MaxLength (N.to_nat n)]) ++
  when (r_min_score (r_bounds r)) (fun z => [MinScore z]) ++
  when (r_max_score (r_bounds r)) (fun z => [MaxScore z]) ++
  when (r_exact_score (r_bounds r)) (fun z => [MinScore z; MaxScore z]).
