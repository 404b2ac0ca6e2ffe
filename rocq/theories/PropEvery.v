(** * Property C160: gc-csp and gc-cycle on every command line *)
From Coq Require Import String.
From Coq Require Import List NArith ZArith Bool Arith Lia Permutation.
From Verif Require Import Spec Base WalkFacts Graph GraphSpec GraphFacts Path ConstraintSpec PathFacts PropPath
  Queue Heap Iter IterFacts TreeFacts SearchFacts BestFacts ConstrainedFacts PropSearch Topo TopoFacts PropTopo
  Cycle CycleSpec CycleFacts PropCycle
  Text Format FormatSpec TextFacts FormatFacts Store StoreSpec StoreFacts CrashFacts PropFormat PropStore
  Cli CliSpec CliFacts Query QuerySpec QueryFacts EverySpec PropQuery.
Import ListNotations.
Open Scope N_scope.

(** ** Dropping what is not understood *)
Lemma understood_given {A B} (denotes : A -> B -> Prop) o r : understood denotes o r ->
  exists o', dropped denotes o o' /\ given denotes o' r.
Proof.
  destruct o as [a|]; cbn.
  - intros [(b & H & ->)|[H ->]].
    + exists (Some a). split; [now left|exact H].
    + exists None. split; [|exact I]. right. split; [reflexivity|]. intros a' [= <-]. exact H.
  - intros ->. exists None. split; [now left|exact I].
Qed.
Lemma bounds_understood_given b r : bounds_understood b r -> exists b', bounds_dropped b b' /\ bounds_given b' r.
Proof.
  intros (H1 & H2 & H3 & H4 & H5 & H6).
  apply understood_given in H1, H2, H3, H4, H5, H6.
  destruct H1 as (o1 & D1 & G1), H2 as (o2 & D2 & G2), H3 as (o3 & D3 & G3), H4 as (o4 & D4 & G4),
    H5 as (o5 & D5 & G5), H6 as (o6 & D6 & G6).
  exists {| b_min_length := o1; b_max_length := o2; b_exact_length := o3; b_min_score := o4; b_max_score := o5; b_exact_score := o6 |}.
  unfold bounds_dropped, bounds_given. cbn. tauto.
Qed.
Lemma csp_understood_given a r : csp_understood a r -> exists a', csp_dropped a a' /\ csp_given a' r.
Proof.
  intros (H1 & H2 & H3 & H4 & H5 & H6). apply understood_given in H1, H2, H3. apply bounds_understood_given in H6.
  destruct H1 as (o1 & D1 & G1), H2 as (o2 & D2 & G2), H3 as (o3 & D3 & G3), H6 as (b & D6 & G6).
  exists {| q_include := o1; q_exclude := o2; q_ordered := o3; q_include_cycle := q_include_cycle a;
            q_no_cycle := q_no_cycle a; q_bounds := b |}.
  unfold csp_dropped, csp_given. cbn. tauto.
Qed.
Lemma cycle_understood_given a r : cycle_understood a r -> exists a', cycle_dropped a a' /\ cycle_given a' r /\
  forall x, asks a x -> asks a' x.
Proof.
  intros (H1 & H2 & H3 & H4 & H5). apply understood_given in H1, H2, H3, H4. apply bounds_understood_given in H5.
  destruct H1 as (o1 & D1 & G1), H2 as (o2 & D2 & G2), H3 as (o3 & D3 & G3), H4 as (o4 & D4 & G4), H5 as (b & D5 & G5).
  exists {| c_girth := c_girth a; c_hamiltonian := c_hamiltonian a; c_count := c_count a; c_shortest := c_shortest a;
            c_longest := c_longest a; c_head := c_head a; c_take_n := c_take_n a; c_all := c_all a;
            c_include := o1; c_exclude := o2; c_include_edges := o3; c_exclude_edges := o4; c_bounds := b |}.
  split; [|split].
  - unfold cycle_dropped. cbn. split; [reflexivity|]. split; [now left|]. tauto.
  - unfold cycle_given. cbn. tauto.
  - intros x H. exact H.
Qed.

Lemma given_understood {A B} (denotes : A -> B -> Prop) o r : given denotes o r -> understood denotes o r.
Proof. destruct o as [a|], r as [b|]; cbn; try contradiction; [|reflexivity]. intro H. left. now exists b. Qed.
Lemma bounds_given_understood b r : bounds_given b r -> bounds_understood b r.
Proof. intros (H1 & H2 & H3 & H4 & H5 & H6). apply given_understood in H1, H2, H3, H4, H5, H6. unfold bounds_understood. tauto. Qed.
Lemma csp_given_understood a r : csp_given a r -> csp_understood a r.
Proof.
  intros (H1 & H2 & H3 & H4 & H5 & H6). apply given_understood in H1, H2, H3. apply bounds_given_understood in H6. unfold csp_understood. tauto.
Qed.
Lemma cycle_given_understood a r : cycle_given a r -> cycle_understood a r.
Proof.
  intros (H1 & H2 & H3 & H4 & H5). apply given_understood in H1, H2, H3, H4. apply bounds_given_understood in H5. unfold cycle_understood. tauto.
Qed.

(** ** What the constraints built mean *)
Lemma in_order_holds l p z : ConstraintSpec.holds (build_ordered l) p z <-> in_order l p.
Proof.
  cbn [build_ordered ConstraintSpec.holds]. unfold in_order. split.
  - intros H x y i j Hx Hy Hij Hb. specialize (H y x j i Hb Hy Hx). lia.
  - intros H x y i j Hb Hx Hy. destruct (le_lt_dec i j) as [K|K]; [assumption|]. exfalso. exact (H y x j i Hy Hx K Hb).
Qed.
Lemma bounds_applied_spec b r p f : bounds_given b r ->
  (sat (bound_constraints b) p f <-> bounds_applied r (N.of_nat (length p)) f).
Proof.
  intros (G1 & G2 & G3 & G4 & G5 & G6). unfold bound_constraints, opt_one, bounds_applied.
  assert (Hi : forall a c, int_argument a c -> parse_i64 a = Some c) by (intros; now apply parse_i64_spec).
  rewrite !sat_app.
  rewrite (sat_opt _ _ parse_usize id_argument N.to_nat _ p f parse_usize_given G1).
  rewrite (sat_opt _ _ parse_usize id_argument N.to_nat _ p f parse_usize_given G2).
  rewrite (sat_opt _ _ parse_usize id_argument N.to_nat _ p f parse_usize_given G3).
  rewrite (sat_opt _ _ parse_i64 int_argument (fun z => z) _ p f Hi G4).
  rewrite (sat_opt _ _ parse_i64 int_argument (fun z => z) _ p f Hi G5).
  rewrite (sat_opt _ _ parse_i64 int_argument (fun z => z) _ p f Hi G6).
  pose proof (C79_builders p f) as HB.
  destruct HB as (_ & _ & _ & _ & _ & _ & _ & B1 & B2 & B3 & B4 & B5).
  assert (B6 : forall z, ConstraintSpec.holds (build_max_score z) p f <-> (z <= f)%Z) by (intro z; reflexivity).
  split.
  - intros (H1 & H2 & H3 & H4 & H5 & H6). repeat split.
    + intros n Hn. specialize (H1 n Hn). rewrite sat_one, B1 in H1. lia.
    + intros n Hn. specialize (H2 n Hn). rewrite sat_one, B2 in H2. lia.
    + intros n Hn. specialize (H3 n Hn). unfold sat in H3. rewrite B3 in H3. lia.
    + intros n Hn. specialize (H4 n Hn). now rewrite sat_one, B4 in H4.
    + intros n Hn. specialize (H5 n Hn). now rewrite sat_one, B6 in H5.
    + intros n Hn. specialize (H6 n Hn). unfold sat in H6. now rewrite B5 in H6.
  - intros (H1 & H2 & H3 & H4 & H5 & H6). repeat split.
    + intros n Hn. specialize (H1 n Hn). rewrite sat_one, B1. lia.
    + intros n Hn. specialize (H2 n Hn). rewrite sat_one, B2. lia.
    + intros n Hn. specialize (H3 n Hn). unfold sat. rewrite B3. lia.
    + intros n Hn. specialize (H4 n Hn). now rewrite sat_one, B4.
    + intros n Hn. specialize (H5 n Hn). now rewrite sat_one, B6.
    + intros n Hn. specialize (H6 n Hn). unfold sat. now rewrite B5.
Qed.
Lemma csp_applied_spec a r p : csp_given a r ->
  (sat (csp_constraints a) p (Z.of_nat (hops p)) <-> obeys r p).
Proof.
  intros (G1 & G2 & G3 & G4 & G5 & G6). unfold csp_constraints, obeys, opt_one. rewrite !sat_app.
  rewrite (sat_opt _ _ parse_vertex_id_list id_arguments (fun l => l) _ p _ parse_list_given G1).
  rewrite (sat_opt _ _ parse_vertex_id_list id_arguments (fun l => l) _ p _ parse_list_given G2).
  rewrite (sat_opt _ _ parse_vertex_id_list id_arguments (fun l => l) _ p _ parse_list_given G3).
  rewrite !sat_flag, G4, G5. rewrite (bounds_applied_spec _ _ _ _ G6).
  destruct (C79_builders p (Z.of_nat (hops p))) as (B1 & B2 & _ & _ & _ & B4 & B5 & _).
  rewrite B4, B5. split.
  - intros (H1 & H2 & H3 & H4 & H5 & H6). split; [|split; [|split; [|split; [|split]]]]; try assumption.
    + intros l v Hl Hv. specialize (H1 l Hl). unfold sat in H1. rewrite B1 in H1. now apply H1.
    + intros l v Hl Hv. specialize (H2 l Hl). unfold sat in H2. rewrite B2 in H2. now apply H2.
    + intros l Hl. specialize (H3 l Hl). now rewrite sat_one, in_order_holds in H3.
  - intros (H1 & H2 & H3 & H4 & H5 & H6). split; [|split; [|split; [|split; [|split]]]]; try assumption.
    + intros l Hl. unfold sat. rewrite B1. intros v Hv. eapply H1; eassumption.
    + intros l Hl. unfold sat. rewrite B2. intros v Hv. eapply H2; eassumption.
    + intros l Hl. rewrite sat_one, in_order_holds. now apply H3.
Qed.
Lemma cycle_applied_spec a r c : cycle_given a r ->
  (sat (cycle_constraints a) c (Z.of_nat (length c)) <-> cycle_obeys r c).
Proof.
  intros (G1 & G2 & G3 & G4 & G5). unfold cycle_constraints, cycle_obeys. rewrite !sat_app.
  rewrite (sat_opt _ _ parse_vertex_id_list id_arguments (fun l => l) _ c _ parse_list_given G1).
  rewrite (sat_opt _ _ parse_vertex_id_list id_arguments (fun l => l) _ c _ parse_list_given G2).
  rewrite (sat_opt _ _ edge_list edge_arguments (fun l => l) _ c _ edge_list_given G3).
  rewrite (sat_opt _ _ edge_list edge_arguments (fun l => l) _ c _ edge_list_given G4).
  rewrite (bounds_applied_spec _ _ _ _ G5).
  destruct (C79_builders c (Z.of_nat (length c))) as (B1 & B2 & B3 & B4 & _).
  split.
  - intros (H1 & H2 & H3 & H4 & H5). split; [|split; [|split; [|split]]]; try assumption.
    + intros l v Hl Hv. specialize (H1 l Hl). unfold sat in H1. rewrite B1 in H1. now apply H1.
    + intros l v Hl Hv. specialize (H2 l Hl). unfold sat in H2. rewrite B2 in H2. now apply H2.
    + intros l x y Hl Hv. specialize (H3 l Hl). unfold sat in H3. rewrite B3 in H3. now apply H3.
    + intros l x y Hl Hv. specialize (H4 l Hl). unfold sat in H4. rewrite B4 in H4. now apply H4.
  - intros (H1 & H2 & H3 & H4 & H5). split; [|split; [|split; [|split]]]; try assumption.
    + intros l Hl. unfold sat. rewrite B1. intros v Hv. eapply H1; eassumption.
    + intros l Hl. unfold sat. rewrite B2. intros v Hv. eapply H2; eassumption.
    + intros l Hl. unfold sat. rewrite B3. intros x y Hv. eapply H3; eassumption.
    + intros l Hl. unfold sat. rewrite B4. intros x y Hv. eapply H4; eassumption.
Qed.
Lemma csp_constraints_applied a r : csp_given a r -> csp_constraints a = applied r.
Proof.
  intros (G1 & G2 & G3 & G4 & G5 & (B1 & B2 & B3 & B4 & B5 & B6)).
  assert (Hi : forall t z, int_argument t z -> parse_i64 t = Some z) by (intros t z H; now apply parse_i64_spec).
  unfold csp_constraints, applied, bound_constraints, opt_one.
  rewrite (opt_list_given _ _ _ _ id_arguments (fun l => l) _ _ _ parse_list_given G1).
  rewrite (opt_list_given _ _ _ _ id_arguments (fun l => l) _ _ _ parse_list_given G2).
  rewrite (opt_list_given _ _ _ _ id_arguments (fun l => l) _ _ _ parse_list_given G3).
  rewrite (opt_list_given _ _ _ _ id_argument N.to_nat _ _ _ parse_usize_given B1).
  rewrite (opt_list_given _ _ _ _ id_argument N.to_nat _ _ _ parse_usize_given B2).
  rewrite (opt_list_given _ _ _ _ id_argument N.to_nat _ _ _ parse_usize_given B3).
  rewrite (opt_list_given _ _ _ _ int_argument (fun z => z) _ _ _ Hi B4).
  rewrite (opt_list_given _ _ _ _ int_argument (fun z => z) _ _ _ Hi B5).
  rewrite (opt_list_given _ _ _ _ int_argument (fun z => z) _ _ _ Hi B6).
  rewrite G4, G5. reflexivity.
Qed.

Lemma csp_constraints_understood a r : csp_understood a r -> csp_constraints a = applied r.
Proof.
  intro H. destruct (csp_understood_given a r H) as (a' & (H1 & H2 & H3 & H4 & H5 & H6) & G).
  rewrite <- (csp_constraints_applied a' r G). unfold csp_constraints, opt_one. rewrite H4, H5, (bounds_dropped_same _ _ H6).
  assert (Hi : forall a z, parse_vertex_id_list a = Some z -> id_arguments a z) by (intros; now apply parse_list_spec).
  now rewrite (opt_dropped _ _ _ _ _ Hi H1), (opt_dropped _ _ _ _ _ Hi H2), (opt_dropped _ _ _ _ _ Hi H3).
Qed.

(** ** C160 *)
(** Every command line is understood in exactly one way. *)
Lemma understood_one {A B C} (denotes : A -> B -> Prop) (parse : A -> option C) (back : C -> B) o :
  (forall a b b', denotes a b -> denotes a b' -> b = b') ->
  (forall a c, parse a = Some c -> denotes a (back c)) -> (forall a b, denotes a b -> parse a <> None) ->
  (exists r, understood denotes o r) /\ forall r r', understood denotes o r -> understood denotes o r' -> r = r'.
Proof.
  intros Hf Hp Hn. destruct o as [a|]; cbn.
  - split.
    + destruct (parse a) as [c|] eqn:E.
      * exists (Some (back c)). left. exists (back c). split; [now apply Hp|reflexivity].
      * exists None. right. split; [|reflexivity]. intros b Hb. exact (Hn a b Hb E).
    + intros r r' [(b & H & ->)|[H ->]] [(b' & H' & ->)|[H' ->]]; try reflexivity.
      * f_equal. exact (Hf a b b' H H').
      * exfalso. exact (H' b H).
      * exfalso. exact (H b' H').
  - split; [now exists None|]. intros r r' -> ->. reflexivity.
Qed.
Lemma id_one o : (exists r, understood id_argument o r) /\ forall r r', understood id_argument o r -> understood id_argument o r' -> r = r'.
Proof.
  apply (understood_one _ parse_u64 (fun n => n)).
  - intros a b b' H H'. apply parse_id_spec in H, H'. congruence.
  - intros a c H. now apply parse_id_spec.
  - intros a b H. apply parse_id_spec in H. congruence.
Qed.
Lemma ids_one o : (exists r, understood id_arguments o r) /\ forall r r', understood id_arguments o r -> understood id_arguments o r' -> r = r'.
Proof.
  apply (understood_one _ parse_vertex_id_list (fun n => n)).
  - intros a b b' H H'. apply parse_list_spec in H, H'. congruence.
  - intros a c H. now apply parse_list_spec.
  - intros a b H. apply parse_list_spec in H. congruence.
Qed.
Lemma int_one o : (exists r, understood int_argument o r) /\ forall r r', understood int_argument o r -> understood int_argument o r' -> r = r'.
Proof.
  apply (understood_one _ parse_i64 (fun n => n)).
  - intros a b b' H H'. apply parse_i64_spec in H, H'. congruence.
  - intros a c H. now apply parse_i64_spec.
  - intros a b H. apply parse_i64_spec in H. congruence.
Qed.
Lemma edges_one o : (exists r, understood edge_arguments o r) /\ forall r r', understood edge_arguments o r -> understood edge_arguments o r' -> r = r'.
Proof.
  apply (understood_one _ edge_list (fun n => n)).
  - intros a b b' H H'. apply edge_list_given in H, H'. congruence.
  - intros a c H. now apply edge_list_denotes.
  - intros a b H. apply edge_list_given in H. congruence.
Qed.
Lemma bounds_one b : (exists r, bounds_understood b r) /\ forall r r', bounds_understood b r -> bounds_understood b r' -> r = r'.
Proof.
  destruct (id_one (b_min_length b)) as [[r1 E1] U1], (id_one (b_max_length b)) as [[r2 E2] U2],
    (id_one (b_exact_length b)) as [[r3 E3] U3], (int_one (b_min_score b)) as [[r4 E4] U4],
    (int_one (b_max_score b)) as [[r5 E5] U5], (int_one (b_exact_score b)) as [[r6 E6] U6].
  split.
  - exists {| r_min_length := r1; r_max_length := r2; r_exact_length := r3; r_min_score := r4; r_max_score := r5; r_exact_score := r6 |}.
    unfold bounds_understood. cbn. tauto.
  - intros [x1 x2 x3 x4 x5 x6] [y1 y2 y3 y4 y5 y6] (H1 & H2 & H3 & H4 & H5 & H6) (K1 & K2 & K3 & K4 & K5 & K6). cbn in *.
    now rewrite (U1 _ _ H1 K1), (U2 _ _ H2 K2), (U3 _ _ H3 K3), (U4 _ _ H4 K4), (U5 _ _ H5 K5), (U6 _ _ H6 K6).
Qed.
Theorem C160_understood : forall a b,
  (exists r, csp_understood a r /\ forall r', csp_understood a r' -> r' = r) /\
  (exists r, cycle_understood b r /\ forall r', cycle_understood b r' -> r' = r).
Proof.
  intros a b. split.
  - destruct (ids_one (q_include a)) as [[r1 E1] U1], (ids_one (q_exclude a)) as [[r2 E2] U2],
      (ids_one (q_ordered a)) as [[r3 E3] U3], (bounds_one (q_bounds a)) as [[r4 E4] U4].
    exists {| r_include := r1; r_exclude := r2; r_ordered := r3; r_include_cycle := q_include_cycle a;
              r_no_cycle := q_no_cycle a; r_bounds := r4 |}.
    split; [unfold csp_understood; cbn; tauto|].
    intros [y1 y2 y3 y4 y5 y6] (K1 & K2 & K3 & K4 & K5 & K6). cbn in *.
    now rewrite (U1 _ _ K1 E1), (U2 _ _ K2 E2), (U3 _ _ K3 E3), (U4 _ _ K6 E4), K4, K5.
  - destruct (ids_one (c_include b)) as [[r1 E1] U1], (ids_one (c_exclude b)) as [[r2 E2] U2],
      (edges_one (c_include_edges b)) as [[r3 E3] U3], (edges_one (c_exclude_edges b)) as [[r4 E4] U4],
      (bounds_one (c_bounds b)) as [[r5 E5] U5].
    exists {| k_include := r1; k_exclude := r2; k_include_edges := r3; k_exclude_edges := r4; k_bounds := r5 |}.
    split; [unfold cycle_understood; cbn; tauto|].
    intros [y1 y2 y3 y4 y5] (K1 & K2 & K3 & K4 & K5). cbn in *.
    now rewrite (U1 _ _ K1 E1), (U2 _ _ K2 E2), (U3 _ _ K3 E3), (U4 _ _ K4 E4), (U5 _ _ K5 E5).
Qed.
Print Assumptions C160_understood.

(** The walks asked for, as the options are applied, and the answer. *)
Definition asked (g : graph) (r : csp_request) (x y : N) (p : list N) : Prop :=
  walk_from_to (gE g) x y p /\ obeys r p.
Definition asked_found (g : graph) (r : csp_request) (x y : N) (answer : list text) : Prop :=
  exists p dx dy n lines, asked g r x y p /\ (forall q, asked g r x y q -> (hops p <= hops q)%nat) /\
    canonical_numeral dx x /\ canonical_numeral dy y /\ canonical_numeral n (N.of_nat (hops p)) /\ listed p lines /\
    answer = (txt "Constrained shortest path from vertex " ++ dx ++ txt " to vertex " ++ dy ++
              txt " with total cost of " ++ n ++ txt ".") :: lines.
Lemma sat_asked g go r x y p opts : same_edges (gE go) (gE g) -> csp_given opts r ->
  asked g r x y p <-> walk_from_to (gE go) x y p /\
    forall c, In c (csp_constraints opts) -> ConstraintSpec.holds c p (one_weighted_edge p + zero_heuristic p)%Z.
Proof.
  intros HE HG. unfold asked. rewrite unit_cost_hops.
  pose proof (csp_applied_spec opts r p HG) as Hs. unfold sat in Hs. rewrite Hs.
  split; intros [H1 H2]; (split; [|exact H2]).
  - now apply (walk_same _ _ _ _ _ (same_edges_sym _ _ HE)).
  - now apply (walk_same _ _ _ _ _ HE).
Qed.
Lemma csp_given_answer : forall opts r, csp_given opts r -> exists ls,
  (* the constraints that were asked for are listed *)
  Forall2 printed (applied r) ls /\
  let header := txt "Constraint that will be applied to search are: " :: ls in
  forall nd order Q s g a b x y, hash_order order -> pops_least Q sp_score ->
  loads nd s g -> id_argument a x -> id_argument b y ->
  (* whatever is printed is right *)
  (forall fuel out, snd (run_prog (gc_csp nd order Q a b opts fuel) s) = Done out ->
     exists answer, out = header ++ answer /\
       (asked_found g r x y answer \/ (forall p, ~ asked g r x y p) /\ csp_none x y answer)) /\
  (* a path is found if there is one *)
  ((exists p, asked g r x y p) ->
     exists answer, asked_found g r x y answer /\ prints (gc_csp nd order Q a b opts) s (header ++ answer)) /\
  (* with a bound on the length, or without cycles in the graph, the program always ends *)
  (bounded_request r \/ acyclic (gE g) -> exists answer, prints (gc_csp nd order Q a b opts) s (header ++ answer)).
Proof.
  intros opts r HG. set (cs := csp_constraints opts).
  exists (map debug_constraint cs). split.
  { rewrite <- (csp_constraints_applied opts r HG). fold cs. clear. induction cs as [|c l IH]; constructor; [apply debug_printed|exact IH]. }
  cbn zeta. set (header := txt "Constraint that will be applied to search are: " :: map debug_constraint cs).
  intros nd order Q s g a b x y O HQ HL Ha Hb.
  destruct (loaded nd order s g O HL) as (_ & Bo & _ & HE).
  set (fnd := fun sp => (txt "Constrained shortest path from vertex " ++ show x ++ txt " to vertex " ++ show y ++
       txt " with total cost of " ++ show_i64 (sp_score sp) ++ txt ".") :: path_lines (sp_path sp)).
  set (non := [txt "Vertex " ++ show y ++ txt " is not reachable from vertex " ++ show x ++ txt " within the given constraints."]).
  assert (Hrun : forall n, snd (run_prog (gc_csp nd order Q a b opts n) s) =
    omap (csp_lines x y cs) (constrained_shortest_path Q (order g) one_weighted_edge zero_heuristic x y cs n)).
  { intro n. exact (f_equal snd (run_ids nd order (fun x y g => omap (csp_lines x y cs)
      (constrained_shortest_path Q g one_weighted_edge zero_heuristic x y cs n)) s g a b x y HL Ha Hb)). }
  assert (Hw : forall p, asked g r x y p <-> walk_from_to (gE (order g)) x y p /\
    forall c, In c cs -> ConstraintSpec.holds c p (one_weighted_edge p + zero_heuristic p)%Z)
    by (intro p; now apply sat_asked).
  assert (Hfnd : forall n sp, constrained_shortest_path Q (order g) one_weighted_edge zero_heuristic x y cs n = Done (Some sp) ->
    asked_found g r x y (fnd sp)).
  { intros n sp H. destruct (C47_constrained_optimal Q _ _ _ _ _ _ _ sp Bo H) as (H1 & H2 & H3 & H4).
    rewrite unit_cost_hops in H2.
    exists (sp_path sp), (show x), (show y), (show (N.of_nat (hops (sp_path sp)))), (path_lines (sp_path sp)).
    split; [now apply Hw|]. split.
    { intros q Hq. apply Hw in Hq. destruct Hq as [Q1 Q2]. specialize (H4 HQ (each_never _ _ _ (unit_each_edge_costs _ _)) q Q1 Q2).
      rewrite unit_cost_hops in H4. rewrite H2 in H4. lia. }
    split; [apply show_spec|]. split; [apply show_spec|]. split; [apply show_spec|]. split; [apply path_lines_listed|].
    unfold fnd. now rewrite H2, show_i64_nat. }
  assert (Hset : (exists p, asked g r x y p) -> exists sp,
    settles (constrained_shortest_path Q (order g) one_weighted_edge zero_heuristic x y cs) (Some sp)).
  { intros [p Hp]. apply Hw in Hp. destruct Hp as [P1 P2].
    now apply (C48_constrained_complete Q (order g) one_weighted_edge zero_heuristic cs x y p Bo HQ (unit_each_edge_costs _ _)). }
  split; [|split].
  - intros fuel out H. rewrite Hrun in H.
    destruct (constrained_shortest_path Q (order g) one_weighted_edge zero_heuristic x y cs fuel) as [[sp|]| |] eqn:E; try discriminate;
      cbn [omap obind] in H; injection H as <-.
    + exists (fnd sp). split; [reflexivity|]. left. now apply (Hfnd fuel).
    + exists non. split; [reflexivity|]. right. split.
      * intros p Hp. destruct (Hset (ex_intro _ p Hp)) as (sp & n0 & Hn).
        specialize (Hn (n0 + fuel)%nat ltac:(lia)).
        pose proof (iter_find_mono _ _ _ _ _ (n0 + fuel)%nat E ltac:(lia)) as E'.
        unfold constrained_shortest_path in Hn. congruence.
      * exists (show x), (show y). split; [apply show_spec|]. split; [apply show_spec|]. reflexivity.
  - intro Hp. destruct (Hset Hp) as (sp & n0 & Hn). exists (fnd sp). split.
    + apply (Hfnd n0), Hn. lia.
    + exists n0. intros n Hl. rewrite Hrun, (Hn n Hl). reflexivity.
  - intro Hbd. assert (Hres : exists res, settles (constrained_shortest_path Q (order g) one_weighted_edge zero_heuristic x y cs) res).
    { destruct Hbd as [Hbd|Hac].
      - destruct (C50_bounded_terminates Q (order g) one_weighted_edge zero_heuristic cs x y Bo (csp_bounded opts r HG Hbd))
          as (res & H & _). eauto.
      - apply (csp_acyclic Q (order g) x y cs (built_wf Bo)). intros l (z & Hl & Hn). apply (Hac l). exists z.
        split; [now apply (walk_same _ _ _ _ _ HE)|assumption]. }
    destruct Hres as (res & n0 & Hn).
    exists (match res with Some sp => fnd sp | None => non end). exists n0. intros n Hl. rewrite Hrun, (Hn n Hl).
    now destruct res.
Qed.
Theorem C160_csp : forall opts r, csp_understood opts r -> exists ls,
  (* the constraints that were asked for are listed *)
  Forall2 printed (applied r) ls /\
  let header := txt "Constraint that will be applied to search are: " :: ls in
  forall nd order Q s g a b x y, hash_order order -> pops_least Q sp_score ->
  loads nd s g -> id_argument a x -> id_argument b y ->
  (* whatever is printed is right *)
  (forall fuel out, snd (run_prog (gc_csp nd order Q a b opts fuel) s) = Done out ->
     exists answer, out = header ++ answer /\
       (asked_found g r x y answer \/ (forall p, ~ asked g r x y p) /\ csp_none x y answer)) /\
  (* a path is found if there is one *)
  ((exists p, asked g r x y p) ->
     exists answer, asked_found g r x y answer /\ prints (gc_csp nd order Q a b opts) s (header ++ answer)) /\
  (* with a bound on the length, or without cycles in the graph, the program always ends *)
  (bounded_request r \/ acyclic (gE g) -> exists answer, prints (gc_csp nd order Q a b opts) s (header ++ answer)).
Proof.
  intros opts r HU. destruct (csp_understood_given opts r HU) as (opts' & D & G).
  destruct (csp_given_answer opts' r G) as (ls & Hls & H). exists ls. split; [exact Hls|]. cbn zeta in *.
  intros nd order Q s g a b x y O HQ HL Ha Hb. specialize (H nd order Q s g a b x y O HQ HL Ha Hb).
  assert (E : forall n, gc_csp nd order Q a b opts n = gc_csp nd order Q a b opts' n) by (intro n; now apply C86_malformed_csp).
  destruct H as (H1 & H2 & H3). split; [|split].
  - intros fuel out. rewrite E. apply H1.
  - intro Hp. destruct (H2 Hp) as (answer & Hf & n0 & Hn). exists answer. split; [exact Hf|]. exists n0. intros n Hl. rewrite E. now apply Hn.
  - intro Hp. destruct (H3 Hp) as (answer & n0 & Hn). exists answer, n0. intros n Hl. rewrite E. now apply Hn.
Qed.
Print Assumptions C160_csp.

Lemma cycle_given_answer : forall nd order s g, hash_order order -> loads nd s g ->
  exists seen, enumerates seen (cycle_seen g (head_option (order g))) /\
  forall a r, cycle_given a r ->
  exists kept, NoDup kept /\ (forall c, In c kept <-> In c seen /\ cycle_obeys r c) /\
    (forall c d, before c d kept -> before c d seen) /\
    forall x, asks a x -> exists lines, prints (gc_cycle nd order a) s lines /\ cycle_output g x seen kept lines.
Proof.
  intros nd order s g O HL. destruct (loaded nd order s g O HL) as (_ & Bo & HV & HE).
  pose proof (same_edges_sym _ _ HE) as HE'.
  destruct (cycle_out (order g) (built_wf Bo)) as (seen & Hruns & Hnd & Hseen). exists seen.
  assert (Hall : forall c, In c seen <-> cycle_seen g (head_option (order g)) c).
  { intro c. rewrite Hseen. unfold cycle_seen, search_start. split.
    - intros (H1 & H2 & u & x & [H3 H4] & H5 & H6). split; [now apply (simple_cycle_same _ _ _ HE)|]. split; [assumption|].
      exists u, x. split; [now apply HV|]. split; [|split; [assumption|now apply (reachable_same _ _ _ _ HE)]].
      destruct H4 as [H4|[H4 H7]]; [left; now apply (source_same _ _ _ HE)|right]. split; [|assumption].
      intros v Hv Hs. apply (H4 v); [now apply HV|now apply (source_same _ _ _ HE')].
    - intros (H1 & H2 & u & x & H3 & H4 & H5 & H6). split; [now apply (simple_cycle_same _ _ _ HE')|]. split; [assumption|].
      exists u, x. split; [split; [now apply HV|]|split; [assumption|now apply (reachable_same _ _ _ _ HE')]].
      destruct H4 as [H4|[H4 H7]]; [left; now apply (source_same _ _ _ HE')|right]. split; [|assumption].
      intros v Hv Hs. apply (H4 v); [now apply HV|now apply (source_same _ _ _ HE)]. }
  split; [split; assumption|]. intros a r HG.
  set (cs := cycle_constraints a). set (kept := filter (fun c => cycle_check c cs) seen).
  exists kept. split; [now apply NoDup_filter|]. split.
  { intro c. unfold kept. rewrite filter_In. unfold cycle_check. rewrite forallb_forall.
    pose proof (cycle_applied_spec a r c HG) as Hs. rewrite <- Hs. unfold sat.
    split; (intros [H1 H2]; split; [assumption|]); intros k Hk; apply check_complete_spec; now apply H2. }
  split; [intros c d; apply filter_before|].
  assert (Hk : runs (accepted_next (order g) cs) (cycle_iter (order g)) kept) by (apply runs_filter; exact Hruns).
  pose proof (runs_collect _ _ _ _ _ Hk) as Hcol. fold (accepted (order g) cs) in Hcol.
  pose proof (runs_collect _ _ _ _ _ Hruns) as Hcolall.
  assert (Hp : forall f out, settles f out -> (forall n, snd (run_prog (gc_cycle nd order a n) s) = f n) ->
    prints (gc_cycle nd order a) s out).
  { intros f out [n0 Hn] Hf. exists n0. intros n Hl. rewrite Hf. now apply Hn. }
  assert (Hrun : forall n, snd (run_prog (gc_cycle nd order a n) s) = _) by
    (intro n; exact (f_equal snd (run_graph nd order _ s g HL))).
  intros x Hx. unfold asks in Hx.
  destruct x; injection Hx as E1 E2 E3 E4 E5 E6 E7 E8; unfold take_count in Hrun;
    cbn [snd] in Hrun; cbv zeta beta in Hrun; rewrite ?E1, ?E2, ?E3, ?E4, ?E5, ?E6, ?E7, ?E8 in Hrun;
    cbv iota in Hrun; cbn [cycle_output].
  - (* girth *)
    eexists. split; [eapply Hp; [|exact Hrun]; apply omap_settles; unfold girth, cycle_take_all; apply omap_settles; exact Hcolall|].
    pose proof (min_by_key_spec _ (fun n => n) (map cycle_len seen)) as Hm.
    destruct (min_by_key (fun n => n) (map cycle_len seen)) as [m|].
    + right. destruct Hm as (p & q & Heq & Hmp & Hmq).
      assert (Hin : In m (map cycle_len seen)) by (rewrite Heq; apply in_or_app; right; now left).
      apply in_map_iff in Hin. destruct Hin as (c & Hc & Hcin). exists c, (show (N.of_nat m)).
      assert (Hmin : forall c', In c' seen -> (length c <= length c')%nat).
      { intros c' Hc'. assert (Hi : In (cycle_len c') (map cycle_len seen)) by now apply in_map.
        rewrite Heq in Hi. apply in_app_iff in Hi. unfold cycle_len in *. rewrite Hc.
        destruct Hi as [Hi|[Hi|Hi]]; [apply Hmp in Hi; lia|lia|now apply Hmq in Hi]. }
      split; [assumption|]. split; [assumption|]. split; [unfold cycle_len in Hc; rewrite Hc; apply show_spec|].
      assert (Hne : m <> 0%nat).
      { intros ->. apply Hall in Hcin. destruct Hcin as [Hcin _]. apply simple_cycle_ne in Hcin. now destruct c. }
      destruct m; [congruence|]. reflexivity.
    + left. split; [now apply map_eq_nil in Hm|reflexivity].
  - (* hamiltonian *)
    destruct (C68_hamiltonian_cycle (order g) Bo) as (res & Hr & H1 & H2).
    eexists. split; [eapply Hp; [|exact Hrun]; apply omap_settles; exact Hr|].
    destruct res as [c|].
    + right. exists c, (format_cycle c). split; [now apply (hamiltonian_cycle_same _ _ _ _ _ HV HE), H1|].
      split; [apply format_cycle_vec|reflexivity].
    + left. split; [|reflexivity]. intros c Hc. apply (H2 eq_refl c). apply (hamiltonian_cycle_same (gV g) _ (gE g)); auto.
      intro v. symmetry. apply HV.
  - (* count *)
    eexists. split; [eapply Hp; [|exact Hrun]; apply omap_settles; exact Hcol|]. eexists. split; [apply show_spec|reflexivity].
  - (* shortest *)
    eexists. split; [eapply Hp; [|exact Hrun]; apply omap_settles; exact Hcol|].
    pose proof (min_by_key_spec _ cycle_len kept) as Hm. destruct (min_by_key cycle_len kept) as [c|].
    + right. destruct Hm as (p & q & H1 & H2 & H3). exists p, c, q, (format_cycle c).
      split; [assumption|]. split; [assumption|]. split; [assumption|]. split; [apply format_cycle_vec|reflexivity].
    + left. split; [assumption|reflexivity].
  - (* longest *)
    eexists. split; [eapply Hp; [|exact Hrun]; apply omap_settles; exact Hcol|].
    pose proof (max_by_key_spec _ cycle_len kept) as Hm. destruct (max_by_key cycle_len kept) as [c|].
    + right. destruct Hm as (p & q & H1 & H2 & H3). exists p, c, q, (format_cycle c).
      split; [assumption|]. split; [assumption|]. split; [assumption|]. split; [apply format_cycle_vec|reflexivity].
    + left. split; [assumption|reflexivity].
  - (* head *)
    eexists. split; [eapply Hp; [|exact Hrun]; apply omap_settles; apply (runs_take _ _ _ 1 _ _ Hk)|]. apply map_format.
  - (* take-n *)
    destruct (parse_u64 n) as [k|] eqn:En.
    + unfold parse_usize in Hrun. rewrite En in Hrun. cbn [option_map] in Hrun.
      eexists. split; [eapply Hp; [|exact Hrun]; apply omap_settles; apply (runs_take _ _ _ (N.to_nat k) _ _ Hk)|].
      left. exists k. split; [now apply parse_id_spec|]. apply map_format.
    + unfold parse_usize in Hrun. rewrite En in Hrun. cbn [option_map] in Hrun.
      exists []. split; [exists 0%nat; intros m _; exact (Hrun m)|]. right. split; [|reflexivity].
      intros k Hk'. apply parse_id_spec in Hk'. congruence.
  - (* all *)
    eexists. split; [eapply Hp; [|exact Hrun]; apply omap_settles; exact Hcol|]. apply map_format.
Qed.
Theorem C160_cycle : forall nd order s g, hash_order order -> loads nd s g ->
  exists seen, enumerates seen (cycle_seen g (head_option (order g))) /\
  forall a r, cycle_understood a r ->
  exists kept, NoDup kept /\ (forall c, In c kept <-> In c seen /\ cycle_obeys r c) /\
    (forall c d, before c d kept -> before c d seen) /\
    forall x, asks a x -> exists lines, prints (gc_cycle nd order a) s lines /\ cycle_output g x seen kept lines.
Proof.
  intros nd order s g O HL. destruct (cycle_given_answer nd order s g O HL) as (seen & Hs & H). exists seen. split; [exact Hs|].
  intros a r HU. destruct (cycle_understood_given a r HU) as (a' & D & G & As).
  destruct (H a' r G) as (kept & K1 & K2 & K3 & K4). exists kept. split; [exact K1|]. split; [exact K2|]. split; [exact K3|].
  intros x Hx. destruct (K4 x (As x Hx)) as (lines & (n0 & Hn) & Ho). exists lines. split; [|exact Ho].
  exists n0. intros n Hl. rewrite (C86_malformed_cycle nd order a a' n D). now apply Hn.
Qed.
Print Assumptions C160_cycle.

Lemma partial_applied opts r p : csp_given opts r ->
  (all (fun c => check_partial c {| sp_path := p; sp_score := Z.of_nat (hops p) |} = true) (csp_constraints opts) <->
    (forall l v, r_exclude r = Some l -> In v l -> ~ In v p) /\
    (forall l, r_ordered r = Some l -> in_order l p) /\
    (r_no_cycle r = true -> NoDup p) /\
    (forall n, r_max_length (r_bounds r) = Some n \/ r_exact_length (r_bounds r) = Some n -> N.of_nat (length p) <= n) /\
    (forall z, r_exact_score (r_bounds r) = Some z -> (Z.of_nat (hops p) <= z)%Z)).
Proof.
  intros (G1 & G2 & G3 & G4 & G5 & B1 & B2 & B3 & B4 & B5 & B6).
  unfold csp_constraints, bound_constraints, opt_one.
  set (P := fun c => check_partial c {| sp_path := p; sp_score := Z.of_nat (hops p) |} = true).
  assert (Hi : forall a c, int_argument a c -> parse_i64 a = Some c) by (intros; now apply parse_i64_spec).
  rewrite !all_app.
  rewrite (all_opt P _ _ parse_vertex_id_list id_arguments (fun l => l) build_include parse_list_given G1).
  rewrite (all_opt P _ _ parse_vertex_id_list id_arguments (fun l => l) build_exclude parse_list_given G2).
  rewrite (all_opt P _ _ parse_vertex_id_list id_arguments (fun l => l) _ parse_list_given G3).
  rewrite (all_opt P _ _ parse_usize id_argument N.to_nat _ parse_usize_given B1).
  rewrite (all_opt P _ _ parse_usize id_argument N.to_nat _ parse_usize_given B2).
  rewrite (all_opt P _ _ parse_usize id_argument N.to_nat build_exact_length parse_usize_given B3).
  rewrite (all_opt P _ _ parse_i64 int_argument (fun z => z) _ Hi B4).
  rewrite (all_opt P _ _ parse_i64 int_argument (fun z => z) _ Hi B5).
  rewrite (all_opt P _ _ parse_i64 int_argument (fun z => z) build_exact_score Hi B6).
  rewrite !all_flag, G4, G5.
  assert (X1 : forall l, all P (build_include l) <-> True).
  { intro l. split; [trivial|]. intros _ c Hc. apply in_map_iff in Hc. destruct Hc as (v & <- & _). reflexivity. }
  assert (X2 : forall l, all P (build_exclude l) <-> forall v, In v l -> ~ In v p).
  { intro l. unfold all, P. split.
    - intros H v Hv Hin. specialize (H (CNot (ContainsVertex v))). cbn [check_partial sp_path] in H.
      rewrite negb_true_iff in H. assert (E : path_contains_vertex p v = true).
      { apply (check_complete_spec (ContainsVertex v) p 0%Z). exact Hin. }
      rewrite E in H. assert (true = false); [|discriminate]. apply H. apply in_map_iff. eauto.
    - intros H c Hc. apply in_map_iff in Hc. destruct Hc as (v & <- & Hv). cbn [check_partial sp_path].
      apply negb_true_iff. destruct (path_contains_vertex p v) eqn:E; [|reflexivity].
      exfalso. apply (H v Hv). apply (check_complete_spec (ContainsVertex v) p 0%Z). exact E. }
  assert (X3 : forall l, P (build_ordered l) <-> in_order l p).
  { intros l. rewrite <- (in_order_holds l p 0%Z). unfold P. cbn [build_ordered check_partial sp_path].
    apply (check_complete_spec (OrderedVertices l) p 0%Z). }
  assert (X4 : P build_no_cycle <-> NoDup p).
  { unfold P, build_no_cycle. cbn [check_partial sp_path]. rewrite negb_true_iff. apply contains_cycle_NoDup. }
  assert (X5 : P build_include_cycle <-> True) by (split; [trivial|reflexivity]).
  rewrite X4, X5. split.
  - intros (_ & H2 & H3 & _ & H5 & _ & H7 & H8 & _ & _ & H11). split; [|split; [|split; [|split]]].
    + intros l v Hl. apply X2. now apply H2.
    + intros l Hl. apply X3. apply all_one. now apply H3.
    + exact H5.
    + intros n [Hn|Hn].
      * specialize (H7 n Hn). rewrite all_one in H7. unfold P in H7. cbn in H7. apply Nat.leb_le in H7. unfold path_size in H7. lia.
      * specialize (H8 n Hn (MaxLength (N.to_nat n)) (or_intror (or_introl eq_refl))). unfold P in H8. cbn in H8.
        apply Nat.leb_le in H8. unfold path_size in H8. lia.
    + intros z Hz. specialize (H11 z Hz (MaxScore z) (or_intror (or_introl eq_refl))). unfold P in H11. cbn in H11.
      now apply Z.leb_le in H11.
  - intros (H1 & H2 & H3 & H4 & H5). repeat split; try (intros; reflexivity).
    + intros l _. now apply X1.
    + intros l Hl. apply X2. intros v Hv. now apply (H1 l).
    + intros l Hl. apply all_one, X3. now apply H2.
    + exact H3.
    + intros n _. apply all_one. reflexivity.
    + intros n Hn. apply all_one. unfold P. cbn. apply Nat.leb_le. unfold path_size. specialize (H4 n (or_introl Hn)). lia.
    + intros n Hn c [<-|[<-|[]]]; [reflexivity|]. unfold P. cbn. apply Nat.leb_le. unfold path_size. specialize (H4 n (or_intror Hn)). lia.
    + intros z _. apply all_one. reflexivity.
    + intros z _. apply all_one. reflexivity.
    + intros z Hz c [<-|[<-|[]]]; [reflexivity|]. unfold P. cbn. apply Z.leb_le. now apply H5.
Qed.

Lemma in_order_app l p q : in_order l (p ++ q) -> in_order l p.
Proof. intros H x y i j Hx Hy Hij Hb. apply (H x y i j Hx Hy Hij). now apply before_app. Qed.
Lemma explored_live opts r g go x p : csp_given opts r -> same_edges (gE go) (gE g) ->
  (explored (gE g) r x p <-> live go (fun p => one_weighted_edge p + zero_heuristic p)%Z (csp_constraints opts) x p).
Proof.
  intros HG HE. unfold explored, live.
  assert (Hw : walk_from (gE g) x p <-> walk_from (gE go) x p).
  { split; intros [H1 H2]; (split; [assumption|]); intros u v Huv; now apply HE, H2. }
  rewrite Hw. split; intros [H1 H2]; (split; [assumption|]).
  - intros p1 v p2 -> Hne. apply forallb_forall.
    pose proof (proj2 (partial_applied opts r (p1 ++ [v]) HG)) as Hp. unfold all in Hp.
    unfold node. rewrite unit_cost_hops. apply Hp.
    replace (p1 ++ v :: p2) with ((p1 ++ [v]) ++ p2) in * by (now rewrite <- app_assoc).
    assert (L2 : (2 <= length (p1 ++ [v]))%nat) by (destruct p1; [congruence|]; rewrite app_length; cbn; lia).
    destruct H2 as (K1 & K2 & K3 & K4 & K5); [rewrite app_length; lia|]. split; [|split; [|split; [|split]]].
    + intros l z Hl Hz Hi. apply (K1 l z Hl Hz). apply in_app_iff. now left.
    + intros l Hl. apply (in_order_app l _ p2). now apply K2.
    + intro Hc. apply K3 in Hc. now apply NoDup_app_iff in Hc.
    + intros n Hn. apply K4 in Hn. rewrite app_length in Hn. lia.
    + intros z Hz. apply K5 in Hz. unfold hops in *. rewrite (app_length (p1 ++ [v])) in Hz. lia.
  - intro L2. apply (partial_applied opts r p HG). destruct p as [|v p _] using rev_ind; [cbn in L2; lia|].
    assert (Hne : p <> []) by (intros ->; cbn in L2; lia).
    specialize (H2 p v [] eq_refl Hne). unfold check_all_partial in H2. rewrite forallb_forall in H2.
    unfold node in H2. rewrite unit_cost_hops in H2. exact H2.
Qed.
Lemma halts_given : forall nd order Q s g opts r a b x y, hash_order order -> pops_least Q sp_score ->
  loads nd s g -> csp_given opts r -> id_argument a x -> id_argument b y ->
  ((exists out, prints (gc_csp nd order Q a b opts) s out) <->
   (exists p, asked g r x y p) \/ (exists L, forall p, explored (gE g) r x p -> (length p <= L)%nat)).
Proof.
  intros nd order Q s g opts r a b x y O HQ HL HG Ha Hb.
  destruct (loaded nd order s g O HL) as (_ & Bo & _ & HE). set (cs := csp_constraints opts).
  set (f := fun p => (one_weighted_edge p + zero_heuristic p)%Z).
  assert (Hrun : forall n, snd (run_prog (gc_csp nd order Q a b opts n) s) =
    omap (csp_lines x y cs) (constrained_shortest_path Q (order g) one_weighted_edge zero_heuristic x y cs n)).
  { intro n. exact (f_equal snd (run_ids nd order (fun x y g => omap (csp_lines x y cs)
      (constrained_shortest_path Q g one_weighted_edge zero_heuristic x y cs n)) s g a b x y HL Ha Hb)). }
  assert (Hw : forall p, asked g r x y p <-> walk_from_to (gE (order g)) x y p /\
    forall c, In c cs -> ConstraintSpec.holds c p (f p)) by (intro p; now apply sat_asked).
  split.
  - intros (out & n & Hn). specialize (Hn n (le_n n)). rewrite Hrun in Hn.
    destruct (constrained_shortest_path Q (order g) one_weighted_edge zero_heuristic x y cs n) as [res| |] eqn:E; try discriminate.
    pose proof (constrained_partial Q (order g) f cs x y (built_wf Bo) n res E) as Hf. destruct res as [sp|].
    + left. apply found_some in Hf; [|exact (built_wf Bo)]. destruct Hf as [(p & _ & H1 & H2) _]. exists p. apply Hw. now split.
    + right. apply ended_bounded in Hf; [|exact (built_wf Bo)]. destruct Hf as [L HLl]. exists L. intros p Hp. apply HLl.
      now apply (explored_live opts r g (order g) x p HG HE).
  - assert (Hset : forall res, settles (constrained_shortest_path Q (order g) one_weighted_edge zero_heuristic x y cs) res ->
      exists out, prints (gc_csp nd order Q a b opts) s out).
    { intros res [n0 Hn]. exists (csp_lines x y cs res). exists n0. intros n Hl. rewrite Hrun, (Hn n Hl). reflexivity. }
    intros [[p Hp]|[L HLl]].
    + apply Hw in Hp. destruct Hp as [P1 P2].
      destruct (C48_constrained_complete Q (order g) one_weighted_edge zero_heuristic cs x y p Bo HQ (unit_each_edge_costs _ _) P1 P2)
        as (sp & Hs). now apply (Hset (Some sp)).
    + destruct (constrained_bounded Q (order g) f cs x y (built_wf Bo) L) as (res & Hs & _).
      * intros p Hp. apply HLl. now apply (explored_live opts r g (order g) x p HG HE).
      * now apply (Hset res).
Qed.
Theorem C160_halts : forall nd order Q s g opts r a b x y, hash_order order -> pops_least Q sp_score ->
  loads nd s g -> csp_understood opts r -> id_argument a x -> id_argument b y ->
  ((exists out, prints (gc_csp nd order Q a b opts) s out) <->
   (exists p, asked g r x y p) \/ (exists L, forall p, explored (gE g) r x p -> (length p <= L)%nat)).
Proof.
  intros nd order Q s g opts r a b x y O HQ HL HU Ha Hb. destruct (csp_understood_given opts r HU) as (opts' & D & G).
  rewrite <- (halts_given nd order Q s g opts' r a b x y O HQ HL G Ha Hb).
  split; intros (out & n0 & Hn); exists out, n0; intros n Hl; specialize (Hn n Hl);
    rewrite (C86_malformed_csp nd order Q a b opts opts' n D) in *; exact Hn.
Qed.
Print Assumptions C160_halts.

(** For requests that avoid the two options, this is what the options say. *)
Theorem C160_usual : forall r, usual r ->
  (forall p, obeys r p <-> meets r p) /\ (forall g x p, explored (gE g) r x p <-> tried g r x p) /\ applied r = requested r.
Proof.
  intros r [U1 U2].
  assert (HO : forall l p, r_ordered r = Some l -> (in_order l p <-> forall x y, before x y l -> ~ before y x p)).
  { intros l p Hl. rewrite <- (in_order_holds l p 0%Z). cbn [build_ordered ConstraintSpec.holds]. now apply ordered_NoDup, U2. }
  assert (HO' : forall p, (forall l, r_ordered r = Some l -> in_order l p) <->
    forall l x y, r_ordered r = Some l -> before x y l -> ~ before y x p).
  { intro p. split.
    - intros H l x y Hl. apply HO; [assumption|]. now apply H.
    - intros H l Hl. apply HO; [assumption|]. intros x y. now apply H. }
  split; [|split].
  - intro p. unfold obeys, meets, bounds_applied, within. rewrite HO', U1. intuition discriminate.
  - intros g x p. unfold explored, tried. now rewrite HO'.
  - unfold applied, requested. now rewrite U1.
Qed.
Print Assumptions C160_usual.

(** A line with --max-score, a repeated vertex in --ordered and a malformed bound. *)
Definition odd_line : csp_args := {| q_include := None; q_exclude := None; q_ordered := Some [txt "1"; txt "2"; txt "1"];
  q_include_cycle := false; q_no_cycle := false;
  q_bounds := {| b_min_length := None; b_max_length := Some (txt "1O"); b_exact_length := None; b_min_score := None;
                 b_max_score := Some (txt "2"); b_exact_score := None |} |}.
Definition odd_request : csp_request := {| r_include := None; r_exclude := None; r_ordered := Some [1; 2; 1];
  r_include_cycle := false; r_no_cycle := false;
  r_bounds := {| r_min_length := None; r_max_length := None; r_exact_length := None; r_min_score := None;
                 r_max_score := Some 2%Z; r_exact_score := None |} |}.
(** 1 may not come before 2, and there are at least two edges. *)
Example C160_case : csp_understood odd_line odd_request /\ ~ usual odd_request /\
  obeys odd_request [2; 3; 1] /\ ~ obeys odd_request [2; 1] /\ ~ obeys odd_request [1; 3; 2] /\
  exists g out, loads table (with_file (txt "AddEdge 2 1" ++ [10] ++ txt "AddEdge 2 3" ++ [10] ++ txt "AddEdge 3 1")) g /\
    snd (run_prog (gc_csp table id_order (MinPriorityQueue sp_score) (txt "2") (txt "1") odd_line 20)
      (with_file (txt "AddEdge 2 1" ++ [10] ++ txt "AddEdge 2 3" ++ [10] ++ txt "AddEdge 3 1"))) = Done out /\
    In (txt "Constrained shortest path from vertex 2 to vertex 1 with total cost of 2.") out.
Proof.
  assert (L1 : last_position [1; 2; 1] 1 2) by (split; [reflexivity|]; intros [|[|[|[|j]]]] Hj; try lia; discriminate).
  assert (L2 : last_position [1; 2; 1] 2 1) by (split; [reflexivity|]; intros [|[|[|[|j]]]] Hj; try lia; discriminate).
  split; [|split; [|split; [|split; [|split]]]].
  - repeat apply conj; try reflexivity.
    + left. exists [1; 2; 1]. split; [now apply parse_list_spec|reflexivity].
    + right. split; [|reflexivity]. intros b H. apply parse_id_spec in H. discriminate.
    + left. exists 2%Z. split; [now apply parse_i64_spec|reflexivity].
  - intros [H _]. discriminate.
  - repeat apply conj; try discriminate.
    + intros l [= <-]. apply (proj1 (in_order_holds _ _ 0%Z)). apply (check_complete_spec (OrderedVertices [1; 2; 1]) [2; 3; 1] 0%Z). reflexivity.
    + intros z [= <-]. unfold hops. cbn. lia.
  - intros (_ & _ & _ & _ & _ & (_ & _ & _ & _ & H & _)). specialize (H _ eq_refl). unfold hops in H. cbn in H. lia.
  - intros (_ & _ & H & _). specialize (H _ eq_refl 2 1 1%nat 2%nat L2 L1 ltac:(lia)). apply H. exists [], [3], []. reflexivity.
  - eexists. eexists. split; [reflexivity|]. split; [vm_compute; reflexivity|]. vm_compute. tauto.
Qed.

(** ** C90 on every command line: the order of lines in the file, and hash orders, do not matter *)
Lemma asked_found_same g g' r x y ans ans' : (forall p, asked g r x y p <-> asked g' r x y p) ->
  asked_found g r x y ans -> asked_found g' r x y ans' ->
  exists first rest rest', ans = first :: rest /\ ans' = first :: rest' /\ length rest = length rest'.
Proof.
  intros HW (p & dx & dy & n & l & Hw & Hm & Hx & Hy & Hn & Hl & ->) (p' & dx' & dy' & n' & l' & Hw' & Hm' & Hx' & Hy' & Hn' & Hl' & ->).
  assert (E : hops p' = hops p).
  { pose proof (Hm p' (proj2 (HW p') Hw')). pose proof (Hm' p (proj1 (HW p) Hw)). lia. }
  rewrite E in Hn'. rewrite (canonical_unique _ _ _ Hx' Hx), (canonical_unique _ _ _ Hy' Hy), (canonical_unique _ _ _ Hn' Hn).
  eexists _, l, l'. split; [reflexivity|]. split; [reflexivity|].
  rewrite (listed_hops p l), (listed_hops p' l'), E; try assumption; [reflexivity| |].
  - destruct Hw' as (((t & ->) & _) & _). discriminate.
  - destruct Hw as (((t & ->) & _) & _). discriminate.
Qed.
Theorem C90_csp_every : forall opts r, csp_understood opts r -> exists header,
  forall nd order order' Q Q' s s' g g' a b x y,
  hash_order order -> hash_order order' -> pops_least Q sp_score -> pops_least Q' sp_score ->
  loads nd s g -> loads nd s' g' -> a_same (shown g) (shown g') -> id_argument a x -> id_argument b y ->
  (* same answer, up to the choice among the shortest paths *)
  (forall fuel fuel' out out', snd (run_prog (gc_csp nd order Q a b opts fuel) s) = Done out ->
     snd (run_prog (gc_csp nd order' Q' a b opts fuel') s') = Done out' ->
     exists first rest rest', out = header ++ first :: rest /\ out' = header ++ first :: rest' /\ length rest = length rest') /\
  (* and one run ends if and only if the other one does *)
  ((exists out, prints (gc_csp nd order Q a b opts) s out) <-> (exists out, prints (gc_csp nd order' Q' a b opts) s' out)).
Proof.
  intros opts r HG. destruct (C160_csp opts r HG) as (ls & _ & H). exists (txt "Constraint that will be applied to search are: " :: ls).
  intros nd order order' Q Q' s s' g g' a b x y O O' HQ HQ' HL HL' HS Ha Hb. apply shown_same_edges in HS.
  pose proof (same_edges_sym _ _ HS) as HS'.
  assert (HW : forall p, asked g r x y p <-> asked g' r x y p).
  { intro p. unfold asked. split; intros [H1 H2]; (split; [|assumption]); [now apply (walk_same _ _ _ _ _ HS)|now apply (walk_same _ _ _ _ _ HS')]. }
  destruct (H nd order Q s g a b x y O HQ HL Ha Hb) as (H1 & _ & _).
  destruct (H nd order' Q' s' g' a b x y O' HQ' HL' Ha Hb) as (H1' & _ & _).
  split.
  - intros fuel fuel' out out' E E'. destruct (H1 _ _ E) as (ans & -> & HA). destruct (H1' _ _ E') as (ans' & -> & HA').
    destruct HA as [HA|[Hn HA]], HA' as [HA'|[Hn' HA']].
    + destruct (asked_found_same _ _ _ _ _ _ _ HW HA HA') as (f & l & l' & -> & -> & Hl). exists f, l, l'. auto.
    + exfalso. destruct HA as (p & _ & _ & _ & _ & Hp & _). exact (Hn' p (proj1 (HW p) Hp)).
    + exfalso. destruct HA' as (p & _ & _ & _ & _ & Hp & _). exact (Hn p (proj2 (HW p) Hp)).
    + destruct HA as (dx & dy & Hx & Hy & ->), HA' as (dx' & dy' & Hx' & Hy' & ->).
      rewrite (canonical_unique _ _ _ Hx' Hx), (canonical_unique _ _ _ Hy' Hy). eexists _, [], []. auto.
  - assert (HX : forall E F p, same_edges E F -> explored E r x p -> explored F r x p).
    { intros E F p HEF [Hw Hrest]. split; [|exact Hrest]. destruct Hw as [Hst Hadj]. split; [exact Hst|]. intros u v Huv. apply HEF. now apply Hadj. }
    rewrite (C160_halts nd order Q s g opts r a b x y O HQ HL HG Ha Hb), (C160_halts nd order' Q' s' g' opts r a b x y O' HQ' HL' HG Ha Hb).
    split; (intros [[p Hp]|[L HLn]]; [left; exists p; now apply HW|right; exists L; intros p Hp; apply HLn]); [now apply (HX _ _ _ HS')|now apply (HX _ _ _ HS)].
Qed.
Print Assumptions C90_csp_every.

(** For gc-cycle it matters (C90_cycle_refuted), but not if some vertex has no entering edge, and not if every
    vertex can be reached from every other one. *)
Definition alike (x : action) (lines lines' : list text) : Prop :=
  match x with
  | Count | Girth => lines = lines'
  | All => Permutation lines lines'
  | Head | Take _ => length lines = length lines'
  | Shortest => (lines = [txt "shortest cycle: N/A"] /\ lines' = lines) \/
      exists c c' t t', length c = length c' /\ vec_text c t /\ vec_text c' t' /\
        lines = [txt "shortest cycle: " ++ t] /\ lines' = [txt "shortest cycle: " ++ t']
  | Longest => (lines = [txt "longest cycle: N/A"] /\ lines' = lines) \/
      exists c c' t t', length c = length c' /\ vec_text c t /\ vec_text c' t' /\
        lines = [txt "longest cycle: " ++ t] /\ lines' = [txt "longest cycle: " ++ t']
  | Hamiltonian => (lines = [txt "hamiltonian: N/A"] /\ lines' = lines) \/
      exists c c' t t', Permutation c c' /\ vec_text c t /\ vec_text c' t' /\
        lines = [txt "hamiltonian: " ++ t] /\ lines' = [txt "hamiltonian: " ++ t']
  end.
Lemma vec_body_fun vs b : vec_body vs b -> forall b', vec_body vs b' -> b = b'.
Proof.
  induction 1 as [|v d Hd|v d w vs t Hd Ht IH]; intros b' H; inversion H; subst; [reflexivity|now apply (canonical_unique _ _ v)|].
  match goal with K : canonical_numeral ?e v |- _ => rewrite (canonical_unique d e v Hd K) end. f_equal. f_equal. now apply IH.
Qed.
Lemma vec_text_fun l t t' : vec_text l t -> vec_text l t' -> t = t'.
Proof. intros (b & Hb & ->) (b' & Hb' & ->). now rewrite (vec_body_fun _ _ Hb _ Hb'). Qed.
Lemma vec_texts l t : Forall2 vec_text l t -> t = map format_cycle l.
Proof. induction 1 as [|a b l t H _ IH]; [reflexivity|]. cbn [map]. f_equal; [apply (vec_text_fun a _ _ H), format_cycle_vec|exact IH]. Qed.
Theorem C90_cycle_every : forall nd order order' s s' g g', hash_order order -> hash_order order' ->
  loads nd s g -> loads nd s' g' -> a_same (shown g) (shown g') ->
  (exists u, gV g u /\ source (gE g) u) \/ (forall u v, gV g u -> gV g v -> reachable (gE g) u v) ->
  forall a x, asks a x -> exists lines lines', prints (gc_cycle nd order a) s lines /\ prints (gc_cycle nd order' a) s' lines' /\ alike x lines lines'.
Proof.
  intros nd order order' s s' g g' O O' HL HL' HS HC a x Hx.
  destruct (C160_understood {| q_include := None; q_exclude := None; q_ordered := None; q_include_cycle := false; q_no_cycle := false; q_bounds := c_bounds a |} a)
    as [_ (r & HG & _)].
  destruct (C160_cycle nd order s g O HL) as (seen & [Hnd Hseen] & H).
  destruct (C160_cycle nd order' s' g' O' HL') as (seen' & [Hnd' Hseen'] & H').
  destruct (H a r HG) as (kept & K1 & K2 & _ & K4). destruct (H' a r HG) as (kept' & K1' & K2' & _ & K4').
  pose proof (shown_same_edges _ _ HS) as HE. pose proof (same_edges_sym _ _ HE) as HE'.
  assert (HV : forall v, gV g v <-> gV g' v) by apply HS.
  destruct (loaded nd order s g O HL) as (Bg & Bo & HVo & _). destruct (loaded nd order' s' g' O' HL') as (Bg' & Bo' & HVo' & _).
  assert (X : forall c, In c seen <-> In c seen').
  { intro c. rewrite Hseen, Hseen'. destruct HC as [(u0 & Hu0 & Hs0)|HC].
    - split; intros (C1 & C2 & u & y & Hu & [Hs|[Hno _]] & Hy & Hr).
      + split; [now apply (simple_cycle_same _ _ _ HE)|]. split; [assumption|]. exists u, y. split; [now apply HV|].
        split; [left; now apply (source_same _ _ _ HE)|]. split; [assumption|now apply (reachable_same _ _ _ _ HE)].
      + now elim (Hno u0 Hu0).
      + split; [now apply (simple_cycle_same _ _ _ HE')|]. split; [assumption|]. exists u, y. split; [now apply HV|].
        split; [left; now apply (source_same _ _ _ HE')|]. split; [assumption|now apply (reachable_same _ _ _ _ HE')].
      + elim (Hno u0 (proj1 (HV u0) Hu0)). now apply (source_same _ _ _ HE).
    - assert (HC' : forall u v, gV g' u -> gV g' v -> reachable (gE g') u v).
      { intros u v Hu Hv. apply (reachable_same _ _ _ _ HE), HC; now apply HV. }
      pose proof (C87_all_seen nd order s g O HL (or_intror HC) c) as A.
      pose proof (C87_all_seen nd order' s' g' O' HL' (or_intror HC') c) as A'.
      rewrite A, A'. split; intros [S1 S2]; (split; [|assumption]); [now apply (simple_cycle_same _ _ _ HE)|now apply (simple_cycle_same _ _ _ HE')]. }
  assert (P : Permutation kept kept').
  { apply NoDup_Permutation; [assumption|assumption|]. intro c. now rewrite K2, K2', X. }
  pose proof (Permutation_length P) as PL.
  destruct (K4 x Hx) as (l & Pl & Ol). destruct (K4' x Hx) as (l' & Pl' & Ol'). exists l, l'. split; [assumption|]. split; [assumption|].
  destruct x; cbn [cycle_output alike] in *.
  all: try (apply vec_texts in Ol, Ol'; subst; rewrite ?map_length, ?firstn_length, ?PL; first [reflexivity|now apply Permutation_map]).
  - assert (E0 : seen = [] <-> seen' = []).
    { split; intro E; [destruct seen' as [|c t]|destruct seen as [|c t]]; try reflexivity; exfalso.
      - assert (In c seen) by (apply X; now left). now rewrite E in *.
      - assert (In c seen') by (apply X; now left). now rewrite E in *. }
    destruct Ol as [[E ->]|(c & d & Hc & Hm & Hd & ->)], Ol' as [[E' ->]|(c' & d' & Hc' & Hm' & Hd' & ->)]; [reflexivity| | |].
    + apply E0 in E. now rewrite E in Hc'.
    + apply E0 in E'. now rewrite E' in Hc.
    + assert (E : length c' = length c).
      { apply Nat.le_antisymm; [apply Hm'; now apply X|apply Hm; now apply X]. }
      rewrite E in Hd'. now rewrite (canonical_unique _ _ _ Hd' Hd).
  - destruct Ol as [[E ->]|(c & t & Hc & Ht & ->)], Ol' as [[E' ->]|(c' & t' & Hc' & Ht' & ->)].
    + left. now split.
    + elim (E c'). apply (hamiltonian_cycle_same (gV g') _ (gE g')); [intro v; symmetry; apply HV|assumption|assumption].
    + elim (E' c). now apply (hamiltonian_cycle_same (gV g) _ (gE g)).
    + right. exists c, c', t, t'. split; [|auto]. destruct Hc as [(N1 & _) H1], Hc' as [(N2 & _) H2].
      apply NoDup_Permutation; [assumption|assumption|]. intro v. now rewrite H1, H2, HV.
  - destruct Ol as (d & Hd & ->), Ol' as (d' & Hd' & ->). rewrite <- PL in Hd'. now rewrite (canonical_unique _ _ _ Hd Hd').
  - destruct Ol as [[E ->]|(p & c & q & t & E & H1 & H2 & Ht & ->)], Ol' as [[E' ->]|(p' & c' & q' & t' & E' & H1' & H2' & Ht' & ->)].
    + left. now split.
    + rewrite E, E' in PL. rewrite app_length in PL. cbn [length] in PL. lia.
    + rewrite E, E' in PL. rewrite app_length in PL. cbn [length] in PL. lia.
    + right. exists c, c', t, t'. split; [|auto].
      assert (M : forall d, In d kept -> (length c <= length d)%nat).
      { intros d Hd. rewrite E in Hd. apply in_app_or in Hd. destruct Hd as [Hd|[->|Hd]]; [apply H1 in Hd; lia|lia|now apply H2]. }
      assert (M' : forall d, In d kept' -> (length c' <= length d)%nat).
      { intros d Hd. rewrite E' in Hd. apply in_app_or in Hd. destruct Hd as [Hd|[->|Hd]]; [apply H1' in Hd; lia|lia|now apply H2']. }
      apply Nat.le_antisymm; [apply M|apply M'].
      * apply (Permutation_in _ (Permutation_sym P)). rewrite E'. apply in_or_app. right. now left.
      * apply (Permutation_in _ P). rewrite E. apply in_or_app. right. now left.
  - destruct Ol as [[E ->]|(p & c & q & t & E & H1 & H2 & Ht & ->)], Ol' as [[E' ->]|(p' & c' & q' & t' & E' & H1' & H2' & Ht' & ->)].
    + left. now split.
    + rewrite E, E' in PL. rewrite app_length in PL. cbn [length] in PL. lia.
    + rewrite E, E' in PL. rewrite app_length in PL. cbn [length] in PL. lia.
    + right. exists c, c', t, t'. split; [|auto].
      assert (M : forall d, In d kept -> (length d <= length c)%nat).
      { intros d Hd. rewrite E in Hd. apply in_app_or in Hd. destruct Hd as [Hd|[->|Hd]]; [now apply H1|lia|apply H2 in Hd; lia]. }
      assert (M' : forall d, In d kept' -> (length d <= length c')%nat).
      { intros d Hd. rewrite E' in Hd. apply in_app_or in Hd. destruct Hd as [Hd|[->|Hd]]; [now apply H1'|lia|apply H2' in Hd; lia]. }
      apply Nat.le_antisymm; [apply M'|apply M].
      * apply (Permutation_in _ P). rewrite E. apply in_or_app. right. now left.
      * apply (Permutation_in _ (Permutation_sym P)). rewrite E'. apply in_or_app. right. now left.
  - destruct Ol as [(k & Hk & Ol)|[Hno ->]], Ol' as [(k' & Hk' & Ol')|[Hno' ->]]; [|now elim (Hno' k)|now elim (Hno k')|reflexivity].
    assert (k' = k) as -> by (apply parse_id_spec in Hk, Hk'; congruence).
    apply vec_texts in Ol, Ol'. subst. now rewrite !map_length, !firstn_length, PL.
Qed.
Print Assumptions C90_cycle_every.
Example C90_every_case : csp_understood odd_line odd_request /\ exists g g',
  loads table (with_file (txt "AddEdge 2 1" ++ [10] ++ txt "AddEdge 2 3" ++ [10] ++ txt "AddEdge 3 1" ++ [10] ++ txt "AddEdge 1 3")) g /\
  loads table (with_file (txt "AddEdge 1 3" ++ [10] ++ txt "AddEdge 3 1" ++ [10] ++ txt "AddEdge 2 3" ++ [10] ++ txt "AddEdge 2 1")) g' /\
  a_same (shown g) (shown g') /\ (exists u, gV g u /\ source (gE g) u).
Proof.
  split; [apply C160_case|]. eexists. eexists. split; [reflexivity|]. split; [reflexivity|]. split.
  - apply a_same_sym. eapply a_same_trans; [apply refines, built_by_apply|]. apply a_same_sym.
    eapply a_same_trans; [apply refines, built_by_apply|].
    split; intros; cbn; intuition (subst; try discriminate; auto).
  - change (exists u, gV (apply_commands [AddEdge 2 1; AddEdge 2 3; AddEdge 3 1; AddEdge 1 3] g_new) u /\
      source (gE (apply_commands [AddEdge 2 1; AddEdge 2 3; AddEdge 3 1; AddEdge 1 3] g_new)) u).
    set (g := apply_commands [AddEdge 2 1; AddEdge 2 3; AddEdge 3 1; AddEdge 1 3] g_new).
    assert (B : built g) by (eexists; apply built_by_apply).
    exists 2. split; [vm_compute; reflexivity|]. intros u Hu. pose proof (gE_vertices g (built_wf B) u 2 Hu) as [H _]. vm_compute in H.
    destruct H as [<-|[<-|[<-|[]]]]; vm_compute in Hu; discriminate.
Qed.
