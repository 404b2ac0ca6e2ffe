(** * Properties C84-C91: gc-short-path, gc-csp, gc-topo-sort and gc-cycle *)
From Coq Require Import String.
From Coq Require Import List NArith ZArith Bool Arith Lia Permutation.
From Verif Require Import Spec Base WalkFacts Graph GraphSpec GraphFacts Path ConstraintSpec PathFacts PropPath
  Queue Heap Iter IterFacts TreeFacts SearchFacts BestFacts ConstrainedFacts PropSearch Topo TopoFacts PropTopo
  Cycle CycleSpec CycleFacts PropCycle
  Text Format FormatSpec TextFacts FormatFacts Store StoreSpec StoreFacts CrashFacts PropFormat PropStore
  Cli CliSpec CliFacts Query QuerySpec QueryFacts.
Import ListNotations.
Open Scope N_scope.

(** ** The loaded graph, in whatever order it is iterated *)
Definition same_edges (E F : rel) : Prop := forall a b, E a b <-> F a b.
Lemma walk_same E F s t l : same_edges E F -> walk_from_to E s t l -> walk_from_to F s t l.
Proof. intros H (H1 & H2 & H3). split; [assumption|]. split; [assumption|]. intros x y Hxy. now apply H, H3. Qed.
Lemma reachable_same E F s t : same_edges E F -> reachable E s t -> reachable F s t.
Proof. intros H [l Hl]. exists l. now apply (walk_same E F). Qed.
Lemma same_edges_sym E F : same_edges E F -> same_edges F E.
Proof. intros H a b. symmetry. apply H. Qed.
Lemma loaded nd order s g : hash_order order -> loads nd s g ->
  built g /\ built (order g) /\ (forall v, gV (order g) v <-> gV g v) /\ same_edges (gE (order g)) (gE g).
Proof.
  intros O H. assert (Bg : built g).
  { unfold loads in H. rewrite run_load in H. injection H as H. destruct (commands_entry s) as [|c|]; try discriminate.
    apply gcmd_read_ok in H. destruct H as (cs & _ & ->). exists cs. apply built_by_apply. }
  split; [assumption|]. apply built_wf in Bg as W. destruct Bg as [cs Bg].
  split; [exists cs; eapply built_rehash; [exact Bg|apply O]|].
  destruct (shown_perm W (O g)) as [H1 H2]. split; [exact H1|exact H2].
Qed.

Lemma run_graph nd order f s g : loads nd s g -> run_prog (with_graph nd order f) s = (s, f (order g)).
Proof. intro H. unfold with_graph. rewrite run_bind. unfold loads in H. rewrite H. reflexivity. Qed.
Lemma run_ids nd order f s g a b x y : loads nd s g -> id_argument a x -> id_argument b y ->
  run_prog (with_ids a b (fun x y => with_graph nd order (f x y))) s = (s, f x y (order g)).
Proof.
  intros H Ha Hb. unfold with_ids, parse_vertex_id. apply parse_id_spec in Ha, Hb. rewrite Ha, Hb. now apply run_graph.
Qed.

(** What a program prints, given enough time. *)
Definition prints (p : nat -> prog (outcome (list text))) (s : fs) (lines : list text) : Prop :=
  settles (fun n => snd (run_prog (p n) s)) lines.
Lemma prints_ids nd order f s g a b x y r lines : loads nd s g -> id_argument a x -> id_argument b y ->
  settles (fun n => f n x y (order g)) r -> lines = r ->
  prints (fun n => with_ids a b (fun x y => with_graph nd order (f n x y))) s lines.
Proof.
  intros H Ha Hb [n0 Hn] ->. exists n0. intros n Hl. rewrite (run_ids _ _ _ _ g _ _ x y) by assumption. now apply Hn.
Qed.

(** ** C84 *)
Theorem C84_short_path : forall nd order Q s g a b x y, hash_order order -> pops_least Q sp_score ->
  loads nd s g -> id_argument a x -> id_argument b y ->
  exists dx dy, canonical_numeral dx x /\ canonical_numeral dy y /\
  ((~ reachable (gE g) x y /\
    prints (gc_short_path nd order Q a b) s [txt "Vertex " ++ dy ++ txt " is not reachable from vertex " ++ dx ++ txt "."]) \/
   (exists p n lines, walk_from_to (gE g) x y p /\ NoDup p /\ distance (gE g) x y (hops p) /\
      canonical_numeral n (N.of_nat (hops p)) /\ listed p lines /\
      prints (gc_short_path nd order Q a b) s
        ((txt "Shortest path from vertex " ++ dx ++ txt " to vertex " ++ dy ++ txt " with total cost of " ++ n) :: lines))).
Proof.
  intros nd order Q s g a b x y O HQ HL Ha Hb. exists (show x), (show y).
  split; [apply show_spec|]. split; [apply show_spec|].
  destruct (loaded nd order s g O HL) as (_ & Bo & _ & HE). pose proof (same_edges_sym _ _ HE) as HE'.
  destruct (C44_a_star_iff_reachable Q (order g) one_weighted_edge zero_heuristic x y Bo) as (r & Hr & Hnone & Hsome).
  destruct r as [sp|].
  - right. destruct (C45_unit_cost_shortest Q (order g) x y sp Bo HQ Hr) as [[_ Hd] Hs].
    destruct (Hsome sp eq_refl) as [[Hw Hnd] _].
    exists (sp_path sp), (show (N.of_nat (hops (sp_path sp)))), (path_lines (sp_path sp)).
    split; [now apply (walk_same _ _ _ _ _ HE)|]. split; [assumption|]. split.
    { split; [exists (sp_path sp); split; [now apply (walk_same _ _ _ _ _ HE)|reflexivity]|].
      intros l Hl. apply Hd. now apply (walk_same _ _ _ _ _ HE'). }
    split; [apply show_spec|]. split; [apply path_lines_listed|].
    unfold gc_short_path. eapply (prints_ids nd order (fun n x y g => omap (short_path_lines x y) (Iter.a_star Q g one_weighted_edge zero_heuristic x y n)));
      [exact HL|exact Ha|exact Hb|apply omap_settles; exact Hr|].
    unfold short_path_lines. rewrite Hs, show_i64_nat. reflexivity.
  - left. split.
    + intro H. apply (proj1 Hnone eq_refl). now apply (reachable_same _ _ _ _ HE').
    + unfold gc_short_path. eapply (prints_ids nd order (fun n x y g => omap (short_path_lines x y) (Iter.a_star Q g one_weighted_edge zero_heuristic x y n)));
        [exact HL|exact Ha|exact Hb|apply omap_settles; exact Hr|reflexivity].
Qed.
Print Assumptions C84_short_path.
Example C84_case : exists g, hash_order id_order /\ pops_least (MinPriorityQueue sp_score) sp_score /\
  loads table (with_file (txt "AddEdge 7 3" ++ [10] ++ txt "AddEdge 3 12")) g /\
  id_argument (txt "7") 7 /\ id_argument (txt "012") 12 /\
  snd (run_prog (gc_short_path table id_order (MinPriorityQueue sp_score) (txt "7") (txt "012") 20)
         (with_file (txt "AddEdge 7 3" ++ [10] ++ txt "AddEdge 3 12"))) =
  Done [txt "Shortest path from vertex 7 to vertex 12 with total cost of 2"; txt "7"; txt "3"; txt "12"].
Proof.
  eexists. split; [exact id_order_ok|]. split; [apply min_pops_least|]. split; [reflexivity|].
  split; [now apply parse_id_spec|]. split; [now apply parse_id_spec|]. vm_compute. reflexivity.
Qed.
(** False: that the vertices named in the answer are vertices of the graph. *)
Theorem C84_absent_vertex_refuted : exists nd order s g x a, hash_order order /\ loads nd s g /\
  id_argument a x /\ ~ gV g x /\
  forall Q, pops_least Q sp_score -> prints (gc_short_path nd order Q a a) s
    [txt "Shortest path from vertex 9 to vertex 9 with total cost of 0"; txt "9"].
Proof.
  exists table, id_order, (with_file (txt "AddEdge 7 3")). eexists. exists 9, (txt "9").
  split; [exact id_order_ok|]. split; [reflexivity|]. assert (H9 : id_argument (txt "9") 9) by now apply parse_id_spec.
  split; [exact H9|]. split; [vm_compute; discriminate|]. intros Q HQ.
  edestruct (C84_short_path table id_order Q (with_file (txt "AddEdge 7 3")) _ _ _ 9 9 id_order_ok HQ eq_refl H9 H9)
    as (dx & dy & Hx & Hy & H).
  assert (W : forall E, walk_from_to E 9 9 [9]).
  { intro E. split; [now exists []|]. split; [now exists []|]. intros u v (p & q & Hp).
    apply (f_equal (@length N)) in Hp. rewrite app_length in Hp. cbn in Hp. lia. }
  rewrite (canonical_unique _ _ _ Hx (show_spec 9)), (canonical_unique _ _ _ Hy (show_spec 9)) in H.
  destruct H as [[H _]|(p & n & lines & Hw & _ & [_ Hd] & Hn & Hl & H)].
  - exfalso. apply H. exists [9]. apply W.
  - specialize (Hd [9] (W _)). destruct Hw as ((t & ->) & _ & _). destruct t as [|z t]; [|unfold hops in Hd; cbn in Hd; lia].
    inversion Hl as [|? d ? ? Hd1 Hd2]; subst. inversion Hd2; subst.
    rewrite (canonical_unique _ _ _ Hd1 (show_spec 9)) in H.
    change (N.of_nat (hops [9])) with 0 in Hn. rewrite (canonical_unique _ _ _ Hn (show_spec 0)) in H. exact H.
Qed.
Print Assumptions C84_absent_vertex_refuted.

(** ** C85 *)
Lemma iter_find_no_panic A S (next : S -> step A S) pred (J : list A -> S -> Prop) :
  (forall out s, J out s -> match next s with Stop => True | Crash => False | Yield a s' => pred a = false -> J (out ++ [a]) s' end) ->
  forall n out s, J out s -> iter_find pred next n s <> Panic.
Proof.
  intros Hstep. induction n as [|n IH]; intros out s HJ; [discriminate|]. cbn.
  pose proof (Hstep out s HJ) as Hs. destruct (next s) as [a s'| |]; [|discriminate|contradiction].
  destruct (pred a); [discriminate|]. eapply IH. now apply Hs.
Qed.
Lemma csp_no_panic Q g s t cs n : wf g -> constrained_shortest_path Q g one_weighted_edge zero_heuristic s t cs n <> Panic.
Proof.
  intro W. unfold constrained_shortest_path. eapply iter_find_no_panic; [apply jinv_step; exact W|apply jinv_init].
Qed.

Lemma unit_cost_hops p : (one_weighted_edge p + zero_heuristic p)%Z = Z.of_nat (hops p).
Proof. unfold one_weighted_edge, zero_heuristic, hops, path_size. lia. Qed.
Lemma unit_each_edge_costs g s : each_edge_costs g s (fun p => one_weighted_edge p + zero_heuristic p)%Z.
Proof.
  intros p v Hp _. rewrite !unit_cost_hops. unfold hops. rewrite app_length. cbn [length].
  destruct p; [congruence|]. cbn [length]. lia.
Qed.
Lemma each_never g s f : each_edge_costs g s f -> never_decreases g s f.
Proof. intros H p v Hp Hw. specialize (H p v Hp Hw). lia. Qed.
(** A walk the options ask for, and the answers of gc-csp. *)
Definition wanted (g : graph) (r : csp_request) (x y : N) (p : list N) : Prop :=
  walk_from_to (gE g) x y p /\ meets r p.
Definition csp_found (g : graph) (r : csp_request) (x y : N) (answer : list text) : Prop :=
  exists p dx dy n lines, wanted g r x y p /\ (forall q, wanted g r x y q -> (hops p <= hops q)%nat) /\
    canonical_numeral dx x /\ canonical_numeral dy y /\ canonical_numeral n (N.of_nat (hops p)) /\ listed p lines /\
    answer = (txt "Constrained shortest path from vertex " ++ dx ++ txt " to vertex " ++ dy ++
              txt " with total cost of " ++ n ++ txt ".") :: lines.
Definition csp_none (x y : N) (answer : list text) : Prop :=
  exists dx dy, canonical_numeral dx x /\ canonical_numeral dy y /\
    answer = [txt "Vertex " ++ dy ++ txt " is not reachable from vertex " ++ dx ++ txt " within the given constraints."].
(** Requests for which the search is sure to end: see C49 and C91 for the others. *)
Definition bounded_request (r : csp_request) : Prop :=
  r_no_cycle r = true \/ r_max_length (r_bounds r) <> None \/ r_exact_length (r_bounds r) <> None.

Lemma sat_wanted g go r x y p opts : same_edges (gE go) (gE g) -> csp_given opts r -> usual r ->
  wanted g r x y p <-> walk_from_to (gE go) x y p /\
    forall c, In c (csp_constraints opts) -> ConstraintSpec.holds c p (one_weighted_edge p + zero_heuristic p)%Z.
Proof.
  intros HE HG HU. unfold wanted. rewrite unit_cost_hops.
  pose proof (csp_constraints_spec opts r p HG HU) as Hs. unfold sat in Hs. rewrite Hs.
  split; intros [H1 H2]; (split; [|exact H2]).
  - now apply (walk_same _ _ _ _ _ (same_edges_sym _ _ HE)).
  - now apply (walk_same _ _ _ _ _ HE).
Qed.
Lemma csp_bounded opts r : csp_given opts r -> bounded_request r ->
  In (CNot ContainsCycle) (csp_constraints opts) \/ exists n, In (MaxLength n) (csp_constraints opts).
Proof.
  intros (_ & _ & _ & _ & G5 & (_ & B2 & B3 & _)) [H|[H|H]]; unfold csp_constraints, bound_constraints.
  - left. rewrite G5, H. rewrite !in_app_iff. cbn. tauto.
  - right. destruct (r_max_length (r_bounds r)) as [n|]; [|congruence].
    destruct (b_max_length (q_bounds opts)) as [t|]; [|contradiction]. cbn [given] in B2.
    exists (N.to_nat n). rewrite !in_app_iff.
    replace (opt_one (Some t) parse_usize build_max_length) with [MaxLength (N.to_nat n)]
      by (unfold opt_one, opt_list; now rewrite (parse_usize_given _ _ B2)). cbn. tauto.
  - right. destruct (r_exact_length (r_bounds r)) as [n|]; [|congruence].
    destruct (b_exact_length (q_bounds opts)) as [t|]; [|contradiction]. cbn [given] in B3.
    exists (N.to_nat n). rewrite !in_app_iff.
    replace (opt_list (Some t) parse_usize build_exact_length) with [MinLength (N.to_nat n); MaxLength (N.to_nat n)]
      by (unfold opt_list; now rewrite (parse_usize_given _ _ B3)). cbn. tauto.
Qed.

Lemma csp_acyclic Q g s t cs : wf g -> acyclic (gE g) ->
  exists r, settles (constrained_shortest_path Q g one_weighted_edge zero_heuristic s t cs) r.
Proof.
  intros W Hac. destruct (constrained_bounded Q g (fun p => one_weighted_edge p + zero_heuristic p)%Z cs s t W (length (vertices g) + 1))
    as (r & H & _); [|exists r; exact H].
  intros p [Hw _]. apply (simple_length g W s). split; [assumption|]. now apply (acyclic_chain_NoDup _ _ Hac), Hw.
Qed.

Theorem C85_csp : forall opts r, csp_given opts r -> usual r -> exists ls,
  (* the constraints that were asked for are listed *)
  Forall2 printed (requested r) ls /\
  let header := txt "Constraint that will be applied to search are: " :: ls in
  forall nd order Q s g a b x y, hash_order order -> pops_least Q sp_score ->
  loads nd s g -> id_argument a x -> id_argument b y ->
  (* whatever is printed is right *)
  (forall fuel out, snd (run_prog (gc_csp nd order Q a b opts fuel) s) = Done out ->
     exists answer, out = header ++ answer /\
       (csp_found g r x y answer \/ (forall p, ~ wanted g r x y p) /\ csp_none x y answer)) /\
  (* a path is found if there is one *)
  ((exists p, wanted g r x y p) ->
     exists answer, csp_found g r x y answer /\ prints (gc_csp nd order Q a b opts) s (header ++ answer)) /\
  (* with a bound on the length, or without cycles in the graph, the program always ends *)
  (bounded_request r \/ acyclic (gE g) -> exists answer, prints (gc_csp nd order Q a b opts) s (header ++ answer)).
Proof.
  intros opts r HG HU. set (cs := csp_constraints opts).
  exists (map debug_constraint cs). split.
  { rewrite <- (csp_constraints_requested opts r HG HU). fold cs. clear. induction cs as [|c l IH]; constructor; [apply debug_printed|exact IH]. }
  cbn zeta. set (header := txt "Constraint that will be applied to search are: " :: map debug_constraint cs).
  intros nd order Q s g a b x y O HQ HL Ha Hb.
  destruct (loaded nd order s g O HL) as (_ & Bo & _ & HE).
  set (fnd := fun sp => (txt "Constrained shortest path from vertex " ++ show x ++ txt " to vertex " ++ show y ++
       txt " with total cost of " ++ show_i64 (sp_score sp) ++ txt ".") :: path_lines (sp_path sp)).
  set (non := [txt "Vertex " ++ show y ++ txt " is not reachable from vertex " ++ show x ++ txt " within the given constraints."]).
  assert (Hrun : forall n, snd (run_prog (gc_csp nd order Q a b opts n) s) =
    omap (csp_lines x y cs) (constrained_shortest_path Q (order g) one_weighted_edge zero_heuristic x y cs n)).
  { intro n. exact (f_equal snd (run_ids nd order (fun x y g => omap (csp_lines x y cs)
      (constrained_shortest_path Q g one_weighted_edge zero_heuristic x y cs n)) s g a b x y HL Ha Hb)). }
  assert (Hw : forall p, wanted g r x y p <-> walk_from_to (gE (order g)) x y p /\
    forall c, In c cs -> ConstraintSpec.holds c p (one_weighted_edge p + zero_heuristic p)%Z)
    by (intro p; now apply sat_wanted).
  assert (Hfnd : forall n sp, constrained_shortest_path Q (order g) one_weighted_edge zero_heuristic x y cs n = Done (Some sp) ->
    csp_found g r x y (fnd sp)).
  { intros n sp H. destruct (C47_constrained_optimal Q _ _ _ _ _ _ _ sp Bo H) as (H1 & H2 & H3 & H4).
    rewrite unit_cost_hops in H2.
    exists (sp_path sp), (show x), (show y), (show (N.of_nat (hops (sp_path sp)))), (path_lines (sp_path sp)).
    split; [now apply Hw|]. split.
    { intros q Hq. apply Hw in Hq. destruct Hq as [Q1 Q2]. specialize (H4 HQ (each_never _ _ _ (unit_each_edge_costs _ _)) q Q1 Q2).
      rewrite unit_cost_hops in H4. rewrite H2 in H4. lia. }
    split; [apply show_spec|]. split; [apply show_spec|]. split; [apply show_spec|]. split; [apply path_lines_listed|].
    unfold fnd. now rewrite H2, show_i64_nat. }
  assert (Hset : (exists p, wanted g r x y p) -> exists sp,
    settles (constrained_shortest_path Q (order g) one_weighted_edge zero_heuristic x y cs) (Some sp)).
  { intros [p Hp]. apply Hw in Hp. destruct Hp as [P1 P2].
    now apply (C48_constrained_complete Q (order g) one_weighted_edge zero_heuristic cs x y p Bo HQ (unit_each_edge_costs _ _)). }
  split; [|split].
  - intros fuel out H. rewrite Hrun in H.
    destruct (constrained_shortest_path Q (order g) one_weighted_edge zero_heuristic x y cs fuel) as [[sp|]| |] eqn:E; try discriminate;
      cbn [omap obind] in H; injection H as <-.
    + exists (fnd sp). split; [reflexivity|]. left. now apply (Hfnd fuel).
    + exists non. split; [reflexivity|]. right. split.
      * intros p Hp. destruct (Hset (ex_intro _ p Hp)) as (sp & n0 & Hn).
        specialize (Hn (n0 + fuel)%nat ltac:(lia)).
        pose proof (iter_find_mono _ _ _ _ _ (n0 + fuel)%nat E ltac:(lia)) as E'.
        unfold constrained_shortest_path in Hn. congruence.
      * exists (show x), (show y). split; [apply show_spec|]. split; [apply show_spec|]. reflexivity.
  - intro Hp. destruct (Hset Hp) as (sp & n0 & Hn). exists (fnd sp). split.
    + apply (Hfnd n0), Hn. lia.
    + exists n0. intros n Hl. rewrite Hrun, (Hn n Hl). reflexivity.
  - intro Hbd. assert (Hres : exists res, settles (constrained_shortest_path Q (order g) one_weighted_edge zero_heuristic x y cs) res).
    { destruct Hbd as [Hbd|Hac].
      - destruct (C50_bounded_terminates Q (order g) one_weighted_edge zero_heuristic cs x y Bo (csp_bounded opts r HG Hbd))
          as (res & H & _). eauto.
      - apply (csp_acyclic Q (order g) x y cs (built_wf Bo)). intros l (z & Hl & Hn). apply (Hac l). exists z.
        split; [now apply (walk_same _ _ _ _ _ HE)|assumption]. }
    destruct Hres as (res & n0 & Hn).
    exists (match res with Some sp => fnd sp | None => non end). exists n0. intros n Hl. rewrite Hrun, (Hn n Hl).
    now destruct res.
Qed.
Print Assumptions C85_csp.
(** The listing tells different constraints apart. *)
Theorem C85_listing_unambiguous : forall cs cs' ls, Forall2 printed cs ls -> Forall2 printed cs' ls -> cs = cs'.
Proof.
  intros cs cs' ls H. revert cs'. induction H as [|c l cs ls Hc _ IH]; intros cs' H'; inversion H' as [|c' ? cs1 ? Hc' H1]; subst; [reflexivity|].
  f_equal; [|now apply IH]. apply (printed_read _ _ Hc c' l [] [] Hc' eq_refl).
Qed.
Print Assumptions C85_listing_unambiguous.
Definition no_bounds : bound_args := {| b_min_length := None; b_max_length := None; b_exact_length := None;
  b_min_score := None; b_max_score := None; b_exact_score := None |}.
Definition csp_example : csp_args := {| q_include := Some [txt "3"]; q_exclude := Some [txt "4"]; q_ordered := None;
  q_include_cycle := false; q_no_cycle := false;
  q_bounds := {| b_min_length := None; b_max_length := Some (txt "5"); b_exact_length := None;
                 b_min_score := Some (txt "-1"); b_max_score := None; b_exact_score := None |} |}.
Definition csp_example_request : csp_request := {| r_include := Some [3]; r_exclude := Some [4]; r_ordered := None;
  r_include_cycle := false; r_no_cycle := false;
  r_bounds := {| r_min_length := None; r_max_length := Some 5; r_exact_length := None;
                 r_min_score := Some (-1)%Z; r_max_score := None; r_exact_score := None |} |}.
Definition csp_file : text := txt "AddEdge 1 2" ++ [10] ++ txt "AddEdge 1 4" ++ [10] ++ txt "AddEdge 4 2" ++ [10] ++
  txt "AddEdge 2 3" ++ [10] ++ txt "AddEdge 3 2".
Example C85_case : exists g, loads table (with_file csp_file) g /\ csp_given csp_example csp_example_request /\
  usual csp_example_request /\ bounded_request csp_example_request /\
  snd (run_prog (gc_csp table id_order (MinPriorityQueue sp_score) (txt "1") (txt "2") csp_example 100) (with_file csp_file)) =
  Done [txt "Constraint that will be applied to search are: "; txt "ContainsVertex(VertexId(3))";
        txt "Not(ContainsVertex(VertexId(4)))"; txt "MaxLength(5)"; txt "MinScore(-1)";
        txt "Constrained shortest path from vertex 1 to vertex 2 with total cost of 3.";
        txt "1"; txt "2"; txt "3"; txt "2"].
Proof.
  eexists. split; [reflexivity|]. split.
  { refine (conj _ (conj _ (conj I (conj eq_refl (conj eq_refl (conj I (conj _ (conj I (conj _ (conj I I))))))))));
      [apply parse_list_spec; reflexivity|apply parse_list_spec; reflexivity|apply parse_id_spec; reflexivity|
       apply parse_i64_spec; reflexivity]. }
  split; [split; [reflexivity|discriminate]|]. split; [right; left; discriminate|]. vm_compute. reflexivity.
Qed.
(** False with --max-score: the answer may cost more than the bound, although the
    search also accepts such paths only. *)
Theorem C85_max_score_refuted : exists nd order s g opts, hash_order order /\ loads nd s g /\
  opts = {| q_include := None; q_exclude := None; q_ordered := None; q_include_cycle := false; q_no_cycle := false;
            q_bounds := {| b_min_length := None; b_max_length := None; b_exact_length := None;
                           b_min_score := None; b_max_score := Some (txt "1"); b_exact_score := None |} |} /\
  reachable (gE g) 1 3 /\
  snd (run_prog (gc_csp nd order (MinPriorityQueue sp_score) (txt "1") (txt "3") opts 100) s) =
  Done [txt "Constraint that will be applied to search are: "; txt "MinScore(1)";
        txt "Constrained shortest path from vertex 1 to vertex 3 with total cost of 2."; txt "1"; txt "2"; txt "3"].
Proof.
  exists table, id_order, (with_file (txt "AddEdge 1 2" ++ [10] ++ txt "AddEdge 2 3")). eexists. eexists.
  split; [exact id_order_ok|]. split; [reflexivity|]. split; [reflexivity|]. split; [|vm_compute; reflexivity].
  exists [1; 2; 3]. split; [now exists [2; 3]|]. split; [now exists [1; 2]|].
  intros x y (p & q & H). destruct p as [|u [|v p]]; cbn in H.
  - injection H as <- <- _. vm_compute. reflexivity.
  - injection H as _ <- <- _. vm_compute. reflexivity.
  - apply (f_equal (@length N)) in H. cbn in H. rewrite app_length in H. cbn in H. lia.
Qed.
Print Assumptions C85_max_score_refuted.

(** ** C86: an option whose value does not parse is ignored *)
(** [o'] drops the values that denote nothing. *)
Definition dropped {A B} (denotes : A -> B -> Prop) (o o' : option A) : Prop :=
  o' = o \/ (o' = None /\ forall a, o = Some a -> forall b, ~ denotes a b).
Lemma opt_dropped {A B} (denotes : A -> B -> Prop) (parse : A -> option B) build o o' :
  (forall a b, parse a = Some b -> denotes a b) -> dropped denotes o o' ->
  opt_list o parse build = opt_list o' parse build.
Proof.
  intros Hp [->|[-> H]]; [reflexivity|]. destruct o as [a|]; [|reflexivity]. cbn [opt_list].
  destruct (parse a) as [b|] eqn:E; [|reflexivity]. exfalso. exact (H a eq_refl b (Hp _ _ E)).
Qed.
Definition bounds_dropped (b b' : bound_args) : Prop :=
  dropped id_argument (b_min_length b) (b_min_length b') /\
  dropped id_argument (b_max_length b) (b_max_length b') /\
  dropped id_argument (b_exact_length b) (b_exact_length b') /\
  dropped int_argument (b_min_score b) (b_min_score b') /\
  dropped int_argument (b_max_score b) (b_max_score b') /\
  dropped int_argument (b_exact_score b) (b_exact_score b').
Definition csp_dropped (a a' : csp_args) : Prop :=
  dropped id_arguments (q_include a) (q_include a') /\
  dropped id_arguments (q_exclude a) (q_exclude a') /\
  dropped id_arguments (q_ordered a) (q_ordered a') /\
  q_include_cycle a = q_include_cycle a' /\ q_no_cycle a = q_no_cycle a' /\
  bounds_dropped (q_bounds a) (q_bounds a').
Lemma usize_denotes a n : parse_usize a = Some n -> id_argument a (N.of_nat n).
Proof.
  unfold parse_usize. destruct (parse_u64 a) as [m|] eqn:E; [|discriminate]. intros [= <-].
  rewrite N2Nat.id. now apply parse_id_spec.
Qed.
Lemma dropped_usize o o' : dropped id_argument o o' -> dropped (fun a n => id_argument a (N.of_nat n)) o o'.
Proof. intros [->|[-> H]]; [now left|]. right. split; [reflexivity|]. intros a Ha n. now apply H. Qed.
Lemma bounds_dropped_same b b' : bounds_dropped b b' -> bound_constraints b = bound_constraints b'.
Proof.
  intros (H1 & H2 & H3 & H4 & H5 & H6). unfold bound_constraints, opt_one.
  apply dropped_usize in H1, H2, H3.
  assert (Hi : forall a z, parse_i64 a = Some z -> int_argument a z) by (intros; now apply parse_i64_spec).
  rewrite (opt_dropped _ _ _ _ _ usize_denotes H1), (opt_dropped _ _ _ _ _ usize_denotes H2),
    (opt_dropped _ _ _ _ _ usize_denotes H3), (opt_dropped _ _ _ _ _ Hi H4), (opt_dropped _ _ _ _ _ Hi H5),
    (opt_dropped _ _ _ _ _ Hi H6). reflexivity.
Qed.
Theorem C86_malformed_csp : forall nd order Q x y a a' fuel, csp_dropped a a' ->
  gc_csp nd order Q x y a fuel = gc_csp nd order Q x y a' fuel.
Proof.
  intros nd order Q x y a a' fuel (H1 & H2 & H3 & H4 & H5 & H6). unfold gc_csp.
  assert (E : csp_constraints a = csp_constraints a'); [|now rewrite E].
  unfold csp_constraints, opt_one. rewrite H4, H5, (bounds_dropped_same _ _ H6).
  assert (Hi : forall a z, parse_vertex_id_list a = Some z -> id_arguments a z) by (intros; now apply parse_list_spec).
  now rewrite (opt_dropped _ _ _ _ _ Hi H1), (opt_dropped _ _ _ _ _ Hi H2), (opt_dropped _ _ _ _ _ Hi H3).
Qed.
Print Assumptions C86_malformed_csp.
Definition cycle_dropped (a a' : cycle_args) : Prop :=
  (c_girth a, c_hamiltonian a, c_count a, c_shortest a, c_longest a, c_head a, c_all a) =
  (c_girth a', c_hamiltonian a', c_count a', c_shortest a', c_longest a', c_head a', c_all a') /\
  dropped id_argument (c_take_n a) (c_take_n a') /\
  dropped id_arguments (c_include a) (c_include a') /\
  dropped id_arguments (c_exclude a) (c_exclude a') /\
  dropped edge_arguments (c_include_edges a) (c_include_edges a') /\
  dropped edge_arguments (c_exclude_edges a) (c_exclude_edges a') /\
  bounds_dropped (c_bounds a) (c_bounds a').
Lemma edge_list_denotes vs es : edge_list vs = Some es -> edge_arguments vs es.
Proof.
  unfold edge_list, parse_edge_list, edge_arguments. destruct (parse_vertex_id_list vs) as [l|] eqn:E; [|discriminate].
  apply parse_list_spec in E. destruct (Nat.even (length l)) eqn:Ev.
  - apply (even_flat _ l (Nat.lt_succ_diag_r _)) in Ev. destruct Ev as [es' ->]. rewrite tuple_even. now intros [= <-].
  - rewrite tuple_odd by assumption. discriminate.
Qed.
Theorem C86_malformed_cycle : forall nd order a a' fuel, cycle_dropped a a' ->
  gc_cycle nd order a fuel = gc_cycle nd order a' fuel.
Proof.
  intros nd order a a' fuel (H0 & Ht & H1 & H2 & H3 & H4 & H5). unfold gc_cycle.
  assert (E : cycle_constraints a = cycle_constraints a').
  { unfold cycle_constraints. rewrite (bounds_dropped_same _ _ H5).
    assert (Hi : forall a z, parse_vertex_id_list a = Some z -> id_arguments a z) by (intros; now apply parse_list_spec).
    now rewrite (opt_dropped _ _ _ _ _ Hi H1), (opt_dropped _ _ _ _ _ Hi H2),
      (opt_dropped _ _ _ _ _ edge_list_denotes H3), (opt_dropped _ _ _ _ _ edge_list_denotes H4). }
  injection H0 as E1 E2 E3 E4 E5 E6 E7.
  assert (T : take_count a = take_count a').
  { unfold take_count. rewrite E6. destruct (c_head a'); [reflexivity|].
    destruct Ht as [->|[-> Ht]]; [reflexivity|]. destruct (c_take_n a) as [t|]; [|reflexivity].
    destruct (parse_usize t) as [n|] eqn:Et; [|reflexivity]. exfalso. apply usize_denotes in Et. exact (Ht t eq_refl _ Et). }
  now rewrite E, T, E1, E2, E3, E4, E5, E7.
Qed.
Print Assumptions C86_malformed_cycle.
(** A single value never denotes a list of edges: given once, the options
    --include-all-edges and --exclude-all-edges of gc-cycle do nothing. *)
Theorem C86_single_edge_value : forall t es, ~ edge_arguments [t] es.
Proof.
  intros t es H. unfold edge_arguments, id_arguments in H. destruct es as [|e es]; [inversion H|].
  cbn in H. inversion H as [|? ? ? ? _ H']. inversion H'.
Qed.
Print Assumptions C86_single_edge_value.
(** False: that a malformed bound is reported or respected. *)
Theorem C86_malformed_refuted : exists nd order s g opts out, hash_order order /\ loads nd s g /\
  q_bounds opts = {| b_min_length := None; b_max_length := Some (txt "1O"); b_exact_length := None;
                     b_min_score := None; b_max_score := None; b_exact_score := None |} /\
  (forall n, ~ id_argument (txt "1O") n) /\
  snd (run_prog (gc_csp nd order (MinPriorityQueue sp_score) (txt "1") (txt "12") opts 100) s) = Done out /\
  In (txt "Constrained shortest path from vertex 1 to vertex 12 with total cost of 11.") out.
Proof.
  exists table, id_order, (with_file (concat (map (fun k => txt "AddEdge " ++ show k ++ txt " " ++ show (k + 1) ++ [10])
    [1; 2; 3; 4; 5; 6; 7; 8; 9; 10; 11]))). eexists.
  exists {| q_include := None; q_exclude := None; q_ordered := None; q_include_cycle := false; q_no_cycle := false;
            q_bounds := {| b_min_length := None; b_max_length := Some (txt "1O"); b_exact_length := None;
                           b_min_score := None; b_max_score := None; b_exact_score := None |} |}.
  eexists. split; [exact id_order_ok|]. split; [reflexivity|]. split; [reflexivity|].
  split; [intros n H; apply parse_id_spec in H; discriminate|]. split; [vm_compute; reflexivity|].
  vm_compute. right. left. reflexivity.
Qed.
Print Assumptions C86_malformed_refuted.
Example C86_case : csp_dropped
  {| q_include := Some [txt "3"; txt "x"]; q_exclude := Some [txt "4"]; q_ordered := None; q_include_cycle := true;
     q_no_cycle := false; q_bounds := no_bounds |}
  {| q_include := None; q_exclude := Some [txt "4"]; q_ordered := None; q_include_cycle := true;
     q_no_cycle := false; q_bounds := no_bounds |}.
Proof.
  assert (HN : forall A B (d : A -> B -> Prop) o, dropped d o o) by (intros; now left).
  split; [|split; [apply HN|split; [apply HN|split; [reflexivity|split; [reflexivity|]]]]].
  - right. split; [reflexivity|]. intros a [= <-] b H. apply parse_list_spec in H. discriminate.
  - refine (conj _ (conj _ (conj _ (conj _ (conj _ _))))); apply HN.
Qed.

(** ** C87 *)
(** The cycles gc-cycle looks at: those met by a search from the vertices without
    entering edges or, if there are none, from the first vertex [h] iterated (see
    C66 and C67). *)
Definition cycle_seen (g : graph) (h : option N) (c : list N) : Prop :=
  simple_cycle (gE g) c /\ least_first c /\
  exists u x, gV g u /\ (source (gE g) u \/ ((forall v, gV g v -> ~ source (gE g) v) /\ h = Some u)) /\
    In x c /\ reachable (gE g) u x.
(** What each action prints, [seen] being the cycles looked at and [kept] those
    among them that satisfy the options. *)
Definition cycle_output (g : graph) (x : action) (seen kept : list (list N)) (lines : list text) : Prop :=
  match x with
  | All => Forall2 vec_text kept lines
  | Head => Forall2 vec_text (firstn 1 kept) lines
  | Take t => (exists n, id_argument t n /\ Forall2 vec_text (firstn (N.to_nat n) kept) lines) \/
              ((forall n, ~ id_argument t n) /\ lines = [])
  | Count => exists d, canonical_numeral d (N.of_nat (length kept)) /\ lines = [txt "count: " ++ d]
  | Shortest => (kept = [] /\ lines = [txt "shortest cycle: N/A"]) \/
      exists p c q t, kept = p ++ c :: q /\ (forall d, In d p -> length c < length d)%nat /\
        (forall d, In d q -> length c <= length d)%nat /\ vec_text c t /\ lines = [txt "shortest cycle: " ++ t]
  | Longest => (kept = [] /\ lines = [txt "longest cycle: N/A"]) \/
      exists p c q t, kept = p ++ c :: q /\ (forall d, In d p -> length d <= length c)%nat /\
        (forall d, In d q -> length d < length c)%nat /\ vec_text c t /\ lines = [txt "longest cycle: " ++ t]
  | Girth => (seen = [] /\ lines = [txt "girth: Infinity"]) \/
      exists c d, In c seen /\ (forall c', In c' seen -> length c <= length c')%nat /\
        canonical_numeral d (N.of_nat (length c)) /\ lines = [txt "girth: " ++ d]
  | Hamiltonian => ((forall c, ~ hamiltonian_cycle (gV g) (gE g) c) /\ lines = [txt "hamiltonian: N/A"]) \/
      exists c t, hamiltonian_cycle (gV g) (gE g) c /\ vec_text c t /\ lines = [txt "hamiltonian: " ++ t]
  end.

Lemma filter_before {A} (f : A -> bool) l x y : before x y (filter f l) -> before x y l.
Proof.
  intros (p & q & r & H). revert p H. induction l as [|a l IH]; intros p H; [destruct p; discriminate|].
  cbn [filter] in H. destruct (f a).
  - destruct p as [|b p]; cbn [app] in H; injection H as -> H.
    + assert (Hy : In y l). { apply (filter_In f). rewrite H. apply in_or_app. right. now left. }
      apply in_split in Hy. destruct Hy as (l1 & l2 & ->). now exists [], l1, l2.
    + destruct (IH p H) as (p' & q' & r' & ->). now exists (b :: p'), q', r'.
  - destruct (IH p H) as (p' & q' & r' & ->). now exists (a :: p'), q', r'.
Qed.
Lemma map_format l : Forall2 vec_text l (map format_cycle l).
Proof. induction l as [|c l IH]; constructor; [apply format_cycle_vec|exact IH]. Qed.
Lemma simple_cycle_same E F c : same_edges E F -> simple_cycle E c -> simple_cycle F c.
Proof.
  intros H (H1 & H2 & x & y & H3 & H4 & H5). split; [assumption|]. split; [intros a b Hab; now apply H, H2|].
  exists x, y. split; [assumption|]. split; [assumption|]. now apply H.
Qed.
Lemma hamiltonian_cycle_same V V' E E' c : (forall v, V v <-> V' v) -> same_edges E E' ->
  hamiltonian_cycle V E c -> hamiltonian_cycle V' E' c.
Proof. intros HV HE [H1 H2]. split; [now apply (simple_cycle_same E)|]. intro v. rewrite H2. apply HV. Qed.
Lemma source_same E F v : same_edges E F -> source E v -> source F v.
Proof. intros H Hs u Hu. apply (Hs u), H, Hu. Qed.

Lemma cycle_answers : forall nd order s g, hash_order order -> loads nd s g ->
  exists seen, settles (cycle_take_all (order g)) seen /\ enumerates seen (cycle_seen g (head_option (order g))) /\
  forall a r, cycle_given a r -> r_max_score (k_bounds r) = None ->
  exists kept, NoDup kept /\ (forall c, In c kept <-> In c seen /\ cycle_meets r c) /\
    (forall c d, before c d kept -> before c d seen) /\
    forall x, asks a x -> exists lines, prints (gc_cycle nd order a) s lines /\ cycle_output g x seen kept lines.
Proof.
  intros nd order s g O HL. destruct (loaded nd order s g O HL) as (_ & Bo & HV & HE).
  pose proof (same_edges_sym _ _ HE) as HE'.
  destruct (cycle_out (order g) (built_wf Bo)) as (seen & Hruns & Hnd & Hseen). exists seen.
  assert (Hall : forall c, In c seen <-> cycle_seen g (head_option (order g)) c).
  { intro c. rewrite Hseen. unfold cycle_seen, search_start. split.
    - intros (H1 & H2 & u & x & [H3 H4] & H5 & H6). split; [now apply (simple_cycle_same _ _ _ HE)|]. split; [assumption|].
      exists u, x. split; [now apply HV|]. split; [|split; [assumption|now apply (reachable_same _ _ _ _ HE)]].
      destruct H4 as [H4|[H4 H7]]; [left; now apply (source_same _ _ _ HE)|right]. split; [|assumption].
      intros v Hv Hs. apply (H4 v); [now apply HV|now apply (source_same _ _ _ HE')].
    - intros (H1 & H2 & u & x & H3 & H4 & H5 & H6). split; [now apply (simple_cycle_same _ _ _ HE')|]. split; [assumption|].
      exists u, x. split; [split; [now apply HV|]|split; [assumption|now apply (reachable_same _ _ _ _ HE')]].
      destruct H4 as [H4|[H4 H7]]; [left; now apply (source_same _ _ _ HE')|right]. split; [|assumption].
      intros v Hv Hs. apply (H4 v); [now apply HV|now apply (source_same _ _ _ HE)]. }
  split; [exact (runs_collect _ _ _ _ _ Hruns)|].
  split; [split; assumption|]. intros a r HG HU.
  set (cs := cycle_constraints a). set (kept := filter (fun c => cycle_check c cs) seen).
  exists kept. split; [now apply NoDup_filter|]. split.
  { intro c. unfold kept. rewrite filter_In. unfold cycle_check. rewrite forallb_forall.
    pose proof (cycle_constraints_spec a r c HG HU) as Hs. rewrite <- Hs. unfold sat.
    split; (intros [H1 H2]; split; [assumption|]); intros k Hk; apply check_complete_spec; now apply H2. }
  split; [intros c d; apply filter_before|].
  assert (Hk : runs (accepted_next (order g) cs) (cycle_iter (order g)) kept) by (apply runs_filter; exact Hruns).
  pose proof (runs_collect _ _ _ _ _ Hk) as Hcol. fold (accepted (order g) cs) in Hcol.
  pose proof (runs_collect _ _ _ _ _ Hruns) as Hcolall.
  assert (Hp : forall f out, settles f out -> (forall n, snd (run_prog (gc_cycle nd order a n) s) = f n) ->
    prints (gc_cycle nd order a) s out).
  { intros f out [n0 Hn] Hf. exists n0. intros n Hl. rewrite Hf. now apply Hn. }
  assert (Hrun : forall n, snd (run_prog (gc_cycle nd order a n) s) = _) by
    (intro n; exact (f_equal snd (run_graph nd order _ s g HL))).
  intros x Hx. unfold asks in Hx.
  destruct x; injection Hx as E1 E2 E3 E4 E5 E6 E7 E8; unfold take_count in Hrun;
    cbn [snd] in Hrun; cbv zeta beta in Hrun; rewrite ?E1, ?E2, ?E3, ?E4, ?E5, ?E6, ?E7, ?E8 in Hrun;
    cbv iota in Hrun; cbn [cycle_output].
  - (* girth *)
    eexists. split; [eapply Hp; [|exact Hrun]; apply omap_settles; unfold girth, cycle_take_all; apply omap_settles; exact Hcolall|].
    pose proof (min_by_key_spec _ (fun n => n) (map cycle_len seen)) as Hm.
    destruct (min_by_key (fun n => n) (map cycle_len seen)) as [m|].
    + right. destruct Hm as (p & q & Heq & Hmp & Hmq).
      assert (Hin : In m (map cycle_len seen)) by (rewrite Heq; apply in_or_app; right; now left).
      apply in_map_iff in Hin. destruct Hin as (c & Hc & Hcin). exists c, (show (N.of_nat m)).
      assert (Hmin : forall c', In c' seen -> (length c <= length c')%nat).
      { intros c' Hc'. assert (Hi : In (cycle_len c') (map cycle_len seen)) by now apply in_map.
        rewrite Heq in Hi. apply in_app_iff in Hi. unfold cycle_len in *. rewrite Hc.
        destruct Hi as [Hi|[Hi|Hi]]; [apply Hmp in Hi; lia|lia|now apply Hmq in Hi]. }
      split; [assumption|]. split; [assumption|]. split; [unfold cycle_len in Hc; rewrite Hc; apply show_spec|].
      assert (Hne : m <> 0%nat).
      { intros ->. apply Hall in Hcin. destruct Hcin as [Hcin _]. apply simple_cycle_ne in Hcin. now destruct c. }
      destruct m; [congruence|]. reflexivity.
    + left. split; [now apply map_eq_nil in Hm|reflexivity].
  - (* hamiltonian *)
    destruct (C68_hamiltonian_cycle (order g) Bo) as (res & Hr & H1 & H2).
    eexists. split; [eapply Hp; [|exact Hrun]; apply omap_settles; exact Hr|].
    destruct res as [c|].
    + right. exists c, (format_cycle c). split; [now apply (hamiltonian_cycle_same _ _ _ _ _ HV HE), H1|].
      split; [apply format_cycle_vec|reflexivity].
    + left. split; [|reflexivity]. intros c Hc. apply (H2 eq_refl c). apply (hamiltonian_cycle_same (gV g) _ (gE g)); auto.
      intro v. symmetry. apply HV.
  - (* count *)
    eexists. split; [eapply Hp; [|exact Hrun]; apply omap_settles; exact Hcol|]. eexists. split; [apply show_spec|reflexivity].
  - (* shortest *)
    eexists. split; [eapply Hp; [|exact Hrun]; apply omap_settles; exact Hcol|].
    pose proof (min_by_key_spec _ cycle_len kept) as Hm. destruct (min_by_key cycle_len kept) as [c|].
    + right. destruct Hm as (p & q & H1 & H2 & H3). exists p, c, q, (format_cycle c).
      split; [assumption|]. split; [assumption|]. split; [assumption|]. split; [apply format_cycle_vec|reflexivity].
    + left. split; [assumption|reflexivity].
  - (* longest *)
    eexists. split; [eapply Hp; [|exact Hrun]; apply omap_settles; exact Hcol|].
    pose proof (max_by_key_spec _ cycle_len kept) as Hm. destruct (max_by_key cycle_len kept) as [c|].
    + right. destruct Hm as (p & q & H1 & H2 & H3). exists p, c, q, (format_cycle c).
      split; [assumption|]. split; [assumption|]. split; [assumption|]. split; [apply format_cycle_vec|reflexivity].
    + left. split; [assumption|reflexivity].
  - (* head *)
    eexists. split; [eapply Hp; [|exact Hrun]; apply omap_settles; apply (runs_take _ _ _ 1 _ _ Hk)|]. apply map_format.
  - (* take-n *)
    destruct (parse_u64 n) as [k|] eqn:En.
    + unfold parse_usize in Hrun. rewrite En in Hrun. cbn [option_map] in Hrun.
      eexists. split; [eapply Hp; [|exact Hrun]; apply omap_settles; apply (runs_take _ _ _ (N.to_nat k) _ _ Hk)|].
      left. exists k. split; [now apply parse_id_spec|]. apply map_format.
    + unfold parse_usize in Hrun. rewrite En in Hrun. cbn [option_map] in Hrun.
      exists []. split; [exists 0%nat; intros m _; exact (Hrun m)|]. right. split; [|reflexivity].
      intros k Hk'. apply parse_id_spec in Hk'. congruence.
  - (* all *)
    eexists. split; [eapply Hp; [|exact Hrun]; apply omap_settles; exact Hcol|]. apply map_format.
Qed.
Theorem C87_cycle : forall nd order s g, hash_order order -> loads nd s g ->
  exists seen, enumerates seen (cycle_seen g (head_option (order g))) /\
  forall a r, cycle_given a r -> r_max_score (k_bounds r) = None ->
  exists kept, NoDup kept /\ (forall c, In c kept <-> In c seen /\ cycle_meets r c) /\
    (forall c d, before c d kept -> before c d seen) /\
    forall x, asks a x -> exists lines, prints (gc_cycle nd order a) s lines /\ cycle_output g x seen kept lines.
Proof. intros nd order s g O HL. destruct (cycle_answers nd order s g O HL) as (seen & _ & H). now exists seen. Qed.
Print Assumptions C87_cycle.
(** Those are all cycles when every vertex can be reached from one without entering
    edges, or every vertex from every other. *)
Theorem C87_all_seen : forall nd order s g, hash_order order -> loads nd s g ->
  (forall v, gV g v -> exists u, gV g u /\ source (gE g) u /\ reachable (gE g) u v) \/
  (forall u v, gV g u -> gV g v -> reachable (gE g) u v) ->
  forall c, cycle_seen g (head_option (order g)) c <-> simple_cycle (gE g) c /\ least_first c.
Proof.
  intros nd order s g O HL H c. destruct (loaded nd order s g O HL) as (Bg & Bo & HV & HE). unfold cycle_seen.
  split; [tauto|]. intros [H1 H2]. split; [assumption|]. split; [assumption|].
  pose proof H1 as (_ & _ & x & y & Hx & Hy & He). destruct (gE_vertices g (built_wf Bg) y x He) as [_ Vx].
  apply vertices_In in Vx. assert (Hin : In x c) by (destruct Hx as [t ->]; now left).
  destruct H as [H|H].
  - destruct (H x Vx) as (u & Hu & Hs & Hr). exists u, x. auto.
  - assert (Hh : exists h, head_option (order g) = Some h /\ gV g h).
    { apply HV, vertices_In in Vx. unfold head_option. destruct (vertices (order g)) as [|h l] eqn:Ev; [contradiction|].
      exists h. split; [reflexivity|]. apply HV, vertices_In. rewrite Ev. now left. }
    destruct Hh as (h & Hh & Vh).
    destruct (find_starting_edges (order g)) as [|u l] eqn:Es.
    + exfalso. unfold find_starting_edges in Es. destruct (filter _ (vertices (order g))) as [|b l]; [|discriminate].
      now rewrite Hh in Es.
    + assert (Hu : search_start (order g) u) by (apply search_start_spec; [exact (built_wf Bo)|]; rewrite Es; now left).
      destruct Hu as [Vu Hu]. apply HV in Vu. exists u, x. split; [assumption|]. split; [|split; [assumption|now apply H]].
      destruct Hu as [Hu|[Hu Hu']]; [left; now apply (source_same _ _ _ HE)|right]. split; [|assumption].
      intros v Hv Hs. apply (Hu v); [now apply HV|now apply (source_same _ _ _ (same_edges_sym _ _ HE))].
Qed.
Print Assumptions C87_all_seen.
(** False in general: an isolated vertex hides all cycles, in every hash order. *)
Definition ask_girth : cycle_args := {| c_girth := true; c_hamiltonian := false; c_count := false;
  c_shortest := false; c_longest := false; c_head := false; c_take_n := None; c_all := false;
  c_include := None; c_exclude := None; c_include_edges := None; c_exclude_edges := None;
  c_bounds := {| b_min_length := None; b_max_length := None; b_exact_length := None;
                 b_min_score := None; b_max_score := None; b_exact_score := None |} |}.
Theorem C87_unseen_refuted : exists nd s g, loads nd s g /\ simple_cycle (gE g) [1; 2] /\
  forall order, hash_order order -> prints (gc_cycle nd order ask_girth) s [txt "girth: Infinity"].
Proof.
  set (file := txt "AddVertex 9" ++ [10] ++ txt "AddEdge 1 2" ++ [10] ++ txt "AddEdge 2 1").
  assert (HX : exists g, loads table (with_file file) g /\ simple_cycle (gE g) [1; 2] /\ gV g 9 /\ source (gE g) 9 /\
    (forall v, gV g v -> source (gE g) v -> v = 9) /\ (forall v, ~ gE g 9 v)).
  { exists (apply_commands [AddVertex 9; AddEdge 1 2; AddEdge 2 1] g_new). split; [reflexivity|].
    assert (B : built (apply_commands [AddVertex 9; AddEdge 1 2; AddEdge 2 1] g_new)) by (eexists; apply built_by_apply).
    assert (HE : forall u v, gE (apply_commands [AddVertex 9; AddEdge 1 2; AddEdge 2 1] g_new) u v ->
      (u, v) = (1, 2) \/ (u, v) = (2, 1)).
    { intros u v H. apply (gE_outbound _ (built_wf B)) in H. pose proof H as H'. apply outbound_In in H. destruct H as [_ Hu].
      assert (Vu : In u [1; 2; 9]).
      { destruct (gE_vertices _ (built_wf B) u v) as [Vu _]; [now apply (gE_outbound _ (built_wf B))|].
        vm_compute in Vu. vm_compute. tauto. }
      destruct Vu as [<-|[<-|[<-|[]]]]; vm_compute in H'; intuition. }
    split; [|split; [reflexivity|split; [|split]]].
    - split; [repeat constructor; cbn; intuition discriminate|]. split.
      + intros u v (p & q & H). destruct p as [|z [|z' p]]; cbn in H.
        * injection H as <- <- _. reflexivity.
        * discriminate.
        * apply (f_equal (@length N)) in H. cbn in H. rewrite app_length in H. cbn in H. lia.
      + exists 1, 2. split; [now exists [2]|]. split; [now exists [1]|]. reflexivity.
    - intros u Hu. apply HE in Hu. destruct Hu; discriminate.
    - intros v Hv Hs. apply vertices_In in Hv. vm_compute in Hv.
      destruct (N.eq_dec v 9) as [|Hn]; [assumption|]. exfalso.
      assert (Hv' : v = 1 \/ v = 2) by (intuition congruence). destruct Hv' as [-> | ->]; [apply (Hs 2)|apply (Hs 1)]; reflexivity.
    - intros v Hv. apply HE in Hv. destruct Hv; discriminate. }
  destruct HX as (g & HL & HC & H9 & S9 & Honly & Hno). exists table, (with_file file), g.
  split; [exact HL|]. split; [exact HC|]. intros order O.
  destruct (C87_cycle table order (with_file file) g O HL) as (seen & [_ Hseen] & H).
  destruct (H ask_girth {| k_include := None; k_exclude := None; k_include_edges := None; k_exclude_edges := None;
    k_bounds := {| r_min_length := None; r_max_length := None; r_exact_length := None;
                   r_min_score := None; r_max_score := None; r_exact_score := None |} |}) as (kept & _ & _ & _ & K).
  { refine (conj I (conj I (conj I (conj I (conj I (conj I (conj I (conj I (conj I I))))))))). }
  { reflexivity. }
  destruct (K Girth eq_refl) as (lines & P & [[_ ->]|(c & d & Hc & _)]); [exact P|]. exfalso.
  apply Hseen in Hc. destruct Hc as ((Hd1 & Hd2 & a & b & Ha & Hb & Hab) & _ & u & x & Vu & Hu & Hx & Hr).
  assert (u = 9). { destruct Hu as [Hu|[Hu _]]; [now apply Honly|]. exfalso. now apply (Hu 9). } subst u.
  assert (x = 9).
  { destruct Hr as (l & (t & ->) & (t' & Hl) & Hch). destruct t as [|z t].
    - destruct t' as [|z t']; [now injection Hl|]. injection Hl as _ Hl. now destruct t'.
    - exfalso. apply (Hno z), (Hch 9 z). now exists [], t. }
  subst x. apply in_split in Hx. destruct Hx as (p & q & ->). destruct q as [|z q].
  - destruct Hb as [p' Hb]. apply app_inj_tail in Hb. destruct Hb as [_ <-]. exact (Hno a Hab).
  - apply (Hno z), (Hd2 9 z). now exists p, q.
Qed.
Print Assumptions C87_unseen_refuted.

(** ** C88 *)
Theorem C88_topo_sort : forall nd order s g, hash_order order -> loads nd s g -> (forall v, ~ gE g v v) ->
  (acyclic (gE g) -> exists vs t, enumerates vs (gV g) /\ (forall u v, gE g u v -> before u v vs) /\ spaced vs t /\
     prints (gc_topo_sort nd order) s [txt "Topological order: " ++ t]) /\
  (~ acyclic (gE g) -> prints (gc_topo_sort nd order) s [txt "Graph is not a DAG."]).
Proof.
  intros nd order s g O HL Hno. destruct (loaded nd order s g O HL) as (_ & Bo & HV & HE).
  destruct (C51_topological_sort (order g) Bo) as (r & [n0 Hn] & _ & _ & Hr).
  { intro v. destruct (contains_edge (order g) (v, v)) eqn:E; [|reflexivity]. exfalso. apply (Hno v), HE. exact E. }
  assert (Hp : prints (gc_topo_sort nd order) s (topo_lines r)).
  { exists n0. intros n Hl. unfold gc_topo_sort. rewrite (run_graph _ _ _ _ g HL). cbn [snd]. now rewrite (Hn n Hl). }
  destruct r as [vs|].
  - destruct Hr as (Hac & Hen & Hb). split.
    + intros _. exists vs, (concat (map (fun v => show v ++ txt " ") vs)). split; [|split; [|split]].
      * destruct Hen as [H1 H2]. split; [assumption|]. intro v. rewrite H2. apply HV.
      * intros u v Huv. now apply Hb, HE.
      * apply spaced_concat.
      * exact Hp.
    + intro H. exfalso. apply H. intros l (z & Hw & Hl). apply (Hac l). exists z. split; [|assumption].
      now apply (walk_same _ _ _ _ _ (same_edges_sym _ _ HE)).
  - destruct Hr as (l & z & Hw & Hl). split.
    + intro H. exfalso. apply (H l). exists z. split; [|assumption]. now apply (walk_same _ _ _ _ _ HE).
    + intros _. exact Hp.
Qed.
Print Assumptions C88_topo_sort.
(** False with self-loops (C52): a graph with a cycle gets an order that misses a vertex. *)
Theorem C88_self_loop_refuted : exists nd order s g, hash_order order /\ loads nd s g /\
  gE g 2 2 /\ prints (gc_topo_sort nd order) s [txt "Topological order: 1 "].
Proof.
  exists table, id_order, (with_file (txt "AddEdge 1 2" ++ [10] ++ txt "AddEdge 2 2")). eexists.
  split; [exact id_order_ok|]. split; [reflexivity|]. split; [vm_compute; reflexivity|].
  assert (HL : loads table (with_file (txt "AddEdge 1 2" ++ [10] ++ txt "AddEdge 2 2"))
    (apply_commands [AddEdge 1 2; AddEdge 2 2] g_new)) by reflexivity.
  destruct (topo_settles (apply_commands [AddEdge 1 2; AddEdge 2 2] g_new) [1] [(1, 2)]) as [[n0 Hn] _].
  { intros n Hn. vm_compute in Hn. destruct n as [|[|[|n]]]; [lia|lia|lia|]. reflexivity. }
  exists n0. intros n Hl. unfold gc_topo_sort. rewrite (run_graph _ _ _ _ _ HL). cbn [snd]. unfold id_order.
  rewrite (Hn n Hl). reflexivity.
Qed.
Print Assumptions C88_self_loop_refuted.
Example C88_case : exists g, loads table (with_file (txt "AddEdge 7 3" ++ [10] ++ txt "AddEdge 3 12")) g /\
  (forall v, ~ gE g v v) /\
  snd (run_prog (gc_topo_sort table id_order 20) (with_file (txt "AddEdge 7 3" ++ [10] ++ txt "AddEdge 3 12"))) =
  Done [txt "Topological order: 7 3 12 "].
Proof.
  eexists. split; [reflexivity|]. split; [|vm_compute; reflexivity].
  intro v. unfold gE. rewrite no_loops_dec; [discriminate| |vm_compute; reflexivity].
  assert (B : built (apply_commands [AddEdge 7 3; AddEdge 3 12] g_new)) by (eexists; apply built_by_apply).
  exact (built_wf B).
Qed.

Definition two_cycles_file : text := txt "AddEdge 9 1" ++ [10] ++ txt "AddEdge 1 2" ++ [10] ++ txt "AddEdge 2 3" ++ [10] ++
  txt "AddEdge 3 1" ++ [10] ++ txt "AddEdge 2 1" ++ [10] ++ txt "AddEdge 3 3".
Definition cycle_example (cnt all : bool) : cycle_args := {| c_girth := false; c_hamiltonian := false; c_count := cnt;
  c_shortest := false; c_longest := false; c_head := false; c_take_n := None; c_all := all;
  c_include := Some [txt "2"]; c_exclude := None; c_include_edges := None; c_exclude_edges := None;
  c_bounds := {| b_min_length := None; b_max_length := None; b_exact_length := Some (txt "3");
                 b_min_score := None; b_max_score := None; b_exact_score := None |} |}.
Example C87_case : exists g r, loads table (with_file two_cycles_file) g /\
  cycle_given (cycle_example true false) r /\ cycle_given (cycle_example false true) r /\
  r_max_score (k_bounds r) = None /\ asks (cycle_example true false) Count /\ asks (cycle_example false true) All /\
  snd (run_prog (gc_cycle table id_order (cycle_example true false) 200) (with_file two_cycles_file)) = Done [txt "count: 1"] /\
  snd (run_prog (gc_cycle table id_order (cycle_example false true) 200) (with_file two_cycles_file)) = Done [txt "[1, 2, 3]"].
Proof.
  eexists. exists {| k_include := Some [2]; k_exclude := None; k_include_edges := None; k_exclude_edges := None;
    k_bounds := {| r_min_length := None; r_max_length := None; r_exact_length := Some 3;
                   r_min_score := None; r_max_score := None; r_exact_score := None |} |}.
  split; [reflexivity|].
  split; [|split; [|split; [reflexivity|split; [reflexivity|split; [reflexivity|split; vm_compute; reflexivity]]]]];
    refine (conj _ (conj I (conj I (conj I (conj I (conj I (conj _ (conj I (conj I I)))))))));
    try (apply parse_list_spec; reflexivity); apply parse_id_spec; reflexivity.
Qed.

(** ** C89 *)
(** The query tools. *)
Inductive query := QShortPath (a b : text) | QCsp (a b : text) (opts : csp_args) | QTopoSort | QCycle (a : cycle_args).
Definition program nd order Q (q : query) : nat -> prog (outcome (list text)) :=
  match q with
  | QShortPath a b => gc_short_path nd order Q a b
  | QCsp a b opts => gc_csp nd order Q a b opts
  | QTopoSort => gc_topo_sort nd order
  | QCycle a => gc_cycle nd order a
  end.
(** The vertex ids a query is given. *)
Definition well_formed (q : query) : Prop :=
  match q with
  | QShortPath a b | QCsp a b _ => (exists x, id_argument a x) /\ exists y, id_argument b y
  | _ => True
  end.
Lemma program_shape nd order Q q : forall n,
  (~ well_formed q /\ program nd order Q q n = Ret Panic) \/
  (well_formed q /\ exists f, program nd order Q q n = with_graph nd order f).
Proof.
  intro n.
  assert (Hids : forall a b (f : N -> N -> graph -> outcome (list text)),
    (~ ((exists x, id_argument a x) /\ exists y, id_argument b y) /\
       with_ids a b (fun x y => with_graph nd order (f x y)) = Ret Panic) \/
    (((exists x, id_argument a x) /\ exists y, id_argument b y) /\
       exists h, with_ids a b (fun x y => with_graph nd order (f x y)) = with_graph nd order h)).
  { intros a b f. unfold with_ids, parse_vertex_id. destruct (parse_u64 a) as [x|] eqn:Ea.
    - destruct (parse_u64 b) as [y|] eqn:Eb.
      + right. split; [split; eexists; apply parse_id_spec; eassumption|]. now eexists.
      + left. split; [|reflexivity]. intros [_ [y Hy]]. apply parse_id_spec in Hy. congruence.
    - left. split; [|reflexivity]. intros [[x Hx] _]. apply parse_id_spec in Hx. congruence. }
  destruct q as [a b|a b opts| |a]; cbn [program well_formed].
  - apply Hids.
  - apply Hids.
  - right. split; [exact I|]. now eexists.
  - right. split; [exact I|]. now eexists.
Qed.

Theorem C89_read_only : forall nd order Q q s fuel,
  fst (run_prog (program nd order Q q fuel) s) = s /\
  forall s', crash (program nd order Q q fuel) s s' -> s' = s.
Proof.
  intros nd order Q q s fuel. destruct (program_shape nd order Q q fuel) as [[_ ->]|[_ [f ->]]].
  - split; [reflexivity|]. intros s' H. now apply crash_ret in H.
  - split.
    + unfold with_graph. rewrite run_bind, run_load. reflexivity.
    + intros s' H. unfold with_graph in H. apply crash_bind in H. destruct H as [H|H].
      * unfold load_graph in H. apply crash_act in H. destruct H as [->|H]; [reflexivity|]. now apply crash_ret in H.
      * rewrite run_load in H. now apply crash_ret in H.
Qed.
Print Assumptions C89_read_only.
Lemma cycle_prints nd order s g a : hash_order order -> loads nd s g -> exists lines, prints (gc_cycle nd order a) s lines.
Proof.
  intros O HL. destruct (loaded nd order s g O HL) as (_ & Bo & _ & _).
  destruct (cycle_out (order g) (built_wf Bo)) as (seen & Hruns & _).
  set (cs := cycle_constraints a). set (kept := filter (fun c => cycle_check c cs) seen).
  assert (Hk : runs (accepted_next (order g) cs) (cycle_iter (order g)) kept) by (apply runs_filter; exact Hruns).
  pose proof (runs_collect _ _ _ _ _ Hk) as Hcol. fold (accepted (order g) cs) in Hcol.
  pose proof (runs_collect _ _ _ _ _ Hruns) as Hcolall.
  assert (Hp : forall f out, settles f out -> (forall n, snd (run_prog (gc_cycle nd order a n) s) = f n) ->
    exists lines, prints (gc_cycle nd order a) s lines).
  { intros f out [n0 Hn] Hf. exists out, n0. intros n Hl. rewrite Hf. now apply Hn. }
  assert (Hrun : forall n, snd (run_prog (gc_cycle nd order a n) s) = _) by
    (intro n; exact (f_equal snd (run_graph nd order _ s g HL))).
  cbn [snd] in Hrun. cbv zeta beta in Hrun. fold cs in Hrun.
  destruct (c_girth a).
  { eapply Hp; [|exact Hrun]. apply omap_settles. unfold girth, cycle_take_all. apply omap_settles. exact Hcolall. }
  destruct (c_hamiltonian a).
  { eapply Hp; [|exact Hrun]. apply omap_settles. unfold hamiltonian. apply (runs_find _ _ _ _ _ _ Hruns). }
  destruct (c_count a); [eapply Hp; [|exact Hrun]; apply omap_settles; exact Hcol|].
  destruct (c_shortest a); [eapply Hp; [|exact Hrun]; apply omap_settles; exact Hcol|].
  destruct (c_longest a); [eapply Hp; [|exact Hrun]; apply omap_settles; exact Hcol|].
  destruct (take_count a) as [k|].
  { eapply Hp; [|exact Hrun]. apply omap_settles. apply (runs_take _ _ _ k _ _ Hk). }
  destruct (c_all a); [eapply Hp; [|exact Hrun]; apply omap_settles; exact Hcol|].
  exists [], 0%nat. intros n _. exact (Hrun n).
Qed.
(** A query fails exactly when the ids it is given or the commands file are
    malformed; otherwise it prints something, gc-csp only if its search ends. *)
Theorem C89_failure : forall nd order Q q s, hash_order order -> pops_least Q sp_score ->
  (~ well_formed q \/ (forall g, ~ loads nd s g) ->
     forall fuel, snd (run_prog (program nd order Q q fuel) s) = Panic) /\
  (well_formed q -> (exists g, loads nd s g) ->
     (forall fuel, (exists a b o, q = QCsp a b o) -> snd (run_prog (program nd order Q q fuel) s) <> Panic) /\
     ((forall a b o, q <> QCsp a b o) -> exists lines, prints (program nd order Q q) s lines)).
Proof.
  intros nd order Q q s O HQ. split.
  - intros H fuel. destruct (program_shape nd order Q q fuel) as [[_ ->]|[Hw [f ->]]]; [reflexivity|].
    destruct H as [H|H]; [contradiction|]. unfold with_graph. rewrite run_bind. cbn [run_prog snd].
    destruct (snd (run_prog (load_graph nd) s)) as [[g|]| |] eqn:E; try reflexivity.
    exfalso. apply (H g). unfold loads. rewrite run_load in E |- *. cbn [snd] in E. now rewrite E.
  - intros Hw [g HL]. destruct (loaded nd order s g O HL) as (_ & Bo & _ & _). split.
    + intros fuel (a & b & o & ->) H. destruct Hw as [[x Hx] [y Hy]]. cbn [program] in H.
      pose proof (f_equal snd (run_ids nd order (fun x y g => omap (csp_lines x y (csp_constraints o))
        (constrained_shortest_path Q g one_weighted_edge zero_heuristic x y (csp_constraints o) fuel)) s g a b x y HL Hx Hy)) as E.
      unfold gc_csp in H. cbv zeta in H. rewrite E in H. cbn [snd] in H.
      pose proof (csp_no_panic Q (order g) x y (csp_constraints o) fuel (built_wf Bo)) as HP.
      destruct (constrained_shortest_path Q (order g) one_weighted_edge zero_heuristic x y (csp_constraints o) fuel);
        [discriminate|congruence|discriminate].
    + intro Hn. destruct q as [a b|a b opts| |a]; cbn [program].
      * destruct Hw as [[x Hx] [y Hy]]. destruct (C84_short_path nd order Q s g a b x y O HQ HL Hx Hy)
          as (dx & dy & _ & _ & [[_ H]|(p & n & l & _ & _ & _ & _ & _ & H)]); eauto.
      * exfalso. exact (Hn a b opts eq_refl).
      * destruct (C52_topo_exact (order g) Bo) as (r & [n0 Hr] & _). exists (topo_lines r). exists n0. intros n Hl.
        unfold gc_topo_sort. rewrite (run_graph _ _ _ _ g HL). cbn [snd]. now rewrite (Hr n Hl).
      * exact (cycle_prints nd order s g a O HL).
Qed.
Print Assumptions C89_failure.
Example C89_case : well_formed (QShortPath (txt "1") (txt "+2")) /\ ~ well_formed (QShortPath (txt "1") (txt "-2")) /\
  (forall g, ~ loads table (with_file (txt "AddEdge 1")) g) /\ exists g, loads table (with_file (txt "AddEdge 1 2")) g.
Proof.
  split; [split; [exists 1|exists 2]; now apply parse_id_spec|]. split; [intros [_ [y Hy]]; apply parse_id_spec in Hy; discriminate|].
  split; [intros g H; vm_compute in H; discriminate|]. eexists. reflexivity.
Qed.

(** ** C90: the answers depend on the graph only, not on the history of its file,
    the hash order or the order among equal scores *)
Lemma distance_fun E x y d d' : distance E x y d -> distance E x y d' -> d = d'.
Proof. intros [(l & Hl & <-) H1] [(l' & Hl' & <-) H2]. apply H1 in Hl'. apply H2 in Hl. lia. Qed.
Lemma distance_same E F x y d : same_edges E F -> distance E x y d -> distance F x y d.
Proof.
  intros H [(l & Hl & Hd) Hm]. split; [exists l; split; [now apply (walk_same E F)|assumption]|].
  intros l' Hl'. apply Hm. now apply (walk_same F E); [apply same_edges_sym|].
Qed.
Lemma shown_same_edges g g' : a_same (shown g) (shown g') -> same_edges (gE g) (gE g').
Proof. intros [_ H]. exact H. Qed.
Lemma listed_length p l : listed p l -> length l = length p.
Proof. induction 1; cbn; congruence. Qed.
Lemma listed_hops p l : listed p l -> p <> [] -> length l = (hops p + 1)%nat.
Proof. intros H Hp. rewrite (listed_length _ _ H). unfold hops. destruct p; [congruence|]. cbn. lia. Qed.

Theorem C90_short_path : forall nd order order' Q Q' s s' g g' a b x y,
  hash_order order -> hash_order order' -> pops_least Q sp_score -> pops_least Q' sp_score ->
  loads nd s g -> loads nd s' g' -> a_same (shown g) (shown g') -> id_argument a x -> id_argument b y ->
  exists first rest rest', length rest = length rest' /\
    prints (gc_short_path nd order Q a b) s (first :: rest) /\ prints (gc_short_path nd order' Q' a b) s' (first :: rest').
Proof.
  intros nd order order' Q Q' s s' g g' a b x y O O' HQ HQ' HL HL' HS Ha Hb. apply shown_same_edges in HS.
  pose proof (same_edges_sym _ _ HS) as HS'.
  destruct (C84_short_path nd order Q s g a b x y O HQ HL Ha Hb) as (dx & dy & Hx & Hy & H).
  destruct (C84_short_path nd order' Q' s' g' a b x y O' HQ' HL' Ha Hb) as (dx' & dy' & Hx' & Hy' & H').
  rewrite (canonical_unique _ _ _ Hx' Hx), (canonical_unique _ _ _ Hy' Hy) in H'.
  destruct H as [[Hn H]|(p & n & l & Hw & _ & Hd & Hc & Hl & H)];
  destruct H' as [[Hn' H']|(p' & n' & l' & Hw' & _ & Hd' & Hc' & Hl' & H')].
  - exists (txt "Vertex " ++ dy ++ txt " is not reachable from vertex " ++ dx ++ txt "."), [], []. auto.
  - exfalso. apply Hn. exists p'. now apply (walk_same _ _ _ _ _ HS').
  - exfalso. apply Hn'. exists p. now apply (walk_same _ _ _ _ _ HS).
  - assert (E : hops p' = hops p) by (eapply distance_fun; [exact Hd'|]; now apply (distance_same _ _ _ _ _ HS)).
    rewrite E in Hc'. rewrite (canonical_unique _ _ _ Hc' Hc) in H'.
    exists (txt "Shortest path from vertex " ++ dx ++ txt " to vertex " ++ dy ++ txt " with total cost of " ++ n), l, l'.
    split; [|split; assumption]. rewrite (listed_hops p l), (listed_hops p' l'), E; try assumption; [reflexivity| |].
    + destruct Hw' as ((t & ->) & _). discriminate.
    + destruct Hw as ((t & ->) & _). discriminate.
Qed.
Print Assumptions C90_short_path.

Lemma csp_found_same g g' r x y ans ans' : (forall p, wanted g r x y p <-> wanted g' r x y p) ->
  csp_found g r x y ans -> csp_found g' r x y ans' ->
  exists first rest rest', ans = first :: rest /\ ans' = first :: rest' /\ length rest = length rest'.
Proof.
  intros HW (p & dx & dy & n & l & Hw & Hm & Hx & Hy & Hn & Hl & ->) (p' & dx' & dy' & n' & l' & Hw' & Hm' & Hx' & Hy' & Hn' & Hl' & ->).
  assert (E : hops p' = hops p).
  { pose proof (Hm p' (proj2 (HW p') Hw')). pose proof (Hm' p (proj1 (HW p) Hw)). lia. }
  rewrite E in Hn'. rewrite (canonical_unique _ _ _ Hx' Hx), (canonical_unique _ _ _ Hy' Hy), (canonical_unique _ _ _ Hn' Hn).
  eexists _, l, l'. split; [reflexivity|]. split; [reflexivity|].
  rewrite (listed_hops p l), (listed_hops p' l'), E; try assumption; [reflexivity| |].
  - destruct Hw' as (((t & ->) & _) & _). discriminate.
  - destruct Hw as (((t & ->) & _) & _). discriminate.
Qed.
Theorem C90_csp : forall opts r, csp_given opts r -> usual r -> exists header,
  forall nd order order' Q Q' s s' g g' a b x y,
  hash_order order -> hash_order order' -> pops_least Q sp_score -> pops_least Q' sp_score ->
  loads nd s g -> loads nd s' g' -> a_same (shown g) (shown g') -> id_argument a x -> id_argument b y ->
  (* same answer, up to the choice among the shortest paths *)
  (forall fuel fuel' out out', snd (run_prog (gc_csp nd order Q a b opts fuel) s) = Done out ->
     snd (run_prog (gc_csp nd order' Q' a b opts fuel') s') = Done out' ->
     exists first rest rest', out = header ++ first :: rest /\ out' = header ++ first :: rest' /\ length rest = length rest') /\
  (* if one run finds a path, so does the other *)
  (forall fuel answer, snd (run_prog (gc_csp nd order Q a b opts fuel) s) = Done (header ++ answer) ->
     csp_found g r x y answer ->
     exists answer', csp_found g' r x y answer' /\ prints (gc_csp nd order' Q' a b opts) s' (header ++ answer')).
Proof.
  intros opts r HG HU. destruct (C85_csp opts r HG HU) as (ls & _ & H). exists (txt "Constraint that will be applied to search are: " :: ls).
  intros nd order order' Q Q' s s' g g' a b x y O O' HQ HQ' HL HL' HS Ha Hb. apply shown_same_edges in HS.
  pose proof (same_edges_sym _ _ HS) as HS'.
  assert (HW : forall p, wanted g r x y p <-> wanted g' r x y p).
  { intro p. unfold wanted. split; intros [H1 H2]; (split; [|assumption]); [now apply (walk_same _ _ _ _ _ HS)|now apply (walk_same _ _ _ _ _ HS')]. }
  destruct (H nd order Q s g a b x y O HQ HL Ha Hb) as (H1 & H2 & _).
  destruct (H nd order' Q' s' g' a b x y O' HQ' HL' Ha Hb) as (H1' & H2' & _).
  split.
  - intros fuel fuel' out out' E E'. destruct (H1 _ _ E) as (ans & -> & HA). destruct (H1' _ _ E') as (ans' & -> & HA').
    destruct HA as [HA|[Hn HA]], HA' as [HA'|[Hn' HA']].
    + destruct (csp_found_same _ _ _ _ _ _ _ HW HA HA') as (f & l & l' & -> & -> & Hl). exists f, l, l'. auto.
    + exfalso. destruct HA as (p & _ & _ & _ & _ & Hp & _). exact (Hn' p (proj1 (HW p) Hp)).
    + exfalso. destruct HA' as (p & _ & _ & _ & _ & Hp & _). exact (Hn p (proj2 (HW p) Hp)).
    + destruct HA as (dx & dy & Hx & Hy & ->), HA' as (dx' & dy' & Hx' & Hy' & ->).
      rewrite (canonical_unique _ _ _ Hx' Hx), (canonical_unique _ _ _ Hy' Hy). eexists _, [], []. auto.
  - intros fuel answer _ (p & _ & _ & _ & _ & Hp & _). apply H2'. exists p. now apply HW.
Qed.
Print Assumptions C90_csp.

Lemma digits_split d d' t t' : Forall ascii09 d -> Forall ascii09 d' -> d ++ 32 :: t = d' ++ 32 :: t' -> d = d' /\ t = t'.
Proof.
  intros H. revert d'. induction H as [|c d Hc Hd IH]; intros d' H' E; destruct H' as [|c' d' Hc' Hd']; cbn [app] in E.
  - now injection E as ->.
  - injection E as <- _. apply ascii09_range in Hc'. lia.
  - injection E as -> _. apply ascii09_range in Hc. lia.
  - injection E as -> E. destruct (IH d' Hd' E) as [-> ->]. auto.
Qed.
Lemma spaced_inj vs t : spaced vs t -> forall ws, spaced ws t -> vs = ws.
Proof.
  induction 1 as [|v d vs t Hd _ IH]; intros ws Hw.
  - inversion Hw as [|v d ws' t' Hd Ht]; [reflexivity|]. destruct d; discriminate.
  - inversion Hw as [E|w d' ws' t' Hd' Ht E1 E2]; [destruct d; discriminate|]. subst.
    destruct Hd as ([_ Hd1] & Hd2 & _), Hd' as ([_ Hd1'] & Hd2' & _).
    apply digits_split in E2; [|assumption|assumption]. destruct E2 as [-> ->]. f_equal; [congruence|]. now apply IH.
Qed.
Lemma topo_run nd order s g : hash_order order -> loads nd s g -> exists r, prints (gc_topo_sort nd order) s (topo_lines r) /\
  (r <> None <-> acyclic (gE g) \/ exists v, only_a_terminal_loop (gE g) v) /\
  (forall vs, r = Some vs -> enumerates vs (fun v => gV g v /\ ~ gE g v v) /\
     forall u v, gE g u v -> ~ gE g v v -> before u v vs).
Proof.
  intros O HL. destruct (loaded nd order s g O HL) as (_ & Bo & HV & HE). pose proof (same_edges_sym _ _ HE) as HE'.
  destruct (C52_topo_exact (order g) Bo) as (r & [n0 Hn] & H1 & H2). exists r. split; [|split].
  - exists n0. intros n Hl. unfold gc_topo_sort. rewrite (run_graph _ _ _ _ g HL). cbn [snd]. now rewrite (Hn n Hl).
  - rewrite H1. assert (Hcl : forall l E F, same_edges E F -> closed_walk E l -> closed_walk F l).
    { intros l E F H (z & Hw & Hl). exists z. split; [now apply (walk_same E F)|assumption]. }
    split; (intros [H|(v & Hv1 & Hv2 & Hv3)]; [left; intros l Hl; apply (H l)|right; exists v; split; [|split]]).
    + now apply (Hcl _ _ _ HE').
    + now apply HE.
    + intros x Hx. now apply Hv2, HE.
    + intros l Hl. apply Hv3. now apply (Hcl _ _ _ HE').
    + now apply (Hcl _ _ _ HE).
    + now apply HE.
    + intros x Hx. now apply Hv2, HE.
    + intros l Hl. apply Hv3. now apply (Hcl _ _ _ HE).
  - intros vs ->. destruct (H2 vs eq_refl) as [[Hnd Hin] Hbef]. split.
    + split; [assumption|]. intro v. rewrite Hin.
      pose proof (HE v v) as He. pose proof (HV v) as Hv. unfold gV in *. tauto.
    + intros u v Huv Hvv. apply Hbef; [now apply HE|]. intro H. now apply Hvv, HE.
Qed.
(** C88 on every graph, exactly: an order is printed iff there is no cycle besides,
    possibly, one self-loop on a vertex without other outgoing edges; it lists the
    vertices without self-loop. *)
Theorem C88_exact : forall nd order s g, hash_order order -> loads nd s g ->
  let answered := acyclic (gE g) \/ exists v, only_a_terminal_loop (gE g) v in
  (answered -> exists vs t, enumerates vs (fun v => gV g v /\ ~ gE g v v) /\
     (forall u v, gE g u v -> ~ gE g v v -> before u v vs) /\ spaced vs t /\
     prints (gc_topo_sort nd order) s [txt "Topological order: " ++ t]) /\
  (~ answered -> prints (gc_topo_sort nd order) s [txt "Graph is not a DAG."]).
Proof.
  intros nd order s g O HL answered. destruct (topo_run nd order s g O HL) as (r & Hp & Hr & Hvs).
  destruct r as [vs|].
  - split.
    + intros _. destruct (Hvs vs eq_refl) as [H1 H2].
      exists vs, (concat (map (fun v => show v ++ txt " ") vs)). split; [assumption|]. split; [assumption|].
      split; [apply spaced_concat|exact Hp].
    + intro H. exfalso. apply H, Hr. discriminate.
  - split; [|intros _; exact Hp]. intro H. apply Hr in H. congruence.
Qed.
Print Assumptions C88_exact.
Lemma only_terminal_same E F v : same_edges E F -> only_a_terminal_loop E v -> only_a_terminal_loop F v.
Proof.
  intros H (H1 & H2 & H3). split; [now apply H|]. split; [intros x Hx; now apply H2, H|].
  intros l (z & Hw & Hl). apply H3. exists z. split; [|assumption]. now apply (walk_same F E); [apply same_edges_sym|].
Qed.
Theorem C90_topo_sort : forall nd order order' s s' g g', hash_order order -> hash_order order' ->
  loads nd s g -> loads nd s' g' -> a_same (shown g) (shown g') ->
  (prints (gc_topo_sort nd order) s [txt "Graph is not a DAG."] <-> prints (gc_topo_sort nd order') s' [txt "Graph is not a DAG."]) /\
  forall vs ws t u, prints (gc_topo_sort nd order) s [txt "Topological order: " ++ t] -> spaced vs t ->
    prints (gc_topo_sort nd order') s' [txt "Topological order: " ++ u] -> spaced ws u -> Permutation vs ws.
Proof.
  intros nd order order' s s' g g' O O' HL HL' HS.
  destruct (topo_run nd order s g O HL) as (r & Hp & Hr & Hvs).
  destruct (topo_run nd order' s' g' O' HL' ) as (r' & Hp' & Hr' & Hvs').
  pose proof (shown_same_edges _ _ HS) as HE. pose proof (same_edges_sym _ _ HE) as HE'.
  assert (HR : r <> None <-> r' <> None).
  { rewrite Hr, Hr'. split; (intros [H|[v Hv]]; [left; intros l (z & Hw & Hl); apply (H l); exists z; split; [|assumption]|right; exists v]).
    - now apply (walk_same _ _ _ _ _ HE').
    - now apply (only_terminal_same _ _ _ HE).
    - now apply (walk_same _ _ _ _ _ HE).
    - now apply (only_terminal_same _ _ _ HE'). }
  assert (HD : forall p s0 r0, prints p s0 (topo_lines r0) -> prints p s0 [txt "Graph is not a DAG."] <-> r0 = None).
  { intros p s0 r0 H. split.
    - intro H'. pose proof (settles_fun _ _ _ _ H H') as E. destruct r0; [discriminate|reflexivity].
    - intros ->. exact H. }
  assert (HT : forall p s0 r0 vs t, prints p s0 (topo_lines r0) -> prints p s0 [txt "Topological order: " ++ t] -> spaced vs t -> r0 = Some vs).
  { intros p s0 r0 vs t H H' Hs. pose proof (settles_fun _ _ _ _ H H') as E. destruct r0 as [l|]; [|discriminate].
    cbn [topo_lines] in E. injection E as E. subst t. f_equal. apply (spaced_inj _ _ (spaced_concat l) _ Hs). }
  split.
  - rewrite (HD _ _ _ Hp), (HD _ _ _ Hp'). destruct r, r'; split; intro E; try discriminate; try reflexivity; exfalso.
    + apply (proj1 HR); [discriminate|assumption].
    + apply (proj2 HR); [discriminate|assumption].
  - intros vs ws t u H1 H2 H3 H4. pose proof (HT _ _ _ vs t Hp H1 H2) as R1. pose proof (HT _ _ _ ws u Hp' H3 H4) as R2.
    destruct (Hvs _ R1) as [[N1 I1] _], (Hvs' _ R2) as [[N2 I2] _]. apply NoDup_Permutation; [assumption|assumption|].
    intro v. rewrite I1, I2. pose proof (HE v v) as He. destruct HS as [HV _]. specialize (HV v). unfold gV. cbn in HV. tauto.
Qed.
Print Assumptions C90_topo_sort.
(** gc-build is one way to keep the graph and change its file. *)
Corollary C90_build : forall nd chunks order s s' g, digit_table nd -> buffering chunks -> hash_order order ->
  loads nd s g -> run_prog (gc_build nd chunks order) s = (s', Success) ->
  exists g', loads nd s' g' /\ a_same (shown g) (shown g').
Proof.
  intros nd chunks order s s' g T B O HL H. destruct (C23_build nd chunks order s s' Success T B O H) as (H1 & _).
  destruct (H1 g HL) as (_ & (g' & HL' & _ & HS) & _). exists g'. split; [assumption|]. now apply a_same_sym.
Qed.
Print Assumptions C90_build.
(** False for gc-cycle: what it finds depends on the hash order (see C67). *)
Definition count_cycles : cycle_args := {| c_girth := false; c_hamiltonian := false; c_count := true;
  c_shortest := false; c_longest := false; c_head := false; c_take_n := None; c_all := false;
  c_include := None; c_exclude := None; c_include_edges := None; c_exclude_edges := None; c_bounds := no_bounds |}.
Theorem C90_cycle_refuted : exists nd order order' s g fuel, hash_order order /\ hash_order order' /\ loads nd s g /\
  snd (run_prog (gc_cycle nd order count_cycles fuel) s) = Done [txt "count: 2"] /\
  snd (run_prog (gc_cycle nd order' count_cycles fuel) s) = Done [txt "count: 1"].
Proof.
  exists table, id_order, (@rev _), (with_file (txt "AddEdge 1 1" ++ [10] ++ txt "AddEdge 1 2" ++ [10] ++ txt "AddEdge 2 2")).
  eexists. exists 100%nat. split; [exact id_order_ok|]. split; [intro g; apply Permutation_rev|]. split; [reflexivity|].
  split; vm_compute; reflexivity.
Qed.
Print Assumptions C90_cycle_refuted.
(** It does not when every vertex can be reached from one without entering edges. *)
Theorem C90_cycle_count : forall nd order order' s s' g g', hash_order order -> hash_order order' ->
  loads nd s g -> loads nd s' g' -> a_same (shown g) (shown g') ->
  (forall v, gV g v -> exists u, gV g u /\ source (gE g) u /\ reachable (gE g) u v) ->
  forall a r, cycle_given a r -> r_max_score (k_bounds r) = None -> asks a Count ->
  exists lines, prints (gc_cycle nd order a) s lines /\ prints (gc_cycle nd order' a) s' lines.
Proof.
  intros nd order order' s s' g g' O O' HL HL' HS Hsrc a r HG HU Ha.
  destruct (C87_cycle nd order s g O HL) as (seen & [Hnd Hseen] & H).
  destruct (C87_cycle nd order' s' g' O' HL') as (seen' & [Hnd' Hseen'] & H').
  destruct (H a r HG HU) as (kept & K1 & K2 & _ & K4). destruct (H' a r HG HU) as (kept' & K1' & K2' & _ & K4').
  destruct (K4 Count Ha) as (lines & P & d & Hd & ->). destruct (K4' Count Ha) as (lines' & P' & d' & Hd' & ->).
  pose proof (shown_same_edges _ _ HS) as HE. pose proof (same_edges_sym _ _ HE) as HE'.
  destruct (loaded nd order s g O HL) as (Bg & _). destruct (loaded nd order' s' g' O' HL') as (Bg' & _).
  assert (HV : forall v, gV g v <-> gV g' v) by apply HS.
  assert (Hall : forall c, In c seen <-> simple_cycle (gE g) c /\ least_first c).
  { intro c. rewrite Hseen. split; [intros (H1 & H2 & _); auto|]. intros [H1 H2]. split; [assumption|]. split; [assumption|].
    pose proof H1 as (_ & _ & x & y & Hx & Hy & He). destruct (gE_vertices g (built_wf Bg) y x He) as [_ Vx].
    apply vertices_In in Vx. destruct (Hsrc x Vx) as (u & Hu & Hs & Hr). exists u, x. split; [assumption|]. split; [now left|].
    split; [|assumption]. destruct Hx as [t ->]. now left. }
  assert (Hall' : forall c, In c seen' <-> simple_cycle (gE g') c /\ least_first c).
  { intro c. rewrite Hseen'. split; [intros (H1 & H2 & _); auto|]. intros [H1 H2]. split; [assumption|]. split; [assumption|].
    pose proof H1 as (_ & _ & x & y & Hx & Hy & He). destruct (gE_vertices g' (built_wf Bg') y x He) as [_ Vx].
    apply vertices_In in Vx. apply HV in Vx. destruct (Hsrc x Vx) as (u & Hu & Hs & Hr).
    exists u, x. split; [now apply HV|]. split; [left; now apply (source_same _ _ _ HE)|].
    split; [destruct Hx as [t ->]; now left|now apply (reachable_same _ _ _ _ HE)]. }
  assert (E : length kept' = length kept).
  { apply Permutation_length, NoDup_Permutation; [assumption|assumption|]. intro c. rewrite K2, K2', Hall, Hall'.
    split; intros [[H1 H2] H3]; (split; [split; [|assumption]|assumption]); [now apply (simple_cycle_same _ _ _ HE')|now apply (simple_cycle_same _ _ _ HE)]. }
  rewrite E in Hd'. rewrite (canonical_unique _ _ _ Hd' Hd) in P'. eauto.
Qed.
Print Assumptions C90_cycle_count.
Example C90_case : exists g g', loads table (with_file (txt "AddEdge 1 2" ++ [10] ++ txt "AddEdge 2 2")) g /\
  loads table (with_file (txt "AddEdge 2 2" ++ [10] ++ txt "AddEdge 3 1" ++ [10] ++ txt "AddEdge 1 2" ++ [10] ++ txt "RemoveVertex 3")) g' /\
  a_same (shown g) (shown g') /\ (forall v, gV g v -> exists u, gV g u /\ source (gE g) u /\ reachable (gE g) u v).
Proof.
  eexists. eexists. split; [reflexivity|]. split; [reflexivity|]. split.
  - apply a_same_sym. eapply a_same_trans; [apply refines, built_by_apply|]. apply a_same_sym.
    eapply a_same_trans; [apply refines, built_by_apply|].
    split; intros; cbn; intuition (subst; try discriminate; auto).
  - change (forall v, gV (apply_commands [AddEdge 1 2; AddEdge 2 2] g_new) v -> exists u, gV (apply_commands [AddEdge 1 2; AddEdge 2 2] g_new) u /\
      source (gE (apply_commands [AddEdge 1 2; AddEdge 2 2] g_new)) u /\ reachable (gE (apply_commands [AddEdge 1 2; AddEdge 2 2] g_new)) u v).
    set (g := apply_commands [AddEdge 1 2; AddEdge 2 2] g_new). assert (B : built g) by (eexists; apply built_by_apply).
    intros v Hv. exists 1. split; [vm_compute; reflexivity|]. split.
    + intros u Hu. pose proof (gE_vertices g (built_wf B) u 1 Hu) as [H _]. vm_compute in H.
      destruct H as [<-|[<-|[]]]; vm_compute in Hu; discriminate.
    + apply vertices_In in Hv. vm_compute in Hv. destruct Hv as [<-|[<-|[]]]; [apply reachable_refl|]. exists [1; 2]. concrete_walk.
Qed.

(** ** C91: when gc-csp ends *)
(** The walks the search may try: past the start vertex, only the options that
    forbid something restrict them. *)
Definition tried (g : graph) (r : csp_request) (x : N) (p : list N) : Prop :=
  walk_from (gE g) x p /\ ((2 <= length p)%nat ->
    (forall l v, r_exclude r = Some l -> In v l -> ~ In v p) /\
    (forall l a b, r_ordered r = Some l -> before a b l -> ~ before b a p) /\
    (r_no_cycle r = true -> NoDup p) /\
    (forall n, r_max_length (r_bounds r) = Some n \/ r_exact_length (r_bounds r) = Some n -> N.of_nat (length p) <= n) /\
    (forall z, r_exact_score (r_bounds r) = Some z -> (Z.of_nat (hops p) <= z)%Z)).

Definition all (P : constraint -> Prop) (cs : list constraint) : Prop := forall c, In c cs -> P c.
Lemma all_app P cs ds : all P (cs ++ ds) <-> all P cs /\ all P ds.
Proof.
  unfold all. split.
  - intro H. split; intros c Hc; apply H, in_app_iff; tauto.
  - intros [H1 H2] c Hc. apply in_app_iff in Hc. destruct Hc; auto.
Qed.
Lemma all_opt {A B C} P (o : option A) (r : option C) (parse : A -> option B) (denotes : A -> C -> Prop)
    (conv : C -> B) (build : B -> list constraint) :
  (forall a c, denotes a c -> parse a = Some (conv c)) -> given denotes o r ->
  (all P (opt_list o parse build) <-> forall c, r = Some c -> all P (build (conv c))).
Proof.
  intros Hp Hg. destruct o as [a|], r as [c|]; cbn [given] in Hg; try contradiction; cbn [opt_list].
  - rewrite (Hp a c Hg). split; [intros H d [= <-]; exact H|]. intro H. now apply H.
  - split; [discriminate|intros _ c []].
Qed.
Lemma all_one P c : all P [c] <-> P c.
Proof. split; [intro H; apply H; now left|]. intros H d [<-|[]]. exact H. Qed.
Lemma all_flag P (b : bool) c : all P (if b then [c] else []) <-> (b = true -> P c).
Proof. destruct b; [rewrite all_one; tauto|]. split; [discriminate|intros _ d []]. Qed.

(** The options that forbid something. *)
Lemma partial_spec opts r p : csp_given opts r -> usual r ->
  (all (fun c => check_partial c {| sp_path := p; sp_score := Z.of_nat (hops p) |} = true) (csp_constraints opts) <->
    (forall l v, r_exclude r = Some l -> In v l -> ~ In v p) /\
    (forall l a b, r_ordered r = Some l -> before a b l -> ~ before b a p) /\
    (r_no_cycle r = true -> NoDup p) /\
    (forall n, r_max_length (r_bounds r) = Some n \/ r_exact_length (r_bounds r) = Some n -> N.of_nat (length p) <= n) /\
    (forall z, r_exact_score (r_bounds r) = Some z -> (Z.of_nat (hops p) <= z)%Z)).
Proof.
  intros (G1 & G2 & G3 & G4 & G5 & B1 & B2 & B3 & B4 & B5 & B6) [U1 U2].
  unfold csp_constraints, bound_constraints, opt_one.
  set (P := fun c => check_partial c {| sp_path := p; sp_score := Z.of_nat (hops p) |} = true).
  assert (Hi : forall a c, int_argument a c -> parse_i64 a = Some c) by (intros; now apply parse_i64_spec).
  rewrite !all_app.
  rewrite (all_opt P _ _ parse_vertex_id_list id_arguments (fun l => l) build_include parse_list_given G1).
  rewrite (all_opt P _ _ parse_vertex_id_list id_arguments (fun l => l) build_exclude parse_list_given G2).
  rewrite (all_opt P _ _ parse_vertex_id_list id_arguments (fun l => l) _ parse_list_given G3).
  rewrite (all_opt P _ _ parse_usize id_argument N.to_nat _ parse_usize_given B1).
  rewrite (all_opt P _ _ parse_usize id_argument N.to_nat _ parse_usize_given B2).
  rewrite (all_opt P _ _ parse_usize id_argument N.to_nat build_exact_length parse_usize_given B3).
  rewrite (all_opt P _ _ parse_i64 int_argument (fun z => z) _ Hi B4).
  rewrite (all_opt P _ _ parse_i64 int_argument (fun z => z) _ Hi B5).
  rewrite (all_opt P _ _ parse_i64 int_argument (fun z => z) build_exact_score Hi B6).
  rewrite !all_flag, G4, G5, U1.
  assert (X1 : forall l, all P (build_include l) <-> True).
  { intro l. split; [trivial|]. intros _ c Hc. apply in_map_iff in Hc. destruct Hc as (v & <- & _). reflexivity. }
  assert (X2 : forall l, all P (build_exclude l) <-> forall v, In v l -> ~ In v p).
  { intro l. unfold all, P. split.
    - intros H v Hv Hin. specialize (H (CNot (ContainsVertex v))). cbn [check_partial sp_path] in H.
      rewrite negb_true_iff in H. assert (E : path_contains_vertex p v = true).
      { apply (check_complete_spec (ContainsVertex v) p 0%Z). exact Hin. }
      rewrite E in H. assert (true = false); [|discriminate]. apply H. apply in_map_iff. eauto.
    - intros H c Hc. apply in_map_iff in Hc. destruct Hc as (v & <- & Hv). cbn [check_partial sp_path].
      apply negb_true_iff. destruct (path_contains_vertex p v) eqn:E; [|reflexivity].
      exfalso. apply (H v Hv). apply (check_complete_spec (ContainsVertex v) p 0%Z). exact E. }
  assert (X3 : forall l, NoDup l -> (P (build_ordered l) <-> forall a b, before a b l -> ~ before b a p)).
  { intros l Hl. rewrite <- (ordered_NoDup p Hl). unfold P. cbn [build_ordered check_partial sp_path].
    apply (check_complete_spec (OrderedVertices l) p 0%Z). }
  assert (X4 : P build_no_cycle <-> NoDup p).
  { unfold P, build_no_cycle. cbn [check_partial sp_path]. rewrite negb_true_iff. apply contains_cycle_NoDup. }
  assert (X5 : P build_include_cycle <-> True) by (split; [trivial|reflexivity]).
  rewrite X4, X5. split.
  - intros (_ & H2 & H3 & _ & H5 & _ & H7 & H8 & _ & _ & H11). split; [|split; [|split; [|split]]].
    + intros l v Hl. apply X2. now apply H2.
    + intros l a b Hl. apply X3; [now apply U2|]. apply all_one. now apply H3.
    + exact H5.
    + intros n [Hn|Hn].
      * specialize (H7 n Hn). rewrite all_one in H7. unfold P in H7. cbn in H7. apply Nat.leb_le in H7. unfold path_size in H7. lia.
      * specialize (H8 n Hn (MaxLength (N.to_nat n)) (or_intror (or_introl eq_refl))). unfold P in H8. cbn in H8.
        apply Nat.leb_le in H8. unfold path_size in H8. lia.
    + intros z Hz. specialize (H11 z Hz (MaxScore z) (or_intror (or_introl eq_refl))). unfold P in H11. cbn in H11.
      now apply Z.leb_le in H11.
  - intros (H1 & H2 & H3 & H4 & H5). repeat split; try (intros; reflexivity).
    + intros l _. now apply X1.
    + intros l Hl. apply X2. intros v Hv. now apply (H1 l).
    + intros l Hl. apply all_one, X3; [now apply U2|]. intros a b. now apply (H2 l).
    + exact H3.
    + intros n _. apply all_one. reflexivity.
    + intros n Hn. apply all_one. unfold P. cbn. apply Nat.leb_le. unfold path_size. specialize (H4 n (or_introl Hn)). lia.
    + intros n Hn c [<-|[<-|[]]]; [reflexivity|]. unfold P. cbn. apply Nat.leb_le. unfold path_size. specialize (H4 n (or_intror Hn)). lia.
    + intros z _. apply all_one. reflexivity.
    + discriminate.
    + intros z Hz c [<-|[<-|[]]]; [reflexivity|]. unfold P. cbn. apply Z.leb_le. now apply H5.
Qed.

Lemma before_app (a b : N) p q : before a b p -> before a b (p ++ q).
Proof. intros (l1 & l2 & l3 & ->). exists l1, l2, (l3 ++ q). now rewrite <- !app_assoc; cbn; rewrite <- !app_assoc. Qed.
Lemma tried_live opts r g go x p : csp_given opts r -> usual r -> same_edges (gE go) (gE g) ->
  (tried g r x p <-> live go (fun p => one_weighted_edge p + zero_heuristic p)%Z (csp_constraints opts) x p).
Proof.
  intros HG HU HE. unfold tried, live.
  assert (Hw : walk_from (gE g) x p <-> walk_from (gE go) x p).
  { split; intros [H1 H2]; (split; [assumption|]); intros u v Huv; now apply HE, H2. }
  rewrite Hw. split; intros [H1 H2]; (split; [assumption|]).
  - intros p1 v p2 -> Hne. apply forallb_forall.
    pose proof (proj2 (partial_spec opts r (p1 ++ [v]) HG HU)) as Hp. unfold all in Hp.
    unfold node. rewrite unit_cost_hops. apply Hp.
    replace (p1 ++ v :: p2) with ((p1 ++ [v]) ++ p2) in * by (now rewrite <- app_assoc).
    assert (L2 : (2 <= length (p1 ++ [v]))%nat) by (destruct p1; [congruence|]; rewrite app_length; cbn; lia).
    destruct H2 as (K1 & K2 & K3 & K4 & K5); [rewrite app_length; lia|]. split; [|split; [|split; [|split]]].
    + intros l z Hl Hz Hi. apply (K1 l z Hl Hz). apply in_app_iff. now left.
    + intros l c d Hl Hcd Hb. apply (K2 l c d Hl Hcd). now apply before_app.
    + intro Hc. apply K3 in Hc. now apply NoDup_app_iff in Hc.
    + intros n Hn. apply K4 in Hn. rewrite app_length in Hn. lia.
    + intros z Hz. apply K5 in Hz. unfold hops in *. rewrite (app_length (p1 ++ [v])) in Hz. lia.
  - intro L2. apply (partial_spec opts r p HG HU). destruct p as [|v p _] using rev_ind; [cbn in L2; lia|].
    assert (Hne : p <> []) by (intros ->; cbn in L2; lia).
    specialize (H2 p v [] eq_refl Hne). unfold check_all_partial in H2. rewrite forallb_forall in H2.
    unfold node in H2. rewrite unit_cost_hops in H2. exact H2.
Qed.

Theorem C91_halts_iff : forall nd order Q s g opts r a b x y, hash_order order -> pops_least Q sp_score ->
  loads nd s g -> csp_given opts r -> usual r -> id_argument a x -> id_argument b y ->
  ((exists out, prints (gc_csp nd order Q a b opts) s out) <->
   (exists p, wanted g r x y p) \/ (exists L, forall p, tried g r x p -> (length p <= L)%nat)).
Proof.
  intros nd order Q s g opts r a b x y O HQ HL HG HU Ha Hb.
  destruct (loaded nd order s g O HL) as (_ & Bo & _ & HE). set (cs := csp_constraints opts).
  set (f := fun p => (one_weighted_edge p + zero_heuristic p)%Z).
  assert (Hrun : forall n, snd (run_prog (gc_csp nd order Q a b opts n) s) =
    omap (csp_lines x y cs) (constrained_shortest_path Q (order g) one_weighted_edge zero_heuristic x y cs n)).
  { intro n. exact (f_equal snd (run_ids nd order (fun x y g => omap (csp_lines x y cs)
      (constrained_shortest_path Q g one_weighted_edge zero_heuristic x y cs n)) s g a b x y HL Ha Hb)). }
  assert (Hw : forall p, wanted g r x y p <-> walk_from_to (gE (order g)) x y p /\
    forall c, In c cs -> ConstraintSpec.holds c p (f p)) by (intro p; now apply sat_wanted).
  split.
  - intros (out & n & Hn). specialize (Hn n (le_n n)). rewrite Hrun in Hn.
    destruct (constrained_shortest_path Q (order g) one_weighted_edge zero_heuristic x y cs n) as [res| |] eqn:E; try discriminate.
    pose proof (constrained_partial Q (order g) f cs x y (built_wf Bo) n res E) as Hf. destruct res as [sp|].
    + left. apply found_some in Hf; [|exact (built_wf Bo)]. destruct Hf as [(p & _ & H1 & H2) _]. exists p. apply Hw. now split.
    + right. apply ended_bounded in Hf; [|exact (built_wf Bo)]. destruct Hf as [L HLl]. exists L. intros p Hp. apply HLl.
      now apply (tried_live opts r g (order g) x p HG HU HE).
  - assert (Hset : forall res, settles (constrained_shortest_path Q (order g) one_weighted_edge zero_heuristic x y cs) res ->
      exists out, prints (gc_csp nd order Q a b opts) s out).
    { intros res [n0 Hn]. exists (csp_lines x y cs res). exists n0. intros n Hl. rewrite Hrun, (Hn n Hl). reflexivity. }
    intros [[p Hp]|[L HLl]].
    + apply Hw in Hp. destruct Hp as [P1 P2].
      destruct (C48_constrained_complete Q (order g) one_weighted_edge zero_heuristic cs x y p Bo HQ (unit_each_edge_costs _ _) P1 P2)
        as (sp & Hs). now apply (Hset (Some sp)).
    + destruct (constrained_bounded Q (order g) f cs x y (built_wf Bo) L) as (res & Hs & _).
      * intros p Hp. apply HLl. now apply (tried_live opts r g (order g) x p HG HU HE).
      * now apply (Hset res).
Qed.
Print Assumptions C91_halts_iff.

(** False: that options no path can meet are reported. Asking for a path that
    both visits and avoids a vertex makes the program search for ever. *)
Definition contradictory : csp_args := {| q_include := Some [txt "2"]; q_exclude := Some [txt "2"]; q_ordered := None;
  q_include_cycle := false; q_no_cycle := false; q_bounds := no_bounds |}.
Theorem C91_contradiction_refuted : exists nd order s g, hash_order order /\ loads nd s g /\
  forall Q fuel, pops_least Q sp_score ->
    run_prog (gc_csp nd order Q (txt "1") (txt "3") contradictory fuel) s = (s, OutOfFuel).
Proof.
  set (file := txt "AddEdge 1 1" ++ [10] ++ txt "AddEdge 1 2" ++ [10] ++ txt "AddEdge 2 3").
  assert (HX : exists g, loads table (with_file file) g /\ gE g 1 1).
  { eexists. split; [reflexivity|vm_compute; reflexivity]. }
  destruct HX as (g & HL & H11).
  exists table, id_order, (with_file file), g. split; [exact id_order_ok|]. split; [exact HL|].
  intros Q fuel HQ.
  assert (H1 : id_argument (txt "1") 1) by now apply parse_id_spec.
  assert (H3 : id_argument (txt "3") 3) by now apply parse_id_spec.
  set (r := {| r_include := Some [2]; r_exclude := Some [2]; r_ordered := None; r_include_cycle := false; r_no_cycle := false;
    r_bounds := {| r_min_length := None; r_max_length := None; r_exact_length := None; r_min_score := None;
                   r_max_score := None; r_exact_score := None |} |}).
  assert (HG : csp_given contradictory r).
  { refine (conj _ (conj _ (conj I (conj eq_refl (conj eq_refl (conj I (conj I (conj I (conj I (conj I I))))))))));
      apply parse_list_spec; reflexivity. }
  assert (HU : usual r) by (split; [reflexivity|discriminate]).
  pose proof (C91_halts_iff table id_order Q (with_file file) g contradictory r (txt "1") (txt "3") 1 3 id_order_ok HQ HL HG HU H1 H3) as Hiff.
  rewrite (surjective_pairing (run_prog _ _)). apply f_equal2.
  { exact (f_equal fst (run_ids table id_order _ (with_file file) g (txt "1") (txt "3") 1 3 HL H1 H3)). }
  pose proof (f_equal snd (run_ids table id_order (fun x y g => omap (csp_lines x y (csp_constraints contradictory))
      (constrained_shortest_path Q g one_weighted_edge zero_heuristic x y (csp_constraints contradictory) fuel))
      (with_file file) g (txt "1") (txt "3") 1 3 HL H1 H3)) as Hrun. cbn [snd] in Hrun.
  change (snd (run_prog (gc_csp table id_order Q (txt "1") (txt "3") contradictory fuel) (with_file file)) = OutOfFuel).
  etransitivity; [exact Hrun|]. change (id_order g) with g.
  destruct (constrained_shortest_path Q g one_weighted_edge zero_heuristic 1 3 (csp_constraints contradictory) fuel) as [res| |] eqn:E.
  - exfalso. destruct (proj1 Hiff) as [(p & _ & Hp)|[L HLl]].
    + exists (csp_lines 1 3 (csp_constraints contradictory) res). exists fuel. intros n Hn.
      etransitivity; [exact (f_equal snd (run_ids table id_order (fun x y g => omap (csp_lines x y (csp_constraints contradictory))
      (constrained_shortest_path Q g one_weighted_edge zero_heuristic x y (csp_constraints contradictory) n))
      (with_file file) g (txt "1") (txt "3") 1 3 HL H1 H3))|]. cbn [snd]. change (id_order g) with g.
      unfold constrained_shortest_path. rewrite (iter_find_mono _ _ _ _ _ n E Hn). reflexivity.
    + destruct Hp as (P1 & P2 & _). apply (P2 [2] 2 eq_refl (or_introl eq_refl)). now apply (P1 [2] 2 eq_refl (or_introl eq_refl)).
    + specialize (HLl (repeat 1 (S L))). rewrite repeat_length in HLl. assert (S L <= L)%nat; [|lia]. apply HLl. split.
      * split; [now exists (repeat 1 L)|]. intros u v (p & q & Hpq).
        assert (Hin : forall z, In z (repeat 1 (S L)) -> z = 1) by (intro z; apply repeat_spec).
        rewrite Hpq in Hin. rewrite (Hin u), (Hin v); [exact H11| |]; apply in_app_iff; cbn; tauto.
      * intros _. split; [|split; [|split; [|split]]]; try discriminate.
        -- intros l z [= <-] [<-|[]] Hz. apply repeat_spec in Hz. discriminate.
        -- intros n [Hn|Hn]; discriminate.
  - exfalso. eapply csp_no_panic; [|exact E]. destruct (loaded table id_order _ _ id_order_ok HL) as (Bg & _). exact (built_wf Bg).
  - reflexivity.
Qed.
Print Assumptions C91_contradiction_refuted.
Example C91_case : csp_given csp_example csp_example_request /\ usual csp_example_request /\
  (exists L, forall g p, tried g csp_example_request 1 p -> (length p <= L)%nat).
Proof.
  split; [|split].
  - refine (conj _ (conj _ (conj I (conj eq_refl (conj eq_refl (conj I (conj _ (conj I (conj _ (conj I I))))))))));
      [apply parse_list_spec; reflexivity|apply parse_list_spec; reflexivity|apply parse_id_spec; reflexivity|
       apply parse_i64_spec; reflexivity].
  - split; [reflexivity|discriminate].
  - exists 5%nat. intros g p [_ H]. destruct (le_lt_dec 2 (length p)) as [H2|H2]; [|lia].
    destruct (H H2) as (_ & _ & _ & H4 & _). specialize (H4 5 (or_introl eq_refl)). lia.
Qed.
