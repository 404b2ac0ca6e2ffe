(** * C37-C50: search queues, iterators, A* and constrained search *)
From Coq Require Import List NArith ZArith Bool Arith Lia Permutation.
From Verif Require Import Spec Base WalkFacts Graph GraphSpec GraphFacts Path PathFacts ConstraintSpec
  Queue Heap Iter IterFacts TreeFacts SearchFacts BestFacts ConstrainedFacts.
Import ListNotations.

(** ** C37: histories of a search queue *)
Inductive qop (A : Type) := Push (x : A) | Pop.
Arguments Push {A}. Arguments Pop {A}.

(** Results of the pops of a history, and the final queue. *)
Fixpoint q_run {A} (Q : squeue A) (ops : list (qop A)) (q : q_car Q) : list (option A) * q_car Q :=
  match ops with
  | [] => ([], q)
  | Push x :: t => q_run Q t (q_push Q q x)
  | Pop :: t =>
    match q_pop Q q with
    | None => let (r, q') := q_run Q t q in (None :: r, q')
    | Some (x, q1) => let (r, q') := q_run Q t q1 in (Some x :: r, q')
    end
  end.
Definition results {A} (Q : squeue A) (ops : list (qop A)) : list (option A) :=
  fst (q_run Q ops (q_empty Q)).
Definition pushed {A} (ops : list (qop A)) : list A :=
  flat_map (fun o => match o with Push x => [x] | Pop => [] end) ops.
Definition popped {A} (rs : list (option A)) : list A :=
  flat_map (fun r => match r with Some x => [x] | None => [] end) rs.

Lemma q_run_app A (Q : squeue A) o1 : forall o2 q,
  q_run Q (o1 ++ o2) q =
  let (r1, q1) := q_run Q o1 q in let (r2, q2) := q_run Q o2 q1 in (r1 ++ r2, q2).
Proof.
  induction o1 as [|[x|] o1 IH]; cbn; intros o2 q.
  - now destruct (q_run Q o2 q).
  - apply IH.
  - destruct (q_pop Q q) as [[x q']|]; rewrite IH.
    + destruct (q_run Q o1 q'). now destruct (q_run Q o2 q0).
    + destruct (q_run Q o1 q). now destruct (q_run Q o2 q0).
Qed.
Lemma q_run_inv A (Q : squeue A) ops : forall q, q_valid Q q ->
  let (rs, q') := q_run Q ops q in
  q_valid Q q' /\ Permutation (pushed ops ++ q_content Q q) (popped rs ++ q_content Q q').
Proof.
  induction ops as [|[x|] ops IH]; cbn; intros q Hv.
  - auto.
  - specialize (IH _ (q_push_valid _ Q q x Hv)). destruct (q_run Q ops (q_push Q q x)) as [rs q'].
    destruct IH as [H1 H2]. split; [assumption|]. rewrite <- H2.
    rewrite q_push_content by assumption. apply Permutation_middle.
  - destruct (q_pop Q q) as [[x q1]|] eqn:E.
    + specialize (IH _ (q_pop_valid _ Q q x q1 Hv E)). destruct (q_run Q ops q1) as [rs q'].
      destruct IH as [H1 H2]. split; [assumption|]. cbn.
      rewrite (q_pop_content _ Q q x q1 Hv E). rewrite <- H2. symmetry. apply Permutation_middle.
    + specialize (IH _ Hv). now destruct (q_run Q ops q) as [rs q'].
Qed.

(** Nothing lost, invented or duplicated; [None] exactly when all that was
    pushed has been popped.  For the four implementations. *)
Theorem C37_conservation : forall A (Q : squeue A) ops,
  exists r, results Q (ops ++ [Pop]) = results Q ops ++ [r] /\
    match r with
    | None => Permutation (pushed ops) (popped (results Q ops))
    | Some x => exists rest, Permutation (pushed ops) (popped (results Q ops) ++ x :: rest)
    end.
Proof.
  intros A Q ops. unfold results. rewrite q_run_app.
  pose proof (q_run_inv A Q ops (q_empty Q) (q_empty_valid _ Q)) as H.
  destruct (q_run Q ops (q_empty Q)) as [rs q]. destruct H as [Hv Hp].
  rewrite q_empty_content, app_nil_r in Hp. cbn [q_run].
  destruct (q_pop Q q) as [[x q1]|] eqn:E; cbn [fst].
  - exists (Some x). split; [reflexivity|]. exists (q_content Q q1). rewrite Hp.
    apply Permutation_app_head. exact (q_pop_content _ Q q x q1 Hv E).
  - exists None. split; [reflexivity|]. rewrite Hp, (q_pop_none _ Q q Hv E). now rewrite app_nil_r.
Qed.
Print Assumptions C37_conservation.

(** First in, first out: the popped elements are the first pushed ones. *)
Theorem C37_queue_fifo : forall A (ops : list (qop A)),
  exists rest, pushed ops = popped (results (Queue A) ops) ++ rest /\
    results (Queue A) (ops ++ [Pop]) = results (Queue A) ops ++ [hd_error rest].
Proof.
  intros A ops. unfold results. rewrite q_run_app.
  assert (H : forall q, let (rs, q') := q_run (Queue A) ops q in q ++ pushed ops = popped rs ++ q').
  { induction ops as [|[x|] ops IH]; cbn; intro q.
    - now rewrite app_nil_r.
    - specialize (IH (q ++ [x])). cbn in IH. destruct (q_run (Queue A) ops (q ++ [x])).
      rewrite <- IH. now rewrite <- app_assoc.
    - destruct q as [|x q]; cbn.
      + specialize (IH []). now destruct (q_run (Queue A) ops []).
      + specialize (IH q). destruct (q_run (Queue A) ops q). cbn. f_equal. exact IH. }
  specialize (H []). cbn in *. destruct (q_run (Queue A) ops []) as [rs q]. cbn [app fst] in H.
  exists q. split; [assumption|]. cbn. now destruct q.
Qed.
Print Assumptions C37_queue_fifo.

(** Last in, first out: a pop right after a push returns what was pushed and the
    pair has no other effect on the history. *)
Theorem C37_stack_lifo : forall A (x : A) ops1 ops2,
  let r1 := results (Stack A) ops1 in
  exists r2, results (Stack A) (ops1 ++ ops2) = r1 ++ r2 /\
    results (Stack A) (ops1 ++ Push x :: Pop :: ops2) = r1 ++ Some x :: r2.
Proof.
  intros A x ops1 ops2 r1. unfold r1, results. rewrite !q_run_app.
  destruct (q_run (Stack A) ops1 (q_empty (Stack A))) as [r q]. cbn [q_run].
  assert (Hp : q_pop (Stack A) (q_push (Stack A) q x) = Some (x, q)) by now apply pop_back_some.
  rewrite Hp. destruct (q_run (Stack A) ops2 q) as [r2 q2]. exists r2. auto.
Qed.
Print Assumptions C37_stack_lifo.

Lemma pop_order A (Q : squeue A) (R : A -> A -> Prop) :
  (forall q x q' y, q_valid Q q -> q_pop Q q = Some (x, q') -> In y (q_content Q q) -> R x y) ->
  forall ops x, results Q (ops ++ [Pop]) = results Q ops ++ [Some x] ->
  exists rest, Permutation (pushed ops) (popped (results Q ops) ++ x :: rest) /\
    forall y, In y rest -> R x y.
Proof.
  intros HR ops x. unfold results. rewrite q_run_app.
  pose proof (q_run_inv A Q ops (q_empty Q) (q_empty_valid _ Q)) as H.
  destruct (q_run Q ops (q_empty Q)) as [rs q]. destruct H as [Hv Hp].
  rewrite q_empty_content, app_nil_r in Hp. cbn [q_run fst].
  destruct (q_pop Q q) as [[z q1]|] eqn:E; cbn [fst]; intro Heq; apply app_inv_head in Heq; [|discriminate].
  injection Heq as ->. pose proof (q_pop_content _ Q q x q1 Hv E) as Hc.
  exists (q_content Q q1). split.
  - rewrite Hp. now apply Permutation_app_head.
  - intros y Hy. eapply HR; eauto. rewrite Hc. now right.
Qed.

(** The priority queues pop a greatest / least of the remaining elements. *)
Theorem C37_priority_queues : forall A (key : A -> Z) ops x,
  (results (MaxPriorityQueue key) (ops ++ [Pop]) = results (MaxPriorityQueue key) ops ++ [Some x] ->
   exists rest, Permutation (pushed ops) (popped (results (MaxPriorityQueue key) ops) ++ x :: rest) /\
     forall y, In y rest -> (key y <= key x)%Z) /\
  (results (MinPriorityQueue key) (ops ++ [Pop]) = results (MinPriorityQueue key) ops ++ [Some x] ->
   exists rest, Permutation (pushed ops) (popped (results (MinPriorityQueue key) ops) ++ x :: rest) /\
     forall y, In y rest -> (key x <= key y)%Z).
Proof.
  intros A key ops x. split.
  - apply (pop_order A _ (fun x y => key y <= key x)%Z). exact (max_pops_greatest key).
  - apply (pop_order A _ (fun x y => key x <= key y)%Z). exact (min_pops_least key).
Qed.
Print Assumptions C37_priority_queues.
Example C37_case :
  let ops := [Push 5; Push 3; Pop; Push 9; Push 4; Pop; Pop; Pop; Pop]%Z in
  results (Stack Z) ops = [Some 3; Some 4; Some 9; Some 5; None]%Z /\
  results (Queue Z) ops = [Some 5; Some 3; Some 9; Some 4; None]%Z /\
  results (MaxPriorityQueue (fun z : Z => z)) ops = [Some 5; Some 9; Some 4; Some 3; None]%Z /\
  results (MinPriorityQueue (fun z : Z => z)) ops = [Some 3; Some 4; Some 5; Some 9; None]%Z.
Proof. vm_compute. auto. Qed.

(** A graph with a cycle, a self-loop, two ways to 5 and an unreachable part. *)
Definition s_cmds : list graph_command :=
  [AddEdge 1 2; AddEdge 1 3; AddEdge 2 4; AddEdge 3 4; AddEdge 4 1; AddEdge 3 3;
   AddEdge 1 5; AddEdge 2 5; AddEdge 6 1]%N.
Definition s_graph : graph := apply_commands s_cmds g_new.
Lemma s_built : built s_graph.
Proof. exists s_cmds. apply built_by_apply. Qed.

(** ** C38 *)
Theorem C38_bfs_reachable : forall g, built g ->
  (forall s, exists out, settles (fun n => collect (bfs_next g) n (bfs_iter_from s)) out /\
     starts_with s out /\ enumerates out (reachable (gE g) s)) /\
  (exists out, settles (fun n => collect (bfs_next g) n (bfs_iter g)) out /\
     ((forall v, contains_vertex g v = false) /\ out = [] \/
      exists s, contains_vertex g s = true /\ starts_with s out /\ enumerates out (reachable (gE g) s))).
Proof.
  intros g Hb. pose proof (built_wf Hb) as W.
  assert (Hfrom : forall s, exists out, settles (fun n => collect (bfs_next g) n (bfs_iter_from s)) out /\
     starts_with s out /\ enumerates out (reachable (gE g) s)).
  { intro s. destruct (bfs_collect g W s) as (out & H1 & H2 & _). exists out.
    split; [assumption|]. split; [|assumption].
    destruct H1 as [n0 Hn0]. specialize (Hn0 (S n0) ltac:(lia)). cbn [collect] in Hn0.
    cbn in Hn0. destruct (collect (bfs_next g) n0 _) as [l| |] in Hn0; cbn in Hn0; try discriminate.
    injection Hn0 as <-. now exists l. }
  split; [exact Hfrom|].
  unfold bfs_iter, head_option. destruct (vertices g) as [|h t] eqn:Ev; cbn [hd_error].
  - exists []. split.
    + exists 1. intros [|n] Hn; [lia|]. reflexivity.
    + left. split; [|reflexivity]. intro v. apply not_true_iff_false.
      rewrite <- vertices_In, Ev. tauto.
  - destruct (Hfrom h) as (out & H1 & H2). exists out. split; [assumption|]. right. exists h.
    split; [|assumption]. apply vertices_In. rewrite Ev. now left.
Qed.
Print Assumptions C38_bfs_reachable.
Example C38_case : built s_graph /\
  collect (bfs_next s_graph) 20 (bfs_iter_from 1) = Done [1; 2; 3; 5; 4]%N.
Proof. split; [exact s_built|]. vm_compute. reflexivity. Qed.

(** ** C39 *)
Theorem C39_bfs_by_distance : forall g s, built g ->
  exists out, settles (fun n => collect (bfs_next g) n (bfs_iter_from s)) out /\
    (forall v, In v out -> exists d, distance (gE g) s v d) /\
    (forall u v du dv, before u v out -> distance (gE g) s u du -> distance (gE g) s v dv -> du <= dv).
Proof.
  intros g s Hb. destruct (bfs_collect g (built_wf Hb) s) as (out & H1 & _ & H2 & H3).
  exists out. auto.
Qed.
Print Assumptions C39_bfs_by_distance.
Example C39_case : built s_graph /\ collect (bfs_next s_graph) 20 (bfs_iter_from 1) = Done [1; 2; 3; 5; 4]%N /\
  before 2%N 4%N [1; 2; 3; 5; 4]%N.
Proof. split; [exact s_built|]. split; [reflexivity|]. exists [1%N], [3%N; 5%N], []. reflexivity. Qed.

(** ** C40 *)
Theorem C40_dfs_reachable : forall g s, built g ->
  exists out, settles (fun n => collect (dfs_next g) n (dfs_iter_from s)) out /\
    enumerates out (reachable (gE g) s).
Proof. intros g s Hb. apply dfs_collect. exact (built_wf Hb). Qed.
Print Assumptions C40_dfs_reachable.
(** It begins with the start; without one, with a vertex of the graph, and yields nothing only if there is none. *)
Theorem C40_dfs_start : forall g, built g ->
  (forall s out, settles (fun n => collect (dfs_next g) n (dfs_iter_from s)) out -> starts_with s out) /\
  (exists out, settles (fun n => collect (dfs_next g) n (dfs_iter g)) out /\
     ((forall v, contains_vertex g v = false) /\ out = [] \/
      exists s, contains_vertex g s = true /\ starts_with s out /\ enumerates out (reachable (gE g) s))).
Proof.
  intros g Hb. pose proof (built_wf Hb) as W.
  assert (Hst : forall s out, settles (fun n => collect (dfs_next g) n (dfs_iter_from s)) out -> starts_with s out).
  { intros s out [n0 Hn0]. specialize (Hn0 (S n0) ltac:(lia)). cbn [collect] in Hn0.
    cbn in Hn0. destruct (collect (dfs_next g) n0 _) as [l| |] in Hn0; cbn in Hn0; try discriminate.
    injection Hn0 as <-. now exists l. }
  split; [exact Hst|].
  unfold dfs_iter, head_option. destruct (vertices g) as [|h t] eqn:Ev; cbn [hd_error].
  - exists []. split.
    + exists 1. intros [|n] Hn; [lia|]. reflexivity.
    + left. split; [|reflexivity]. intro v. apply not_true_iff_false.
      rewrite <- vertices_In, Ev. tauto.
  - destruct (C40_dfs_reachable g h Hb) as (out & H1 & H2). exists out. split; [assumption|]. right. exists h.
    split; [|split; [now apply Hst|assumption]]. apply vertices_In. rewrite Ev. now left.
Qed.
Print Assumptions C40_dfs_start.
Example C40_case : built s_graph /\
  collect (dfs_next s_graph) 20 (dfs_iter_from 1) = Done [1; 5; 3; 4; 2]%N.
Proof. split; [exact s_built|]. vm_compute. reflexivity. Qed.

(** ** C41: false.  In a depth-first order each next vertex is an out-neighbour
    of the most recent vertex that still has an unvisited out-neighbour. *)
Definition depth_first_order (E : rel) (out : list N) : Prop :=
  forall p v q, out = p ++ v :: q -> p <> [] ->
    exists p1 u p2, p = p1 ++ u :: p2 /\ E u v /\
      forall x w, In x p2 -> E x w -> In w p.
Theorem C41_dfs_preorder_refuted : exists g s out, built g /\
  settles (fun n => collect (dfs_next g) n (dfs_iter_from s)) out /\
  ~ depth_first_order (gE g) out.
Proof.
  exists (apply_commands [AddEdge 1 2; AddEdge 1 5; AddEdge 1 3; AddEdge 3 2]%N g_new), 1%N, [1; 3; 5; 2]%N.
  split; [eexists; apply built_by_apply|]. split.
  - apply collect_settles with 10. vm_compute. reflexivity.
  - intro H. destruct (H [1; 3]%N 5%N [2%N] eq_refl) as (p1 & u & p2 & Heq & He & Hall); [discriminate|].
    destruct p1 as [|a [|b p1]]; cbn in Heq; injection Heq; intros; subst.
    + specialize (Hall 3%N 2%N (or_introl eq_refl) eq_refl). destruct Hall as [Hx|[Hx|[]]]; discriminate.
    + vm_compute in He. discriminate.
    + now destruct p1.
Qed.
Print Assumptions C41_dfs_preorder_refuted.

(** What the order is: vertices are marked when pushed, so each next vertex is
    one whose first discoverer (the first yielded vertex with an edge to it) is
    the latest among all discovered and not yet yielded vertices. *)
Theorem C41_dfs_order : forall g s, built g ->
  exists out, settles (fun n => collect (dfs_next g) n (dfs_iter_from s)) out /\
    forall p v q, out = p ++ v :: q -> p <> [] ->
      exists j, first_discoverer (gE g) p v j /\
        forall w k, ~ In w (p ++ [v]) -> first_discoverer (gE g) p w k -> k <= j.
Proof.
  intros g s Hb. destruct (dfs_order g (built_wf Hb) s) as (out & H1 & _ & H2). exists out. auto.
Qed.
Print Assumptions C41_dfs_order.
Example C41_case : built s_graph /\ exists v w t, collect (dfs_next s_graph) 20 (dfs_iter_from 1) = Done (1%N :: v :: w :: t).
Proof. split; [exact s_built|]. do 3 eexists. vm_compute. reflexivity. Qed.

(** ** C42 *)
Theorem C42_simple_paths : forall g s, built g ->
  (exists out, settles (fun n => collect (dfs_path_next g) n (dfs_iter_path_from s)) out /\
     enumerates out (simple_from (gE g) s)) /\
  (exists out, settles (fun n => collect (bfs_path_next g) n (bfs_path_iter_from s)) out /\
     enumerates out (simple_from (gE g) s) /\
     forall p q, before p q out -> length p <= length q).
Proof.
  intros g s Hb. pose proof (built_wf Hb) as W. split; [now apply dfs_path_collect|].
  destruct (bfs_path_collect g W s) as (out & H1 & H2 & H3). exists out.
  split; [assumption|]. split; [assumption|]. intros p q Hpq. now apply (H3 p q _ _ Hpq).
Qed.
Print Assumptions C42_simple_paths.
Example C42_case : built s_graph /\
  collect (bfs_path_next s_graph) 30 (bfs_path_iter_from 1) =
    Done [[1]; [1; 2]; [1; 3]; [1; 5]; [1; 2; 4]; [1; 2; 5]; [1; 3; 4]]%N.
Proof. split; [exact s_built|]. vm_compute. reflexivity. Qed.

(** ** C43: for every queue implementation, hence every tie-breaking. *)
Theorem C43_best_first : forall (Q : squeue scored) g (f : path -> Z) s, built g ->
  exists out, settles (fun n => collect (best_next Q g f) n (best_iter_from Q f s)) out /\
    NoDup out /\
    (forall sp, In sp out ->
       exists t, simple_from_to (gE g) s t (sp_path sp) /\ sp_score sp = f (sp_path sp)) /\
    (forall t, reachable (gE g) s t -> exists sp, In sp out /\ ends_with t (sp_path sp)) /\
    (forall sp sp' t, In sp out -> In sp' out ->
       ends_with t (sp_path sp) -> ends_with t (sp_path sp') -> sp = sp').
Proof. intros Q g f s Hb. apply best_collect. exact (built_wf Hb). Qed.
Print Assumptions C43_best_first.
Example C43_case : built s_graph /\
  obind (collect (best_next (MinPriorityQueue sp_score) s_graph one_weighted_edge) 20
    (best_iter_from (MinPriorityQueue sp_score) one_weighted_edge 1%N)) (fun l => Done (map sp_path l)) =
  Done [[1]; [1; 2]; [1; 3]; [1; 5]; [1; 2; 4]]%N.
Proof. split; [exact s_built|]. vm_compute. reflexivity. Qed.

(** ** C44 *)
Theorem C44_a_star_iff_reachable : forall (Q : squeue scored) g cost heur s t, built g ->
  exists r, settles (a_star Q g cost heur s t) r /\
    (r = None <-> ~ reachable (gE g) s t) /\
    (forall sp, r = Some sp ->
       simple_from_to (gE g) s t (sp_path sp) /\
       sp_score sp = (cost (sp_path sp) + heur (sp_path sp))%Z).
Proof.
  intros Q g cost heur s t Hb.
  destruct (a_star_spec Q g cost heur s t (built_wf Hb)) as [[Hn H]|(sp & H & Hs & Hsc)].
  - exists None. split; [assumption|]. split; [tauto|]. discriminate.
  - exists (Some sp). split; [assumption|]. split.
    + split; [discriminate|]. intro Hr. exfalso. apply Hr. exists (sp_path sp). apply Hs.
    + intros sp' [= <-]. auto.
Qed.
Print Assumptions C44_a_star_iff_reachable.
Example C44_case : built s_graph /\
  (exists sp, a_star (MinPriorityQueue sp_score) s_graph one_weighted_edge zero_heuristic 1 4 20 = Done (Some sp)) /\
  a_star (MinPriorityQueue sp_score) s_graph one_weighted_edge zero_heuristic 1 6 20 = Done None.
Proof. split; [exact s_built|]. split; [eexists; vm_compute; reflexivity|vm_compute; reflexivity]. Qed.

(** ** C45: for every queue popping a least element, in particular the heap. *)
Theorem C45_unit_cost_shortest : forall (Q : squeue scored) g s t sp, built g ->
  pops_least Q sp_score ->
  settles (a_star Q g one_weighted_edge zero_heuristic s t) (Some sp) ->
  distance (gE g) s t (hops (sp_path sp)) /\ sp_score sp = Z.of_nat (hops (sp_path sp)).
Proof. intros Q g s t sp Hb HQ H. now apply (a_star_unit Q g s t (built_wf Hb)). Qed.
Print Assumptions C45_unit_cost_shortest.
Example C45_case : built s_graph /\ pops_least (MinPriorityQueue sp_score) sp_score /\
  settles (a_star (MinPriorityQueue sp_score) s_graph one_weighted_edge zero_heuristic 6%N 4%N)
    (Some {| sp_path := [6; 1; 2; 4]%N; sp_score := 3 |}).
Proof.
  split; [exact s_built|]. split; [apply min_pops_least|].
  exists 10. intros n Hn. unfold a_star. apply iter_find_mono with 10; [|assumption].
  vm_compute. reflexivity.
Qed.

(** ** C46: false. *)
Theorem C46_a_star_optimal_refuted : exists g w s t sp l, built g /\
  (forall a b, 0 <= w a b)%Z /\
  settles (a_star (MinPriorityQueue sp_score) g (weight w) zero_heuristic s t) (Some sp) /\
  walk_from_to (gE g) s t l /\ (weight w l < weight w (sp_path sp))%Z.
Proof.
  exists (apply_commands [AddEdge 1 2; AddEdge 1 3; AddEdge 3 2]%N g_new).
  exists (fun a b => if (N.eqb a 1 && N.eqb b 2)%bool then 5 else 1)%Z, 1%N, 2%N.
  exists {| sp_path := [1; 2]%N; sp_score := 5 |}, [1; 3; 2]%N.
  split; [eexists; apply built_by_apply|]. split.
  { intros a b. destruct (N.eqb a 1 && N.eqb b 2)%bool; lia. }
  split.
  { exists 10. intros n Hn. unfold a_star. apply iter_find_mono with 10; [|assumption].
    vm_compute. reflexivity. }
  split; [concrete_walk|vm_compute; reflexivity].
Qed.
Print Assumptions C46_a_star_optimal_refuted.

(** The part that is true, for every queue popping a least element.  When no
    extension lowers the score and extending two walks by the same vertex keeps
    their order, the result has the least score of all walks to the target. *)
Theorem C46_order_preserving : forall (Q : squeue scored) g cost heur s t sp l, built g ->
  pops_least Q sp_score ->
  let score := fun p => (cost p + heur p)%Z in
  (forall p u v, walk_from_to (gE g) s u p -> gE g u v -> (score p <= score (p ++ [v]))%Z) ->
  (forall p q u w v, walk_from_to (gE g) s u p -> walk_from_to (gE g) s w q ->
     gE g u v -> gE g w v ->
     (score p <= score q)%Z -> (score (p ++ [v]) <= score (q ++ [v]))%Z) ->
  settles (a_star Q g cost heur s t) (Some sp) -> walk_from_to (gE g) s t l ->
  (score (sp_path sp) <= score l)%Z.
Proof.
  intros Q g cost heur s t sp l Hb HQ score Hm Hc Hs Hl.
  destruct (a_star_spec Q g cost heur s t (built_wf Hb)) as [[_ H]|(sp' & H & _ & Hsc)].
  { apply (settles_fun _ _ _ _ Hs) in H. discriminate. }
  pose proof (settles_fun _ _ _ _ Hs H) as [= <-]. unfold score at 1. rewrite <- Hsc.
  now apply (a_star_ordered Q g cost heur s t (built_wf Hb) HQ Hm Hc).
Qed.
Print Assumptions C46_order_preserving.

(** In particular for edge weights whose reduced cost, by a consistent heuristic [h]
    on vertices, depends only on where the edge leads; with [h] zero, for weights
    that depend only on where the edge leads. *)
Theorem C46_head_weights : forall (Q : squeue scored) g w h c heur s t sp l, built g ->
  pops_least Q sp_score ->
  (forall a b, gE g a b -> (w a b + h b - h a = c b)%Z /\ (0 <= c b)%Z) ->
  (forall p v, ends_with v p -> heur p = h v) ->
  settles (a_star Q g (weight w) heur s t) (Some sp) -> walk_from_to (gE g) s t l ->
  (weight w (sp_path sp) <= weight w l)%Z.
Proof.
  intros Q g w h c heur s t sp l Hb HQ Hw Hh Hs Hl.
  assert (Hext : forall p u v, walk_from_to (gE g) s u p -> gE g u v ->
            (weight w (p ++ [v]) + heur (p ++ [v]) = weight w p + heur p + c v)%Z).
  { intros p u v Hp He. destruct (Hw u v He) as [H1 _].
    rewrite (weight_snoc w v (proj1 (proj2 Hp))).
    rewrite (Hh (p ++ [v]) v) by now exists p. rewrite (Hh p u (proj1 (proj2 Hp))). lia. }
  assert (Hle : (weight w (sp_path sp) + heur (sp_path sp) <= weight w l + heur l)%Z).
  { apply (C46_order_preserving Q g (weight w) heur s t sp l Hb HQ); auto.
    - intros p u v Hp He. rewrite (Hext p u v Hp He). destruct (Hw u v He). lia.
    - intros p q u x v Hp Hq He He' Hpq. rewrite (Hext p u v Hp He), (Hext q x v Hq He'). lia. }
  destruct (a_star_spec Q g (weight w) heur s t (built_wf Hb)) as [[_ H]|(sp' & H & [Hsw _] & _)].
  { apply (settles_fun _ _ _ _ Hs) in H. discriminate. }
  pose proof (settles_fun _ _ _ _ Hs H) as [= <-].
  rewrite (Hh (sp_path sp) t (proj1 (proj2 Hsw))), (Hh l t (proj1 (proj2 Hl))) in Hle. lia.
Qed.
Print Assumptions C46_head_weights.
(** Entering vertex 2 costs 9: the longer way round is taken. *)
Example C46_case :
  let g := apply_commands [AddEdge 1 2; AddEdge 2 4; AddEdge 1 3; AddEdge 3 5; AddEdge 5 4]%N g_new in
  let c := fun v : N => (if N.eqb v 2 then 9 else 1)%Z in
  built g /\ (forall a b, gE g a b -> (c b + 0 - 0 = c b)%Z /\ (0 <= c b)%Z) /\
  settles (a_star (MinPriorityQueue sp_score) g (weight (fun _ b => c b)) zero_heuristic 1%N 4%N)
    (Some {| sp_path := [1; 3; 5; 4]%N; sp_score := 3 |}).
Proof.
  cbv zeta. split; [eexists; apply built_by_apply|]. split.
  { intros a b _. destruct (N.eqb b 2); lia. }
  exists 12. intros n Hn. unfold a_star. apply iter_find_mono with 12; [|assumption].
  vm_compute. reflexivity.
Qed.

(** ** C47 *)
Definition never_decreases g s (f : path -> Z) : Prop :=
  forall p v, p <> [] -> walk_from (gE g) s (p ++ [v]) -> (f p <= f (p ++ [v]))%Z.
Theorem C47_constrained_optimal : forall (Q : squeue scored) g cost heur cs s t fuel sp, built g ->
  let f := fun p => (cost p + heur p)%Z in
  constrained_shortest_path Q g cost heur s t cs fuel = Done (Some sp) ->
  walk_from_to (gE g) s t (sp_path sp) /\ sp_score sp = f (sp_path sp) /\
  (forall c, In c cs -> holds c (sp_path sp) (f (sp_path sp))) /\
  (pops_least Q sp_score -> never_decreases g s f ->
   forall p, walk_from_to (gE g) s t p -> (forall c, In c cs -> holds c p (f p)) ->
     (sp_score sp <= f p)%Z).
Proof.
  intros Q g cost heur cs s t fuel sp Hb f H. unfold constrained_shortest_path in H.
  apply (constrained_partial Q g f cs s t (built_wf Hb)) in H.
  apply found_some in H as [(p & -> & Hw & Hs) Hopt]; [|exact (built_wf Hb)]. auto.
Qed.
Print Assumptions C47_constrained_optimal.
Example C47_case : built s_graph /\ never_decreases s_graph 1 one_weighted_edge /\
  constrained_shortest_path (MinPriorityQueue sp_score) s_graph one_weighted_edge zero_heuristic 1%N 5%N
    [ContainsVertex 4; ContainsVertex 3; ContainsCycle]%N 200 =
    Done (Some {| sp_path := [1; 3; 4; 1; 5]%N; sp_score := 4 |}).
Proof.
  split; [exact s_built|]. split.
  - intros p v _ _. unfold one_weighted_edge, path_size. rewrite app_length. cbn. lia.
  - vm_compute. reflexivity.
Qed.

(** ** C48 *)
Definition each_edge_costs g s (f : path -> Z) : Prop :=
  forall p v, p <> [] -> walk_from (gE g) s (p ++ [v]) -> (f p + 1 <= f (p ++ [v]))%Z.
Theorem C48_constrained_complete : forall (Q : squeue scored) g cost heur cs s t p, built g ->
  let f := fun p => (cost p + heur p)%Z in
  pops_least Q sp_score -> each_edge_costs g s f ->
  walk_from_to (gE g) s t p -> (forall c, In c cs -> holds c p (f p)) ->
  exists sp, settles (constrained_shortest_path Q g cost heur s t cs) (Some sp).
Proof.
  intros Q g cost heur cs s t p Hb f HQ Hi Hw Hs.
  destruct (constrained_finds Q g f cs s t (built_wf Hb) p HQ Hi Hw Hs) as (sp & H & _).
  exists sp. exact H.
Qed.
Print Assumptions C48_constrained_complete.
Example C48_case : each_edge_costs s_graph 1 (fun p => one_weighted_edge p + zero_heuristic p)%Z /\
  walk_from_to (gE s_graph) 1 5 [1; 3; 4; 1; 5]%N /\
  (forall c, In c [ContainsVertex 4; ContainsVertex 3]%N -> holds c [1; 3; 4; 1; 5]%N 4).
Proof.
  split; [|split].
  - intros p v Hp _. unfold one_weighted_edge, zero_heuristic, path_size. rewrite app_length. cbn.
    destruct p; [congruence|]. cbn [length]. lia.
  - concrete_walk.
  - intros c [<-|[<-|[]]]; cbn; tauto.
Qed.

(** ** C49: false, whatever the queue: on a cyclic graph the search for an
    unreachable target never returns. *)
Definition loop_graph : graph := apply_commands [AddEdge 1 1; AddVertex 2]%N g_new.
Lemma loop_last_vertex k : path_last (repeat 1%N (S k)) = Some 1%N.
Proof.
  apply path_last_spec. exists (repeat 1%N k). change [1%N] with (repeat 1%N 1).
  rewrite <- repeat_app. f_equal. lia.
Qed.
Lemma loop_last f k : last_is 2 (node f (repeat 1%N (S k))) = false.
Proof. unfold last_is, node, sp_path. now rewrite loop_last_vertex. Qed.
Lemma loop_kids f k : constrained_kids loop_graph f [] (node f (repeat 1%N (S k))) =
  Some [node f (repeat 1%N (S (S k)))].
Proof.
  unfold constrained_kids, node, sp_path. rewrite loop_last_vertex.
  replace (outbound_edges loop_graph 1) with [(1%N, 1%N)] by (vm_compute; reflexivity).
  cbn [map filter snd check_all_partial forallb]. unfold scored_child, path_append, sp_path.
  replace (repeat 1%N (S k) ++ [1%N]) with (repeat 1%N (S (S k))); [reflexivity|].
  change [1%N] with (repeat 1%N 1). rewrite <- repeat_app. f_equal. lia.
Qed.
Theorem C49_unsat_terminates_refuted : exists g s t cs, built g /\
  (forall p f, walk_from_to (gE g) s t p -> ~ (forall c, In c cs -> holds c p f)) /\
  forall Q, diverges (constrained_shortest_path Q g one_weighted_edge zero_heuristic s t cs).
Proof.
  exists loop_graph, 1%N, 2%N, []. assert (Hb : built loop_graph) by (eexists; apply built_by_apply).
  split; [exact Hb|].
  assert (Hto : forall u v, gE loop_graph u v -> v = 1%N).
  { intros u v H. apply (gE_outbound _ (built_wf Hb)) in H.
    assert (Hu : In u (vertices loop_graph)).
    { apply (gE_outbound _ (built_wf Hb)) in H. now apply (gE_vertices _ (built_wf Hb)) in H. }
    vm_compute in Hu. destruct Hu as [<-|[<-|[]]]; vm_compute in H; [|contradiction].
    destruct H as [H|[]]. now injection H as <-. }
  split.
  - intros p f Hw _. apply walk_inv in Hw as [[_ H]|(l & u & _ & _ & He)]; [discriminate|].
    apply Hto in He. discriminate.
  - intros Q n. unfold constrained_shortest_path.
    set (f := fun p => (one_weighted_edge p + zero_heuristic p)%Z).
    assert (H : forall q k, q_valid Q q -> Permutation (q_content Q q) [node f (repeat 1%N (S k))] ->
      iter_find (fun sp => last_is 2 sp && forallb (fun c => check_complete c sp) [])
        (constrained_next Q loop_graph f []) n q = OutOfFuel).
    { induction n as [|n IH]; intros q k Hv Hq; [reflexivity|].
      cbn [iter_find]. unfold constrained_next at 1, tree_next at 1.
      destruct (q_pop Q q) as [[a q']|] eqn:E.
      2:{ apply (q_pop_none _ Q q Hv) in E. rewrite E in Hq. apply Permutation_nil in Hq. discriminate. }
      pose proof (q_pop_content _ Q q a q' Hv E) as Hc. pose proof (q_pop_valid _ Q q a q' Hv E) as Hv'.
      rewrite Hc in Hq. apply Permutation_length_1_inv in Hq || (symmetry in Hq; apply Permutation_length_1_inv in Hq).
      injection Hq as -> Hq.
      change (1%N :: repeat 1%N k) with (repeat 1%N (S k)). rewrite loop_kids. rewrite loop_last. cbn [andb].
      apply (IH _ (S k)).
      - now apply push_all_valid.
      - rewrite push_all_content by assumption. rewrite Hq. reflexivity. }
    apply (H _ 0).
    + apply q_push_valid, q_empty_valid.
    + unfold constrained_iter_from. rewrite q_push_content by apply q_empty_valid.
      now rewrite q_empty_content.
Qed.
Print Assumptions C49_unsat_terminates_refuted.

(** ** C50 *)
Theorem C50_bounded_terminates : forall (Q : squeue scored) g cost heur cs s t, built g ->
  let f := fun p => (cost p + heur p)%Z in
  In (CNot ContainsCycle) cs \/ (exists n, In (MaxLength n) cs) ->
  exists r, settles (constrained_shortest_path Q g cost heur s t cs) r /\
    (never_decreases g s f ->
     (r = None <-> ~ exists p, walk_from_to (gE g) s t p /\ forall c, In c cs -> holds c p (f p))).
Proof.
  intros Q g cost heur cs s t Hb f Hc. pose proof (built_wf Hb) as W.
  assert (HL : exists L, forall p, live g f cs s p -> length p <= L).
  { destruct Hc as [Hc|[n Hc]].
    - exists (length (vertices g) + 1). intros p Hl. now apply (live_no_cycle g f cs s W).
    - exists (Nat.max 1 n). intros p Hl. now apply (live_max_length g f cs s p n). }
  destruct HL as [L HL].
  destruct (constrained_bounded Q g f cs s t W L HL) as (r & H1 & H2). exists r.
  split; [exact H1|]. intro Hm. destruct r as [sp|].
  - split; [discriminate|]. intro Hn. exfalso. apply Hn.
    apply found_some in H2 as [(p & _ & Hw & Hs) _]; [|assumption]. exists p. auto.
  - split; [|reflexivity]. intros _ (p & Hw & Hs).
    now apply (found_nothing Q g f cs s t W H2 Hm p Hw Hs).
Qed.
Print Assumptions C50_bounded_terminates.
Example C50_case : built s_graph /\
  constrained_shortest_path (MinPriorityQueue sp_score) s_graph one_weighted_edge zero_heuristic 1%N 6%N
    [CNot ContainsCycle] 200 = Done None.
Proof. split; [exact s_built|]. vm_compute. reflexivity. Qed.
