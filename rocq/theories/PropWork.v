(** * How much work the searches do (C127, C128) *)
From Coq Require Import List NArith ZArith Bool Permutation Lia Arith.
From Verif Require Import Spec Base WalkFacts Graph GraphSpec GraphFacts Path PathFacts ConstraintSpec Queue Heap Iter IterFacts
  TreeFacts SearchFacts BestFacts ConstrainedFacts PropSearch Topo TopoFacts PropTopo Cycle CycleSpec CycleFacts PropCycle
  MaxFlow FlowSpec FlowFacts PropFlow FlowFamily Work.
Import ListNotations.
Local Open Scope nat_scope.

(** ** C127: the traversals make one call of [next] for each reachable vertex and one more, so at most one for each
    vertex of the graph and one more (a start that is not in the graph counts too). *)
Theorem C127_traversals : forall g s, built g ->
  exists bfs dfs, enumerates bfs (reachable (gE g) s) /\ enumerates dfs (reachable (gE g) s) /\
    (forall n, collect (bfs_next g) n (bfs_iter_from s) = Done bfs <-> length bfs < n) /\
    (forall n, collect (dfs_next g) n (dfs_iter_from s) = Done dfs <-> length dfs < n) /\
    length bfs <= vertex_count g + (if contains_vertex g s then 0 else 1) /\
    length dfs <= vertex_count g + (if contains_vertex g s then 0 else 1).
Proof.
  intros g s Hb. pose proof (built_wf Hb) as W.
  destruct (bfs_collect g W s) as (bfs & H1 & H2 & _). destruct (dfs_collect g W s) as (dfs & H3 & H4).
  exists bfs, dfs. split; [assumption|]. split; [assumption|]. split; [|split; [|split]].
  - destruct H1 as [n0 H1]. exact (collect_exact _ _ _ _ _ _ (H1 n0 (le_n _))).
  - destruct H3 as [n0 H3]. exact (collect_exact _ _ _ _ _ _ (H3 n0 (le_n _))).
  - exact (visit_calls N (Queue N) g _ _ (fun v => v) W vertex_nodes s s eq_refl eq_refl bfs H1).
  - exact (visit_calls N (Stack N) g _ _ (fun v => v) W vertex_nodes s s eq_refl eq_refl dfs H3).
Qed.
Print Assumptions C127_traversals.

(** Best-first search and A*, whatever the scores and the order in which ties are broken. *)
Theorem C127_a_star : forall (Q : squeue scored) g cost heur s t, built g ->
  exists r, forall n, vertex_count g + 2 <= n -> a_star Q g cost heur s t n = Done r.
Proof.
  intros Q g cost heur s t Hb. pose proof (built_wf Hb) as W. set (f := fun p => (cost p + heur p)%Z).
  destruct (best_collect Q g f s W) as (out & H1 & _).
  pose proof (visit_calls scored Q g _ _ (fun sp => match path_last (sp_path sp) with Some x => x | None => 0%N end)
    W (best_nodes f) {| sp_path := [s]; sp_score := f [s] |} s eq_refl eq_refl out H1) as Hl.
  exists (find (last_is t) out). intros n Hn. unfold a_star. apply iter_find_collect.
  destruct H1 as [n0 H1]. apply (collect_exact _ _ _ _ _ _ (H1 n0 (le_n _))).
  destruct (contains_vertex g s); lia.
Qed.
Print Assumptions C127_a_star.

(** The topological sort. *)
Theorem C127_topological_sort : forall g, built g ->
  exists r, forall n, vertex_count g + 1 <= n -> topological_sort g n = Done r.
Proof.
  intros g Hb. destruct (topo_run g (built_wf Hb)) as (res & rm & _ & H).
  eexists. intros n Hn. unfold topological_sort. rewrite H by (rewrite vertex_count_len in Hn; lia).
  cbn [obind]. reflexivity.
Qed.
Print Assumptions C127_topological_sort.

(** [s_graph] has six vertices, five of which are reachable from 1. *)
Example C127_case : built s_graph /\ vertex_count s_graph = 6 /\ contains_vertex s_graph 1 = true /\
  collect (bfs_next s_graph) 5 (bfs_iter_from 1) = OutOfFuel /\
  collect (bfs_next s_graph) 6 (bfs_iter_from 1) = Done [1; 2; 3; 5; 4]%N.
Proof. split; [exact s_built|]. vm_compute. auto. Qed.

(** ** C128: the searches that keep paths instead do at least one step for each path they could look at. *)

(** An answer of [max_flow] costs a step for each simple path from the start, wherever it leads. *)
Theorem C128_max_flow : forall g cap s t n r (D : list (list N)), built g ->
  max_flow g cap s t n = Done r ->
  NoDup D -> (forall p, In p D -> simple_from (gE g) s p) -> length D < n.
Proof. intros g cap s t n r D Hb. exact (max_flow_calls g s t (built_wf Hb) cap n r D). Qed.
Print Assumptions C128_max_flow.

(** The answer "not reachable within the given constraints" costs a step for each walk from the start that meets the
    constraints. *)
Theorem C128_constrained : forall (Q : squeue scored) g cost heur cs s t n (D : list (list N)), built g ->
  never_decreases g s (fun p => (cost p + heur p)%Z) ->
  constrained_shortest_path Q g cost heur s t cs n = Done None ->
  NoDup D ->
  (forall p, In p D -> walk_from (gE g) s p /\ forall c, In c cs -> holds c p (cost p + heur p)%Z) -> length D < n.
Proof.
  intros Q g cost heur cs s t n D Hb Hm H Hn HD. pose proof (built_wf Hb) as W.
  apply (csp_calls Q g cost heur cs s t W n D H Hn). intros p Hp. destruct (HD p Hp).
  apply sat_live; assumption.
Qed.
Print Assumptions C128_constrained.

(** The answer that there is no cycle costs a step for each simple path from a vertex the search starts at. *)
Theorem C128_no_cycle : forall g n (D : list (list N)), built g ->
  cycle_first g n = Done None ->
  NoDup D -> (forall p, In p D -> exists s, search_start g s /\ simple_from (gE g) s p) -> length D < n.
Proof.
  intros g n D Hb H Hn HD. pose proof (built_wf Hb) as W. apply (cycle_calls g W n D H Hn).
  intros p Hp. destruct (HD p Hp) as (s & Hs & Hp'). exists s. split; [now apply search_start_spec|assumption].
Qed.
Print Assumptions C128_no_cycle.

(** So the work is not bounded by a polynomial, on acyclic graphs already: for every [k] there is an acyclic graph made
    by [4 * k] edges on which all three take more than [2 ^ k] steps to answer. *)
Theorem C128_polynomial_refuted : forall k, exists cs g s t, built_by cs g /\ length cs = 4 * k /\
  acyclic (gE g) /\ ~ reachable (gE g) s t /\
  (forall cap t' n r, max_flow g cap s t' n = Done r -> 2 ^ k < n) /\
  (forall (Q : squeue scored) cs' n r, cs' = [] \/ cs' = [CNot ContainsCycle] ->
     constrained_shortest_path Q g one_weighted_edge zero_heuristic s t cs' n = Done r -> 2 ^ k < n) /\
  (1 <= k -> forall n r, cycle_first g n = Done r -> 2 ^ k < n).
Proof.
  intro k. exists (ladder k), (ladder_graph k), 0%N, (N.of_nat (3 * k + 1)).
  pose proof (ladder_built k) as Hb. assert (Hb' : built (ladder_graph k)) by (now exists (ladder k)).
  pose proof (built_wf Hb') as W.
  assert (Hup : forall l a b, walk_from_to (gE (ladder_graph k)) a b l -> (a <= b)%N).
  { intro l. induction l as [|v l IH] using rev_ind; intros a b Hw.
    - apply walk_nonempty in Hw. congruence.
    - apply walk_inv in Hw as [[_ ->]|(l' & u & Hl & Hw & He)]; [lia|].
      apply app_inj_tail in Hl as [<- _]. apply IH in Hw. apply ladder_up in He. lia. }
  assert (Hac : acyclic (gE (ladder_graph k))).
  { intros l (v & Hw & Hlen). apply walk_inv_cons in Hw as [[-> _]|(l' & u & -> & He & Hw)]; [cbn in Hlen; lia|].
    apply Hup in Hw. apply ladder_up in He. lia. }
  assert (Hun : ~ reachable (gE (ladder_graph k)) 0 (N.of_nat (3 * k + 1))).
  { intros [l Hw]. apply walk_inv in Hw as [[_ H]|(l' & u & _ & _ & He)]; [lia|]. apply ladder_up in He. lia. }
  assert (HD : forall p, In p (climbs k) -> simple_from (gE (ladder_graph k)) 0 p).
  { intros p Hp. destruct (climbs_walk k k (le_n _) p Hp) as (H1 & H2 & _). split; [now apply walk_from_to_from in H1|assumption]. }
  rewrite <- (climbs_length k). pose proof (climbs_NoDup k) as Hn.
  split; [assumption|]. split; [apply ladder_length|]. split; [assumption|]. split; [assumption|]. split; [|split].
  - intros cap t' n r H. exact (C128_max_flow _ _ _ _ _ _ _ Hb' H Hn HD).
  - intros Q cs' n r Hcs H. destruct r as [sp|].
    + apply (C47_constrained_optimal Q _ _ _ _ _ _ _ _ Hb') in H as [H _]. exfalso. apply Hun. now exists (sp_path sp).
    + apply (C128_constrained Q _ _ _ _ _ _ _ _ Hb') with (3 := Hn) in H; [assumption| |].
      * intros p v Hp _. unfold one_weighted_edge, zero_heuristic, path_size. rewrite app_length. lia.
      * intros p Hp. destruct (HD p Hp) as [H1 H2]. split; [assumption|]. intros c Hc.
        destruct Hcs as [-> | ->]; [contradiction|]. destruct Hc as [<-|[]]. cbn.
        intros (v & q1 & q2 & q3 & Hv). rewrite Hv in H2. apply NoDup_remove_2 in H2. apply H2.
        rewrite !in_app_iff. right. right. now left.
  - intros Hk n r H.
    assert (Hs : search_start (ladder_graph k) 0%N).
    { split.
      - assert (He : gE (ladder_graph k) 0%N 1%N) by (apply ladder_gE; exists 0; split; [lia|now left]).
        apply (gE_vertices _ W) in He as [He _]. now apply vertices_In in He.
      - left. intros u Hu. apply ladder_up in Hu. lia. }
    destruct r as [c|].
    + exfalso. destruct (cycle_out _ W) as (out & Hout & _ & Hsound).
      apply cycle_first_settles in H. apply (settles_fun _ _ _ _ (runs_first _ _ _ _ _ Hout)) in H.
      assert (Hc : In c out) by (destruct out; [discriminate|injection H as ->; now left]).
      apply Hsound in Hc as ((_ & Hadj & x & y & Hx & Hy & He) & _).
      assert (Hw : walk_from_to (gE (ladder_graph k)) x y c) by (split; [assumption|split; assumption]).
      apply Hup in Hw. apply ladder_up in He. lia.
    + apply (C128_no_cycle _ _ _ Hb' H Hn). intros p Hp. exists 0%N. auto.
Qed.
Print Assumptions C128_polynomial_refuted.

(** The ladder of five rungs has 20 edges and 16 vertices.  A* from its bottom ends within 18 calls, the other searches need
    more than 32 and here more than 100. *)
Example C128_case :
  let g := ladder_graph 5 in
  edge_count g = 20 /\ vertex_count g = 16 /\
  a_star (MinPriorityQueue sp_score) g one_weighted_edge zero_heuristic 0 99 18 = Done None /\
  max_flow g (fun _ => 1%N) 0 15 100 = OutOfFuel /\ (exists r, max_flow g (fun _ => 1%N) 0 15 200 = Done r) /\
  constrained_shortest_path (MinPriorityQueue sp_score) g one_weighted_edge zero_heuristic 0 99 [] 100 = OutOfFuel /\
  constrained_shortest_path (MinPriorityQueue sp_score) g one_weighted_edge zero_heuristic 0 99 [] 200 = Done None /\
  cycle_first g 100 = OutOfFuel /\ cycle_first g 200 = Done None.
Proof. vm_compute. repeat split. eexists. reflexivity. Qed.
