(** * C39, C41, C42, C43, C46, C47: exactly which order each traversal follows *)
From Coq Require Import List NArith ZArith Bool Arith Lia Permutation.
From Verif Require Import Spec Base WalkFacts Graph GraphSpec GraphFacts OrderFacts Path PathFacts ConstraintSpec
  Queue Heap Iter IterFacts TreeFacts SearchFacts BestFacts ConstrainedFacts PropGraph PropPath PropSearch VisitSpec VisitFacts.
Import ListNotations.

(** The neighbours of a vertex, in the order in which the edges that are still there were added. *)
Definition listed (cs : list graph_command) (v : N) : list N :=
  map snd (filter (fun e => N.eqb (fst e) v) (insertion_order cs)).

Lemma listed_out cs g : built_by cs g -> forall v, listed cs v = map snd (outbound_edges g v).
Proof. intros B v. unfold listed. now destruct (C93_edges_in_order cs g v B) as [-> _]. Qed.

(** C39: breadth-first, the vertex seen first is visited first; this describes the whole output. *)
Theorem C39_exact : forall cs g s out, built_by cs g ->
  (settles (fun n => collect (bfs_next g) n (bfs_iter_from s)) out <-> oldest_first (listed cs) s out).
Proof.
  intros cs g s out B. assert (Hb : built g) by now exists cs. split.
  - apply bfs_oldest. now apply listed_out.
  - intro H. destruct (bfs_collect g (built_wf Hb) s) as (out' & H' & _).
    rewrite (oldest_one (listed cs) s out out' H); [exact H'|]. revert H'. apply bfs_oldest. now apply listed_out.
Qed.
Print Assumptions C39_exact.
Definition v_cmds : list graph_command := [AddEdge 1 3; AddEdge 1 2; AddEdge 3 5; AddEdge 2 4; AddEdge 2 5; AddEdge 4 1; AddEdge 5 6]%N.
Example C39_exact_case : built_by v_cmds (apply_commands v_cmds g_new) /\ listed v_cmds 2%N = [4; 5]%N /\
  collect (bfs_next (apply_commands v_cmds g_new)) 20 (bfs_iter_from 1%N) = Done [1; 3; 2; 5; 4; 6]%N /\
  waiting (listed v_cmds) 1%N [1; 3]%N = [2; 5]%N.
Proof. split; [apply built_by_apply|]. split; [reflexivity|]. split; vm_compute; reflexivity. Qed.

(** C41: depth-first, the vertex seen last is visited first; a vertex seen before is not moved up when it is seen again. *)
Theorem C41_exact : forall cs g s out, built_by cs g ->
  (settles (fun n => collect (dfs_next g) n (dfs_iter_from s)) out <-> newest_first (listed cs) s out).
Proof.
  intros cs g s out B. assert (Hb : built g) by now exists cs. split.
  - apply dfs_newest. now apply listed_out.
  - intro H. destruct (C40_dfs_reachable g s Hb) as (out' & H' & _).
    rewrite (newest_one (listed cs) s out out' H); [exact H'|]. revert H'. apply dfs_newest. now apply listed_out.
Qed.
Print Assumptions C41_exact.
Example C41_exact_case : collect (dfs_next (apply_commands v_cmds g_new)) 20 (dfs_iter_from 1%N) = Done [1; 2; 5; 6; 4; 3]%N /\
  waiting (listed v_cmds) 1%N [1; 2]%N = [3; 4; 5]%N.
Proof. split; vm_compute; reflexivity. Qed.

(** C42: the simple paths, level by level, or each followed by everything that begins with it. *)
Theorem C42_exact : forall cs g s out, built_by cs g ->
  (settles (fun n => collect (bfs_path_next g) n (bfs_path_iter_from s)) out <-> level_order (listed cs) s out) /\
  (settles (fun n => collect (dfs_path_next g) n (dfs_iter_path_from s)) out <-> depth_order (listed cs) [s] out).
Proof.
  intros cs g s out B. assert (Hb : built g) by now exists cs.
  destruct (C42_simple_paths g s Hb) as [(o1 & H1 & _) (o2 & H2 & _)]. split; split.
  - apply bfs_level. now apply listed_out.
  - intro H. rewrite (level_one (listed cs) s out o2 H); [exact H2|]. revert H2. apply bfs_level. now apply listed_out.
  - apply dfs_depth. now apply listed_out.
  - intro H. rewrite (depth_one (listed cs) [s] out H o1); [exact H1|]. revert H1. apply dfs_depth. now apply listed_out.
Qed.
Print Assumptions C42_exact.
Example C42_exact_case :
  collect (bfs_path_next (apply_commands v_cmds g_new)) 30 (bfs_path_iter_from 1%N) =
    Done [[1]; [1; 3]; [1; 2]; [1; 3; 5]; [1; 2; 4]; [1; 2; 5]; [1; 3; 5; 6]; [1; 2; 5; 6]]%N /\
  collect (dfs_path_next (apply_commands v_cmds g_new)) 30 (dfs_iter_path_from 1%N) =
    Done [[1]; [1; 2]; [1; 2; 5]; [1; 2; 5; 6]; [1; 2; 4]; [1; 3]; [1; 3; 5]; [1; 3; 5; 6]]%N.
Proof. split; vm_compute; reflexivity. Qed.

(** C43: best-first, for every queue popping a least element: each path goes one edge beyond an earlier one, a vertex is
    approached from the first visited vertex next to it, and no such path left out has a lower score.  When
    such paths never have equal scores, this describes the whole output. *)
Theorem C43_order : forall (Q : squeue scored) g f s, built g -> pops_least Q sp_score ->
  exists out, settles (fun n => collect (best_next Q g f) n (best_iter_from Q f s)) out /\
    greedy_order (gE g) f s (map sp_path out) /\
    (forall sp, In sp out -> sp_score sp = f (sp_path sp)) /\
    ((forall ps p p', greedy (gE g) f s ps -> open_path (gE g) ps p -> open_path (gE g) ps p' -> f p = f p' -> p = p') ->
     forall ps, greedy_order (gE g) f s ps -> ps = map sp_path out).
Proof.
  intros Q g f s Hb HQ. destruct (greedy_collect Q g f s (built_wf Hb) HQ) as (out & H1 & H2 & H3). exists out.
  split; [assumption|]. split; [assumption|]. split; [assumption|].
  intros Hno ps Hps. exact (greedy_one (gE g) f s Hno ps _ Hps H2).
Qed.
Print Assumptions C43_order.

(** C46: what A* returns: the path of that order that ends at the target, whatever the costs. *)
Theorem C46_what_it_returns : forall (Q : squeue scored) g cost heur s t, built g -> pops_least Q sp_score ->
  let f := fun p => (cost p + heur p)%Z in
  exists ps, greedy_order (gE g) f s ps /\
    forall r, settles (a_star Q g cost heur s t) r <->
      match r with
      | None => forall p, In p ps -> ~ ends_with t p
      | Some sp => In (sp_path sp) ps /\ ends_with t (sp_path sp) /\ sp_score sp = f (sp_path sp)
      end.
Proof.
  intros Q g cost heur s t Hb HQ f.
  destruct (greedy_collect Q g f s (built_wf Hb) HQ) as (out & H1 & H2 & H3). exists (map sp_path out). split; [assumption|].
  pose proof (iter_find_settles _ _ _ (last_is t) _ _ H1) as Hs.
  destruct (best_collect Q g f s (built_wf Hb)) as (out' & H1' & _ & _ & _ & Huniq).
  pose proof (settles_fun _ _ _ _ H1 H1') as <-.
  assert (Hl : forall sp, last_is t sp = true <-> ends_with t (sp_path sp)).
  { intro sp. unfold last_is. destruct (path_last (sp_path sp)) as [x|] eqn:E.
    - apply path_last_spec in E. rewrite N.eqb_eq. split; [now intros ->|]. intro H. exact (ends_fun _ _ _ E H).
    - split; [discriminate|]. intro H. apply path_last_spec in H. congruence. }
  intro r. split.
  - intro Hr. pose proof (settles_fun _ _ _ _ Hr Hs) as ->. destruct (find (last_is t) out) as [sp|] eqn:Ef.
    + apply find_some in Ef as [Hin He]. split; [now apply in_map|]. split; [now apply Hl|now apply H3].
    + intros p Hp He. apply in_map_iff in Hp as (sp & <- & Hin). apply Hl in He. rewrite (find_none _ _ Ef sp Hin) in He. discriminate.
  - intro Hr. replace r with (find (last_is t) out); [exact Hs|]. destruct r as [sp|].
    + destruct Hr as (Hin & He & Hsc). apply in_map_iff in Hin as (sp' & Ep & Hin).
      assert (sp' = sp). { destruct sp as [p z], sp' as [p' z']. cbn [sp_path sp_score] in *. subst p' z. f_equal. apply (H3 _ Hin). }
      subst sp'. destruct (find (last_is t) out) as [sp'|] eqn:Ef.
      * apply find_some in Ef as [Hin' He']. f_equal. apply (Huniq sp' sp t Hin' Hin); [now apply Hl|assumption].
      * apply Hl in He. rewrite (find_none _ _ Ef sp Hin) in He. discriminate.
    + destruct (find (last_is t) out) as [sp'|] eqn:Ef; [|reflexivity]. apply find_some in Ef as [Hin' He']. exfalso.
      apply (Hr (sp_path sp')); [now apply in_map|now apply Hl].
Qed.
Print Assumptions C46_what_it_returns.
(** A case without ties, where the vertex 2 is approached from 1 although 3 would be cheaper. *)
Definition v_weight (a b : N) : Z := if N.eqb b 3 then 1%Z else if N.eqb a 1 then 5%Z else 1%Z.
Example C46_what_it_returns_case : let g := apply_commands [AddEdge 1 2; AddEdge 1 3; AddEdge 3 2]%N g_new in
  built g /\ pops_least (MinPriorityQueue sp_score) sp_score /\
  greedy_order (gE g) (weight v_weight) 1%N [[1]; [1; 3]; [1; 2]]%N.
Proof.
  intro g. assert (Hb : built g) by (eexists; apply built_by_apply). split; [exact Hb|]. split; [apply min_pops_least|].
  destruct (C43_order (MinPriorityQueue sp_score) g (weight v_weight) 1%N Hb (min_pops_least _)) as (out & H1 & H2 & _).
  assert (H3 : settles (fun n => collect (best_next (MinPriorityQueue sp_score) g (weight v_weight)) n (best_iter_from (MinPriorityQueue sp_score) (weight v_weight) 1%N))
    [{| sp_path := [1]%N; sp_score := 0 |}; {| sp_path := [1; 3]%N; sp_score := 1 |}; {| sp_path := [1; 2]%N; sp_score := 5 |}]).
  { apply (collect_settles _ 10). vm_compute. reflexivity. }
  now rewrite (settles_fun _ _ _ _ H1 H3) in H2.
Qed.

(** C47: the constrained search, for the constraints the programs build and any score, also one that decreases along a walk.
    It tries walks in order of their scores, throwing away those that can no longer meet some constraint, and returns
    the first it tries that ends at the target and meets them all; [None] only after all of them.  When no two
    walks to choose from have the same score, this describes the answer. *)
Definition can_still (f : list N -> Z) (cs : list constraint) (p : list N) : Prop :=
  forall c, In c cs -> exists more score, (f p <= score)%Z /\ holds c (p ++ more) score.
Definition meets (f : list N -> Z) (cs : list constraint) (t : N) (p : list N) : Prop :=
  ends_with t p /\ forall c, In c cs -> holds c p (f p).

Lemma tried_ext E f (k1 k2 : list N -> Prop) s : (forall p, k1 p <-> k2 p) -> forall ps, tried_walks E f k1 s ps -> tried_walks E f k2 s ps.
Proof.
  intros H ps. assert (O : forall ps p, open_walk E k1 ps p <-> open_walk E k2 ps p) by (intros qs p; unfold open_walk; now rewrite H).
  induction 1 as [|ps p _ IH H1 H2]; constructor; [assumption|now apply O|]. intros p' Hp'. apply H2. now apply O.
Qed.

Theorem C47_order : forall (Q : squeue scored) g cost heur cs s t, built g -> pops_least Q sp_score -> Forall basic cs ->
  let f := fun p => (cost p + heur p)%Z in
  let tries := tried_walks (gE g) f (can_still f cs) s in
  let choice := open_walk (gE g) (can_still f cs) in
  (forall fuel r, constrained_shortest_path Q g cost heur s t cs fuel = Done r ->
     exists ps, (forall p, In p ps -> ~ meets f cs t p) /\
       match r with
       | Some sp => tries (ps ++ [sp_path sp]) /\ meets f cs t (sp_path sp) /\ sp_score sp = f (sp_path sp)
       | None => tries ps /\ forall p, ~ choice ps p
       end) /\
  ((forall ps p p', tries ps -> choice ps p -> choice ps p' -> f p = f p' -> p = p') ->
   forall ps p, tries (ps ++ [p]) -> (forall q, In q ps -> ~ meets f cs t q) -> meets f cs t p ->
     settles (constrained_shortest_path Q g cost heur s t cs) (Some {| sp_path := p; sp_score := f p |})).
Proof.
  intros Q g cost heur cs s t Hb HQ Hcs f tries choice. pose proof (built_wf Hb) as W.
  set (keep := fun p => check_all_partial cs (node f p) = true).
  assert (Hk : forall p, keep p <-> can_still f cs p).
  { intro p. unfold keep, check_all_partial, can_still. rewrite forallb_forall. rewrite Forall_forall in Hcs.
    split; intros H c Hc; (apply (C92_partial_exact c p (f p) (Hcs c Hc))); exact (H c Hc). }
  assert (Ht : forall ps, tried_walks (gE g) f keep s ps <-> tries ps).
  { intro ps. split; apply tried_ext; [exact Hk|]. intro p. symmetry. apply Hk. }
  assert (Ho : forall ps p, open_walk (gE g) keep ps p <-> choice ps p) by (intros ps p; unfold choice, open_walk; now rewrite Hk).
  split.
  - intros fuel r H. unfold constrained_shortest_path in H.
    destruct (walk_found Q g f cs s t W HQ fuel [] _ r (walk_init Q g f cs s)) as (ps & Hno & Hr); [intros b []|exact H|].
    exists ps. split; [exact Hno|]. destruct r as [sp|].
    + destruct Hr as (H1 & H2 & H3). split; [now apply Ht|]. now split.
    + destruct Hr as (H1 & H2). split; [now apply Ht|]. intros p Hp. apply (H2 p). now apply Ho.
  - intros Hties ps p H Hno Hp. exists (S (length ps)). intros n Hn. unfold constrained_shortest_path.
    apply iter_find_mono with (S (length ps)); [|exact Hn].
    apply (walk_follow Q g f cs s t W HQ) with (out := []); [|apply walk_init|now apply Ht|exact Hno|exact Hp].
    intros qs x y H1 H2 H3. apply (Hties qs); [now apply Ht|now apply Ho|now apply Ho].
Qed.
Print Assumptions C47_order.
(** Scores that decrease: 1 -> 3 costs 4, 3 -> 2 gives 10 back, 1 -> 2 costs 3; the cheaper walk by 3 is not found. *)
Definition v_refund (a b : N) : Z := if N.eqb b 3 then 4%Z else if N.eqb a 1 then 3%Z else (-10)%Z.
Example C47_order_case : let g := apply_commands [AddEdge 1 2; AddEdge 1 3; AddEdge 3 2]%N g_new in
  let cs := [MaxLength 4; CNot ContainsCycle] in
  built g /\ pops_least (MinPriorityQueue sp_score) sp_score /\ Forall basic cs /\
  constrained_shortest_path (MinPriorityQueue sp_score) g (weight v_refund) zero_heuristic 1 2 cs 10 =
    Done (Some {| sp_path := [1; 2]%N; sp_score := 3 |}) /\
  walk_from_to (gE g) 1 2 [1; 3; 2]%N /\ weight v_refund [1; 3; 2]%N = (-6)%Z.
Proof.
  intros g cs. split; [eexists; apply built_by_apply|]. split; [apply min_pops_least|].
  split; [constructor; [exact I|constructor; [exact I|constructor]]|]. split; [vm_compute; reflexivity|].
  split; [concrete_walk|reflexivity].
Qed.
