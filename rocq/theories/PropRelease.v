(** * Theorems on 64-bit arithmetic in checked and optimised builds (C58, C103-C105) *)
From Coq Require Import List NArith ZArith Bool Permutation Lia Arith.
From Verif Require Import Spec Base WalkFacts Graph GraphSpec GraphFacts PropGraph Path PathFacts SearchFacts IterFacts Topo TopoFacts
  PropTopo ShortSpec ShortFacts DagFacts PropShort BellmanFacts PropBellman MaxFlow FlowSpec FlowFacts PropFlow
  Release ReleaseFacts SpfaEnds.
Import ListNotations.
Open Scope Z_scope.

(** The number a 64-bit signed machine word holds after wrapping around. *)
Definition same_word (z exact : Z) : Prop := - 2 ^ 63 <= z < 2 ^ 63 /\ exists k, z = exact + k * 2 ^ 64.
Lemma wrap_same z : same_word (wrap z) z.
Proof. pose proof (wrap_range z) as H. unfold i64_min, i64_max in H. split; [lia|apply wrap_congruent]. Qed.

(** ** C58: with overflow checks, a reachable negative cycle ends in a panic. *)
Theorem C58_spfa_negative_panics : forall g w s B, built g ->
  0 <= B -> (forall a b, gE g a b -> Z.abs (w (a, b)) <= B) ->
  B * Z.of_nat (vertex_count g + 1) < i64_max ->
  negative_cycle (gE g) (by_ends w) s -> panics (spfa g w s).
Proof.
  intros g w s B Hb HB0 HB Hmax Hneg. destruct (spfa_ends g w s (built_wf Hb)) as [(m & n0 & Hm)|]; [exfalso|assumption].
  exact (C58_spfa_negative_never_returns g w s B Hb HB0 HB Hmax Hneg n0 m (Hm n0 (le_n _))).
Qed.
Print Assumptions C58_spfa_negative_panics.
(** Whatever the weights, it ends; either with an answer or with a panic. *)
Theorem C58_spfa_ends : forall g w s, built g -> (exists m, settles (spfa g w s) m) \/ panics (spfa g w s).
Proof. intros g w s Hb. exact (spfa_ends g w s (built_wf Hb)). Qed.
Print Assumptions C58_spfa_ends.

(** ** C103 *)
Theorem C103_release_agrees : forall g w s n,
  (dag_shortest_paths g w s n <> Panic -> r_dag_shortest_paths g w s n = dag_shortest_paths g w s n) /\
  (dag_longest_paths g w s n <> Panic -> r_dag_longest_paths g w s n = dag_longest_paths g w s n) /\
  (bellman_ford g w s <> Panic -> Done (r_bellman_ford g w s) = bellman_ford g w s) /\
  (spfa g w s n <> Panic -> r_spfa g w s n = spfa g w s n) /\
  (forall cap t, built g -> (forall e, (cap e < 2 ^ 64)%N) ->
     max_flow g cap s t n <> Panic -> r_max_flow g cap s t n = max_flow g cap s t n).
Proof.
  intros g w s n. split; [apply agree_dag|]. split; [apply agree_longest|]. split; [apply agree_bellman|].
  split; [apply agree_spfa|]. intros cap t Hb Hc. apply agree_max_flow; [exact (built_wf Hb)|].
  intros e _. specialize (Hc e). unfold u64_max. lia.
Qed.
Print Assumptions C103_release_agrees.

Lemma settles_agree A (f f' : nat -> outcome A) a : (forall n, f n <> Panic -> f' n = f n) -> settles f a -> settles f' a.
Proof. intros H [n0 Hn]. exists n0. intros n Hle. rewrite H; rewrite Hn by assumption; [reflexivity|discriminate]. Qed.

(** So the answers proved right for the checked build are right for the optimised one. *)
Theorem C103_release_correct : forall g w s B, built g ->
  0 <= B -> (forall a b, gE g a b -> Z.abs (w (a, b)) <= B) ->
  (B * Z.of_nat (vertex_count g * length (edges g) + 1) < i64_max ->
     (r_bellman_ford g w s = None <-> negative_cycle (gE g) (by_ends w) s) /\
     (forall m, r_bellman_ford g w s = Some m -> shortest_answer (gE g) (by_ends w) s (entry m))) /\
  (B * Z.of_nat (vertex_count g + 1) < i64_max -> ~ negative_cycle (gE g) (by_ends w) s ->
     exists m, settles (r_spfa g w s) m /\ shortest_answer (gE g) (by_ends w) s (entry m)) /\
  (B * Z.of_nat (vertex_count g + 1) < i64_max -> (forall v, contains_edge g (v, v) = false) -> acyclic (gE g) ->
     (forall u x, gE g u x -> reachable (gE g) s u \/ reachable (gE g) u s) ->
     exists m, settles (r_dag_shortest_paths g w s) m /\ shortest_answer (gE g) (by_ends w) s (entry m)).
Proof.
  intros g w s B Hb HB0 HB. split; [|split].
  - intro Hm. destruct (C56_bellman_ford g w s B Hb HB0 HB Hm) as (r & Hr & H1 & H2).
    pose proof (agree_bellman g w s) as Ha. rewrite Hr in Ha. specialize (Ha ltac:(discriminate)). injection Ha as ->. now split.
  - intros Hm Hn. destruct (C57_spfa g w s B Hb HB0 HB Hm Hn) as (m & H1 & H2). exists m. split; [|assumption].
    apply (settles_agree _ (spfa g w s)); [intro n; apply agree_spfa|assumption].
  - intros Hm Hl Ha Hall. destruct (C54_dag_no_panic g w s B Hb Hl Ha HB0 HB Hm Hall) as (m & H1). exists m. split.
    + apply (settles_agree _ (dag_shortest_paths g w s)); [intro n; apply agree_dag|assumption].
    + now apply (C53_dag_shortest g w s Hb Hl Ha).
Qed.
Print Assumptions C103_release_correct.
Example C103_case : built bf_graph /\ exists m, r_bellman_ford bf_graph bf_w 1 = Some m /\ bellman_ford bf_graph bf_w 1 = Done (Some m) /\
  r_bellman_ford bf_graph bf_w' 1 = None /\ length m = 4%nat.
Proof. split; [exact bf_built|]. eexists. vm_compute. now repeat split. Qed.

(** ** C104: scores of an optimised build are words, not weights. *)
Definition long_graph : graph := apply_commands [AddEdge 1 2; AddEdge 2 3; AddEdge 3 4] g_new.
Definition half_w (e : edge) : Z := 2 ^ 62.
Lemma long_built : built long_graph.
Proof. eexists. apply built_by_apply. Qed.
Theorem C104_release_score_refuted :
  ~ (forall g w s m, built g -> (forall e, 0 <= w e <= i64_max) -> r_bellman_ford g w s = Some m ->
       shortest_answer (gE g) (by_ends w) s (entry m)) /\
  ~ (forall g w s m x p d, built g -> (forall e, 0 <= w e <= i64_max) -> settles (r_spfa g w s) m ->
       entry m x = Some (p, d) -> 0 <= d).
Proof.
  split.
  - intro H. assert (Hm : exists m, r_bellman_ford long_graph half_w 1 = Some m) by (eexists; vm_compute; reflexivity).
    destruct Hm as [m Hm]. specialize (H long_graph half_w 1%N m long_built ltac:(intro; vm_compute; split; discriminate) Hm 4%N).
    assert (E : entry m 4%N = Some ([1; 2; 3; 4]%N, 3 * 2 ^ 62 - 2 ^ 64)) by (vm_compute in Hm; injection Hm as <-; reflexivity).
    rewrite E in H. destruct H as (_ & H & _). vm_compute in H. discriminate H.
  - intro H. assert (Hm : exists m, r_spfa long_graph half_w 1 9 = Done m) by (eexists; vm_compute; reflexivity).
    destruct Hm as [m Hm].
    assert (E : entry m 4%N = Some ([1; 2; 3; 4]%N, 3 * 2 ^ 62 - 2 ^ 64)) by (vm_compute in Hm; injection Hm as <-; reflexivity).
    destruct (r_spfa_ends long_graph half_w 1%N (built_wf long_built)) as [m' Hs].
    assert (m' = m) as ->.
    { destruct Hs as [n0 Hs]. specialize (Hs (n0 + 9)%nat ltac:(lia)).
      assert (Hk : forall n k x, (n <= k)%nat -> forall r, r_spfa_loop long_graph half_w n x = Done r -> r_spfa_loop long_graph half_w k x = Done r).
      { clear. induction n as [|n IH]; intros k x Hk r Hr; [discriminate|]. destruct k as [|k]; [lia|]. cbn [r_spfa_loop] in *.
        destruct (snd x) as [|v q]; [assumption|]. apply IH; [lia|assumption]. }
      unfold r_spfa in *. rewrite (Hk 9%nat (n0 + 9)%nat _ ltac:(lia) m Hm) in Hs. now injection Hs. }
    specialize (H long_graph half_w 1%N m 4%N _ _ long_built ltac:(intro; vm_compute; split; discriminate) Hs E). vm_compute in H. now apply H.
Qed.
Print Assumptions C104_release_score_refuted.

(** Each path returned is nevertheless a walk of the graph to its vertex, and the
    score is its weight modulo 2^64: exact whenever that weight fits. *)
Theorem C104_release_score_word : forall g w s, built g ->
  (forall m, r_bellman_ford g w s = Some m -> forall x p d, entry m x = Some (p, d) ->
     walk_from_to (gE g) s x p /\ same_word d (weight (by_ends w) p)) /\
  (forall n m, r_spfa g w s n = Done m -> forall x p d, entry m x = Some (p, d) ->
     walk_from_to (gE g) s x p /\ same_word d (weight (by_ends w) p)) /\
  (forall n m, r_dag_shortest_paths g w s n = Done m -> forall x p d, entry m x = Some (p, d) ->
     walk_from_to (gE g) s x p /\ same_word d (weight (by_ends w) p)) /\
  (forall n m, r_dag_longest_paths g w s n = Done m -> forall x p d, entry m x = Some (p, d) ->
     walk_from_to (gE g) s x p /\ same_word d (weight (by_ends w) p)).
Proof.
  intros g w s Hb. pose proof (built_wf Hb) as W.
  assert (Hw : forall m, wrapped g w s m -> forall x p d, entry m x = Some (p, d) ->
     walk_from_to (gE g) s x p /\ same_word d (weight (by_ends w) p)).
  { intros m Hm x p d H. unfold entry in H. destruct (sc_get x m) as [sp|] eqn:E; [|discriminate]. injection H as <- <-.
    destruct (Hm x sp E) as [H1 ->]. split; [assumption|]. apply wrap_same. }
  split; [|split; [|split]].
  - intros m Hm. apply Hw. now apply wrapped_bellman.
  - intros n m Hm. apply Hw. now apply wrapped_spfa in Hm.
  - intros n m Hm. apply Hw. now apply wrapped_dag in Hm.
  - intros n m Hm x p d H. unfold r_dag_longest_paths in Hm. apply obind_done in Hm as (m1 & H1 & H2). injection H2 as <-.
    apply (wrapped_dag _ _ _ _ _ W) in H1. unfold entry in H. destruct (sc_get x (r_negate_scores m1)) as [sp|] eqn:E; [|discriminate].
    injection H as <- <-.
    assert (Hg : exists sp1, sc_get x m1 = Some sp1 /\ sp = scored_path_of (sp_path sp1) (wrap (-1 * sp_score sp1))).
    { clear H1. revert E. unfold sc_get, r_negate_scores. induction m1 as [|[y sy] m1 IH]; cbn [map hm_get fst snd]; [discriminate|].
      destruct (N.eqb x y); [|exact IH]. intros [= <-]. eauto. }
    destruct Hg as (sp1 & Hg & ->). destruct (H1 x sp1 Hg) as [H2 H3]. cbn [scored_path_of sp_path sp_score]. split; [assumption|].
    rewrite H3. assert (Hn : weight (fun a b => -1 * w (a, b)) (sp_path sp1) = - weight (by_ends w) (sp_path sp1)) by exact (weight_neg (by_ends w) _).
    rewrite Hn. replace (-1 * wrap (- weight (by_ends w) (sp_path sp1))) with (- wrap (- weight (by_ends w) (sp_path sp1))) by ring.
    rewrite wrap_neg, Z.opp_involutive. apply wrap_same.
Qed.
Print Assumptions C104_release_score_word.

(** An optimised SPFA ends on every graph, also with a negative cycle, after which
    the checked one has panicked. *)
Theorem C104_release_spfa_ends : forall g w s, built g -> exists m, settles (r_spfa g w s) m.
Proof. intros g w s Hb. exact (r_spfa_ends g w s (built_wf Hb)). Qed.
Print Assumptions C104_release_spfa_ends.
Example C104_case : built long_graph /\ exists m, r_dag_shortest_paths long_graph half_w 1 9 = Done m /\
  entry m 4%N = Some ([1; 2; 3; 4]%N, - 2 ^ 62) /\ dag_shortest_paths long_graph half_w 1 9 = Panic.
Proof. split; [exact long_built|]. eexists. vm_compute. now repeat split. Qed.

(** ** C105: flows that do not fit *)
Definition two_ways : graph := apply_commands [AddEdge 1 2; AddEdge 2 4; AddEdge 1 3; AddEdge 3 4] g_new.
Definition half_cap (e : edge) : N := (2 ^ 63)%N.
Lemma two_ways_built : built two_ways.
Proof. eexists. apply built_by_apply. Qed.
Lemma r_flow_mono g s t : forall f n k f' value m r, (n <= k)%nat -> (f <= f')%nat ->
  r_flow_loop g s t n f value m = Done r -> r_flow_loop g s t k f' value m = Done r.
Proof.
  assert (Hq : forall m t n k q r, (n <= k)%nat -> r_aug_next g m t n q = Done r -> r_aug_next g m t k q = Done r).
  { clear. intros m t. induction n as [|n IH]; intros k q r Hk H; [discriminate|]. destruct k as [|k]; [lia|]. cbn [r_aug_next] in *.
    destruct q as [|p q]; [assumption|]. destruct (aug_last p) as [[v d]|]; [|assumption]. cbv zeta in *.
    destruct (N.eqb v t); [|apply IH; [lia|assumption]]. apply obind_done in H as (x & Hx & H). rewrite Hx. cbn [obind].
    destruct (0 <? x)%N; [assumption|]. apply IH; [lia|assumption]. }
  induction f as [|f IH]; intros n k f' value m r Hk Hf H; [discriminate|]. destruct f' as [|f']; [lia|]. cbn [r_flow_loop] in *.
  apply obind_done in H as (o & Ho & H). rewrite (Hq _ _ n k _ _ Hk Ho). cbn [obind]. destruct o as [[p d]|]; [|assumption].
  apply (IH n); [assumption|lia|assumption].
Qed.
Theorem C105_release_flow_refuted :
  ~ (forall g cap s t value m, built g -> s <> t -> (forall e, (cap e < 2 ^ 64)%N) ->
       settles (r_max_flow g cap s t) (value, m) ->
       (exists l, walk_from_to (fun a b => gE g a b /\ (0 < cap (a, b))%N) s t l) -> (0 < value)%N).
Proof.
  intro H. assert (Hm : exists m, r_max_flow two_ways half_cap 1 4 30 = Done (0%N, m)) by (eexists; vm_compute; reflexivity).
  destruct Hm as [m Hm].
  assert (Hs : settles (r_max_flow two_ways half_cap 1 4) (0%N, m)).
  { exists 30%nat. intros n Hn. now apply (r_flow_mono _ _ _ 30 30). }
  specialize (H two_ways half_cap 1%N 4%N 0%N m two_ways_built ltac:(discriminate) ltac:(intro; reflexivity) Hs).
  assert (Hl : exists l, walk_from_to (fun a b => gE two_ways a b /\ (0 < half_cap (a, b))%N) 1%N 4%N l).
  { exists [1; 2; 4]%N. split; [now exists [2; 4]%N|]. split; [now exists [1; 2]%N|]. intros a b Hab.
    split; [|reflexivity]. destruct Hab as (l1 & l2 & Hab). destruct l1 as [|x [|y l1]]; injection Hab; intros; subst; try reflexivity.
    destruct l1 as [|? [|? ?]]; discriminate. }
  specialize (H Hl). discriminate H.
Qed.
Print Assumptions C105_release_flow_refuted.

(** For all 64-bit capacities there is one feasible flow, blocking every walk, that
    both builds compute; a checked build reports its value or panics if the value
    is no 64-bit number, and an optimised one reports it modulo 2^64. *)
Theorem C105_any_capacities : forall g cap s t, built g -> s <> t -> (forall e, (cap e < 2 ^ 64)%N) ->
  exists value m,
    (forall e, In e (edges g) -> exists f, hm_get edge_eqb e m = Some (f, cap e)) /\
    (forall e, ~ In e (edges g) -> hm_get edge_eqb e m = None) /\
    feasible (edges g) (capZ cap) s t (flow_in m) (Z.of_N value) /\
    (forall l, walk_from_to (gE g) s t l -> exists a b, adjacent a b l /\ flow_in m (a, b) = capZ cap (a, b)) /\
    ((value < 2 ^ 64)%N -> settles (max_flow g cap s t) (value, m)) /\
    ((2 ^ 64 <= value)%N -> panics (max_flow g cap s t)) /\
    settles (r_max_flow g cap s t) ((value mod 2 ^ 64)%N, m).
Proof.
  intros g cap s t Hb Hst Hcap. pose proof (built_wf Hb) as W.
  assert (Hc : forall e, In e (edges g) -> (cap e <= u64_max)%N) by (intros e _; specialize (Hcap e); unfold u64_max; lia).
  destruct (flow_rounds g cap s t W Hst Hc) as (n0 & ds & m & H1 & H2 & H3 & H4 & _).
  exists (total ds), m. split; [|split; [|split; [|split; [|split; [|split]]]]].
  - intros e He. eexists. exact (proj1 (table_in g cap m e H2 He)).
  - intros e He. exact (table_out g cap m e H2 He).
  - apply (sum_feasible _ _ _ _ (flowZ m)); [intro; symmetry; apply flow_in_eq|]. now apply carries_feasible.
  - intros l (Hs & He & Hadj).
    assert (Hr : reachable (fun a b => adjacent a b l) s t) by (exists l; split; [assumption|split; auto]).
    apply reachable_simple in Hr as (p & (Hs' & He' & Hadj') & Hn').
    destruct (H4 p) as ([a b] & Hi & Hf).
    { split; [|assumption]. split; [assumption|]. split; [assumption|]. intros x y Hxy. apply Hadj. now apply Hadj'. }
    apply to_edge_list_In in Hi. exists a, b. split; [now apply Hadj'|]. rewrite flow_in_eq. unfold flowZ, capZ. now rewrite Hf.
  - intro Hv. exists (n0 + S (length ds))%nat. intros n Hn. unfold max_flow.
    rewrite (rounds_loop g s t _ _ _ _ H1) by (unfold u64_max; lia). rewrite N.add_0_l.
    replace (total ds <=? u64_max)%N with true by (symmetry; apply N.leb_le; unfold u64_max; lia). reflexivity.
  - intro Hv. exists (n0 + S (length ds))%nat. intros n Hn. unfold max_flow.
    rewrite (rounds_loop g s t _ _ _ _ H1) by (unfold u64_max; lia). rewrite N.add_0_l.
    replace (total ds <=? u64_max)%N with false by (symmetry; apply N.leb_gt; unfold u64_max; lia). reflexivity.
  - exists (n0 + S (length ds))%nat. intros n Hn. unfold r_max_flow.
    rewrite (r_rounds_loop g s t _ _ _ _ H1 (low_init g cap W Hc)) by (unfold u64_max; lia). now rewrite N.add_0_l.
Qed.
Print Assumptions C105_any_capacities.
Example C105_case : built two_ways /\ 1%N <> 4%N /\ (forall e, (half_cap e < 2 ^ 64)%N) /\
  max_flow two_ways half_cap 1 4 30 = Panic /\
  exists m, r_max_flow two_ways half_cap 1 4 30 = Done (0%N, m) /\ flow_in m (1, 2)%N = 2 ^ 63.
Proof.
  split; [exact two_ways_built|]. split; [discriminate|]. split; [intro; reflexivity|]. split; [vm_compute; reflexivity|].
  eexists. split; vm_compute; reflexivity.
Qed.
