(** * How far the reported flow can be from a maximum one (C117) *)
From Coq Require Import List NArith ZArith Bool Permutation Lia Arith.
From Verif Require Import Spec Base WalkFacts Graph GraphSpec GraphFacts Path PathFacts SearchFacts IterFacts Topo TopoFacts
  PropTopo BellmanFacts MaxFlow FlowSpec FlowFacts PropFlow FlowBound.
Import ListNotations.
Open Scope Z_scope.

(** If no path without a repeated vertex from [s] to [t] has more than [k] edges, no flow carries more
    than [k] times the reported value. *)
Theorem C117_within_longest_path : forall g cap s t value m k, built g -> s <> t ->
  sum (capZ cap) (edges g) < 2 ^ 64 -> settles (max_flow g cap s t) (value, m) ->
  (forall p, simple_from_to (gE g) s t p -> (hops p <= k)%nat) ->
  forall F value', feasible (edges g) (capZ cap) s t F value' -> value' <= Z.of_nat k * Z.of_N value.
Proof.
  intros g cap s t value m k Hb Hst Hsum Hm Hk F value' HF. pose proof (built_wf Hb) as W.
  assert (Hs : sum (fun e => Z.of_N (cap e)) (edges g) <= Z.of_N u64_max) by (unfold capZ in Hsum; unfold u64_max; lia).
  refine (flow_bound g cap s t W Hst _ k Hk Hs value m Hm F value' HF).
  intros e He. pose proof (sum_member cap _ _ He). lia.
Qed.
Print Assumptions C117_within_longest_path.

(** So in a graph with [n] vertices the reported value is at least the maximum divided by [n - 1]. *)
Theorem C117_within_vertex_count : forall g cap s t value m, built g -> s <> t ->
  sum (capZ cap) (edges g) < 2 ^ 64 -> settles (max_flow g cap s t) (value, m) ->
  forall F value', feasible (edges g) (capZ cap) s t F value' ->
    value' <= (Z.of_nat (vertex_count g) - 1) * Z.of_N value.
Proof.
  intros g cap s t value m Hb Hst Hsum Hm F value' HF. pose proof (built_wf Hb) as W.
  assert (H : value' <= Z.of_nat (vertex_count g - 1) * Z.of_N value).
  { apply (C117_within_longest_path g cap s t value m _ Hb Hst Hsum Hm) with (F := F); [|assumption].
    intros p Hp. rewrite vertex_count_len. exact (simple_hops g s W t p Hp). }
  destruct (vertex_count g) as [|n] eqn:En.
  - unfold vertex_count in En. destruct HF as (_ & _ & HF & _).
    assert (E : edges g = []).
    { destruct g; [reflexivity|discriminate]. }
    destruct (C59_max_flow_feasible g cap s t Hb Hst Hsum) as (v2 & m2 & Hm2 & _ & _ & (_ & _ & H5 & _) & _).
    pose proof (settles_fun _ _ _ _ Hm Hm2) as [= -> ->].
    rewrite E in HF, H5. cbn in HF, H5. lia.
  - replace (Z.of_nat (S n) - 1) with (Z.of_nat (S n - 1)) by lia. exact H.
Qed.
Print Assumptions C117_within_vertex_count.
Example C117_case : built flow_graph /\ 1%N <> 4%N /\ sum (capZ unit_cap) (edges flow_graph) < 2 ^ 64 /\
  (exists m, settles (max_flow flow_graph unit_cap 1 4) (1%N, m)) /\
  exists F, feasible (edges flow_graph) (capZ unit_cap) 1 4 F 2.
Proof.
  split; [exact flow_built|]. split; [discriminate|]. split; [vm_compute; reflexivity|]. split.
  - assert (Hm : exists m, max_flow flow_graph unit_cap 1 4 50 = Done (1%N, m)) by (eexists; vm_compute; reflexivity).
    destruct Hm as [m Hm]. exists m. now apply max_flow_settles in Hm.
  - exists (fun e : N * N => if edge_eqb e (2, 3)%N then 0 else 1). split; [|split; [|split]].
    + intros e _. unfold capZ, unit_cap. destruct (edge_eqb e (2, 3)%N); lia.
    + intros v H1 H4. unfold inflow, outflow. rewrite !sum_filter.
      set (L := edges flow_graph). vm_compute in L. unfold L. cbn [sum fold_right fst snd].
      repeat match goal with |- context [N.eqb ?a v] => destruct (N.eqb_spec a v); [subst v|] end;
        try congruence; vm_compute; reflexivity.
    + vm_compute. reflexivity.
    + vm_compute. reflexivity.
Qed.
