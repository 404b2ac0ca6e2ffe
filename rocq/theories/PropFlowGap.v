(** * No constant bounds how far the reported flow is from a maximum one (C126) *)
From Coq Require Import List NArith ZArith Bool Permutation Lia Arith.
From Verif Require Import Spec Base WalkFacts Graph GraphSpec GraphFacts Path PathFacts SearchFacts IterFacts Topo TopoFacts
  PropTopo MaxFlow FlowSpec FlowFacts PropFlow FlowBound FlowMax FlowGap FlowFamily.
Import ListNotations.
Open Scope Z_scope.

(** For every [n] there is a graph, all of whose capacities are 1, on which the reported value is 1 and another
    flow carries [n]. *)
Theorem C126_gap : forall n, (1 <= n)%nat -> exists g s t, built g /\ s <> t /\
  (exists m, settles (max_flow g unit_cap s t) (1%N, m)) /\
  exists F, feasible (edges g) (capZ unit_cap) s t F (Z.of_nat n).
Proof.
  intros n Hn. exists (family_graph n), start, (finish n).
  assert (Hb : built (family_graph n)) by (eexists; apply family_built). pose proof (built_wf Hb) as W.
  assert (Hst : start <> finish n) by (unfold start, finish, width; lia).
  assert (Hc : forall e, In e (edges (family_graph n)) -> unit_cap e = 1%N) by reflexivity.
  split; [assumption|]. split; [assumption|]. split.
  - apply (one_round _ unit_cap _ _ W Hst Hc (spine n)).
    + apply (spine_simple n Hn).
    + apply (spine_unique n Hn).
    + apply (spine_met n Hn).
  - destruct (disjoint_paths _ unit_cap _ _ W Hst Hc (map (side_path n) (seq 0 n))) as [F HF].
    + intros p Hp. apply in_map_iff in Hp as (i & <- & Hi). apply in_seq in Hi. apply (side_path_walk n); lia.
    + apply (side_paths_disjoint n Hn).
    + exists F. rewrite map_length, seq_length in HF. exact HF.
Qed.
Print Assumptions C126_gap.

(** So no factor is right for all graphs. *)
Theorem C126_constant_factor_refuted : ~ exists k, forall g cap s t value m, built g -> s <> t ->
  settles (max_flow g cap s t) (value, m) ->
  forall F value', feasible (edges g) (capZ cap) s t F value' -> value' <= k * Z.of_N value.
Proof.
  intros [k H]. destruct (C126_gap (S (Z.to_nat k)) ltac:(lia)) as (g & s & t & Hb & Hst & [m Hm] & F & HF).
  specialize (H g unit_cap s t 1%N m Hb Hst Hm F _ HF). lia.
Qed.
Print Assumptions C126_constant_factor_refuted.

(** The program on the second graph of the family, which has 33 edges. *)
Example C126_case : exists m, max_flow (family_graph 2) unit_cap 0 5 300 = Done (1%N, m) /\ length (edges (family_graph 2)) = 33%nat.
Proof. eexists. split; vm_compute; reflexivity. Qed.
