(** * Theorems on maximum flow (C59-C62) *)
From Coq Require Import List NArith ZArith Bool Permutation Lia Arith.
From Verif Require Import Spec Base WalkFacts Graph GraphSpec GraphFacts Path PathFacts SearchFacts IterFacts Topo TopoFacts
  PropTopo MaxFlow FlowSpec FlowFacts.
Import ListNotations.
Open Scope Z_scope.

(** The capacities as integers. *)
Definition capZ (cap : edge -> N) (e : edge) : Z := Z.of_N (cap e).
(** The flow the returned map holds for an edge. *)
Definition flow_in (m : list (edge * (N * N))) (e : edge) : Z :=
  match hm_get edge_eqb e m with Some (f, _) => Z.of_N f | None => 0 end.

Lemma flow_in_eq m e : flow_in m e = flowZ m e.
Proof. unfold flow_in, flowZ, flow_of, fl_get. destruct (hm_get edge_eqb e m) as [[f c]|]; reflexivity. Qed.

Lemma sum_feasible L cap s t F F' v : (forall e, F e = F' e) -> feasible L cap s t F v -> feasible L cap s t F' v.
Proof.
  intros H (H1 & H2 & H3 & H4).
  assert (Hi : forall x, inflow L F' x = inflow L F x) by (intro; apply sum_ext; intros; symmetry; apply H).
  assert (Ho : forall x, outflow L F' x = outflow L F x) by (intro; apply sum_ext; intros; symmetry; apply H).
  split; [|split; [|split]].
  - intros e He. rewrite <- H. now apply H1.
  - intros x Hs Ht. rewrite Hi, Ho. now apply H2.
  - now rewrite Hi, Ho.
  - now rewrite Hi, Ho.
Qed.

(** ** C59 *)
Theorem C59_max_flow_feasible : forall g cap s t, built g -> s <> t ->
  sum (capZ cap) (edges g) < 2 ^ 64 ->
  exists value m, settles (max_flow g cap s t) (value, m) /\
    (forall e, In e (edges g) -> exists f, hm_get edge_eqb e m = Some (f, cap e)) /\
    (forall e, ~ In e (edges g) -> hm_get edge_eqb e m = None) /\
    feasible (edges g) (capZ cap) s t (flow_in m) (Z.of_N value) /\
    (forall S, S s = true -> S t = false -> Z.of_N value <= cut (edges g) (capZ cap) S).
Proof.
  intros g cap s t Hb Hst Hsum. pose proof (built_wf Hb) as W.
  destruct (max_flow_run g cap s t W Hst) as (value & m & H1 & H2 & H3 & _).
  { unfold capZ in Hsum. unfold u64_max. lia. }
  exists value, m. split; [assumption|]. split; [|split; [|split]].
  - intros e He. eexists. exact (proj1 (table_in g cap m e H2 He)).
  - intros e He. exact (table_out g cap m e H2 He).
  - apply (sum_feasible _ _ _ _ (flowZ m)); [intro; symmetry; apply flow_in_eq|].
    now apply carries_feasible.
  - intros S Hs Ht. exact (carries_cut g cap s t Hst m value S H2 H3 Hs Ht).
Qed.
Print Assumptions C59_max_flow_feasible.

(** Unit capacities on s=1, a=2, b=3, t=4, x=5, y=6, c=7, d=8. *)
Definition flow_graph : graph :=
  apply_commands [AddEdge 1 2; AddEdge 2 3; AddEdge 3 4; AddEdge 2 5; AddEdge 5 6; AddEdge 6 4;
    AddEdge 1 7; AddEdge 7 8; AddEdge 8 3] g_new.
Definition unit_cap (e : edge) : N := 1.
Definition flow_cap (e : edge) : N := match e with (1, 2)%N => 5 | (2, 3)%N => 3 | (2, 5)%N => 4 | (6, 4)%N => 1 | _ => 2 end.
Lemma flow_built : built flow_graph.
Proof. eexists. apply built_by_apply. Qed.
Example C59_case : built flow_graph /\ 1%N <> 4%N /\ sum (capZ flow_cap) (edges flow_graph) < 2 ^ 64 /\
  exists m, max_flow flow_graph flow_cap 1 4 50 = Done (3%N, m) /\ flow_in m (2, 5)%N = 1.
Proof.
  split; [exact flow_built|]. split; [discriminate|]. split; [vm_compute; reflexivity|].
  eexists. split; [vm_compute; reflexivity|]. vm_compute. reflexivity.
Qed.

(** ** C60: the value can be smaller than that of another feasible flow.
    The search never takes an edge backwards, because the vertex it records for an
    incoming edge is the one it is already at. *)
Theorem C60_max_flow_not_maximum_refuted :
  ~ (forall g cap s t value m, built g -> s <> t -> sum (capZ cap) (edges g) < 2 ^ 64 ->
       settles (max_flow g cap s t) (value, m) ->
       forall F value', feasible (edges g) (capZ cap) s t F value' -> value' <= Z.of_N value).
Proof.
  intro H.
  assert (Hm : exists m, max_flow flow_graph unit_cap 1 4 50 = Done (1%N, m)) by (eexists; vm_compute; reflexivity).
  destruct Hm as [m Hm]. apply max_flow_settles in Hm.
  specialize (H flow_graph unit_cap 1%N 4%N 1%N m flow_built ltac:(discriminate) ltac:(vm_compute; reflexivity) Hm).
  set (F := fun e : N * N => if edge_eqb e (2, 3)%N then 0 else 1).
  assert (Hf : feasible (edges flow_graph) (capZ unit_cap) 1%N 4%N F 2).
  { split; [|split; [|split]].
    - intros e _. unfold F, capZ, unit_cap. destruct (edge_eqb e (2, 3)%N); lia.
    - intros v H1 H4. unfold inflow, outflow. rewrite !sum_filter.
      set (L := edges flow_graph). vm_compute in L. unfold L, F. cbn [sum fold_right fst snd].
      repeat match goal with |- context [N.eqb ?a v] => destruct (N.eqb_spec a v); [subst v|] end;
        try congruence; vm_compute; reflexivity.
    - vm_compute. reflexivity.
    - vm_compute. reflexivity. }
  specialize (H F 2 Hf). lia.
Qed.
Print Assumptions C60_max_flow_not_maximum_refuted.

(** What does hold: the value is positive exactly when some path of edges with positive
    capacity exists, and with C61 the flow cannot be increased by sending more along a
    directed path. *)
Theorem C60_max_flow_positive : forall g cap s t value m, built g -> s <> t ->
  sum (capZ cap) (edges g) < 2 ^ 64 -> settles (max_flow g cap s t) (value, m) ->
  ((0 < value)%N <-> exists l, walk_from_to (fun a b => gE g a b /\ (0 < cap (a, b))%N) s t l).
Proof.
  intros g cap s t value m Hb Hst Hsum Hm. pose proof (built_wf Hb) as W.
  destruct (max_flow_run g cap s t W Hst) as (value' & m' & H1 & _ & _ & _ & H5).
  { unfold capZ in Hsum. unfold u64_max. lia. }
  pose proof (settles_fun _ _ _ _ Hm H1) as [= -> ->]. rewrite H5. split.
  - intros (p & [(Hs & He & Hadj) Hn] & Hc). exists p. split; [assumption|]. split; [assumption|].
    intros x y Hxy. split; [now apply Hadj|]. apply Hc. now apply to_edge_list_In.
  - intros Hr. apply reachable_simple in Hr as (p & (Hs & He & Hadj) & Hn). exists p. split.
    + split; [|assumption]. split; [assumption|]. split; [assumption|]. intros x y Hxy. now apply Hadj.
    + intros [a b] Hi. apply to_edge_list_In in Hi. now apply (Hadj a b).
Qed.
Print Assumptions C60_max_flow_positive.
Example C60_case : built flow_graph /\ 1%N <> 4%N /\ sum (capZ flow_cap) (edges flow_graph) < 2 ^ 64 /\
  exists m, settles (max_flow flow_graph flow_cap 1 4) (3%N, m).
Proof.
  split; [exact flow_built|]. split; [discriminate|]. split; [vm_compute; reflexivity|].
  assert (Hm : exists m, max_flow flow_graph flow_cap 1 4 50 = Done (3%N, m)) by (eexists; vm_compute; reflexivity).
  destruct Hm as [m Hm]. exists m. now apply max_flow_settles in Hm.
Qed.

(** ** C61 *)
Theorem C61_max_flow_blocking : forall g cap s t value m, built g -> s <> t ->
  sum (capZ cap) (edges g) < 2 ^ 64 -> settles (max_flow g cap s t) (value, m) ->
  forall l, walk_from_to (gE g) s t l ->
    exists a b, adjacent a b l /\ flow_in m (a, b) = capZ cap (a, b).
Proof.
  intros g cap s t value m Hb Hst Hsum Hm l (Hs & He & Hadj). pose proof (built_wf Hb) as W.
  destruct (max_flow_run g cap s t W Hst) as (value' & m' & H1 & _ & _ & H4 & _).
  { unfold capZ in Hsum. unfold u64_max. lia. }
  pose proof (settles_fun _ _ _ _ Hm H1) as [= -> ->].
  assert (Hr : reachable (fun a b => adjacent a b l) s t) by (exists l; split; [assumption|split; auto]).
  apply reachable_simple in Hr as (p & (Hs' & He' & Hadj') & Hn').
  destruct (H4 p) as ([a b] & Hi & Hf).
  { split; [|assumption]. split; [assumption|]. split; [assumption|]. intros x y Hxy. apply Hadj. now apply Hadj'. }
  apply to_edge_list_In in Hi. exists a, b. split; [now apply Hadj'|].
  rewrite flow_in_eq. unfold flowZ, capZ. now rewrite Hf.
Qed.
Print Assumptions C61_max_flow_blocking.
Example C61_case : built flow_graph /\ 1%N <> 4%N /\ sum (capZ flow_cap) (edges flow_graph) < 2 ^ 64 /\
  (exists m, settles (max_flow flow_graph flow_cap 1 4) (3%N, m)) /\
  walk_from_to (gE flow_graph) 1 4 [1; 2; 5; 6; 4]%N.
Proof.
  split; [exact flow_built|]. split; [discriminate|]. split; [vm_compute; reflexivity|].
  split; [apply C60_case|]. concrete_walk.
Qed.

(** ** C62: equal start and end always panic *)
Theorem C62_max_flow_panics_refuted : forall g cap s, panics (max_flow g cap s s).
Proof.
  intros g cap s. exists 1%nat. intros n Hn. destruct n as [|n]; [lia|].
  unfold max_flow. cbn [flow_loop]. unfold find_augmenting_path, aug_new. cbn [aug_next aug_last rev app hd_error].
  rewrite N.eqb_refl. reflexivity.
Qed.
Print Assumptions C62_max_flow_panics_refuted.

(** Otherwise a panic needs capacities whose sum does not fit. *)
Theorem C62_max_flow_no_panic : forall g cap s t, built g -> s <> t ->
  sum (capZ cap) (edges g) < 2 ^ 64 -> ~ panics (max_flow g cap s t).
Proof.
  intros g cap s t Hb Hst Hsum [n0 Hp].
  destruct (C59_max_flow_feasible g cap s t Hb Hst Hsum) as (v & m & [n1 Hm] & _).
  specialize (Hp (n0 + n1)%nat ltac:(lia)). rewrite Hm in Hp by lia. discriminate.
Qed.
Print Assumptions C62_max_flow_no_panic.
Example C62_case : built flow_graph /\ 1%N <> 4%N /\ sum (capZ flow_cap) (edges flow_graph) < 2 ^ 64.
Proof. split; [exact flow_built|]. split; [discriminate|]. vm_compute; reflexivity. Qed.
