(** * The weighted algorithms compared with each other (C130-C132) *)
From Coq Require Import List NArith ZArith Bool Permutation Lia Arith.
From Verif Require Import Spec Base WalkFacts Graph GraphSpec GraphFacts PropGraph Path SearchFacts IterFacts Topo TopoFacts
  PropTopo ShortSpec ShortFacts DagFacts PropShort BellmanFacts PropBellman MaxFlow FlowSpec FlowFacts PropFlow FlowBound PropFlowBound FlowMax PropFlowMax.
Import ListNotations.
Open Scope Z_scope.

(** The score an answer holds for a vertex. *)
Definition score (m : scores) (x : N) : option Z := option_map snd (entry m x).

Lemma shortest_unique E w s f f' : shortest_answer E w s f -> shortest_answer E w s f' ->
  forall x, option_map snd (f x) = option_map snd (f' x).
Proof.
  intros H H' x. specialize (H x). specialize (H' x).
  destruct (f x) as [[p d]|], (f' x) as [[p' d']|]; cbn.
  - destruct H as (A1 & A2 & A3), H' as (B1 & B2 & B3). f_equal.
    apply Z.le_antisymm; [rewrite <- B2; apply A3|rewrite <- A2; apply B3]; assumption.
  - exfalso. apply H'. exists p. apply H.
  - exfalso. apply H. exists p'. apply H'.
  - reflexivity.
Qed.
Lemma longest_negated E w s f : longest_answer E w s f ->
  shortest_answer E (fun a b => - w a b) s (fun x => option_map (fun r => (fst r, - snd r)) (f x)).
Proof.
  assert (Hw : forall l, weight (fun a b => - w a b) l = - weight w l).
  { induction l as [|a [|b l] IH]; [reflexivity|reflexivity|]. cbn [weight] in IH |- *. rewrite IH. lia. }
  intros H x. specialize (H x). destruct (f x) as [[p d]|]; cbn; [|exact H].
  destruct H as (H1 & H2 & H3). split; [assumption|]. split; [rewrite Hw; lia|].
  intros l Hl. rewrite Hw. specialize (H3 l Hl). lia.
Qed.
Lemma acyclic_loop g : acyclic (gE g) -> forall v, contains_edge g (v, v) = false.
Proof.
  intros H v. destruct (contains_edge g (v, v)) eqn:E; [|reflexivity]. exfalso.
  apply (H [v; v]). exists v. split; [|cbn; lia]. split; [now exists [v]|]. split; [now exists [v]|].
  intros x y (p & q & Hp). destruct p as [|a [|b [|c p]]]; try discriminate; injection Hp; intros; subst; try exact E.
Qed.
Lemma acyclic_no_negative E w s : acyclic E -> ~ negative_cycle E w s.
Proof.
  intros H (x & l & _ & Hl & Hw). apply (H l). exists x. split; [assumption|].
  destruct l as [|a [|b l]]; [cbn in Hw; lia|cbn in Hw; lia|cbn; lia].
Qed.

(** ** C130 *)
Theorem C130_dag_agrees : forall g w s B m, built g -> acyclic (gE g) ->
  0 <= B -> (forall a b, gE g a b -> Z.abs (w (a, b)) <= B) ->
  B * Z.of_nat (vertex_count g * length (edges g) + 1) < i64_max ->
  B * Z.of_nat (vertex_count g + 1) < i64_max ->
  settles (dag_shortest_paths g w s) m ->
  (exists m', bellman_ford g w s = Done (Some m') /\ forall x, score m' x = score m x) /\
  (exists m', settles (spfa g w s) m' /\ forall x, score m' x = score m x).
Proof.
  intros g w s B m Hb Ha HB0 HB H1 H2 Hm.
  pose proof (proj1 (C53_dag_shortest g w s Hb (acyclic_loop g Ha) Ha) m Hm) as Hans.
  pose proof (acyclic_no_negative _ (by_ends w) s Ha) as Hn. split.
  - destruct (C56_bellman_ford g w s B Hb HB0 HB H1) as (r & Hr & Hneg & Hr').
    destruct r as [m'|]; [|exfalso; apply Hn, Hneg; reflexivity].
    exists m'. split; [assumption|]. exact (shortest_unique _ _ _ _ _ (Hr' m' eq_refl) Hans).
  - destruct (C57_spfa g w s B Hb HB0 HB H2 Hn) as (m' & Hs & Hm').
    exists m'. split; [assumption|]. exact (shortest_unique _ _ _ _ _ Hm' Hans).
Qed.
Print Assumptions C130_dag_agrees.

(** The longest paths are the shortest ones for the negated weights. *)
Theorem C130_longest_agrees : forall g w s B m, built g -> acyclic (gE g) ->
  0 <= B -> (forall a b, gE g a b -> Z.abs (w (a, b)) <= B) ->
  B * Z.of_nat (vertex_count g * length (edges g) + 1) < i64_max ->
  settles (dag_longest_paths g w s) m ->
  exists m', bellman_ford g (fun e => - w e) s = Done (Some m') /\ forall x, score m' x = option_map Z.opp (score m x).
Proof.
  intros g w s B m Hb Ha HB0 HB H1 Hm.
  pose proof (proj1 (C55_dag_longest g w s Hb (acyclic_loop g Ha) Ha) m Hm) as Hans.
  apply longest_negated in Hans.
  assert (HB' : forall a b, gE g a b -> Z.abs (- w (a, b)) <= B) by (intros a b He; rewrite Z.abs_opp; now apply HB).
  destruct (C56_bellman_ford g (fun e => - w e) s B Hb HB0 HB' H1) as (r & Hr & Hneg & Hr').
  destruct r as [m'|]; [|exfalso; refine (acyclic_no_negative _ _ s Ha _); apply Hneg; reflexivity].
  exists m'. split; [assumption|]. intro x. unfold score.
  rewrite (shortest_unique _ _ _ _ _ (Hr' m' eq_refl) Hans x). destruct (entry m x) as [[p d]|]; reflexivity.
Qed.
Print Assumptions C130_longest_agrees.

Definition ag_graph : graph := apply_commands [AddEdge 1 2; AddEdge 2 3; AddEdge 1 3; AddEdge 3 4; AddEdge 2 4] g_new.
Definition ag_w (e : edge) : Z :=
  match e with (1, 2)%N => 4 | (2, 3)%N => -3 | (1, 3)%N => 2 | (3, 4)%N => -5 | _ => 1 end.
Lemma ag_built : built ag_graph.
Proof. eexists. apply built_by_apply. Qed.
Lemma ag_acyclic : acyclic (gE ag_graph).
Proof.
  apply (topo_acyclic ag_graph [1; 2; 3; 4]%N ag_built).
  - apply no_loops_dec; [apply (built_wf ag_built)|vm_compute; reflexivity].
  - exists 5%nat. intros n Hn. do 5 (destruct n as [|n]; [lia|]). vm_compute. reflexivity.
Qed.
Example C130_case : built ag_graph /\ acyclic (gE ag_graph) /\
  (forall a b, gE ag_graph a b -> Z.abs (ag_w (a, b)) <= 5) /\
  5 * Z.of_nat (vertex_count ag_graph * length (edges ag_graph) + 1) < i64_max /\
  (exists m, settles (dag_shortest_paths ag_graph ag_w 1) m /\ score m 4 = Some (-4)) /\
  (exists m, settles (dag_longest_paths ag_graph ag_w 1) m /\ score m 4 = Some 5).
Proof.
  split; [exact ag_built|]. split; [exact ag_acyclic|].
  split; [apply small_dec; [apply (built_wf ag_built)|vm_compute; reflexivity]|].
  split; [vm_compute; reflexivity|]. split.
  - eexists. split; [exists 20%nat; intros n Hn; do 20 (destruct n as [|n]; [lia|]); vm_compute; reflexivity|].
    vm_compute. reflexivity.
  - eexists. split; [exists 20%nat; intros n Hn; do 20 (destruct n as [|n]; [lia|]); vm_compute; reflexivity|].
    vm_compute. reflexivity.
Qed.

(** ** C131: the order in which a graph was built and is hashed *)
Lemma same_counts g g' : built g -> built g' -> a_same (shown g) (shown g') ->
  vertex_count g' = vertex_count g /\ length (edges g') = length (edges g).
Proof.
  intros Hb Hb' Hs. rewrite !vertex_count_len. apply built_wf in Hb, Hb'.
  split; apply Permutation_length; apply Permutation_sym; [now apply same_vertices_perm|now apply same_edges_perm].
Qed.
Section Same.
  Variables (g g' : graph).
  Hypothesis Hsame : a_same (shown g) (shown g').
  Lemma same_gE a b : gE g a b <-> gE g' a b.
  Proof. apply (proj2 Hsame). Qed.
  Lemma same_walk s t l : walk_from_to (gE g) s t l <-> walk_from_to (gE g') s t l.
  Proof.
    split; intros (H1 & H2 & H3); (split; [assumption|]); (split; [assumption|]); intros x y Hxy; now apply same_gE, H3.
  Qed.
  Lemma same_reachable s t : reachable (gE g) s t <-> reachable (gE g') s t.
  Proof. split; intros [l Hl]; exists l; now apply same_walk. Qed.
  Lemma same_acyclic : acyclic (gE g) <-> acyclic (gE g').
  Proof. split; intros H l (s & Hl & Hn); apply (H l); exists s; (split; [now apply same_walk|assumption]). Qed.
  Lemma same_answer w s f : shortest_answer (gE g) w s f -> shortest_answer (gE g') w s f.
  Proof.
    intros H x. specialize (H x). destruct (f x) as [[p d]|].
    - destruct H as (H1 & H2 & H3). split; [now apply same_walk|]. split; [assumption|].
      intros l Hl. now apply H3, same_walk.
    - now rewrite <- same_reachable.
  Qed.
  Lemma same_longest w s f : longest_answer (gE g) w s f -> longest_answer (gE g') w s f.
  Proof.
    intros H x. specialize (H x). destruct (f x) as [[p d]|].
    - destruct H as (H1 & H2 & H3). split; [now apply same_walk|]. split; [assumption|].
      intros l Hl. now apply H3, same_walk.
    - now rewrite <- same_reachable.
  Qed.
  Lemma same_negative w s : negative_cycle (gE g) w s <-> negative_cycle (gE g') w s.
  Proof.
    split; intros (x & l & H1 & H2 & H3); exists x, l; (split; [now apply same_reachable|]);
      (split; [now apply same_walk|assumption]).
  Qed.
End Same.

(** Two graphs with the same vertices and edges, however they were built and whatever the hash
    order: the same scores. *)
Theorem C131_same_graph : forall g g' w s B, built g -> built g' -> a_same (shown g) (shown g') ->
  0 <= B -> (forall a b, gE g a b -> Z.abs (w (a, b)) <= B) ->
  B * Z.of_nat (vertex_count g * length (edges g) + 1) < i64_max ->
  B * Z.of_nat (vertex_count g + 1) < i64_max ->
  (exists r r', bellman_ford g w s = Done r /\ bellman_ford g' w s = Done r' /\
     match r, r' with
     | Some m, Some m' => forall x, score m' x = score m x
     | None, None => True
     | _, _ => False
     end) /\
  (~ negative_cycle (gE g) (by_ends w) s -> exists m m', settles (spfa g w s) m /\ settles (spfa g' w s) m' /\
     forall x, score m' x = score m x) /\
  (acyclic (gE g) -> forall m m', settles (dag_shortest_paths g w s) m -> settles (dag_shortest_paths g' w s) m' ->
     forall x, score m' x = score m x) /\
  (acyclic (gE g) -> forall m m', settles (dag_longest_paths g w s) m -> settles (dag_longest_paths g' w s) m' ->
     forall x, score m' x = score m x) /\
  (exists r r', settles (topological_sort g) r /\ settles (topological_sort g') r' /\
     match r, r' with
     | Some vs, Some vs' => Permutation vs vs'
     | None, None => True
     | _, _ => False
     end).
Proof.
  intros g g' w s B Hb Hb' Hs HB0 HB H1 H2. destruct (same_counts g g' Hb Hb' Hs) as [Hvc Hec].
  assert (HB' : forall a b, gE g' a b -> Z.abs (w (a, b)) <= B) by (intros a b He; apply HB; now apply (same_gE g g' Hs)).
  assert (H1' := H1). assert (H2' := H2). rewrite <- Hvc in H1', H2'. rewrite <- Hec in H1'.
  split; [|split; [|split; [|split]]].
  - destruct (C56_bellman_ford g w s B Hb HB0 HB H1) as (r & Hr & Hneg & Hans).
    destruct (C56_bellman_ford g' w s B Hb' HB0 HB' H1') as (r' & Hr' & Hneg' & Hans').
    exists r, r'. split; [assumption|]. split; [assumption|].
    rewrite <- (same_negative g g' Hs) in Hneg'.
    destruct r as [m|], r' as [m'|].
    + intro x. symmetry. exact (shortest_unique _ _ _ _ _ (same_answer g g' Hs _ _ _ (Hans m eq_refl)) (Hans' m' eq_refl) x).
    + assert (Some m = None) by (apply Hneg, Hneg'; reflexivity). discriminate.
    + assert (Some m' = None) by (apply Hneg', Hneg; reflexivity). discriminate.
    + exact I.
  - intro Hn. destruct (C57_spfa g w s B Hb HB0 HB H2 Hn) as (m & Hm & Ha).
    rewrite (same_negative g g' Hs) in Hn.
    destruct (C57_spfa g' w s B Hb' HB0 HB' H2' Hn) as (m' & Hm' & Ha').
    exists m, m'. split; [assumption|]. split; [assumption|]. intro x. symmetry.
    exact (shortest_unique _ _ _ _ _ (same_answer g g' Hs _ _ _ Ha) Ha' x).
  - intros Ha m m' Hm Hm' x. apply (C53_dag_shortest g w s Hb (acyclic_loop g Ha) Ha) in Hm.
    rewrite (same_acyclic g g' Hs) in Ha. apply (C53_dag_shortest g' w s Hb' (acyclic_loop g' Ha) Ha) in Hm'.
    symmetry. exact (shortest_unique _ _ _ _ _ (same_answer g g' Hs _ _ _ Hm) Hm' x).
  - intros Ha m m' Hm Hm' x. apply (C55_dag_longest g w s Hb (acyclic_loop g Ha) Ha) in Hm.
    rewrite (same_acyclic g g' Hs) in Ha. apply (C55_dag_longest g' w s Hb' (acyclic_loop g' Ha) Ha) in Hm'.
    apply (same_longest g g' Hs) in Hm. apply longest_negated in Hm, Hm'.
    pose proof (shortest_unique _ _ _ _ _ Hm Hm' x) as Hx. revert Hx. unfold score.
    destruct (entry m x) as [[p d]|], (entry m' x) as [[p' d']|]; cbn; intro Hx; try discriminate; [|reflexivity].
    injection Hx as Hx. f_equal. lia.
  - destruct (C52_topo_exact g Hb) as (r & Hr & Hx & Ho). destruct (C52_topo_exact g' Hb') as (r' & Hr' & Hx' & Ho').
    exists r, r'. split; [assumption|]. split; [assumption|].
    assert (Hiff : acyclic (gE g) \/ (exists v, only_a_terminal_loop (gE g) v) <->
                   acyclic (gE g') \/ (exists v, only_a_terminal_loop (gE g') v)).
    { rewrite (same_acyclic g g' Hs).
      assert (K : forall h h' v, a_same (shown h) (shown h') -> only_a_terminal_loop (gE h) v -> only_a_terminal_loop (gE h') v).
      { intros h h' v Hh (K1 & K2 & K3). split; [now apply (same_gE h h' Hh)|].
        split; [intros z Hz; now apply K2, (same_gE h h' Hh)|].
        intros l (z & Hl & Hn). apply K3. exists z. split; [now apply (same_walk h h' Hh)|assumption]. }
      assert (Hs' : a_same (shown g') (shown g)) by (split; intros; symmetry; apply Hs).
      split; intros [K1|[v K1]]; auto; right; exists v; [apply (K g g')|apply (K g' g)]; assumption. }
    rewrite <- Hx, <- Hx' in Hiff.
    destruct r as [vs|], r' as [vs'|].
    + destruct (Ho vs eq_refl) as [[N1 E1] _], (Ho' vs' eq_refl) as [[N2 E2] _].
      apply NoDup_Permutation; [assumption|assumption|]. intro x. rewrite E1, E2, (same_gE g g' Hs).
      pose proof (proj1 Hs x) as Hv. cbn in Hv. tauto.
    + exfalso. apply (proj1 Hiff); [discriminate|reflexivity].
    + exfalso. apply (proj2 Hiff); [discriminate|reflexivity].
    + exact I.
Qed.
Print Assumptions C131_same_graph.

Definition rehashed := [AddEdge 1 2; AddEdge 3 4].
(** Whether [dag_shortest_paths] panics can depend on the hash order alone. *)
Theorem C131_panic_by_hash_refuted : exists cs g g' w s m, built_by cs g /\ built_by cs g' /\
  panics (dag_shortest_paths g w s) /\ settles (dag_shortest_paths g' w s) m.
Proof.
  exists rehashed, (apply_commands rehashed g_new), (rev (apply_commands rehashed g_new)), (fun _ => 1), 1%N. eexists.
  split; [apply built_by_apply|]. split; [eapply built_rehash; [apply built_by_apply|apply Permutation_rev]|]. split.
  - exists 20%nat. intros n Hn. do 20 (destruct n as [|n]; [lia|]). vm_compute. reflexivity.
  - exists 20%nat. intros n Hn. do 20 (destruct n as [|n]; [lia|]). vm_compute. reflexivity.
Qed.
Print Assumptions C131_panic_by_hash_refuted.

(** The flow found can depend on the order in which the edges were added. *)
Definition flow_edges := [AddEdge 1 2; AddEdge 1 7; AddEdge 2 3; AddEdge 2 5; AddEdge 7 3; AddEdge 3 4; AddEdge 5 4].
Definition flow_edges' := [AddEdge 1 2; AddEdge 1 7; AddEdge 2 5; AddEdge 2 3; AddEdge 7 3; AddEdge 3 4; AddEdge 5 4].
Theorem C131_flow_by_order_refuted : exists cs cs' g g' cap s t m m', Permutation cs cs' /\ built_by cs g /\ built_by cs' g' /\
  a_same (shown g) (shown g') /\ settles (max_flow g cap s t) (1%N, m) /\ settles (max_flow g' cap s t) (2%N, m').
Proof.
  exists flow_edges, flow_edges', (apply_commands flow_edges g_new), (apply_commands flow_edges' g_new), unit_cap, 1%N, 4%N.
  assert (Hm : exists m, max_flow (apply_commands flow_edges g_new) unit_cap 1 4 50 = Done (1%N, m)) by (eexists; vm_compute; reflexivity).
  assert (Hm' : exists m, max_flow (apply_commands flow_edges' g_new) unit_cap 1 4 50 = Done (2%N, m)) by (eexists; vm_compute; reflexivity).
  destruct Hm as [m Hm], Hm' as [m' Hm']. exists m, m'.
  split; [do 2 apply perm_skip; apply perm_swap|]. split; [apply built_by_apply|]. split; [apply built_by_apply|].
  split; [|split; eapply max_flow_settles; eassumption].
  pose proof (C01_graph_is_pair_of_sets _ _ (built_by_apply flow_edges)) as [H1 H2].
  pose proof (C01_graph_is_pair_of_sets _ _ (built_by_apply flow_edges')) as [H3 H4].
  split; [intro x|intros x y]; cbn [shown aV aE]; [rewrite H1, H3|rewrite H2, H4]; cbn; tauto.
Qed.
Print Assumptions C131_flow_by_order_refuted.

(** Graphs of one history, in whatever hash orders: SPFA and max_flow take the same steps. *)
Definition same_flows (m m' : flows) : Prop := forall e, fl_get e m' = fl_get e m.
Lemma same_flow_in m m' : same_flows m m' -> forall e, flow_in m' e = flow_in m e.
Proof. intros H e. unfold flow_in. specialize (H e). unfold fl_get in H. now rewrite H. Qed.
Lemma same_residual m m' e d : same_flows m m' -> edge_residual_capacity e d m' = edge_residual_capacity e d m.
Proof. intro H. unfold edge_residual_capacity. destruct d; rewrite H; reflexivity. Qed.
Lemma same_min m m' l : same_flows m m' -> min_residual l m' = min_residual l m.
Proof.
  intro H. induction l as [|[e d] l IH]; [reflexivity|]. cbn [min_residual]. now rewrite (same_residual m m'), IH.
Qed.
Definition out_rel {A B} (R : A -> B -> Prop) (x : outcome A) (y : outcome B) : Prop :=
  match x, y with
  | Done a, Done b => R a b
  | Panic, Panic => True
  | OutOfFuel, OutOfFuel => True
  | _, _ => False
  end.
Lemma same_modify f e m m' : same_flows m m' -> out_rel same_flows (modify f e m) (modify f e m').
Proof.
  intro H. unfold modify. rewrite H. destruct (fl_get e m) as [[x c]|]; [|exact H].
  destruct (f x) as [v| |]; cbn; [|exact I|exact I].
  intro e'. unfold fl_get. rewrite !(hm_get_insert _ edge_eqb_spec). destruct (edge_eqb e' e); [reflexivity|apply H].
Qed.
Lemma same_update m m' p d : same_flows m m' -> out_rel same_flows (update_flow m p d) (update_flow m' p d).
Proof.
  unfold update_flow. revert m m'. induction (aug_edges p) as [|[e x] l IH]; intros m m' H; [exact H|].
  cbn [ofold snd fst]. destruct x.
  - pose proof (same_modify (fun v => u64_add v d) e m m' H) as K.
    destruct (modify _ e m), (modify _ e m'); cbn in K |- *; try contradiction; try exact I. now apply IH.
  - pose proof (same_modify (fun v => u64_sub v d) (edge_reverse e) m m' H) as K.
    destruct (modify _ (edge_reverse e) m), (modify _ (edge_reverse e) m'); cbn in K |- *; try contradiction; try exact I. now apply IH.
Qed.
Section History.
  Variables (g g' : graph).
  Hypothesis Hout : forall v, outbound_edges g' v = outbound_edges g v.
  Hypothesis Hin : forall v, inbound_edges g' v = inbound_edges g v.
  Lemma history_next m m' t : same_flows m m' -> forall n q, aug_next g' m' t n q = aug_next g m t n q.
  Proof.
    intro H. induction n as [|n IH]; intro q; [reflexivity|]. cbn [aug_next]. destruct q as [|p q]; [reflexivity|].
    destruct (aug_last p) as [[v d]|]; [|reflexivity].
    unfold aug_kids. rewrite Hout, Hin, !IH. unfold residual_capacity. rewrite (same_min m m') by assumption. reflexivity.
  Qed.
  Lemma history_loop s t n : forall k v m m', same_flows m m' ->
    out_rel (fun r r' => fst r = fst r' /\ same_flows (snd r) (snd r')) (flow_loop g s t n k v m) (flow_loop g' s t n k v m').
  Proof.
    induction k as [|k IH]; intros v m m' H; [exact I|]. cbn [flow_loop]. unfold find_augmenting_path.
    rewrite (history_next m m') by assumption. destruct (aug_next g m t n [aug_new s]) as [[[p d]|]| |]; cbn; auto.
    pose proof (same_update m m' p d H) as K.
    destruct (update_flow m p d), (update_flow m' p d); cbn in K |- *; try contradiction; try exact I.
    destruct (u64_add v d); cbn; try exact I. now apply IH.
  Qed.
  Lemma history_spfa w : forall n st, spfa_loop g' w n st = spfa_loop g w n st.
  Proof.
    induction n as [|n IH]; intros [m q]; [reflexivity|]. cbn [spfa_loop snd fst]. destruct q as [|v q]; [reflexivity|].
    rewrite Hout. destruct (ofold (spfa_edge w) (outbound_edges g v) (m, q)); cbn; auto.
  Qed.
End History.
Theorem C131_same_history : forall cs g g', built_by cs g -> built_by cs g' ->
  (forall w s n, spfa g' w s n = spfa g w s n) /\
  (forall cap s t value m, settles (max_flow g cap s t) (value, m) ->
     exists m', settles (max_flow g' cap s t) (value, m') /\ forall e, flow_in m' e = flow_in m e) /\
  (forall cap s t, panics (max_flow g cap s t) -> panics (max_flow g' cap s t)).
Proof.
  intros cs g g' Hb Hb'.
  assert (Hout : forall v, outbound_edges g' v = outbound_edges g v).
  { intro v. destruct (C93_edges_in_order cs g v Hb) as [-> _], (C93_edges_in_order cs g' v Hb') as [-> _]. reflexivity. }
  assert (Hin : forall v, inbound_edges g' v = inbound_edges g v).
  { intro v. destruct (C93_edges_in_order cs g v Hb) as (_ & -> & _), (C93_edges_in_order cs g' v Hb') as (_ & -> & _). reflexivity. }
  assert (Hinit : forall cap, same_flows (flow_init g cap) (flow_init g' cap)).
  { intros cap e. pose proof (init_table g cap 0%N 1%N ltac:(discriminate) e) as H1. pose proof (init_table g' cap 0%N 1%N ltac:(discriminate) e) as H2.
    pose proof (init_flow g cap 0%N 1%N ltac:(discriminate) e) as F1. pose proof (init_flow g' cap 0%N 1%N ltac:(discriminate) e) as F2. unfold flow_of in F1, F2.
    assert (Hi : In e (edges g) <-> In e (edges g')).
    { destruct (C02_listings g (ex_intro _ cs Hb)) as (_ & [_ L1] & _), (C02_listings g' (ex_intro _ cs Hb')) as (_ & [_ L2] & _).
      rewrite L1, L2. destruct (C93_edges_in_order cs g 0 Hb) as (_ & _ & _ & <-), (C93_edges_in_order cs g' 0 Hb') as (_ & _ & _ & <-).
      reflexivity. }
    destruct (in_dec edge_dec e (edges g)) as [I1|I1], (in_dec edge_dec e (edges g')) as [I2|I2]; try tauto.
    - destruct H1 as (f1 & H1 & _), H2 as (f2 & H2 & _). rewrite H1 in F1 |- *. rewrite H2 in F2 |- *. now rewrite F1, F2.
    - now rewrite H1, H2. }
  split; [|split].
  - intros w s n. apply history_spfa. exact Hout.
  - intros cap s t value m [n Hm].
    assert (K : forall k, (n <= k)%nat -> exists m', max_flow g' cap s t k = Done (value, m') /\ same_flows m m').
    { intros k Hk. specialize (Hm k Hk). unfold max_flow in *.
      pose proof (history_loop g g' Hout Hin s t k k 0%N _ _ (Hinit cap)) as K. rewrite Hm in K.
      destruct (flow_loop g' s t k k 0%N (flow_init g' cap)) as [[v' m']| |]; cbn in K; try contradiction.
      destruct K as [-> K]. now exists m'. }
    destruct (K n (le_n n)) as (m' & H1 & H2). exists m'. split; [now apply (max_flow_settles _ _ _ _ n)|].
    now apply same_flow_in.
  - intros cap s t [n Hm]. exists n. intros k Hk. specialize (Hm k Hk). unfold max_flow in *.
    pose proof (history_loop g g' Hout Hin s t k k 0%N _ _ (Hinit cap)) as K. rewrite Hm in K.
    destruct (flow_loop g' s t k k 0%N (flow_init g' cap)); cbn in K; try contradiction. reflexivity.
Qed.
Print Assumptions C131_same_history.
Example C131_case : built_by rehashed (apply_commands rehashed g_new) /\ built_by rehashed (rev (apply_commands rehashed g_new)) /\
  (exists m, settles (spfa (apply_commands rehashed g_new) (fun _ => 1) 1) m /\ score m 2 = Some 1) /\
  exists m, settles (max_flow (apply_commands rehashed g_new) unit_cap 1 2) (1%N, m).
Proof.
  split; [apply built_by_apply|]. split; [eapply built_rehash; [apply built_by_apply|apply Permutation_rev]|]. split.
  - eexists. split; [exists 20%nat; intros n Hn; do 20 (destruct n as [|n]; [lia|]); vm_compute; reflexivity|].
    vm_compute. reflexivity.
  - assert (Hm : exists m, max_flow (apply_commands rehashed g_new) unit_cap 1 2 50 = Done (1%N, m)) by (eexists; vm_compute; reflexivity).
    destruct Hm as [m Hm]. exists m. eapply max_flow_settles. exact Hm.
Qed.

(** However the edges were added, the two values are within the factor of C117. *)
Lemma feasible_perm L L' cap s t F v : Permutation L L' -> feasible L cap s t F v -> feasible L' cap s t F v.
Proof.
  assert (Hsum : forall (f : N * N -> bool) l l', Permutation l l' -> sum F (filter f l) = sum F (filter f l')).
  { intros f l l' P. induction P as [|x l l' P IH|x y l|l l' l'' P1 IH1 P2 IH2].
    - reflexivity.
    - cbn. destruct (f x); cbn; [unfold sum in IH; lia|exact IH].
    - cbn. destruct (f x), (f y); cbn; lia.
    - congruence. }
  intros P (H1 & H2 & H3 & H4).
  assert (Hi : forall x, inflow L' F x = inflow L F x) by (intro; apply Hsum; now apply Permutation_sym).
  assert (Ho : forall x, outflow L' F x = outflow L F x) by (intro; apply Hsum; now apply Permutation_sym).
  split; [|split; [|split]].
  - intros e He. apply H1. eapply Permutation_in; [apply Permutation_sym; exact P|exact He].
  - intros x Hs Ht. rewrite Hi, Ho. now apply H2.
  - now rewrite Hi, Ho.
  - now rewrite Hi, Ho.
Qed.
Lemma sum_perm (f : N * N -> Z) l l' : Permutation l l' -> sum f l = sum f l'.
Proof. intro P. unfold sum. induction P; cbn; lia. Qed.
Theorem C131_flow_within : forall g g' cap s t value m value' m' k, built g -> built g' -> a_same (shown g) (shown g') ->
  s <> t -> sum (capZ cap) (edges g) < 2 ^ 64 ->
  settles (max_flow g cap s t) (value, m) -> settles (max_flow g' cap s t) (value', m') ->
  (forall p, simple_from_to (gE g) s t p -> (hops p <= k)%nat) ->
  Z.of_N value <= Z.of_nat k * Z.of_N value'.
Proof.
  intros g g' cap s t value m value' m' k Hb Hb' Hs Hst Hsum Hm Hm' Hk.
  pose proof (same_edges_perm (built_wf Hb) (built_wf Hb') Hs) as P.
  destruct (C59_max_flow_feasible g cap s t Hb Hst Hsum) as (v2 & m2 & Hm2 & _ & _ & Hf & _).
  pose proof (settles_fun _ _ _ _ Hm Hm2) as [= -> ->]. apply (feasible_perm _ _ _ _ _ _ _ P) in Hf.
  rewrite (sum_perm _ _ _ P) in Hsum.
  refine (C117_within_longest_path g' cap s t value' m' k Hb' Hst Hsum Hm' _ _ _ Hf).
  intros p [Hp Hn]. apply Hk. split; [now apply (same_walk g g' Hs)|assumption].
Qed.
Print Assumptions C131_flow_within.
Example C131_within_case : forall p, simple_from_to (gE (apply_commands flow_edges g_new)) 1 4 p -> (hops p <= 5)%nat.
Proof.
  intros p Hp. pose proof (simple_hops (apply_commands flow_edges g_new) 1 ltac:(apply built_wf; eexists; apply built_by_apply) 4 p Hp) as H.
  vm_compute in H. exact H.
Qed.

(** ** C132: raising capacities *)
Theorem C132_monotone_refuted : exists g cap cap' s t m m', built g /\ s <> t /\ (forall e, (cap e <= cap' e)%N) /\
  settles (max_flow g cap s t) (2%N, m) /\ settles (max_flow g cap' s t) (1%N, m').
Proof.
  set (cap := fun e : N * N => if edge_eqb e (2, 3)%N then 0%N else 1%N).
  exists flow_graph, cap, unit_cap, 1%N, 4%N.
  assert (Hm : exists m, max_flow flow_graph cap 1 4 50 = Done (2%N, m)) by (eexists; vm_compute; reflexivity).
  assert (Hm' : exists m, max_flow flow_graph unit_cap 1 4 50 = Done (1%N, m)) by (eexists; vm_compute; reflexivity).
  destruct Hm as [m Hm], Hm' as [m' Hm']. exists m, m'. split; [exact flow_built|]. split; [discriminate|].
  split; [intro e; unfold cap, unit_cap; destruct (edge_eqb e (2, 3)%N); lia|].
  split; eapply max_flow_settles; eassumption.
Qed.
Print Assumptions C132_monotone_refuted.

Theorem C132_raised : forall g cap cap' s t value m value' m' k, built g -> s <> t ->
  (forall e, (cap e <= cap' e)%N) -> sum (capZ cap') (edges g) < 2 ^ 64 ->
  settles (max_flow g cap s t) (value, m) -> settles (max_flow g cap' s t) (value', m') ->
  ((0 < value)%N -> (0 < value')%N) /\
  ((forall p, simple_from_to (gE g) s t p -> (hops p <= k)%nat) -> Z.of_N value <= Z.of_nat k * Z.of_N value') /\
  (~ reachable (can_push (edges g) (capZ cap') (flow_in m')) s t -> (value <= value')%N).
Proof.
  intros g cap cap' s t value m value' m' k Hb Hst Hle Hsum' Hm Hm'.
  assert (Hsum : sum (capZ cap) (edges g) < 2 ^ 64).
  { eapply Z.le_lt_trans; [|exact Hsum']. apply sum_le. intros e _. unfold capZ. specialize (Hle e). lia. }
  destruct (C59_max_flow_feasible g cap s t Hb Hst Hsum) as (v2 & m2 & Hm2 & _ & _ & Hf & _).
  pose proof (settles_fun _ _ _ _ Hm Hm2) as [= -> ->].
  assert (Hf' : feasible (edges g) (capZ cap') s t (flow_in m2) (Z.of_N v2)).
  { destruct Hf as (H1 & H2 & H3 & H4). split; [|split; [|split]]; try assumption.
    intros e He. specialize (H1 e He). specialize (Hle e). unfold capZ in *. lia. }
  split; [|split].
  - rewrite (C60_max_flow_positive g cap s t v2 m2 Hb Hst Hsum Hm), (C60_max_flow_positive g cap' s t value' m' Hb Hst Hsum' Hm').
    intros [l (L1 & L2 & L3)]. exists l. split; [assumption|]. split; [assumption|]. intros x y Hxy.
    destruct (L3 x y Hxy) as [L4 L5]. split; [assumption|]. specialize (Hle (x, y)). lia.
  - intro Hk. exact (C117_within_longest_path g cap' s t value' m' k Hb Hst Hsum' Hm' Hk _ _ Hf').
  - intro Hn. rewrite <- (C125_maximum_iff g cap' s t value' m' Hb Hst Hsum' Hm') in Hn. specialize (Hn _ _ Hf'). lia.
Qed.
Print Assumptions C132_raised.
Example C132_case : built flow_graph /\ (forall e, (unit_cap e <= flow_cap e)%N) /\ sum (capZ flow_cap) (edges flow_graph) < 2 ^ 64 /\
  (exists m, settles (max_flow flow_graph unit_cap 1 4) (1%N, m)) /\ exists m, settles (max_flow flow_graph flow_cap 1 4) (3%N, m).
Proof.
  split; [exact flow_built|].
  split.
  { intros [a b]. unfold unit_cap, flow_cap.
    repeat match goal with |- context [match ?x with _ => _ end] => destruct x end; lia. }
  split; [vm_compute; reflexivity|].
  assert (Hm : exists m, max_flow flow_graph unit_cap 1 4 50 = Done (1%N, m)) by (eexists; vm_compute; reflexivity).
  assert (Hm' : exists m, max_flow flow_graph flow_cap 1 4 50 = Done (3%N, m)) by (eexists; vm_compute; reflexivity).
  destruct Hm as [m Hm], Hm' as [m' Hm']. split; eexists; eapply max_flow_settles; eassumption.
Qed.
