(** * C01-C12: the directed graph and its commands *)
From Coq Require Import List NArith Bool Arith Lia Permutation.
From Verif Require Import Spec Base Graph GraphSpec GraphFacts OrderFacts.
Import ListNotations.
Local Open Scope N_scope.

(** A graph with a chain, a self-loop, a removed vertex, a repeated edge and an
    isolated vertex, used to show that hypotheses can be met. *)
Definition ex_cmds : list graph_command :=
  [AddEdge 1 2; AddEdge 2 3; AddEdge 3 3; AddEdge 1 2; AddVertex 9;
   AddEdge 4 1; RemoveVertex 4; RemoveEdge 2 9].
Definition ex_graph : graph := apply_commands ex_cmds g_new.

Example ex_graph_built : built_by ex_cmds ex_graph.
Proof. apply built_by_apply. Qed.
Example ex_graph_rehashed : built_by ex_cmds (rev ex_graph).
Proof. eapply built_rehash; [apply ex_graph_built|]. apply Permutation_rev. Qed.
Example ex_graph_value :
  vertices (rev ex_graph) = [9; 3; 2; 1] /\ edges (rev ex_graph) = [(3,3); (2,3); (1,2)].
Proof. vm_compute. auto. Qed.

(** C01 *)
Theorem C01_graph_is_pair_of_sets : forall cs g, built_by cs g ->
  (forall v, contains_vertex g v = true <-> aV (a_run cs) v) /\
  (forall a b, contains_edge g (a, b) = true <-> aE (a_run cs) a b).
Proof. exact refines. Qed.
Print Assumptions C01_graph_is_pair_of_sets.
Example C01_case : built_by ex_cmds (rev ex_graph) /\ contains_edge (rev ex_graph) (3, 3) = true /\
  contains_edge (rev ex_graph) (4, 1) = false /\ aE (a_run ex_cmds) 3 3 /\ ~ aV (a_run ex_cmds) 4.
Proof.
  split; [exact ex_graph_rehashed|]. split; [reflexivity|]. split; [reflexivity|].
  destruct (C01_graph_is_pair_of_sets _ _ ex_graph_rehashed) as [HV HE]. split; [now apply HE|].
  rewrite <- HV. discriminate.
Qed.

(** C02 *)
Theorem C02_listings : forall g, built g ->
  enumerates (vertices g) (fun v => contains_vertex g v = true) /\
  enumerates (edges g) (fun e => contains_edge g e = true) /\
  (forall v, enumerates (outbound_edges g v) (fun e => fst e = v /\ contains_edge g e = true)) /\
  (forall v, enumerates (inbound_edges g v) (fun e => snd e = v /\ contains_edge g e = true)) /\
  (forall v, degree_out g v = length (outbound_edges g v)) /\
  (forall v, degree_in g v = length (inbound_edges g v)) /\
  vertex_count g = length (vertices g) /\
  (is_empty g = true <-> forall v, contains_vertex g v = false) /\
  (match head_option g with
   | Some v => contains_vertex g v = true
   | None => forall v, contains_vertex g v = false
   end) /\
  (forall a b, contains_edge g (a, b) = true ->
     contains_vertex g a = true /\ contains_vertex g b = true).
Proof.
  intros g H. apply built_wf in H as W.
  split; [now apply vertices_spec|]. split; [now apply edges_spec|].
  split; [intro; now apply outbound_spec|]. split; [intro; now apply inbound_spec|].
  split; [reflexivity|]. split; [reflexivity|]. split; [apply vertex_count_len|]. split; [|split].
  - unfold is_empty. rewrite Nat.eqb_eq, vertex_count_len. split.
    + intros Hl v. apply length_zero_iff_nil in Hl. apply not_true_iff_false.
      rewrite <- vertices_In, Hl. tauto.
    + intro Hn. apply length_zero_iff_nil. destruct (vertices g) as [|v l] eqn:E; [reflexivity|].
      specialize (Hn v). assert (In v (vertices g)) by (rewrite E; now left).
      apply vertices_In in H0. congruence.
  - unfold head_option. destruct (vertices g) as [|v l] eqn:E; cbn.
    + intro v. apply not_true_iff_false. rewrite <- vertices_In, E. tauto.
    + apply vertices_In. rewrite E. now left.
  - intros a b Hc. apply (contains_edge_hasE _ _ W) in Hc. apply (wf_hasE_V W) in Hc.
    now rewrite !contains_vertex_hasV.
Qed.
Print Assumptions C02_listings.
Example C02_case : built (rev ex_graph) /\ outbound_edges (rev ex_graph) 1 = [(1, 2)] /\
  inbound_edges (rev ex_graph) 3 = [(2, 3); (3, 3)] /\ outbound_edges (rev ex_graph) 4 = [].
Proof. split; [exists ex_cmds; exact ex_graph_rehashed|]. repeat split; reflexivity. Qed.

(** C03: false for self-loops. *)
Theorem C03_edge_count_refuted : exists cs g,
  built_by cs g /\ edge_count g <> length (edges g).
Proof.
  exists [AddEdge 1 1], (apply_commands [AddEdge 1 1] g_new).
  split; [apply built_by_apply|]. vm_compute. discriminate.
Qed.
Print Assumptions C03_edge_count_refuted.

(** C04: the exact law, and the loop-free case of C03. *)
Theorem C04_edge_count_law : forall g straight loops, built g ->
  enumerates straight (fun e => contains_edge g e = true /\ fst e <> snd e) ->
  enumerates loops (fun e => contains_edge g e = true /\ fst e = snd e) ->
  edge_count g = (length straight + Nat.div (length loops) 2)%nat.
Proof.
  intros g st lo H [S1 S2] [L1 L2]. apply built_wf in H as W. rewrite edge_count_law by assumption.
  destruct (edges_spec W) as [E1 E2].
  assert (P1 : length (filter (fun e => negb (is_loop e)) (edges g)) = length st).
  { apply Permutation_length, NoDup_Permutation; [now apply NoDup_filter|assumption|].
    intro e. rewrite filter_In, E2, S2. unfold is_loop. rewrite negb_true_iff, N.eqb_neq. tauto. }
  assert (P2 : length (filter is_loop (edges g)) = length lo).
  { apply Permutation_length, NoDup_Permutation; [now apply NoDup_filter|assumption|].
    intro e. rewrite filter_In, E2, L2. unfold is_loop. rewrite N.eqb_eq. tauto. }
  now rewrite P1, P2.
Qed.
Print Assumptions C04_edge_count_law.
Example C04_law_case : exists g, built g /\
  enumerates [(1, 2)] (fun e => contains_edge g e = true /\ fst e <> snd e) /\
  enumerates [(1, 1); (2, 2); (3, 3)] (fun e => contains_edge g e = true /\ fst e = snd e) /\
  edge_count g = 2%nat.
Proof.
  set (g := apply_commands [AddEdge 1 1; AddEdge 1 2; AddEdge 2 2; AddEdge 3 3] g_new).
  assert (B : built g) by (eexists; apply built_by_apply). exists g. split; [exact B|].
  destruct (edges_spec (built_wf B)) as [E1 E2]. change (edges g) with [(1, 1); (1, 2); (2, 2); (3, 3)] in *.
  split; [|split; [|reflexivity]]; (split; [repeat constructor; cbn; intuition discriminate|]);
    intros [a b]; rewrite <- E2; cbn; intuition (subst; congruence || auto);
    match goal with H : (_, _) = (_, _) |- _ => injection H as <- <- end; cbn in *; auto; congruence.
Qed.

Theorem C04_edge_count_loop_free : forall g, built g ->
  (forall v, contains_edge g (v, v) = false) -> edge_count g = length (edges g).
Proof.
  intros g H Hl. apply built_wf in H as W. rewrite edge_count_law by assumption.
  assert (Hn : forall e, In e (edges g) -> is_loop e = false).
  { intros [a b] Hin. unfold is_loop. cbn. destruct (N.eqb_spec a b); [|reflexivity]. subst.
    apply (edges_In _ _ W) in Hin. apply (contains_edge_hasE _ _ W) in Hin.
    now rewrite Hl in Hin. }
  rewrite (filter_none _ _ Hn), filter_all; [cbn; lia|].
  intros x Hx. now rewrite (Hn x).
Qed.
Print Assumptions C04_edge_count_loop_free.
Example C04_case : built (apply_commands [AddEdge 1 2; AddEdge 2 1; AddVertex 5] g_new) /\
  forallb (fun v => negb (contains_edge (apply_commands [AddEdge 1 2; AddEdge 2 1; AddVertex 5] g_new) (v, v)))
    [1; 2; 5] = true.
Proof. split; [eexists; apply built_by_apply|reflexivity]. Qed.

(** C05 *)
Theorem C05_return_values : forall g, built g ->
  (forall v, snd (add_vertex g v) = contains_vertex g v) /\
  (forall e, snd (add_edge g e) = negb (contains_edge g e)) /\
  (forall v, snd (remove_vertex g v) = contains_vertex g v).
Proof.
  intros g _. split; [|split].
  - intro v. now rewrite add_vertex_state.
  - intros [a b]. unfold add_edge. destruct (contains_edge g (a, b)); [reflexivity|].
    cbn [negb]. destruct (N.eqb a b); reflexivity.
  - intro v. unfold remove_vertex, contains_vertex, hm_mem, g_get.
    destruct (hm_get N.eqb v g); reflexivity.
Qed.
Print Assumptions C05_return_values.
Example C05_case : built ex_graph /\ snd (add_vertex ex_graph 9) = true /\ snd (add_vertex ex_graph 4) = false /\
  snd (add_edge ex_graph (3, 3)) = false /\ snd (add_edge ex_graph (9, 4)) = true.
Proof. split; [exists ex_cmds; exact ex_graph_built|]. repeat split; reflexivity. Qed.

(** C06: false, [remove_edge] always answers [true]. *)
Theorem C06_remove_edge_result_refuted :
  exists g e, built g /\ contains_edge g e = false /\ snd (remove_edge g e) = true.
Proof. exists g_new, (1, 2). split; [apply built_empty|]. split; reflexivity. Qed.
Print Assumptions C06_remove_edge_result_refuted.

Theorem C06_remove_edge_result_constant : forall g e, snd (remove_edge g e) = true.
Proof. intros g [a b]. reflexivity. Qed.
Print Assumptions C06_remove_edge_result_constant.

(** C07 *)
Theorem C07_idempotent : forall g, built g ->
  (forall c, apply_to c (apply_to c g) = apply_to c g) /\
  (forall v, contains_vertex g v = true -> fst (add_vertex g v) = g) /\
  (forall e, contains_edge g e = true -> fst (add_edge g e) = g) /\
  (forall v, contains_vertex g v = false -> fst (remove_vertex g v) = g) /\
  (forall e, contains_edge g e = false -> fst (remove_edge g e) = g).
Proof.
  intros g H. apply built_wf in H. split; [|split; [|split; [|split]]]; intros.
  - now apply apply_twice.
  - now apply add_vertex_present.
  - now apply add_edge_present.
  - now apply remove_vertex_absent.
  - now apply remove_edge_absent.
Qed.
Print Assumptions C07_idempotent.
Example C07_case : built ex_graph /\ contains_vertex ex_graph 3 = true /\ contains_edge ex_graph (3, 3) = true /\
  contains_vertex ex_graph 4 = false /\ contains_edge ex_graph (2, 1) = false /\
  apply_to (RemoveVertex 3) ex_graph <> ex_graph.
Proof. split; [exists ex_cmds; exact ex_graph_built|]. repeat split; try reflexivity. discriminate. Qed.

(** C08: for every graph value, well-formed or not, the versions with explicit
    panics return. *)
Theorem C08_no_panic : forall g e,
  contains_edge_m g e = Done (contains_edge g e) /\ add_edge_m g e = Done (add_edge g e).
Proof. intros. split; [apply contains_edge_m_total|apply add_edge_m_total]. Qed.
Print Assumptions C08_no_panic.
(** Also for a value no history leads to: vertex 1 lists an edge that ends at a missing vertex. *)
Example C08_case : contains_edge_m [(1, [(1, 2)])] (1, 2) = Done (contains_edge [(1, [(1, 2)])] (1, 2)) /\
  contains_edge_m [(1, [(1, 2)])] (2, 1) = Done false.
Proof. split; reflexivity. Qed.

(** C09: false, the order of insertion matters. *)
Theorem C09_equality_refuted : exists g h, built g /\ built h /\
  a_same (shown g) (shown h) /\ graph_eqb g h = false.
Proof.
  exists (apply_commands [AddEdge 1 2; AddEdge 1 3] g_new),
         (apply_commands [AddEdge 1 3; AddEdge 1 2] g_new).
  split; [eexists; apply built_by_apply|]. split; [eexists; apply built_by_apply|].
  split; [|reflexivity].
  eapply a_same_trans; [apply refines, built_by_apply|].
  eapply a_same_trans; [|apply a_same_sym, refines, built_by_apply].
  split; cbn; intros; tauto.
Qed.
Print Assumptions C09_equality_refuted.

(** What remains true of [==]: it never equates different graphs, and it does
    not depend on the hash order. *)
Theorem C09_equality_sound : forall g h, built g -> built h ->
  (graph_eqb g h = true -> a_same (shown g) (shown h)) /\
  (Permutation g h -> graph_eqb g h = true).
Proof.
  intros g h Hg Hh. apply built_wf in Hg. apply built_wf in Hh. split; intro H.
  - now apply graph_eqb_sound.
  - now apply graph_eqb_rehash.
Qed.
Print Assumptions C09_equality_sound.

(** Exactly when it holds: same vertices, and at each vertex the same edges added
    in the same order. *)
Theorem C09_equality_exact : forall cs cs' g h, built_by cs g -> built_by cs' h ->
  (graph_eqb g h = true <->
   (forall v, aV (a_run cs) v <-> aV (a_run cs') v) /\
   (forall v, let at_v := fun e : N * N => (N.eqb v (fst e) || N.eqb v (snd e))%bool in
      filter at_v (insertion_order cs) = filter at_v (insertion_order cs'))).
Proof.
  intros cs cs' g h Bg Bh. pose proof (built_by_wf Bg) as Wg. pose proof (built_by_wf Bh) as Wh.
  rewrite (graph_eqb_get Wg Wh). pose proof (refines Bg) as [RV _]. pose proof (refines Bh) as [RV' _].
  assert (HV : forall v, aV (a_run cs) v <-> exists es, g_get v g = Some es).
  { intro v. rewrite <- RV. apply contains_vertex_hasV. }
  assert (HV' : forall v, aV (a_run cs') v <-> exists es, g_get v h = Some es).
  { intro v. rewrite <- RV'. apply contains_vertex_hasV. }
  split.
  - intro H. split.
    + intro v. rewrite HV, HV', H. reflexivity.
    + intro v. cbv zeta. change (filter (incident v) (insertion_order cs) = filter (incident v) (insertion_order cs')).
      specialize (H v). destruct (g_get v g) as [es|] eqn:E.
      * now rewrite <- (stored_order cs g Bg v es E), <- (stored_order cs' h Bh v es (eq_sym H)).
      * rewrite !filter_none; [reflexivity| |].
        -- now apply (absent_none cs' h v Bh).
        -- now apply (absent_none cs g v Bg).
  - intros [H1 H2] v. specialize (H1 v). specialize (H2 v). rewrite HV, HV' in H1.
    destruct (g_get v g) as [es|] eqn:E, (g_get v h) as [es'|] eqn:E'; [| | |reflexivity].
    + rewrite (stored_order cs g Bg v es E), (stored_order cs' h Bh v es' E'). apply f_equal. exact H2.
    + destruct (proj1 H1) as [? ?]; [eauto|discriminate].
    + destruct (proj2 H1) as [? ?]; [eauto|discriminate].
Qed.
Print Assumptions C09_equality_exact.
(** Edges of different vertices may be added in another order. *)
Example C09_case : graph_eqb (apply_commands [AddEdge 1 2; AddEdge 3 4; AddVertex 9] g_new)
    (apply_commands [AddVertex 9; AddEdge 5 6; AddEdge 3 4; RemoveVertex 5; AddEdge 1 2; RemoveVertex 6] g_new) = true /\
  insertion_order [AddVertex 9; AddEdge 5 6; AddEdge 3 4; RemoveVertex 5; AddEdge 1 2; RemoveVertex 6] = [(3, 4); (1, 2)].
Proof. split; reflexivity. Qed.

(** C93 *)
Theorem C93_edges_in_order : forall cs g v, built_by cs g ->
  outbound_edges g v = filter (fun e => N.eqb (fst e) v) (insertion_order cs) /\
  inbound_edges g v = filter (fun e => N.eqb (snd e) v) (insertion_order cs) /\
  enumerates (insertion_order cs) (fun e => contains_edge g e = true).
Proof.
  intros cs g v B. split; [now apply outbound_order|]. split; [now apply inbound_order|].
  split; [apply insertion_NoDup|]. intros [a b]. rewrite insertion_In. symmetry. apply (refines B).
Qed.
Print Assumptions C93_edges_in_order.
Example C93_case : insertion_order [AddEdge 1 5; AddEdge 1 3; AddEdge 1 4; RemoveEdge 1 5; AddEdge 1 3; AddEdge 1 5] =
  [(1, 3); (1, 4); (1, 5)].
Proof. reflexivity. Qed.

(** C10 *)
Theorem C10_as_commands_roundtrip : forall g, built g ->
  a_same (shown (apply_commands (as_commands g) g_new)) (shown g).
Proof. intros g H. apply as_commands_roundtrip. now apply built_wf. Qed.
Print Assumptions C10_as_commands_roundtrip.
Example C10_case : built (rev ex_graph) /\ contains_vertex (apply_commands (as_commands (rev ex_graph)) g_new) 9 = true /\
  contains_edge (apply_commands (as_commands (rev ex_graph)) g_new) (3, 3) = true.
Proof. split; [exists ex_cmds; exact ex_graph_rehashed|]. split; reflexivity. Qed.

(** C11: the undo condition is exact. *)
Theorem C11_revert_involution : forall c, revert (revert c) = c.
Proof. destruct c; reflexivity. Qed.
Print Assumptions C11_revert_involution.

Theorem C11_revert_undoes : forall g c, built g ->
  (a_same (shown (apply_to (revert c) (apply_to c g))) (shown g) <-> undoable g c).
Proof. intros g c H. apply revert_same. now apply built_wf. Qed.
Print Assumptions C11_revert_undoes.
Example C11_case : undoable ex_graph (AddEdge 9 1) /\ undoable ex_graph (RemoveEdge 3 3) /\
  undoable ex_graph (AddVertex 7).
Proof. repeat split; reflexivity. Qed.

(** C12: false in general. *)
Theorem C12_revert_refuted : exists g c, built g /\
  ~ a_same (shown (apply_to (revert c) (apply_to c g))) (shown g).
Proof.
  exists ex_graph, (RemoveVertex 1). split; [eexists; apply ex_graph_built|].
  intros [_ H]. specialize (H 1 2). vm_compute in H. destruct H as [_ H].
  specialize (H eq_refl). discriminate.
Qed.
Print Assumptions C12_revert_refuted.
