(** * Undoing whole histories (C168) *)
From Coq Require Import List NArith Bool Arith Lia Permutation.
From Verif Require Import Spec Base Graph GraphSpec GraphFacts OrderFacts UndoSpec PropGraph.
Import ListNotations.
Local Open Scope N_scope.

Lemma shown_again cs g h : wf g -> wf h -> a_same (shown g) (shown h) ->
  a_same (shown (apply_commands cs g)) (shown (apply_commands cs h)).
Proof.
  intros Wg Wh H. eapply a_same_trans; [now apply shown_commands|].
  eapply a_same_trans; [|apply a_same_sym; now apply shown_commands].
  now apply a_run_app_same.
Qed.
Lemma commands_app cs ds g : apply_commands (cs ++ ds) g = apply_commands ds (apply_commands cs g).
Proof. unfold apply_commands. apply fold_left_app. Qed.

Lemma undo_all_reverts cs : forall g, wf g -> each_undoable g cs ->
  a_same (shown (apply_commands (map revert (rev cs)) (apply_commands cs g))) (shown g).
Proof.
  induction cs as [|c cs IH]; intros g W H; [apply a_same_refl|].
  destruct H as [Hc H]. cbn [rev]. rewrite map_app, commands_app. cbn [map].
  change (apply_commands (c :: cs) g) with (apply_commands cs (apply_to c g)).
  pose proof (wf_apply_to c W) as W1. specialize (IH _ W1 H).
  apply (a_same_trans (t := shown (apply_commands [revert c] (apply_to c g)))).
  - apply shown_again; [|assumption|assumption]. apply wf_apply_commands, wf_apply_commands, W1.
  - apply (proj2 (revert_same c W)). exact Hc.
Qed.
Lemma each_undoable_app cs : forall ds g, each_undoable g (cs ++ ds) ->
  each_undoable g cs /\ each_undoable (apply_commands cs g) ds.
Proof.
  induction cs as [|c cs IH]; intros ds g H; [now split|].
  destruct H as [Hc H]. destruct (IH _ _ H) as [H1 H2]. now split; [split|].
Qed.

Lemma after_adding es : forall s x y,
  (aV (fold_left a_step (map adding es) s) x <-> aV s x \/ exists e, In e es /\ (x = fst e \/ x = snd e)) /\
  (aE (fold_left a_step (map adding es) s) x y <-> aE s x y \/ In (x, y) es).
Proof.
  induction es as [|[a b] es IH]; intros s x y; cbn [map fold_left].
  - split; (split; [now left|]); [intros [H|(e & [] & _)]|intros [H|[]]]; assumption.
  - destruct (IH (a_step s (adding (a, b))) x y) as [I1 I2]. rewrite I1, I2. cbn [adding fst snd a_step a_add_edge aV aE]. split; split.
    + intros [[H|[->| ->]]|(e & H & H')]; [now left|right|right|right; exists e].
      * exists (a, b). cbn. auto.
      * exists (a, b). cbn. auto.
      * split; [now right|assumption].
    + intros [H|(e & [<-|H] & H')]; [left; now left|left; right; exact H'|right; now exists e].
    + intros [[H|[-> ->]]|H]; [now left|right; now left|right; now right].
    + intros [H|[[= <- <-]|H]]; [left; now left|left; now right|now right].
Qed.

Lemma written_down_undoes g c : wf g ->
  a_same (shown (apply_commands (written_down g c) (apply_to c g))) (shown g).
Proof.
  intro W. pose proof (wf_apply_to c W) as W1.
  eapply a_same_trans; [now apply shown_commands|].
  eapply a_same_trans; [apply a_run_app_same, shown_step, W|].
  assert (EV : forall a b, contains_edge g (a, b) = true -> contains_vertex g a = true /\ contains_vertex g b = true).
  { intros a b H. rewrite !contains_vertex_hasV. apply (wf_hasE_V W). now apply contains_edge_hasE. }
  destruct c as [v|v|a b|a b]; cbn [written_down].
  - destruct (contains_vertex g v) eqn:E; split; intros;
      cbn [fold_left a_step a_add_vertex a_remove_vertex aV aE shown].
    + split; [intros [H| ->]; assumption|now left].
    + reflexivity.
    + split; [intros [[H|H] H']; [assumption|contradiction]|]. intro H. split; [now left|]. intros ->. congruence.
    + split; [now intros [H _]|]. intro H. destruct (EV _ _ H). split; [assumption|]. split; intros ->; congruence.
  - destruct (contains_vertex g v) eqn:E.
    + cbn [fold_left]. split; intros;
        destruct (after_adding (outbound_edges g v ++ inbound_edges g v) (a_step (a_step (shown g) (RemoveVertex v)) (AddVertex v)) x ltac:(first [exact y|exact 0])) as [A1 A2].
      * rewrite A1. cbn [a_step a_add_vertex a_remove_vertex aV aE shown]. split.
        -- intros [[[H _]| ->]|([a b] & He & H)]; [assumption|assumption|].
           apply in_app_iff in He. destruct He as [He|He]; [apply outbound_In in He|apply inbound_In in He; [|assumption]].
           all: destruct He as [-> He]; apply contains_edge_hasE in He; [|assumption]; apply EV in He; cbn in H; destruct H as [->| ->]; tauto.
        -- intro H. left. destruct (N.eq_dec x v) as [->|Hn]; [now right|left; now split].
      * rewrite A2. cbn [a_step a_add_vertex a_remove_vertex aV aE shown]. rewrite in_app_iff, outbound_In, (inbound_In _ _ _ W).
        rewrite <- !(contains_edge_hasE _ _ W). split.
        -- intros [[H _]|[[-> H]|[-> H]]]; assumption.
        -- intro H. destruct (N.eq_dec x v) as [->|Hx]; [right; left; now split|].
           destruct (N.eq_dec y v) as [->|Hy]; [right; right; now split|left; now split].
    + split; intros; cbn [fold_left a_step a_remove_vertex aV aE shown].
      * split; [now intros [H _]|]. intro H. split; [assumption|]. intros ->. congruence.
      * split; [now intros [H _]|]. intro H. destruct (EV _ _ H). split; [assumption|]. split; intros ->; congruence.
  - assert (Ex : forall x, {x = a} + {x <> a}) by (intro; apply N.eq_dec).
    assert (Ey : forall x, {x = b} + {x <> b}) by (intro; apply N.eq_dec).
    destruct (contains_edge g (a, b)) eqn:Eab.
    { destruct (EV _ _ Eab) as [-> ->]. cbn [app fold_left]. split; intros; cbn [a_step a_add_edge aV aE shown].
      - split; [intros [H|[->| ->]]; [assumption| |]; now apply (EV _ _ Eab)|now left].
      - split; [intros [H|[-> ->]]; assumption|now left]. }
    destruct (contains_vertex g a) eqn:Ea, (contains_vertex g b) eqn:Eb; cbn [app fold_left]; split; intros;
      cbn [a_step a_add_edge a_remove_edge a_remove_vertex aV aE shown].
    all: try (assert (HV : contains_edge g (x, y) = true -> contains_vertex g x = true /\ contains_vertex g y = true) by apply EV;
              destruct (Ex x), (Ey y), (Ey x), (Ex y)).
    all: try (destruct (Ex x), (Ey x)).
    all: subst; try rewrite Ea in *; try rewrite Eb in *; try rewrite Eab in *; intuition (subst; congruence).
  - destruct (contains_edge g (a, b)) eqn:E; split; intros; cbn [fold_left a_step a_add_edge a_remove_edge aV aE shown].
    + split; [intros [H|[->| ->]]; [assumption| |]; now apply (EV _ _ E)|now left].
    + split; [intros [[H _]|[-> ->]]; assumption|]. intro H.
      destruct (N.eq_dec x a) as [->|Hx]; [destruct (N.eq_dec y b) as [->|Hy]|]; [now right| |]; left; (split; [assumption|]); intros [? ?]; congruence.
    + reflexivity.
    + split; [now intros [H _]|]. intro H. split; [assumption|]. intros [-> ->]. congruence.
Qed.

Lemma notes_undo cs : forall g, wf g ->
  a_same (shown (apply_commands (notes g cs) (apply_commands cs g))) (shown g).
Proof.
  induction cs as [|c cs IH]; intros g W; [apply a_same_refl|].
  cbn [notes]. rewrite commands_app.
  change (apply_commands (c :: cs) g) with (apply_commands cs (apply_to c g)).
  pose proof (wf_apply_to c W) as W1. specialize (IH _ W1).
  eapply a_same_trans; [|now apply (written_down_undoes g c)].
  apply shown_again; [|assumption|assumption]. apply wf_apply_commands, wf_apply_commands, W1.
Qed.

(** ** C168 *)

(** [revert] of the last [k] commands, the last one first, leads back to the graph before them. *)
Theorem C168_last_first : forall g cs k, built g -> each_undoable g cs -> (k <= length cs)%nat ->
  a_same (shown (apply_commands (map revert (firstn k (rev cs))) (apply_commands cs g)))
         (shown (apply_commands (firstn (length cs - k) cs) g)).
Proof.
  intros g cs k B H Hk. apply built_wf in B.
  rewrite firstn_rev. rewrite <- (firstn_skipn (length cs - k) cs) in H.
  destruct (each_undoable_app _ _ _ H) as [_ H2].
  assert (HE : apply_commands cs g = apply_commands (skipn (length cs - k) cs) (apply_commands (firstn (length cs - k) cs) g)).
  { rewrite <- commands_app. now rewrite firstn_skipn. }
  rewrite HE. apply undo_all_reverts; [|assumption]. now apply wf_apply_commands.
Qed.
Print Assumptions C168_last_first.

(** The first one first does not. *)
Theorem C168_order_matters : exists g cs, built g /\ each_undoable g cs /\
  ~ a_same (shown (apply_commands (map revert cs) (apply_commands cs g))) (shown g).
Proof.
  exists ex_graph, [AddVertex 7; RemoveVertex 7]. split; [eexists; apply ex_graph_built|].
  split; [split; [reflexivity|]; split; [|exact I]|].
  - split; [reflexivity|]. intros a b Hab.
    assert (Hin : In (a, b) (edges (apply_to (AddVertex 7) ex_graph))).
    { assert (W : wf (apply_to (AddVertex 7) ex_graph)) by (apply wf_apply_to, built_wf; eexists; apply ex_graph_built).
      apply edges_In; [assumption|]. now apply contains_edge_hasE. }
    vm_compute in Hin. decompose [or] Hin; try contradiction; match goal with H : _ = (a, b) |- _ => injection H as <- <- end; split; discriminate.
  - intros [H _]. specialize (H 7). vm_compute in H. destruct H as [H _]. specialize (H eq_refl). discriminate.
Qed.
Print Assumptions C168_order_matters.

(** Every history can be undone with what the queries show before each command. *)
Theorem C168_written_down : forall g cs, built g ->
  a_same (shown (apply_commands (notes g cs) (apply_commands cs g))) (shown g).
Proof. intros g cs B. apply notes_undo. now apply built_wf. Qed.
Print Assumptions C168_written_down.
Example C168_case :
  built ex_graph /\ each_undoable ex_graph [AddEdge 9 1; RemoveEdge 3 3; AddVertex 7] /\
  ~ undoable ex_graph (RemoveVertex 3) /\
  notes ex_graph [RemoveVertex 3; AddEdge 3 5] =
    [RemoveEdge 3 5; RemoveVertex 3; RemoveVertex 5; AddVertex 3; AddEdge 3 3; AddEdge 2 3; AddEdge 3 3].
Proof.
  split; [eexists; apply ex_graph_built|]. split; [repeat split; reflexivity|]. split; [|vm_compute; reflexivity].
  intros [_ H]. destruct (H 3 3 eq_refl) as [H1 _]. now apply H1.
Qed.
