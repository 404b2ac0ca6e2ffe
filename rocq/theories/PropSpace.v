(** * Property C179: how much a search keeps in memory *)
From Coq Require Import List NArith ZArith Bool Permutation Lia Arith.
From Verif Require Import Spec Base WalkFacts Graph GraphSpec GraphFacts Path PathFacts Queue ConstraintSpec Iter IterFacts TreeFacts
  SearchFacts BestFacts Cycle CycleSpec CycleFacts Work Space.
Import ListNotations.
Local Open Scope nat_scope.

Section Visits.
  Variables (A : Type) (Q : squeue A) (g : graph).
  Variables (lastv : A -> option N) (mk : A -> N -> A) (lv : A -> N).
  Hypothesis Hwf : wf g.
  Hypothesis Hlv : forall a v, lastv a = Some (lv a) -> lastv (mk a v) = Some v /\ lv (mk a v) = v.
  Variables (a0 : A) (s : N).
  Hypothesis Ha0 : lastv a0 = Some (lv a0).
  Hypothesis Hs : lv a0 = s.
  Lemma visit_moment st : moment (visit_next A Q g lastv mk) (visit_from A Q a0 s) st -> exists out, vinv A Q g mk lv a0 s out st.
  Proof.
    intro M. induction M as [|st a st' M (out & IH) E].
    - exists []. now apply vinv_init.
    - apply (vinv_step A Q g lastv mk lv Hwf Hlv a0 s Ha0) in IH. rewrite E in IH. eauto.
  Qed.
  Lemma vinv_space out st : vinv A Q g mk lv a0 s out st ->
    length (fst st) <= length (vertices g) + 1 /\ length (q_content Q (snd st)) + length out = length (fst st).
  Proof.
    intros [Hv Hvis Hnd Hder Hcl Hst]. split.
    - replace (length (vertices g) + 1) with (length (s :: vertices g)) by (cbn; lia).
      apply NoDup_incl_length; [assumption|]. intros v Hin. rewrite Hvis in Hin.
      apply in_map_iff in Hin as (a & <- & Ha). apply Hder in Ha. apply (derived_reachable A g lastv mk lv Hlv a0 s Ha0 Hs) in Ha.
      apply reachable_hasV in Ha as [->|Ha]; [now left|now right|assumption].
    - apply Permutation_length in Hvis. rewrite map_length, app_length in Hvis. lia.
  Qed.
End Visits.

(** ** C179 *)
(** Traversals: at any moment at most one entry for each vertex and one more, in the queue and in the set of visited vertices. *)
Theorem C179_traversals : forall g s, built g ->
  (forall vis q, moment (bfs_next g) (bfs_iter_from s) (vis, q) -> length q <= length vis /\ length vis <= vertex_count g + 1) /\
  (forall vis q, moment (dfs_next g) (dfs_iter_from s) (vis, q) -> length q <= length vis /\ length vis <= vertex_count g + 1).
Proof.
  intros g s Hb. pose proof (built_wf Hb) as W. rewrite vertex_count_len.
  assert (G : forall (Q : squeue N) vis q, moment (visit_next N Q g (fun v => Some v) (fun _ v => v)) (visit_from N Q s s) (vis, q) ->
    length (q_content Q q) <= length vis /\ length vis <= length (vertices g) + 1).
  { intros Q vis q M. apply (visit_moment N Q g (fun v => Some v) (fun _ v => v) (fun v => v) W) in M as (out & I); [|auto|reflexivity|reflexivity].
    apply (vinv_space N Q g (fun v => Some v) (fun _ v => v) (fun v => v)) in I; [|assumption..|auto|reflexivity|reflexivity].
    cbn [fst snd] in I. lia. }
  split; intros vis q M; [exact (G (Queue N) vis q M)|exact (G (Stack N) vis q M)].
Qed.
Print Assumptions C179_traversals.
(** A* and best-first search, whatever the scores and the queue: the same, and no path kept is longer than the graph has vertices. *)
Theorem C179_a_star : forall (Q : squeue scored) g f s st, built g -> moment (best_next Q g f) (best_iter_from Q f s) st ->
  length (q_content Q (snd st)) <= length (fst st) /\ length (fst st) <= vertex_count g + 1 /\
  Forall (fun sp => length (sp_path sp) <= vertex_count g + 1) (q_content Q (snd st)).
Proof.
  intros Q g f s st Hb M. pose proof (built_wf Hb) as W. rewrite vertex_count_len.
  assert (I : exists out, best_inv Q g f s out st).
  { induction M as [|st a st' M (out & IH) E]; [exists []; apply best_init|].
    apply (best_step Q g f s W) in IH. rewrite E in IH. eauto. }
  destruct I as (out & V & P).
  pose proof (vinv_space scored Q g _ _ _ W (best_nodes f) {| sp_path := [s]; sp_score := f [s] |} s eq_refl eq_refl out st V) as (X & Y).
  split; [lia|]. split; [lia|]. apply Forall_forall. intros sp I. destruct (P sp) as (N1 & N2); [apply in_app_iff; now right|].
  eapply Nat.le_trans; [|exact X]. now apply NoDup_incl_length.
Qed.
Print Assumptions C179_a_star.
(** Depth-first enumeration of paths: however many there are, at most V * V + 1 of them are kept. *)
Theorem C179_depth_first_paths : forall g s q, built g -> moment (dfs_path_next g) (dfs_iter_path_from s) q ->
  length q <= 1 + vertex_count g * vertex_count g /\ Forall (fun p => length p <= vertex_count g + 1) q.
Proof. intros g s q Hb. rewrite vertex_count_len. exact (dfs_space g s (built_wf Hb) q). Qed.
Print Assumptions C179_depth_first_paths.
(** Cycles: the same for the paths; each cycle returned so far is kept as well.  The moments are those of the loop of [next]. *)
Theorem C179_cycles : forall g, built g ->
  (forall out stack returned, cycle_moment g out (stack, returned) ->
    length stack <= 1 + vertex_count g + vertex_count g * vertex_count g /\
    Forall (fun p => length p <= vertex_count g + 1) stack /\ length returned = length out) /\
  (forall n st, cycle_next g (S n) st =
    match cycle_turn g st with
    | Done None => Done None
    | Done (Some (Some c, st')) => Done (Some (c, st'))
    | Done (Some (None, st')) => cycle_next g n st'
    | Panic => Panic
    | OutOfFuel => OutOfFuel
    end).
Proof.
  intros g Hb. rewrite vertex_count_len. split; [|exact (cycle_next_turn g)].
  intros out stack returned M. exact (cycle_space g (built_wf Hb) out (stack, returned) M).
Qed.
Print Assumptions C179_cycles.
(** Breadth-first enumeration of paths keeps exponentially many: at least 2^k on the acyclic ladder of 4k edges. *)
Theorem C179_breadth_first_paths_refuted : forall k, exists cs g s q, built_by cs g /\ length cs = 4 * k /\
  moment (bfs_path_next g) (bfs_path_iter_from s) q /\ 2 ^ k <= length q.
Proof.
  intro k. destruct (ladder_space k) as (q & M & L). exists (ladder k), (ladder_graph k), 0%N, q.
  split; [apply ladder_built|]. split; [apply ladder_length|]. now split.
Qed.
Print Assumptions C179_breadth_first_paths_refuted.
Example C179_case : exists q, moment (dfs_path_next (ladder_graph 3)) (dfs_iter_path_from 0%N) q /\ length q = 3 /\
  exists st, cycle_moment (apply_commands [AddEdge 1 2; AddEdge 2 3; AddEdge 3 2] g_new) [[2; 3]%N] st.
Proof.
  eexists. split; [|split].
  - eapply mo_next; [eapply mo_next; [eapply mo_next; [apply mo_start|vm_compute; reflexivity]|vm_compute; reflexivity]|vm_compute; reflexivity].
  - vm_compute. reflexivity.
  - eexists. eapply (cm_found _ []); [eapply cm_on; [eapply cm_on; [eapply cm_on; [apply cm_start|]|]|]|]; vm_compute; reflexivity.
Qed.
