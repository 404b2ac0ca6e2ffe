(** * C165: which topological order *)
From Coq Require Import String.
From Coq Require Import List NArith ZArith Bool Arith Lia Permutation.
From Verif Require Import Spec Base WalkFacts Graph GraphSpec GraphFacts OrderFacts Path PathFacts Queue Iter IterFacts SearchFacts
  Topo TopoFacts PropGraph PropTopo
  Text Format FormatSpec TextFacts FormatFacts Store StoreSpec StoreFacts PropFormat PropStore
  Cli CliSpec CliFacts Query QuerySpec QueryFacts PropQuery PropLocal VisitSpec VisitFacts ReadySpec.
Import ListNotations.
Open Scope nat_scope.

Lemma among_memE l e : among l e = memE e l.
Proof.
  unfold among. destruct (memE e l) eqn:Em.
  - apply existsb_exists. exists e. split; [now apply memE_In|]. now rewrite !N.eqb_refl.
  - apply not_true_iff_false. intro H. apply existsb_exists in H as ([a b] & Hx & He). destruct e as [c d]. cbn [fst snd] in He.
    apply andb_true_iff in He as [E1 E2]. apply N.eqb_eq in E1, E2. subst. apply memE_In in Hx. congruence.
Qed.
Lemma readied_app es l1 : forall gone l2, readied es gone (l1 ++ l2) = readied es gone l1 ++ readied es (gone ++ l1) l2.
Proof.
  induction l1 as [|e l1 IH]; intros gone l2; cbn [app readied]; [now rewrite app_nil_r|].
  rewrite IH, <- app_assoc. cbn [app]. destruct (forallb _ _); reflexivity.
Qed.

Section Order.
  Variables (cs : list graph_command) (g : graph).
  Hypothesis B : built_by cs g.
  Let W : wf g := built_wf (ex_intro _ cs B).
  Let es := insertion_order cs.

  Lemma children_ready (children : list (N * N)) : forall q (rm : list (N * N)), NoDup (rm ++ children) ->
    topo_children g children q rm = (q ++ readied es rm children, rm ++ children).
  Proof.
    induction children as [|e t IH]; intros q rm Hn; cbn [topo_children readied]; [now rewrite !app_nil_r|].
    assert (Hi : hs_insert e rm = @app (N * N) rm [e]).
    { unfold hs_insert. destruct (memE_spec e rm) as [Hm|_]; [|reflexivity]. exfalso. apply NoDup_app_iff in Hn as (_ & _ & Hn).
      apply (Hn e Hm). now left. }
    rewrite Hi. assert (Hf : forallb (fun x => memE x (@app (N * N) rm [e])) (inbound_edges g (snd e)) = forallb (among (rm ++ [e])) (into es (snd e))).
    { rewrite (inbound_order cs g (snd e) B). unfold into. fold es. induction (filter _ es) as [|x l IHl]; [reflexivity|]. cbn [forallb]. now rewrite among_memE, IHl. }
    rewrite Hf. assert (Hn' : NoDup ((rm ++ [e]) ++ t)) by now rewrite <- app_assoc.
    cbv zeta. destruct (forallb (among (rm ++ [e])) (into es (snd e))); rewrite (IH _ _ Hn'), <- ?app_assoc; reflexivity.
  Qed.
  Lemma out_of_outbound v : out_of es v = outbound_edges g v.
  Proof. symmetry. apply (outbound_order cs g v B). Qed.

  Lemma loop_ready n : forall res q rm res' rm', kinv g res q rm -> rm = flat_map (out_of es) res -> ready (vertices g) es res = res ++ q ->
    (forall p v r, res = p ++ v :: r -> exists t, ready (vertices g) es p = p ++ v :: t) ->
    topo_loop g n q rm res = Done (res', rm') -> ready_order (vertices g) es res'.
  Proof.
    induction n as [|n IH]; intros res q rm res' rm' K Hrm Hq Hp H; [discriminate|]. cbn [topo_loop] in H.
    destruct q as [|start q].
    - injection H as <- <-. split; [assumption|]. now rewrite Hq, app_nil_r.
    - assert (Hs : ~ In start res).
      { destruct K as [K1 _ _ _ _]. apply NoDup_app_iff in K1 as (_ & _ & K1). intro Hs. apply (K1 start Hs). now left. }
      assert (Hch : filter (fun x => negb (memE x rm)) (outbound_edges g start) = outbound_edges g start).
      { apply filter_all. intros [a b] He. apply outbound_In in He as [-> _].
        apply negb_true_iff. apply not_true_iff_false. rewrite memE_In, (k_rm _ _ _ _ K). tauto. }
      assert (Hnd : NoDup (rm ++ outbound_edges g start)).
      { apply NoDup_app_iff. split; [apply (k_rm_nodup _ _ _ _ K)|]. split; [now apply outbound_NoDup|].
        intros [a b] H1 H2. apply outbound_In in H2 as [-> _]. apply (k_rm _ _ _ _ K) in H1. tauto. }
      destruct (topo_children g (filter (fun x => negb (memE x rm)) (outbound_edges g start)) q rm) as [q2 rm2] eqn:Ec.
      pose proof (kinv_step g W _ _ _ _ _ _ K Ec) as K'. rewrite Hch, (children_ready _ _ _ Hnd) in Ec. injection Ec as <- <-.
      assert (Hrm' : rm ++ outbound_edges g start = flat_map (out_of es) (res ++ [start])).
      { rewrite flat_map_app. cbn [flat_map]. now rewrite app_nil_r, out_of_outbound, Hrm. }
      refine (IH (res ++ [start]) _ _ _ rm' K' Hrm' _ _ H).
      + unfold ready in *. rewrite <- Hrm'. rewrite Hrm. assert (Ha := readied_app es (flat_map (out_of es) res) [] (outbound_edges g start)). cbn [app] in Ha.
        etransitivity; [apply f_equal; exact Ha|]. rewrite app_assoc, Hq, <- !app_assoc. reflexivity.
      + intros p v r E. destruct r as [|x r _] using rev_ind.
        * apply app_inj_tail in E as [<- <-]. now exists q.
        * change (v :: r ++ [x]) with ((v :: r) ++ [x]) in E. rewrite app_assoc in E. apply app_inj_tail in E as [E _]. now apply (Hp p v r).
  Qed.
  Lemma loop_order : exists res rm, kinv g res [] rm /\ ready_order (vertices g) es res /\
    forall n, S (length (vertices g)) <= n -> topo_loop g n (find_start_vertices g) [] [] = Done (res, rm).
  Proof.
    destruct (TopoFacts.topo_run g W) as (res & rm & K & H). exists res, rm. split; [assumption|]. split; [|assumption].
    refine (loop_ready _ _ _ _ _ _ (kinv_init g W) eq_refl _ _ (H _ (le_n _))).
    - unfold ready. cbn [flat_map readied]. rewrite app_nil_r. unfold find_start_vertices. apply filter_ext. intro v. unfold is_start_vertex.
      rewrite (inbound_order cs g v B). unfold into. fold es. now destruct (filter _ es).
    - intros p v r E. now destruct p.
  Qed.
End Order.
Lemma ready_one vs es o1 o2 : ready_order vs es o1 -> ready_order vs es o2 -> o1 = o2.
Proof.
  intros [H1 E1] [H2 E2].
  apply (ruled N (fun p => skipn (length p) (ready vs es p)) (fun w => match w with [] => None | x :: _ => Some x end)).
  - intros p v r E. destruct (H1 p v r E) as [t ->]. now rewrite skipn_app, skipn_all, Nat.sub_diag.
  - now rewrite E1, skipn_all.
  - intros p v r E. destruct (H2 p v r E) as [t ->]. now rewrite skipn_app, skipn_all, Nat.sub_diag.
  - now rewrite E2, skipn_all.
Qed.

(** The order found is the one in which the vertices become ready, those ready from the start as the vertices are gone through;
    there is none in the cases of C52. *)
Theorem C165_which_order : forall cs g order, built_by cs g -> ready_order (vertices g) (insertion_order cs) order ->
  (acyclic (gE g) \/ (exists v, only_a_terminal_loop (gE g) v) -> settles (topological_sort g) (Some order)) /\
  (~ (acyclic (gE g) \/ (exists v, only_a_terminal_loop (gE g) v)) -> settles (topological_sort g) None).
Proof.
  intros cs g order B Ho. destruct (loop_order cs g B) as (res & rm & _ & Hr & Hrun). rewrite (ready_one _ _ _ _ Ho Hr).
  destruct (topo_settles g res rm Hrun) as (S1 & _). destruct (C52_topo_exact g (ex_intro _ cs B)) as (r & S2 & Hn & _).
  pose proof (settles_fun _ _ _ _ S1 S2) as Er. split.
  - intro H. apply Hn in H. destruct (negb _) in S1, Er; [congruence|exact S1].
  - intro H. destruct r as [l|]; [|exact S2]. exfalso. apply H, Hn. discriminate.
Qed.
Print Assumptions C165_which_order.
(** There is always exactly one such order. *)
Theorem C165_one_order : forall cs g, built_by cs g -> exists order, forall o, ready_order (vertices g) (insertion_order cs) o <-> o = order.
Proof.
  intros cs g B. destruct (loop_order cs g B) as (res & rm & _ & Hr & _). exists res. intro o. split; [intro H; now apply (ready_one _ _ _ _ H)|now intros ->].
Qed.
Print Assumptions C165_one_order.

(** ** gc-topo-sort *)
Lemma acyclic_same E F : same_edges E F -> acyclic E -> acyclic F.
Proof. intros H Ha l (x & (H1 & H2 & H3) & Hl). apply (Ha l). exists x. split; [|assumption]. split; [assumption|]. split; [assumption|]. intros a b K. now apply H, H3. Qed.
Lemma terminal_loop_same E F v : same_edges E F -> only_a_terminal_loop E v -> only_a_terminal_loop F v.
Proof.
  intros H (K1 & K2 & K3). split; [now apply H|]. split; [intros x Hx; now apply K2, H|].
  intros l (x & (H1 & H2 & H3) & Hl). apply (K3 l). exists x. split; [|assumption]. split; [assumption|]. split; [assumption|].
  intros a b K. now apply H, H3.
Qed.
Lemma spaced_show vs : spaced vs (concat (map (fun v => show v ++ txt " ") vs)).
Proof. induction vs as [|v vs IH]; [constructor|]. cbn [map concat]. rewrite <- app_assoc. apply (sp_cons v (show v)); [apply show_spec|assumption]. Qed.
(** [vs] is the order in which this process goes through its hash map. *)
Theorem C165_program : forall nd order s cs, hash_order order -> file_says nd s cs ->
  let answered := acyclic (aE (a_run cs)) \/ exists v, only_a_terminal_loop (aE (a_run cs)) v in
  exists vs, NoDup vs /\ (forall v, In v vs <-> aV (a_run cs) v) /\
  forall o, ready_order vs (insertion_order cs) o ->
  (answered -> exists t, spaced o t /\ prints (gc_topo_sort nd order) s [txt "Topological order: " ++ t]) /\
  (~ answered -> prints (gc_topo_sort nd order) s [txt "Graph is not a DAG."]).
Proof.
  intros nd order s cs O H answered. destruct (says_loads _ _ _ H) as [HL B].
  set (g0 := apply_commands cs g_new) in *.
  assert (Bo : built_by cs (order g0)) by (eapply built_rehash; [exact B|apply O]).
  exists (vertices (order g0)). split; [apply (wf_keys (built_wf (ex_intro _ cs Bo)))|].
  split; [intro v; rewrite <- (proj1 (refines Bo)); apply vertices_In|].
  intros o Ho. destruct (C165_which_order cs _ o Bo Ho) as [H1 H2].
  assert (HE : same_edges (gE (order g0)) (aE (a_run cs))) by (intros u v; apply (proj2 (refines Bo))).
  assert (Ha : (acyclic (gE (order g0)) \/ exists v, only_a_terminal_loop (gE (order g0)) v) <-> answered).
  { split; intros [K|[v K]].
    - left. now apply (acyclic_same _ _ HE).
    - right. exists v. now apply (terminal_loop_same _ _ _ HE).
    - left. now apply (acyclic_same _ _ (same_edges_sym _ _ HE)).
    - right. exists v. now apply (terminal_loop_same _ _ _ (same_edges_sym _ _ HE)). }
  assert (Hp : forall r, settles (topological_sort (order g0)) r -> prints (gc_topo_sort nd order) s (topo_lines r)).
  { intros r [n0 Hn]. exists n0. intros n Hl. unfold gc_topo_sort. rewrite (run_graph _ _ _ _ g0 HL). cbn [snd]. now rewrite (Hn n Hl). }
  split.
  - intro K. apply Ha in K. exists (concat (map (fun v => show v ++ txt " ") o)). split; [apply spaced_show|]. exact (Hp _ (H1 K)).
  - intro K. apply (Hp None). apply H2. intro K'. now apply K, Ha.
Qed.
Print Assumptions C165_program.

(** With at most one vertex without entering edges, every process prints the same order. *)
Section Same.
  Variables g h : graph.
  Hypothesis Hout : forall v, outbound_edges g v = outbound_edges h v.
  Hypothesis Hin : forall v, inbound_edges g v = inbound_edges h v.
  Lemma children_same l : forall q rm, topo_children g l q rm = topo_children h l q rm.
  Proof. induction l as [|e l IH]; intros q rm; cbn [topo_children]; [reflexivity|]. rewrite Hin, !IH. reflexivity. Qed.
  Lemma loop_same n : forall q rm res, topo_loop g n q rm res = topo_loop h n q rm res.
  Proof.
    induction n as [|n IH]; intros q rm res; [reflexivity|]. cbn [topo_loop]. destruct q as [|start q]; [reflexivity|].
    rewrite Hout, children_same. destruct (topo_children h _ q rm). apply IH.
  Qed.
End Same.
Lemma sum_perm (g h : graph) : Permutation g h ->
  forall n, fold_left (fun acc kv => acc + length (snd kv)) g n = fold_left (fun acc kv => acc + length (snd kv)) h n.
Proof.
  induction 1 as [|x l l' _ IH|x y l|l l' l'' _ IH1 _ IH2]; intro n; cbn [fold_left]; [reflexivity|apply IH| |now rewrite IH1].
  f_equal. lia.
Qed.
Theorem C165_repeatable : forall nd order order' s cs fuel, hash_order order -> hash_order order' -> file_says nd s cs ->
  (forall u v, aV (a_run cs) u -> aV (a_run cs) v -> (forall x, ~ aE (a_run cs) x u) -> (forall x, ~ aE (a_run cs) x v) -> u = v) ->
  run_prog (gc_topo_sort nd order fuel) s = run_prog (gc_topo_sort nd order' fuel) s.
Proof.
  intros nd order order' s cs fuel O O' H Hu. destruct (says_loads _ _ _ H) as [HL B].
  set (g0 := apply_commands cs g_new) in *.
  assert (Bo : built_by cs (order g0)) by (eapply built_rehash; [exact B|apply O]).
  assert (Bo' : built_by cs (order' g0)) by (eapply built_rehash; [exact B|apply O']).
  assert (Hout : forall v, outbound_edges (order g0) v = outbound_edges (order' g0) v)
    by (intro v; rewrite (outbound_order _ _ v Bo), (outbound_order _ _ v Bo'); reflexivity).
  assert (Hin : forall v, inbound_edges (order g0) v = inbound_edges (order' g0) v)
    by (intro v; rewrite (inbound_order _ _ v Bo), (inbound_order _ _ v Bo'); reflexivity).
  assert (Hsp : forall g, built_by cs g -> NoDup (find_start_vertices g) /\ forall v, In v (find_start_vertices g) <-> aV (a_run cs) v /\ forall x, ~ aE (a_run cs) x v).
  { intros g Bg. assert (W : wf g) by (apply built_wf; now exists cs). split; [apply NoDup_filter, (wf_keys W)|]. intro v.
    unfold find_start_vertices. rewrite filter_In. unfold is_start_vertex. rewrite Nat.eqb_eq, length_zero_iff_nil.
    assert (Hv : In v (vertices g) <-> aV (a_run cs) v) by (rewrite <- (proj1 (refines Bg)); apply vertices_In). rewrite Hv.
    split; intros [K1 K2]; (split; [assumption|]).
    - intros x Hx. apply (proj2 (refines Bg)), (gE_inbound g W) in Hx. now rewrite K2 in Hx.
    - destruct (inbound_edges g v) as [|[a b] l] eqn:Ei; [reflexivity|]. exfalso.
      assert (Hi : In (a, b) (inbound_edges g v)) by (rewrite Ei; now left). pose proof Hi as Hi'. apply (inbound_In _ _ _ W) in Hi' as [-> _].
      apply (K2 a). apply (proj2 (refines Bg)). now apply (gE_inbound g W). }
  assert (Hst : find_start_vertices (order g0) = find_start_vertices (order' g0)).
  { destruct (Hsp _ Bo) as [N1 I1]. destruct (Hsp _ Bo') as [N2 I2].
    assert (One : forall l, NoDup l -> (forall u v : N, In u l -> In v l -> u = v) -> l = [] \/ exists u, l = [u]).
    { intros [|a [|b l]] Hn Hl; [now left|right; now exists a|]. exfalso. assert (a = b) by (apply Hl; cbn; tauto). subst b.
      inversion Hn as [|? ? Hni _]. apply Hni. now left. }
    destruct (One _ N1) as [E1|[u E1]]; [intros u v U V; apply I1 in U, V; now apply Hu| |];
    destruct (One _ N2) as [E2|[u' E2]]; try (intros x y U V; apply I2 in U, V; now apply Hu); rewrite E1, E2 in *; [reflexivity| | |].
    - exfalso. apply (proj2 (I1 u')). apply I2. now left.
    - exfalso. apply (proj2 (I2 u)). apply I1. now left.
    - f_equal. assert (K : In u' [u]) by (apply I1, I2; now left). now destruct K as [K|[]]. }
  assert (Hc : edge_count (order g0) = edge_count (order' g0)).
  { unfold edge_count. now rewrite <- (sum_perm _ _ (O g0)), <- (sum_perm _ _ (O' g0)). }
  unfold gc_topo_sort. rewrite !(run_graph nd _ _ s g0 HL). do 2 f_equal. unfold topological_sort.
  rewrite Hst, (loop_same _ _ Hout Hin), Hc. reflexivity.
Qed.
Print Assumptions C165_repeatable.

(** 4 comes before 3 although it was added later: the last edge into it is crossed off earlier. *)
Definition ready_cmds : list graph_command := [AddEdge 1 2; AddEdge 2 3; AddEdge 1 5; AddEdge 5 3; AddEdge 2 4; AddEdge 4 6; AddEdge 3 6]%N.
Example C165_case : let g := apply_commands ready_cmds g_new in
  built_by ready_cmds g /\ ready_order (vertices g) (insertion_order ready_cmds) [1; 2; 5; 4; 3; 6]%N /\
  ready (vertices g) (insertion_order ready_cmds) [1; 2; 5]%N = [1; 2; 5; 4; 3]%N /\
  file_says table (with_file (commands_text ready_cmds)) ready_cmds /\
  topological_sort g 20 = Done (Some [1; 2; 5; 4; 3; 6]%N) /\
  (forall u v, aV (a_run ready_cmds) u -> aV (a_run ready_cmds) v -> (forall x, ~ aE (a_run ready_cmds) x u) -> (forall x, ~ aE (a_run ready_cmds) x v) -> u = v).
Proof.
  intro g. split; [apply built_by_apply|]. split; [|split; [|split; [|split]]].
  - split; [|vm_compute; reflexivity]. intros p v r E.
    do 6 (destruct p as [|? p]; [injection E as <- <-; vm_compute; eexists; reflexivity|cbn [app] in E; injection E as <- E]).
    now destruct p.
  - vm_compute. reflexivity.
  - exists (commands_text ready_cmds). split; [reflexivity|]. apply read_commands_text; [apply table_ok|]. repeat constructor.
  - vm_compute. reflexivity.
  - assert (K : forall u, aV (a_run ready_cmds) u -> (forall x, ~ aE (a_run ready_cmds) x u) -> u = 1%N).
    { intros u Hu Hs. cbn in Hu, Hs. destruct (N.eq_dec u 1); [assumption|]. exfalso.
      pose proof (Hs 1%N). pose proof (Hs 2%N). pose proof (Hs 5%N). pose proof (Hs 4%N). pose proof (Hs 3%N). lia. }
    intros u v Hu Hv Su Sv. now rewrite (K u Hu Su), (K v Hv Sv).
Qed.
