(** * Theorems on the topological sort (C51, C52) *)
From Coq Require Import List NArith ZArith Bool Permutation Lia Arith.
From Verif Require Import Spec Base WalkFacts Graph GraphSpec GraphFacts PropGraph SearchFacts Topo TopoFacts.
Import ListNotations.

Lemma topo_settles g res rm : (forall n, S (length (vertices g)) <= n ->
    topo_loop g n (find_start_vertices g) [] [] = Done (res, rm)) ->
  let r := if negb (Nat.eqb (length rm) (edge_count g)) then None else Some res in
  settles (topological_sort g) r /\
  settles (is_dag g) (match r with Some _ => true | None => false end) /\
  settles (try_dag g) (match r with Some _ => Some g | None => None end).
Proof.
  intros H r.
  assert (H1 : forall n, S (length (vertices g)) <= n -> topological_sort g n = Done r).
  { intros n Hn. unfold topological_sort. rewrite H by assumption. reflexivity. }
  assert (H2 : forall n, S (length (vertices g)) <= n ->
    is_dag g n = Done (match r with Some _ => true | None => false end)).
  { intros n Hn. unfold is_dag. rewrite H1 by assumption. reflexivity. }
  split; [eexists; exact H1|]. split; [eexists; exact H2|].
  eexists. intros n Hn. unfold try_dag. rewrite (H2 n Hn). cbn. destruct r; reflexivity.
Qed.

Lemma gE_edges g a b : wf g -> gE g a b <-> In (a, b) (edges g).
Proof. intro W. unfold gE. rewrite contains_edge_hasE, edges_In by assumption. reflexivity. Qed.

Lemma missing_edge (es rm : list edge) : NoDup es -> NoDup rm -> incl rm es ->
  length rm <> length es -> exists e, In e es /\ ~ In e rm.
Proof.
  intros H1 H2 H3 H4.
  destruct (forallb (fun e => memE e rm) es) eqn:Ef.
  - exfalso. rewrite forallb_forall in Ef.
    assert (Hi : incl es rm) by (intros e He; apply memE_In; auto).
    apply (NoDup_incl_length H1) in Hi. apply (NoDup_incl_length H2) in H3. lia.
  - clear -Ef. induction es as [|a es IH]; [discriminate|]. cbn in Ef.
    destruct (memE_spec a rm).
    + destruct (IH Ef) as (e & H1 & H2). exists e. split; [now right|assumption].
    + exists a. split; [now left|assumption].
Qed.

(** ** C51 *)
Theorem C51_topological_sort : forall g, built g -> (forall v, contains_edge g (v, v) = false) ->
  exists r, settles (topological_sort g) r /\
    settles (is_dag g) (match r with Some _ => true | None => false end) /\
    settles (try_dag g) (match r with Some _ => Some g | None => None end) /\
    match r with
    | Some order =>
      acyclic (gE g) /\ enumerates order (fun v => contains_vertex g v = true) /\
      forall u v, gE g u v -> before u v order
    | None => exists l, closed_walk (gE g) l
    end.
Proof.
  intros g Hb Hloop. pose proof (built_wf Hb) as W.
  destruct (topo_run g W) as (res & rm & K & Hrun).
  destruct (topo_settles g res rm Hrun) as (S1 & S2 & S3). eexists. split; [exact S1|].
  split; [exact S2|]. split; [exact S3|]. clear S1 S2 S3 Hrun.
  rewrite (C04_edge_count_loop_free g Hb Hloop).
  pose proof K as [K1 K2 K3 K4 K5]. rewrite app_nil_r in K1.
  assert (Hincl : incl rm (edges g)).
  { intros [a b] He. apply gE_edges; [assumption|]. now apply K2 in He. }
  destruct (Nat.eqb_spec (length rm) (length (edges g))) as [Hl|Hl]; cbn [negb].
  - assert (Hall : forall u v, gE g u v -> In u res).
    { intros u v He. apply (gE_edges g u v W) in He as Hi.
      apply (NoDup_length_incl K3) in Hi; [now apply K2 in Hi|lia|assumption]. }
    assert (Hv : forall v, In v res <-> In v (vertices g)).
    { intro v. specialize (K4 v). rewrite app_nil_r in K4. rewrite K4. split; [tauto|].
      intro Hv. split; [assumption|]. intros u Hu. apply K2. split; [assumption|].
      now apply Hall with v. }
    split; [|split].
    + intros l Hc. assert (Hc' := Hc). destruct Hc' as (s & Hw & H2).
      destruct Hw as ([t ->] & _ & Hadj). destruct t as [|b t]; [cbn in H2; lia|].
      apply (kinv_no_cycle g res rm K _ Hc s); [now left|].
      apply Hall with b. apply Hadj. now exists [], t.
    + split; [assumption|]. intro v. now rewrite Hv, vertices_In.
    + intros u v He. apply (kinv_forward g res rm K); [assumption|]. apply Hv.
      now apply (gE_vertices g W) in He.
  - destruct (missing_edge (edges g) rm) as ([a b] & He & Hn); auto using NoDup_edges.
    apply gE_edges in He; [|assumption].
    assert (Ha : ~ In a res) by (intro Ha; apply Hn; apply K2; tauto).
    destruct (pred_cycle (gE g) (filter (fun x => negb (memN x res)) (vertices g)) a) as (l & Hc & _).
    + apply filter_In. split; [now apply (gE_vertices g W) in He|]. apply negb_true_iff. now apply memN_false.
    + intros x Hx. apply filter_In in Hx as [H1 H2]. apply negb_true_iff in H2. apply memN_false in H2.
      destruct (kinv_rest g W _ _ K x H1 H2) as (u & H3 & H4). exists u. split; [|assumption].
      apply filter_In. split; [now apply (gE_vertices g W) in H4|]. apply negb_true_iff. now apply memN_false.
    + eauto.
Qed.
Print Assumptions C51_topological_sort.

Definition dag_graph : graph :=
  apply_commands [AddEdge 1 2; AddEdge 1 3; AddEdge 2 4; AddEdge 3 4; AddEdge 4 5; AddVertex 9] g_new.
Definition cyclic_graph : graph :=
  apply_commands [AddEdge 1 2; AddEdge 2 3; AddEdge 3 2; AddEdge 3 4] g_new.
Lemma no_loops_dec g : wf g -> forallb (fun e => negb (N.eqb (fst e) (snd e))) (edges g) = true ->
  forall v, contains_edge g (v, v) = false.
Proof.
  intros W H v. apply not_true_iff_false. intro Hc. rewrite forallb_forall in H.
  specialize (H (v, v)). cbn in H. rewrite N.eqb_refl in H. cbn in H. discriminate H.
  now apply (gE_edges g v v W).
Qed.
Lemma dag_built : built dag_graph.
Proof. eexists. apply built_by_apply. Qed.
Lemma dag_loop_free : forall v, contains_edge dag_graph (v, v) = false.
Proof. apply no_loops_dec; [apply (built_wf dag_built)|vm_compute; reflexivity]. Qed.
Example C51_case : built dag_graph /\ (forall v, contains_edge dag_graph (v, v) = false) /\
  built cyclic_graph /\ (forall v, contains_edge cyclic_graph (v, v) = false) /\
  topological_sort dag_graph 10 = Done (Some [1; 9; 2; 3; 4; 5])%N /\
  topological_sort cyclic_graph 10 = Done None.
Proof.
  assert (Hc : built cyclic_graph) by (eexists; apply built_by_apply).
  split; [exact dag_built|]. split; [exact dag_loop_free|]. split; [exact Hc|].
  split; [apply no_loops_dec; [apply (built_wf Hc)|vm_compute; reflexivity]|].
  split; vm_compute; reflexivity.
Qed.

(** ** C52 *)

Lemma loop_closed (E : rel) x : E x x -> closed_walk E [x; x].
Proof.
  intro H. exists x. split; [|cbn; lia]. apply concrete_walk; [reflexivity|reflexivity|].
  intros a b Hab. apply adjacent_cons in Hab as [[-> Hb]|Hab].
  - apply starts_with_cons in Hb as ->. assumption.
  - now apply adjacent_one in Hab.
Qed.

(** With a self-loop the answer can be an order although the graph has a cycle,
    and the order can miss vertices. *)
Theorem C52_topo_self_loop_refuted :
  ~ (forall g, built g -> forall order, settles (topological_sort g) (Some order) ->
     acyclic (gE g) /\ enumerates order (fun v => contains_vertex g v = true)).
Proof.
  intro H. set (g := apply_commands [AddEdge 1 2; AddEdge 2 2] g_new).
  destruct (H g (ltac:(eexists; apply built_by_apply)) [1%N]) as [H1 _].
  - destruct (topo_settles g [1%N] [(1, 2)%N]) as [S1 _].
    + intros n Hn. vm_compute in Hn. destruct n as [|[|[|n]]]; [lia|lia|lia|]. reflexivity.
    + exact S1.
  - apply (H1 [2; 2]%N). exists 2%N. split; [|cbn; lia].
    concrete_walk.
Qed.
Print Assumptions C52_topo_self_loop_refuted.

(** [v] is the only vertex on any closed walk, through a self-loop, and the loop
    is its only outgoing edge. *)
Definition only_a_terminal_loop (E : rel) (v : N) : Prop :=
  E v v /\ (forall x, E v x -> x = v) /\ (forall l, closed_walk E l -> forall x, In x l -> x = v).

(** Exactly when there is an answer on an arbitrary graph, and what it lists. *)
Theorem C52_topo_exact : forall g, built g ->
  exists r, settles (topological_sort g) r /\
    (r <> None <-> acyclic (gE g) \/ exists v, only_a_terminal_loop (gE g) v) /\
    (forall order, r = Some order ->
       enumerates order (fun v => contains_vertex g v = true /\ ~ gE g v v) /\
       forall u v, gE g u v -> ~ gE g v v -> before u v order).
Proof.
  intros g Hb. pose proof (built_wf Hb) as W.
  destruct (topo_run g W) as (res & rm & K & Hrun).
  destruct (topo_settles g res rm Hrun) as (S1 & _ & _). eexists. split; [exact S1|]. clear S1 Hrun.
  rewrite (edge_count_law W).
  pose proof K as [K1 K2 K3 K4 K5]. rewrite app_nil_r in K1, K4.
  set (nl := filter (fun e => negb (is_loop e)) (edges g)).
  set (lp := filter is_loop (edges g)).
  assert (Hself : forall v, gE g v v -> ~ In v res).
  { intros v Hv. apply (kinv_no_cycle g res rm K [v; v]); [now apply loop_closed|now left]. }
  assert (Hnl : forall a b, In (a, b) nl <-> gE g a b /\ a <> b).
  { intros a b. unfold nl. rewrite filter_In. rewrite <- (gE_edges g a b W). unfold is_loop. cbn.
    destruct (N.eqb_spec a b); cbn; intuition. }
  assert (Hlp : forall a b, In (a, b) lp <-> gE g a b /\ a = b).
  { intros a b. unfold lp. rewrite filter_In. rewrite <- (gE_edges g a b W). unfold is_loop. cbn.
    destruct (N.eqb_spec a b); cbn; intuition discriminate. }
  assert (Nnl : NoDup nl) by (apply NoDup_filter; now apply NoDup_edges).
  assert (Nlp : NoDup lp) by (apply NoDup_filter; now apply NoDup_edges).
  assert (Hincl : incl rm nl).
  { intros [a b] He. apply K2 in He as [H1 H2]. apply Hnl. split; [assumption|]. intros ->.
    now apply (Hself b). }
  assert (Hle : length rm <= length nl) by now apply NoDup_incl_length.
  (* the listed vertices, when all edges but loops are removed *)
  assert (Hmem : (forall u v, gE g u v -> u <> v -> In u res) ->
    forall v, In v res <-> In v (vertices g) /\ ~ gE g v v).
  { intros Hall v. split.
    - intro Hv. split; [now apply K4|]. intro Hs. now apply (Hself v).
    - intros [H1 H2]. apply K4. split; [assumption|]. intros u Hu. apply K2. split; [assumption|].
      apply Hall with v; [assumption|]. now intros ->. }
  destruct (Nat.eqb_spec (length rm) (length nl + Nat.div (length lp) 2)) as [Hl|Hl]; cbn [negb].
  - assert (Hlp1 : length lp <= 1).
    { assert (Hd : Nat.div (length lp) 2 = 0) by lia. apply Nat.div_small_iff in Hd; lia. }
    assert (Hall : forall u v, gE g u v -> u <> v -> In u res).
    { intros u v He Hne. assert (Hi : In (u, v) nl) by now apply Hnl.
      apply (NoDup_length_incl K3) in Hi; [now apply K2 in Hi|lia|assumption]. }
    assert (Hcyc : forall l, closed_walk (gE g) l -> forall x, In x l -> gE g x x).
    { intros l Hc x Hx. assert (Hs : exists y, gE g x y).
      { destruct Hc as (s & (Hs & Ht & Hadj) & H2). apply in_split in Hx as (p & r & ->).
        destruct r as [|y r].
        - apply ends_with_snoc in Ht. subst x. destruct p as [|a p]; [cbn in H2; lia|].
          cbn in Hs. apply starts_with_cons in Hs. subst a.
          destruct p as [|b p]; [exists s|exists b]; apply Hadj; [now exists [], []|].
          now exists [], (p ++ [s]).
        - exists y. apply Hadj. now exists p, r. }
      destruct Hs as [y Hy]. destruct (N.eq_dec x y) as [->|Hne]; [assumption|].
      exfalso. apply (kinv_no_cycle g res rm K l Hc x Hx). now apply Hall with y. }
    split.
    + split; [intros _|intros _; discriminate].
      destruct lp as [|[v v'] lp'] eqn:El.
      * left. intros l Hc. assert (Hc' := Hc). destruct Hc' as (s & Hw & _).
        assert (Hs : gE g s s).
        { apply Hcyc with l; [assumption|]. apply starts_with_In. apply Hw. }
        destruct (Hlp s s) as [_ Hi]. destruct Hi. auto.
      * right. exists v. destruct (Hlp v v') as [Hi _]. destruct Hi as [Hi Hi2]; [now left|]. subst v'.
        assert (Huniq : forall x, gE g x x -> x = v).
        { intros x Hx. destruct (Hlp x x) as [_ Hi2]. destruct lp' as [|e lp']; [|cbn in Hlp1; lia].
          destruct Hi2 as [Hi2|[]]; [auto|congruence]. }
        split; [assumption|]. split.
        -- intros x Hx. destruct (N.eq_dec v x) as [->|Hne]; [reflexivity|].
           exfalso. apply (Hself v Hi). now apply Hall with x.
        -- intros l Hc x Hx. apply Huniq. now apply Hcyc with l.
    + intros order [= <-]. split.
      * split; [assumption|]. intro v. rewrite (Hmem Hall v), vertices_In. reflexivity.
      * intros u v He Hv. apply (kinv_forward g res rm K); [assumption|]. apply (Hmem Hall).
        split; [now apply (gE_vertices g W) in He|assumption].
  - split; [|discriminate]. split; [congruence|]. intro Hor. exfalso.
    assert (Hlp1 : length lp <= 1).
    { destruct lp as [|[a a'] [|[b b'] lp']] eqn:El; [cbn; lia|cbn; lia|exfalso].
      destruct (Hlp a a') as [Ha _]. destruct Ha as [Ha <-]; [now left|].
      destruct (Hlp b b') as [Hb' _]. destruct Hb' as [Hb' <-]; [right; now left|].
      assert (Hloop : forall x, gE g x x -> closed_walk (gE g) [x; x]).
      { intros x Hx. now apply loop_closed. }
      destruct Hor as [Hac|(v & _ & _ & Hv)]; [now apply (Hac [a; a]), Hloop|].
      assert (a = v) by (apply (Hv [a; a]); [now apply Hloop|now left]).
      assert (b = v) by (apply (Hv [b; b]); [now apply Hloop|now left]).
      subst. inversion Nlp as [|? ? Hn _]. apply Hn. now left. }
    assert (Hd : Nat.div (length lp) 2 = 0) by (apply Nat.div_small; lia).
    apply Hl. rewrite Hd. clear Hl Hd. rewrite Nat.add_0_r.
    apply Nat.le_antisymm; [assumption|]. apply NoDup_incl_length; [assumption|].
    intros [a b] He. apply Hnl in He as [He Hne]. apply K2. split; [assumption|].
    destruct (in_dec N.eq_dec a res) as [|Hn]; [assumption|exfalso].
    destruct Hor as [Hac|(v & Hv1 & Hv2 & Hv3)].
    + apply Hn. apply (kinv_acyclic_all g W res rm K Hac). now apply (gE_vertices g W) in He.
    + assert (Hav : a <> v) by (intros ->; apply Hne; symmetry; auto).
      destruct (pred_cycle (gE g) (filter (fun x => negb (memN x res) && negb (N.eqb x v)) (vertices g)) a)
        as (l & Hc & Hi).
      * apply filter_In. split; [now apply (gE_vertices g W) in He|]. apply andb_true_intro.
        split; apply negb_true_iff; [now apply memN_false|now apply N.eqb_neq].
      * intros x Hx. apply filter_In in Hx as [H1 H2]. apply andb_true_iff in H2 as [H2 H3].
        apply negb_true_iff in H2, H3. apply memN_false in H2. apply N.eqb_neq in H3.
        destruct (kinv_rest g W _ _ K x H1 H2) as (u & H4 & H5). exists u. split; [|assumption].
        apply filter_In. split; [now apply (gE_vertices g W) in H5|]. apply andb_true_intro.
        split; apply negb_true_iff; [now apply memN_false|apply N.eqb_neq]. intros ->. auto.
      * assert (Hc' := Hc). destruct Hc' as (x & Hw & _). assert (Hx : In x l).
        { apply starts_with_In. apply Hw. }
        pose proof (Hv3 l Hc x Hx) as ->. apply Hi in Hx. apply filter_In in Hx as [_ Hx].
        apply andb_true_iff in Hx as [_ Hx]. rewrite N.eqb_refl in Hx. discriminate.
Qed.
Print Assumptions C52_topo_exact.
Example C52_case : built (apply_commands [AddEdge 1 2; AddEdge 2 2; AddEdge 1 3] g_new) /\
  topological_sort (apply_commands [AddEdge 1 2; AddEdge 2 2; AddEdge 1 3] g_new) 10 = Done (Some [1; 3]%N) /\
  topological_sort (apply_commands [AddEdge 2 1; AddEdge 2 2; AddEdge 1 3] g_new) 10 = Done None.
Proof. split; [eexists; apply built_by_apply|]. split; vm_compute; reflexivity. Qed.
