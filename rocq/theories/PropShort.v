(** * Theorems on the DAG shortest and longest paths (C53-C55) *)
From Coq Require Import List NArith ZArith Bool Permutation Lia Arith.
From Verif Require Import Spec Base WalkFacts Graph GraphSpec GraphFacts PropGraph Path SearchFacts IterFacts Topo TopoFacts
  PropTopo ShortSpec ShortFacts DagFacts.
Import ListNotations.
Open Scope Z_scope.

(** The weight of an edge given by its ends. *)
Definition by_ends (w : edge -> Z) (a b : N) : Z := w (a, b).

(** The code run with enough fuel. *)
Lemma dag_run g w s : built g -> (forall v, contains_edge g (v, v) = false) -> acyclic (gE g) ->
  exists order n0, enumerates order (fun v => contains_vertex g v = true) /\
    (forall u v, gE g u v -> before u v order) /\
    settles (topological_sort g) (Some order) /\
    forall n, (n0 <= n)%nat -> dag_shortest_paths g w s n =
      dag_visit g w (skip_while (fun v => negb (N.eqb v s)) order) (m_init s).
Proof.
  intros Hb Hl Ha. destruct (C51_topological_sort g Hb Hl) as (r & Hr & _ & _ & H).
  destruct r as [order|]; [|exfalso; destruct H as [l Hc]; now apply Ha in Hc].
  destruct H as (_ & H1 & H2). destruct Hr as [n0 Hn0]. exists order, n0.
  split; [assumption|]. split; [assumption|]. split; [now exists n0|]. intros n Hn. unfold dag_shortest_paths. rewrite Hn0 by assumption.
  reflexivity.
Qed.

Lemma settles_const A (f : nat -> outcome A) n0 x a : (forall n, (n0 <= n)%nat -> f n = x) ->
  settles f a -> x = Done a.
Proof.
  intros H [n1 H1]. rewrite <- (H (n0 + n1)%nat) by lia. apply H1. lia.
Qed.

Lemma dag_answer g w s : built g -> (forall v, contains_edge g (v, v) = false) -> acyclic (gE g) ->
  forall m, settles (dag_shortest_paths g w s) m -> shortest_answer (gE g) (by_ends w) s (entry m).
Proof.
  intros Hb Hl Ha m Hm. pose proof (built_wf Hb) as W.
  destruct (dag_run g w s Hb Hl Ha) as (order & n0 & Ho & Hf & _ & Hrun).
  pose proof (settles_const _ _ _ _ _ Hrun Hm) as Hd.
  eapply visit_answer in Hd as [Hd _]; [exact Hd|exact W| | |].
  - now apply sfx_nodup with g.
  - intros u x Hu He. now apply (sfx_forward g s order).
  - intros u x Hr He. now apply (sfx_reach g s order W Ho Hf u x).
Qed.

(** ** C53 *)
Theorem C53_dag_shortest : forall g w s, built g -> (forall v, contains_edge g (v, v) = false) ->
  acyclic (gE g) ->
  (forall m, settles (dag_shortest_paths g w s) m -> shortest_answer (gE g) (by_ends w) s (entry m)) /\
  (forall t r, settles (dag_shortest_path g w s t) r ->
     match r with
     | Some sp => walk_from_to (gE g) s t (sp_path sp) /\ weight (by_ends w) (sp_path sp) = sp_score sp /\
         forall l, walk_from_to (gE g) s t l -> sp_score sp <= weight (by_ends w) l
     | None => ~ reachable (gE g) s t
     end).
Proof.
  intros g w s Hb Hl Ha. split; [now apply dag_answer|]. intros t r [n Hn].
  assert (Hm : exists m, settles (dag_shortest_paths g w s) m /\ r = sc_get t m).
  { destruct (dag_run g w s Hb Hl Ha) as (order & n0 & _ & _ & _ & Hrun).
    specialize (Hn (n + n0)%nat ltac:(lia)). unfold dag_shortest_path in Hn.
    apply obind_done in Hn as (m & Hm & Hr). injection Hr as <-. exists m. split; [|reflexivity].
    exists n0. intros k Hk. rewrite Hrun by assumption. rewrite <- Hm. symmetry. apply Hrun. lia. }
  destruct Hm as (m & Hm & ->). pose proof (dag_answer g w s Hb Hl Ha m Hm t) as H. unfold entry in H.
  destruct (sc_get t m); exact H.
Qed.
Print Assumptions C53_dag_shortest.

Lemma topo_acyclic g order : built g -> (forall v, contains_edge g (v, v) = false) ->
  settles (topological_sort g) (Some order) -> acyclic (gE g).
Proof.
  intros Hb Hl H. destruct (C51_topological_sort g Hb Hl) as (r & Hr & _ & _ & H2).
  rewrite (settles_fun _ _ _ _ Hr H) in H2. apply H2.
Qed.
Definition dag_w (e : edge) : Z := (Z.of_N (fst e) - 2 * Z.of_N (snd e)).
Lemma dag_graph_order : settles (topological_sort dag_graph) (Some [1; 9; 2; 3; 4; 5]%N).
Proof.
  destruct (C51_topological_sort dag_graph dag_built dag_loop_free) as (r & Hr & _).
  assert (r = Some [1; 9; 2; 3; 4; 5]%N) as <-; [|assumption].
  eapply settles_fun; [exact Hr|]. exists 7%nat. intros n Hn.
  do 7 (destruct n as [|n]; [lia|]). vm_compute. reflexivity.
Qed.
Lemma dag_graph_acyclic : acyclic (gE dag_graph).
Proof. exact (topo_acyclic _ _ dag_built dag_loop_free dag_graph_order). Qed.
Example C53_case : built dag_graph /\ (forall v, contains_edge dag_graph (v, v) = false) /\
  acyclic (gE dag_graph) /\
  dag_shortest_path dag_graph dag_w 1 5 9 = Done (Some {| sp_path := [1; 3; 4; 5]%N; sp_score := -16 |}) /\
  dag_shortest_path dag_graph dag_w 1 9 9 = Done None.
Proof.
  split; [exact dag_built|]. split; [exact dag_loop_free|]. split; [exact dag_graph_acyclic|].
  split; vm_compute; reflexivity.
Qed.

(** ** C54 *)
Theorem C54_dag_no_panic_refuted :
  ~ (forall g w s B, built g -> (forall v, contains_edge g (v, v) = false) -> acyclic (gE g) ->
     contains_vertex g s = true ->
     0 <= B -> (forall a b, gE g a b -> Z.abs (w (a, b)) <= B) ->
     B * Z.of_nat (vertex_count g + 1) < i64_max ->
     exists m, settles (dag_shortest_paths g w s) m).
Proof.
  intro H. set (g := apply_commands [AddEdge 1 2; AddEdge 3 4] g_new).
  assert (Hb : built g) by (eexists; apply built_by_apply).
  assert (Hl : forall v, contains_edge g (v, v) = false).
  { apply no_loops_dec; [apply (built_wf Hb)|vm_compute; reflexivity]. }
  assert (Ho : settles (topological_sort g) (Some [1; 3; 2; 4]%N)).
  { exists 5%nat. intros n Hn. do 5 (destruct n as [|n]; [lia|]). vm_compute. reflexivity. }
  destruct (H g (fun _ => 1) 1%N 1 Hb Hl (topo_acyclic _ _ Hb Hl Ho)) as [m [n0 Hm]].
  - reflexivity.
  - lia.
  - intros a b _. reflexivity || lia.
  - vm_compute. reflexivity.
  - specialize (Hm (5 + n0)%nat ltac:(lia)). vm_compute in Hm. discriminate.
Qed.
Print Assumptions C54_dag_no_panic_refuted.

(** Exactly when there is a panic: some vertex placed after the start by
    [topological_sort] has an outgoing edge but cannot be reached. *)
Theorem C54_dag_panic_exact : forall g w s B, built g -> (forall v, contains_edge g (v, v) = false) ->
  acyclic (gE g) -> 0 <= B -> (forall a b, gE g a b -> Z.abs (w (a, b)) <= B) ->
  B * Z.of_nat (vertex_count g + 1) < i64_max ->
  exists order, settles (topological_sort g) (Some order) /\
    ((forall u x, before s u order -> gE g u x -> reachable (gE g) s u) <->
       exists m, settles (dag_shortest_paths g w s) m) /\
    (~ (forall u x, before s u order -> gE g u x -> reachable (gE g) s u) <->
       panics (dag_shortest_paths g w s)).
Proof.
  intros g w s B Hb Hl Ha HB0 HB Hsm. pose proof (built_wf Hb) as W. rewrite vertex_count_len in Hsm.
  destruct (dag_run g w s Hb Hl Ha) as (order & n0 & Ho & Hf & Hts & Hrun).
  exists order. split; [exact Hts|].
  set (sfx := skip_while (fun v => negb (N.eqb v s)) order) in *.
  assert (T1 : NoDup sfx) by now apply sfx_nodup with g.
  assert (T2 : forall u x, In u sfx -> gE g u x -> before u x sfx)
    by (intros u x; now apply (sfx_forward g s order)).
  assert (T3 : forall u x, reachable (gE g) s u -> gE g u x -> In u sfx)
    by (intros u x; now apply (sfx_reach g s order W Ho Hf u x)).
  assert (Hcond : (forall u x, before s u order -> gE g u x -> reachable (gE g) s u) <->
    (forall u x, In u sfx -> gE g u x -> reachable (gE g) s u)).
  { split; intros H u x Hu He.
    - apply (sfx_In g s order Ho) in Hu as [_ [->|Hu]]; [eexists; apply walk_one|]. now apply (H u x).
    - apply (H u x); [|assumption]. apply (sfx_In g s order Ho). split; [|now right].
      destruct Hu as (p & q & r & ->). apply in_app_iff. right. now left. }
  rewrite Hcond.
  assert (Hdone : (forall u x, In u sfx -> gE g u x -> reachable (gE g) s u) <->
    exists m, dag_visit g w sfx (m_init s) = Done m).
  { split.
    - intro H. apply (visit_total g w s W sfx T1 T2 T3 B HB0 HB Hsm Ha H sfx []); [reflexivity|].
      apply init_dinv.
    - intros [m Hm]. now apply (visit_answer g w s W sfx T1 T2 T3) in Hm as [_ Hm]. }
  rewrite Hdone. pose proof (visit_outcome g w sfx (m_init s)) as Hnf. split; split.
  - intros [m Hm]. exists m, n0. intros n Hn. now rewrite Hrun.
  - intros [m Hm]. exists m. now apply (settles_const _ _ _ _ _ Hrun).
  - intro Hn. exists n0. intros n Hn0. rewrite Hrun by assumption.
    destruct (dag_visit g w sfx (m_init s)); [exfalso; eauto|reflexivity|contradiction].
  - intros [n1 Hn1] [m Hm]. specialize (Hn1 (n0 + n1)%nat ltac:(lia)). rewrite Hrun in Hn1 by lia. congruence.
Qed.
Print Assumptions C54_dag_panic_exact.

(** A condition on the graph alone that rules the panic out. *)
Theorem C54_dag_no_panic : forall g w s B, built g -> (forall v, contains_edge g (v, v) = false) ->
  acyclic (gE g) -> 0 <= B -> (forall a b, gE g a b -> Z.abs (w (a, b)) <= B) ->
  B * Z.of_nat (vertex_count g + 1) < i64_max ->
  (forall u x, gE g u x -> reachable (gE g) s u \/ reachable (gE g) u s) ->
  exists m, settles (dag_shortest_paths g w s) m.
Proof.
  intros g w s B Hb Hl Ha HB0 HB Hsm Hall.
  destruct (C54_dag_panic_exact g w s B Hb Hl Ha HB0 HB Hsm) as (order & Ho & [H _] & _).
  apply H. intros u x Hu He. destruct (Hall u x He) as [|Hr]; [assumption|exfalso].
  destruct (C51_topological_sort g Hb Hl) as (r & Hr' & _ & _ & H2).
  rewrite (settles_fun _ _ _ _ Hr' Ho) in H2. destruct H2 as (_ & [Hn _] & Hf).
  assert (Hw : forall l v, walk_from_to (gE g) u v l -> v = u \/ before u v order).
  { induction l as [|y l IH] using rev_ind; intros v Hl0; [now apply walk_nonempty in Hl0|].
    apply walk_inv in Hl0 as [[_ <-]|(l' & z & Heq & Hwz & Hez)]; [now left|right].
    apply app_inj_tail in Heq as [-> ->]. apply IH in Hwz. apply Hf in Hez.
    destruct Hwz as [->|Hwz]; [assumption|].
    destruct Hez as (p & q & r0 & Hp). pose proof Hwz as Hwz'. rewrite Hp in Hwz'.
    apply before_split in Hwz'; [|now rewrite <- Hp]. apply in_split in Hwz' as (p1 & p2 & ->).
    exists p1, (p2 ++ z :: q), r0. rewrite Hp. rewrite <- !app_assoc. reflexivity. }
  assert (Hno : forall a, ~ before a a order).
  { intros a (p & q & r0 & Hp). rewrite Hp in Hn. apply NoDup_app_iff in Hn as (_ & Hn & _).
    inversion Hn as [|? ? Hn1 _]. apply Hn1. apply in_app_iff. right. now left. }
  destruct Hr as [l Hl0]. apply Hw in Hl0 as [->|Hb2]; [now apply (Hno u)|].
  destruct Hu as (p & q & r0 & Hp). rewrite Hp in Hb2.
  replace (p ++ s :: q ++ u :: r0) with (p ++ s :: (q ++ u :: r0)) in Hb2 by reflexivity.
  apply before_split in Hb2; [|now rewrite <- Hp]. rewrite Hp in Hn. apply NoDup_app_iff in Hn as (_ & _ & Hd).
  apply (Hd u Hb2). right. apply in_app_iff. right. now left.
Qed.
Print Assumptions C54_dag_no_panic.
Example C54_case : built dag_graph /\ (forall v, contains_edge dag_graph (v, v) = false) /\
  acyclic (gE dag_graph) /\
  (forall u x, gE dag_graph u x -> reachable (gE dag_graph) 1 u \/ reachable (gE dag_graph) u 1) /\
  (forall a b, gE dag_graph a b -> Z.abs (dag_w (a, b)) <= 100) /\
  100 * Z.of_nat (vertex_count dag_graph + 1) < i64_max.
Proof.
  split; [exact dag_built|]. split; [exact dag_loop_free|]. split; [exact dag_graph_acyclic|].
  assert (He : forall a b, gE dag_graph a b -> In (a, b) [(1, 2); (1, 3); (2, 4); (3, 4); (4, 5)]%N).
  { intros a b H. apply (gE_edges _ _ _ (built_wf dag_built)) in H. vm_compute in H.
    cbn. unfold edge in *. intuition. }
  split; [|split].
  - intros u x H. left. apply He in H. cbn in H.
    destruct H as [H|[H|[H|[H|[H|[]]]]]]; injection H as <- <-.
    + exists [1]%N. concrete_walk.
    + exists [1]%N. concrete_walk.
    + exists [1; 2]%N. concrete_walk.
    + exists [1; 3]%N. concrete_walk.
    + exists [1; 3; 4]%N. concrete_walk.
  - intros a b H. apply He in H. cbn in H.
    destruct H as [H|[H|[H|[H|[H|[]]]]]]; injection H as <- <-; vm_compute; discriminate.
  - vm_compute. reflexivity.
Qed.

(** ** C55 *)
Theorem C55_dag_longest : forall g w s, built g -> (forall v, contains_edge g (v, v) = false) ->
  acyclic (gE g) ->
  (forall m, settles (dag_longest_paths g w s) m -> longest_answer (gE g) (by_ends w) s (entry m)) /\
  (forall t r, settles (dag_longest_path g w s t) r ->
     exists m, settles (dag_longest_paths g w s) m /\ r = sc_get t m).
Proof.
  intros g w s Hb Hl Ha.
  destruct (dag_run g (fun e => -1 * w e) s Hb Hl Ha) as (order & n0 & _ & _ & _ & Hrun).
  assert (Hsplit : forall n m, (n0 <= n)%nat -> dag_longest_paths g w s n = Done m ->
    exists m1, settles (dag_shortest_paths g (fun e => -1 * w e) s) m1 /\ negate_scores m1 = Done m).
  { intros n m Hn H. unfold dag_longest_paths in H. apply obind_done in H as (m1 & H1 & H2).
    exists m1. split; [|assumption]. exists n0. intros k Hk. rewrite Hrun by assumption.
    rewrite <- H1. symmetry. now apply Hrun. }
  split.
  - intros m [n Hm]. destruct (Hsplit (n + n0)%nat m ltac:(lia) (Hm (n + n0)%nat ltac:(lia))) as (m1 & H1 & H2).
    intro x. pose proof (negate_get m1 m H2 x) as Hx.
    pose proof (dag_answer g (fun e => -1 * w e) s Hb Hl Ha m1 H1 x) as H3. unfold entry in *.
    destruct (sc_get x m1) as [sp|]; rewrite Hx; [|assumption].
    destruct H3 as (H4 & H5 & H6). cbn [scored_path_of sp_path sp_score]. split; [assumption|].
    assert (Hneg : forall l, weight (by_ends (fun e => -1 * w e)) l = - weight (by_ends w) l)
      by (intro l; exact (weight_neg (by_ends w) l)).
    rewrite Hneg in H5. split; [lia|]. intros l Hl0. specialize (H6 l Hl0). rewrite Hneg in H6. lia.
  - intros t r [n Hn]. pose proof (Hn (n + n0)%nat ltac:(lia)) as H. unfold dag_longest_path in H.
    apply obind_done in H as (m & Hm & Hr). injection Hr as <-. exists m. split; [|reflexivity].
    destruct (Hsplit (n + n0)%nat m ltac:(lia) Hm) as (m1 & [n1 H1] & H2). exists n1. intros k Hk.
    unfold dag_longest_paths. rewrite H1 by assumption. exact H2.
Qed.
Print Assumptions C55_dag_longest.
Example C55_case : built dag_graph /\ (forall v, contains_edge dag_graph (v, v) = false) /\
  acyclic (gE dag_graph) /\
  dag_longest_path dag_graph dag_w 1 5 9 = Done (Some {| sp_path := [1; 2; 4; 5]%N; sp_score := -15 |}).
Proof.
  split; [exact dag_built|]. split; [exact dag_loop_free|]. split; [exact dag_graph_acyclic|].
  vm_compute; reflexivity.
Qed.
