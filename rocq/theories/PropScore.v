(** * C108-C109: A* with 64-bit scores *)
From Coq Require Import List NArith ZArith Bool Permutation Lia Arith.
From Verif Require Import Spec Base WalkFacts Graph GraphSpec GraphFacts Path PathFacts ConstraintSpec
  Queue Heap Iter IterFacts TreeFacts SearchFacts BestFacts ConstrainedFacts Topo Release ReleaseFacts
  Score ScoreFacts PropSearch.
Import ListNotations.
Local Open Scope nat_scope.

(** The range of i64. *)
Definition in_i64 (z : Z) : Prop := (- 2 ^ 63 <= z < 2 ^ 63)%Z.
Lemma in_i64_bounds z : in_i64 z <-> (i64_min <= z <= i64_max)%Z.
Proof. unfold in_i64, i64_min, i64_max. lia. Qed.
Lemma undefined_iff cost heur p : checked_score cost heur p = None <-> ~ in_i64 (cost p + heur p)%Z.
Proof. rewrite checked_none. now rewrite in_i64_bounds. Qed.

Section Lemmas.
  Variables (Q : squeue scored) (g : graph) (cost heur : path -> Z) (s t : N).
  Hypothesis Hb : built g.

  Lemma a_checked n : a_star_checked Q g cost heur s t n = a_star Q g cost heur s t n \/
    (a_star_checked Q g cost heur s t n = Panic /\
     exists p, simple_from (gE g) s p /\ ~ in_i64 (cost p + heur p)%Z).
  Proof.
    destruct (p_a_star_spec Q g (checked_score cost heur) _ s (built_wf Hb) (checked_extends cost heur) t n)
      as [H|(H & p & Hp & Hn)]; [now left|]. right. split; [exact H|]. exists p.
    split; [exact Hp|]. now apply undefined_iff.
  Qed.
  Lemma a_release n : a_star_release Q g cost heur s t n =
    a_star Q g (fun p => wrap (cost p + heur p)%Z) (fun _ => 0%Z) s t n.
  Proof.
    destruct (p_a_star_spec Q g (wrapped_score cost heur) (fun p => wrap (cost p + heur p) + 0)%Z s (built_wf Hb)) with (t := t) (n := n)
      as [H|(H & p & Hp & Hn)]; [|exact H|discriminate Hn].
    intros p z Hz. unfold wrapped_score in Hz. rewrite Z.add_0_r. congruence.
  Qed.
  Lemma a_agree n r : a_star_checked Q g cost heur s t n = Done r -> a_star_release Q g cost heur s t n = Done r.
  Proof.
    intro H. rewrite a_release.
    destruct (p_a_star_spec Q g (checked_score cost heur) (fun p => wrap (cost p + heur p) + 0)%Z s (built_wf Hb)) with (t := t) (n := n)
      as [E|(E & _)].
    - intros p z Hz. rewrite Z.add_0_r. now apply (checked_wrapped cost heur).
    - unfold a_star_checked in H. rewrite E in H. exact H.
    - unfold a_star_checked in H. rewrite E in H. discriminate H.
  Qed.
  Lemma a_panic_mono n m : a_star_checked Q g cost heur s t n = Panic -> n <= m ->
    a_star_checked Q g cost heur s t m = Panic.
  Proof.
    unfold a_star_checked, p_a_star. destruct (p_best_iter_from Q (checked_score cost heur) s); [|reflexivity].
    apply iter_find_panic_mono.
  Qed.
End Lemmas.

(** ** C108 *)
Theorem C108_a_star_checked : forall (Q : squeue scored) g cost heur s t, built g ->
  (* the exact result, or a panic because of some path whose score leaves the range *)
  (forall fuel, a_star_checked Q g cost heur s t fuel = a_star Q g cost heur s t fuel \/
     a_star_checked Q g cost heur s t fuel = Panic /\
     exists p, simple_from (gE g) s p /\ ~ in_i64 (cost p + heur p)%Z) /\
  (* the search always ends, one way or the other *)
  ((exists r, settles (a_star_checked Q g cost heur s t) r) \/ panics (a_star_checked Q g cost heur s t)) /\
  (* an answer is right *)
  (forall r, settles (a_star_checked Q g cost heur s t) r ->
     (r = None <-> ~ reachable (gE g) s t) /\
     (forall sp, r = Some sp -> simple_from_to (gE g) s t (sp_path sp) /\
        sp_score sp = (cost (sp_path sp) + heur (sp_path sp))%Z)) /\
  (* the optimised build gives the same answer *)
  (forall fuel r, a_star_checked Q g cost heur s t fuel = Done r -> a_star_release Q g cost heur s t fuel = Done r).
Proof.
  intros Q g cost heur s t Hb.
  destruct (C44_a_star_iff_reachable Q g cost heur s t Hb) as (r & [n0 Hr] & Hr1 & Hr2).
  refine (conj _ (conj _ (conj _ _))).
  - intro fuel. apply (a_checked Q g cost heur s t Hb).
  - destruct (a_checked Q g cost heur s t Hb n0) as [E|[E _]].
    + left. exists r. exists n0. intros n Hn. destruct (a_checked Q g cost heur s t Hb n) as [E'|[E' _]].
      { rewrite E'. now apply Hr. }
      exfalso. rewrite (Hr n0 (le_n _)) in E. revert E E'.
      unfold a_star_checked, p_a_star. destruct (p_best_iter_from Q (checked_score cost heur) s) as [st|]; [|discriminate].
      intros E E'. pose proof (iter_find_mono _ _ _ _ _ n E Hn) as E2. unfold vstate in *. rewrite E2 in E'. discriminate E'.
    + right. exists n0. intros n Hn. now apply (a_panic_mono Q g cost heur s t n0).
  - intros r' [n1 H]. assert (r' = r) as ->; [|auto].
    set (n := n0 + n1). specialize (H n ltac:(lia)). specialize (Hr n ltac:(lia)).
    destruct (a_checked Q g cost heur s t Hb n) as [E|[E _]]; congruence.
  - intros fuel r'. apply (a_agree Q g cost heur s t Hb).
Qed.
Print Assumptions C108_a_star_checked.

Theorem C108_in_range : forall (Q : squeue scored) g cost heur s t, built g ->
  (forall p, simple_from (gE g) s p -> in_i64 (cost p + heur p)%Z) ->
  forall fuel, a_star_checked Q g cost heur s t fuel = a_star Q g cost heur s t fuel /\
    a_star_release Q g cost heur s t fuel = a_star Q g cost heur s t fuel.
Proof.
  intros Q g cost heur s t Hb Hr fuel.
  assert (E : a_star_checked Q g cost heur s t fuel = a_star Q g cost heur s t fuel).
  { destruct (a_checked Q g cost heur s t Hb fuel) as [E|[_ (p & Hp & Hn)]]; [exact E|]. now apply Hr in Hp. }
  split; [exact E|].
  destruct (p_a_star_spec Q g (checked_score cost heur) (fun p => wrap (cost p + heur p) + 0)%Z s (built_wf Hb)) with (t := t) (n := fuel)
    as [E1|(_ & p & Hp & Hn)].
  - intros p z Hz. rewrite Z.add_0_r. now apply (checked_wrapped cost heur).
  - rewrite (a_release Q g cost heur s t Hb). unfold a_star_checked in E. rewrite <- E, E1. reflexivity.
  - apply undefined_iff in Hn. now apply Hr in Hp.
Qed.
Print Assumptions C108_in_range.

(** Counting edges, as gc-short-path and gc-csp do, needs no care. *)
Lemma unit_range p : (N.of_nat (length p) <= 2 ^ 63)%N -> in_i64 (one_weighted_edge p + zero_heuristic p)%Z.
Proof. unfold in_i64, one_weighted_edge, zero_heuristic, path_size. lia. Qed.
Theorem C108_edge_count : forall (Q : squeue scored) g s t, built g ->
  (N.of_nat (length (vertices g)) < 2 ^ 63)%N ->
  forall fuel, a_star_checked Q g one_weighted_edge zero_heuristic s t fuel = a_star Q g one_weighted_edge zero_heuristic s t fuel /\
    a_star_release Q g one_weighted_edge zero_heuristic s t fuel = a_star Q g one_weighted_edge zero_heuristic s t fuel.
Proof.
  intros Q g s t Hb Hl. apply C108_in_range; [exact Hb|]. intros p Hp.
  apply unit_range. apply (simple_length g (built_wf Hb) s) in Hp. lia.
Qed.
Print Assumptions C108_edge_count.

(** The release build on its own, whatever overflows. *)
Theorem C108_a_star_release : forall (Q : squeue scored) g cost heur s t, built g ->
  exists r, settles (a_star_release Q g cost heur s t) r /\
    (r = None <-> ~ reachable (gE g) s t) /\
    (forall sp, r = Some sp -> simple_from_to (gE g) s t (sp_path sp) /\ in_i64 (sp_score sp) /\
       exists k, (sp_score sp = cost (sp_path sp) + heur (sp_path sp) + k * 2 ^ 64)%Z).
Proof.
  intros Q g cost heur s t Hb.
  destruct (C44_a_star_iff_reachable Q g (fun p => wrap (cost p + heur p)%Z) (fun _ => 0%Z) s t Hb) as (r & [n0 H] & H1 & H2).
  exists r. split; [|split; [exact H1|]].
  - exists n0. intros n Hn. rewrite (a_release Q g cost heur s t Hb). now apply H.
  - intros sp Hsp. destruct (H2 sp Hsp) as [Hs Hsc]. rewrite Z.add_0_r in Hsc. split; [exact Hs|]. rewrite Hsc.
    split; [apply in_i64_bounds, wrap_range|apply wrap_congruent].
Qed.
Print Assumptions C108_a_star_release.

(** With constraints. *)
Lemma c_wrapped_ext cost heur : extends (checked_score cost heur) (fun p => wrap (cost p + heur p) + 0)%Z.
Proof. intros p z Hz. rewrite Z.add_0_r. now apply (checked_wrapped cost heur). Qed.
Theorem C108_constrained : forall (Q : squeue scored) g cost heur cs s t fuel, built g ->
  (constrained_checked Q g cost heur s t cs fuel = constrained_shortest_path Q g cost heur s t cs fuel \/
   constrained_checked Q g cost heur s t cs fuel = Panic /\
   exists p, walk_from (gE g) s p /\ ~ in_i64 (cost p + heur p)%Z) /\
  (forall r, constrained_checked Q g cost heur s t cs fuel = Done r -> constrained_release Q g cost heur s t cs fuel = Done r) /\
  (* the optimised build never panics, and what it finds is asked for as far as wrapped scores tell *)
  constrained_release Q g cost heur s t cs fuel <> Panic /\
  (forall sp, constrained_release Q g cost heur s t cs fuel = Done (Some sp) ->
     walk_from_to (gE g) s t (sp_path sp) /\ in_i64 (sp_score sp) /\
     (exists k, (sp_score sp = cost (sp_path sp) + heur (sp_path sp) + k * 2 ^ 64)%Z) /\
     forall c, In c cs -> holds c (sp_path sp) (sp_score sp)).
Proof.
  intros Q g cost heur cs s t fuel Hb. set (wc := fun p => wrap (cost p + heur p)%Z).
  assert (HR : constrained_release Q g cost heur s t cs fuel =
               constrained_shortest_path Q g wc (fun _ => 0%Z) s t cs fuel).
  { destruct (p_constrained_spec Q g (wrapped_score cost heur) (fun p => wrap (cost p + heur p) + 0)%Z s (built_wf Hb)) with (cs := cs) (t := t) (n := fuel)
      as [H|(H & p & _ & Hn & _)]; [|exact H|discriminate Hn].
    intros p z Hz. unfold wrapped_score in Hz. rewrite Z.add_0_r. congruence. }
  refine (conj _ (conj _ (conj _ _))).
  - destruct (p_constrained_spec Q g (checked_score cost heur) _ s (built_wf Hb) (checked_extends cost heur) cs t fuel)
      as [H|(H & p & Hp & Hn & _)]; [now left|]. right. split; [exact H|]. exists p.
    split; [exact Hp|]. now apply undefined_iff.
  - intros r H. rewrite HR.
    destruct (p_constrained_spec Q g (checked_score cost heur) _ s (built_wf Hb) (c_wrapped_ext cost heur) cs t fuel) as [E|(E & _)];
      unfold constrained_checked in H; rewrite E in H; [exact H|discriminate H].
  - rewrite HR. unfold constrained_shortest_path. intro H.
    assert (Hno : forall n out q, cinv Q g (fun p => wc p + 0)%Z cs s out q ->
      iter_find (fun sp => last_is t sp && forallb (fun c => check_complete c sp) cs)
        (constrained_next Q g (fun p => wc p + 0)%Z cs) n q <> Panic).
    { induction n as [|n IH]; intros out q HI; [discriminate|]. cbn [iter_find].
      pose proof (constrained_step Q g _ cs s (built_wf Hb) out q HI) as Hs.
      destruct (q_pop Q q) as [[a q']|] eqn:Ep.
      - destruct Hs as (-> & _ & HI'). destruct (last_is t a && _); [discriminate|]. now apply (IH (out ++ [a])).
      - unfold constrained_next, tree_next. rewrite Ep. discriminate. }
    exact (Hno fuel [] _ (constrained_init Q g _ cs s) H).
  - intros sp H. rewrite HR in H.
    destruct (C47_constrained_optimal Q g wc (fun _ => 0%Z) cs s t fuel sp Hb H) as (Hw & Hsc & Hc & _).
    rewrite <- Hsc in Hc. rewrite Z.add_0_r in Hsc. split; [exact Hw|]. split; [|split; [|exact Hc]].
    + rewrite Hsc. apply in_i64_bounds, wrap_range.
    + rewrite Hsc. apply wrap_congruent.
Qed.
Print Assumptions C108_constrained.

(** Edge counts cannot overflow before 2^63 paths have been taken from the queue. *)
Theorem C108_constrained_edge_count : forall (Q : squeue scored) g cs s t fuel, built g ->
  (N.of_nat fuel < 2 ^ 63)%N ->
  constrained_checked Q g one_weighted_edge zero_heuristic s t cs fuel =
  constrained_shortest_path Q g one_weighted_edge zero_heuristic s t cs fuel.
Proof.
  intros Q g cs s t fuel Hb Hf.
  set (f := checked_score one_weighted_edge zero_heuristic).
  set (f' := fun p => (one_weighted_edge p + zero_heuristic p)%Z).
  assert (Hext : extends f f') by apply checked_extends.
  set (pr := fun sp => last_is t sp && forallb (fun c => check_complete c sp) cs).
  assert (HG : forall n out q, cinv Q g f' cs s out q ->
    (forall x, In x (q_content Q q) -> length (sp_path x) <= length out + 1) ->
    (N.of_nat (length out + n) < 2 ^ 63)%N ->
    iter_find pr (p_constrained_next Q g f cs) n q = iter_find pr (constrained_next Q g f' cs) n q).
  { induction n as [|n IH]; intros out q HI Hlen Hn; [reflexivity|]. cbn [iter_find].
    pose proof (constrained_step Q g f' cs s (built_wf Hb) out q HI) as Hs.
    pose proof (ci_valid _ _ _ _ _ _ _ HI) as Hv.
    assert (E : p_constrained_next Q g f cs q = constrained_next Q g f' cs q).
    { unfold p_constrained_next. unfold constrained_next, tree_next in *.
      destruct (q_pop Q q) as [[a q']|] eqn:Ep; [|reflexivity].
      destruct Hs as (Hy & Hina & _). unfold kidsl in Hy. unfold constrained_kids in *.
      destruct (path_last (sp_path a)) as [u|]; [|reflexivity].
      destruct (p_constrained_fold Q f f' Hext cs a (outbound_edges g u) q') as [-> | (_ & v & _ & Hu)]; [reflexivity|].
      exfalso. apply undefined_iff in Hu. apply Hu, unit_range. rewrite app_length. cbn [length].
      specialize (Hlen a Hina). lia. }
    rewrite E. destruct (q_pop Q q) as [[a q']|] eqn:Ep.
    2:{ unfold constrained_next, tree_next. now rewrite Ep. }
    destruct Hs as (-> & Hina & HI'). destruct (pr a); [reflexivity|]. apply (IH (out ++ [a])); [exact HI'| |].
    - intros x Hx. rewrite app_length. cbn [length].
      pose proof (q_pop_valid _ _ _ _ _ Hv Ep) as Hv'. pose proof (q_pop_content _ _ _ _ _ Hv Ep) as Hp.
      rewrite push_all_content, in_app_iff in Hx by assumption. destruct Hx as [Hx|Hx].
      + unfold kidsl, constrained_kids in Hx. destruct (path_last (sp_path a)) as [u|]; [|contradiction].
        apply filter_In in Hx as [Hx _]. apply in_map_iff in Hx as (e & <- & _).
        unfold scored_child, path_append. cbn [sp_path]. rewrite app_length. cbn [length].
        specialize (Hlen a Hina). lia.
      + assert (Hi : In x (q_content Q q)) by (rewrite Hp; now right). specialize (Hlen x Hi). lia.
    - rewrite app_length. cbn [length]. lia. }
  unfold constrained_checked, p_constrained_shortest_path, p_constrained_iter_from. fold f.
  change (path_append path_empty s) with [s].
  destruct (f [s]) as [z|] eqn:E.
  - rewrite <- (Hext _ _ E). apply (HG fuel []); [apply constrained_init| |cbn; lia].
    intros x Hx. rewrite q_push_content in Hx by apply q_empty_valid. rewrite q_empty_content in Hx.
    destruct Hx as [<-|[]]. cbn. lia.
  - exfalso. apply undefined_iff in E. apply E, unit_range. cbn. lia.
Qed.
Print Assumptions C108_constrained_edge_count.

(** ** C109: the release build and values that are each in range *)
Definition far_graph : graph := apply_commands [AddEdge 1 2; AddEdge 2 4; AddEdge 1 3; AddEdge 3 4]%N g_new.
(** A step into vertex 2 is as dear as an i64 can say. *)
Definition far_weight (a b : N) : Z :=
  if N.eqb b 2 then i64_max else if N.eqb a 2 then 0%Z else 1%Z.
Definition far_estimate (p : path) : Z := match path_last p with Some v => if N.eqb v 4 then 0%Z else 1%Z | None => 1%Z end.

Lemma far_edges u v : gE far_graph u v -> In (u, v) [(1, 2); (2, 4); (1, 3); (3, 4)]%N.
Proof.
  assert (Hb : built far_graph) by (eexists; apply built_by_apply).
  intro H. assert (Hu : In u (vertices far_graph)) by now apply (gE_vertices _ (built_wf Hb)) in H.
  apply (gE_outbound _ (built_wf Hb)) in H.
  vm_compute in Hu. repeat (destruct Hu as [<-|Hu]; [vm_compute in H; cbn; intuition congruence|]). contradiction.
Qed.
Lemma far_walks p : walk_from (gE far_graph) 1%N p -> In p [[1]; [1; 2]; [1; 3]; [1; 2; 4]; [1; 3; 4]]%N.
Proof.
  induction p as [|v p IH] using rev_ind; intro H.
  - destruct H as [[q Hq] _]. discriminate Hq.
  - apply walk_from_snoc in H as [[-> ->]|(u & Hw & He)]; [now left|].
    pose proof (walk_from_to_from Hw) as Hf. apply IH in Hf. apply far_edges in He.
    pose proof (proj1 (proj2 Hw)) as Hu.
    assert (Hl : path_last p = Some u) by now apply path_last_spec.
    repeat (destruct Hf as [<-|Hf]; [cbn in Hl; injection Hl as <-; cbn in He |- *; intuition congruence|]). contradiction.
Qed.

Example C108_case : built far_graph /\
  settles (a_star_checked (MinPriorityQueue sp_score) far_graph (weight (fun _ _ => 5%Z)) far_estimate 1%N 4%N)
    (Some {| sp_path := [1; 2; 4]%N; sp_score := 10 |}) /\
  (forall p, simple_from (gE far_graph) 1%N p -> in_i64 (one_weighted_edge p + far_estimate p)%Z).
Proof.
  assert (Hb : built far_graph) by (eexists; apply built_by_apply). split; [exact Hb|]. split.
  - exists 10. intros n Hn. unfold a_star_checked, p_a_star.
    destruct (p_best_iter_from _ _ _) eqn:E; [|discriminate E].
    apply iter_find_mono with 10; [|assumption]. injection E as <-. vm_compute. reflexivity.
  - intros p [Hp _]. apply far_walks in Hp.
    repeat (destruct Hp as [<-|Hp]; [vm_compute; intuition discriminate|]). contradiction.
Qed.

Theorem C109_sum_of_valid_values_refuted : exists g w heur s t sp best l, built g /\
  (* every cost and every estimate is in range and none is negative *)
  (forall p, simple_from (gE g) s p -> (0 <= weight w p)%Z /\ in_i64 (weight w p)) /\
  (forall p, (0 <= heur p)%Z /\ in_i64 (heur p)) /\
  (* exact arithmetic finds the cheap path *)
  settles (a_star (MinPriorityQueue sp_score) g (weight w) heur s t) (Some best) /\ (weight w (sp_path best) = 2)%Z /\
  (* with overflow checks the search panics *)
  panics (a_star_checked (MinPriorityQueue sp_score) g (weight w) heur s t) /\
  (* without them it returns the dearest path there is *)
  settles (a_star_release (MinPriorityQueue sp_score) g (weight w) heur s t) (Some sp) /\
  walk_from_to (gE g) s t l /\ (weight w l = 2)%Z /\ (weight w (sp_path sp) = 2 ^ 63 - 1)%Z.
Proof.
  exists far_graph, far_weight, far_estimate, 1%N, 4%N, {| sp_path := [1; 2; 4]%N; sp_score := i64_max |},
    {| sp_path := [1; 3; 4]%N; sp_score := 2 |}, [1; 3; 4]%N.
  assert (Hb : built far_graph) by (eexists; apply built_by_apply). split; [exact Hb|].
  refine (conj _ (conj _ (conj _ (conj _ (conj _ (conj _ (conj _ (conj _ _)))))))).
  - intros p [Hp _]. apply far_walks in Hp.
    repeat (destruct Hp as [<-|Hp]; [vm_compute; intuition discriminate|]). contradiction.
  - intro p. unfold far_estimate, in_i64. destruct (path_last p) as [v|]; [destruct (N.eqb v 4)|]; lia.
  - exists 10. intros n Hn. unfold a_star. apply iter_find_mono with 10; [|assumption]. vm_compute. reflexivity.
  - vm_compute. reflexivity.
  - exists 10. intros n Hn. apply (a_panic_mono _ _ _ _ _ _ 10); [|assumption]. vm_compute. reflexivity.
  - exists 10. intros n Hn. unfold a_star_release, p_a_star.
    destruct (p_best_iter_from _ _ _) eqn:E; [|discriminate E].
    apply iter_find_mono with 10; [|assumption]. injection E as <-. vm_compute. reflexivity.
  - concrete_walk.
  - vm_compute. reflexivity.
  - vm_compute. reflexivity.
Qed.
Print Assumptions C109_sum_of_valid_values_refuted.
