(** * How many steps the searches take *)
From Coq Require Import List NArith ZArith Bool Permutation Lia Arith.
From Verif Require Import Spec Base WalkFacts Graph GraphSpec GraphFacts Path PathFacts Queue ConstraintSpec Iter IterFacts TreeFacts
  SearchFacts BestFacts ConstrainedFacts Topo TopoFacts Cycle CycleSpec CycleFacts MaxFlow FlowSpec FlowFacts FlowFamily.
Import ListNotations.
Local Open Scope nat_scope.

(** ** Counting calls *)
Lemma collect_calls A S (next : S -> step A S) n : forall s l, collect next n s = Done l -> length l < n.
Proof.
  induction n as [|n IH]; cbn; intros s l H; [discriminate|].
  destruct (next s) as [a s'| |]; [|injection H as <-; cbn; lia|discriminate].
  destruct (collect next n s') as [l'| |] eqn:E; cbn in H; try discriminate. injection H as <-.
  apply IH in E. cbn. lia.
Qed.
Lemma collect_exact A S (next : S -> step A S) n : forall s l, collect next n s = Done l ->
  forall m, collect next m s = Done l <-> length l < m.
Proof.
  intros s l H m. split; [apply collect_calls|]. revert s l m H.
  induction n as [|n IH]; cbn; intros s l m H Hm; [discriminate|].
  destruct m as [|m]; [lia|]. cbn.
  destruct (next s) as [a s'| |]; [|assumption|discriminate].
  destruct (collect next n s') as [l'| |] eqn:E; cbn in H; try discriminate. injection H as <-.
  cbn in Hm. rewrite (IH s' l' m E) by lia. reflexivity.
Qed.
Lemma iter_find_none_collect A S (next : S -> step A S) pred n : forall s, iter_find pred next n s = Done None ->
  exists l, collect next n s = Done l.
Proof.
  induction n as [|n IH]; cbn; intros s H; [discriminate|].
  destruct (next s) as [a s'| |]; [|now exists []|discriminate].
  destruct (pred a); [discriminate|]. apply IH in H as [l ->]. now exists (a :: l).
Qed.

(** ** Searches with a visited set *)
Section Visit.
  Variables (A : Type) (Q : squeue A) (g : graph).
  Variables (lastv : A -> option N) (mk : A -> N -> A) (lv : A -> N).
  Hypothesis Hwf : wf g.
  Hypothesis Hlv : forall a v, lastv a = Some (lv a) -> lastv (mk a v) = Some v /\ lv (mk a v) = v.
  Variables (a0 : A) (s : N).
  Hypothesis Ha0 : lastv a0 = Some (lv a0).
  Hypothesis Hs : lv a0 = s.

  Lemma visit_calls out : settles (fun n => collect (visit_next A Q g lastv mk) n (visit_from A Q a0 s)) out ->
    length out <= vertex_count g + (if contains_vertex g s then 0 else 1).
  Proof.
    intro H. destruct (visit_collect A Q g lastv mk lv Hwf Hlv a0 s Ha0 Hs) as (out' & H1 & H2 & _).
    rewrite (settles_fun _ _ _ _ H H1). destruct H2 as [H2 H3].
    rewrite vertex_count_len, <- (map_length lv). destruct (contains_vertex g s) eqn:Es.
    - apply vertices_In in Es. rewrite Nat.add_0_r.
      apply NoDup_incl_length; [assumption|]. intros v Hv. now apply H3, reachable_hasV in Hv as [->|Hv].
    - replace (length (vertices g) + 1) with (length (s :: vertices g)) by (cbn; lia).
      apply NoDup_incl_length; [assumption|]. intros v Hv. apply H3, reachable_hasV in Hv as [->|Hv]; [now left|now right|assumption].
  Qed.
End Visit.

(** ** Searches without one: everything that can be built is popped *)
Section Tree.
  Variables (A : Type) (kids : A -> option (list A)) (Q : squeue A).
  Lemma tree_collect_all n : forall q l, q_valid Q q -> collect (tree_next A Q kids) n q = Done l ->
    forall a b, In a (q_content Q q) -> desc A kids a b -> In b l.
  Proof.
    induction n as [|n IH]; cbn [collect]; intros q l Hv H a b Ha Hd; [discriminate|].
    unfold tree_next in H at 1. destruct (q_pop Q q) as [[x q']|] eqn:Ep.
    2:{ apply (q_pop_none _ Q q Hv) in Ep. rewrite Ep in Ha. contradiction. }
    destruct (kids x) as [ks|] eqn:Ek; [|discriminate].
    destruct (collect (tree_next A Q kids) n (push_all Q ks q')) as [l'| |] eqn:El; cbn [obind] in H; try discriminate.
    injection H as <-. pose proof (q_pop_valid _ Q q x q' Hv Ep) as Hv'.
    pose proof (q_pop_content _ Q q x q' Hv Ep) as Hc. rewrite Hc in Ha.
    assert (Hrest : forall c, In c (ks ++ q_content Q q') -> desc A kids c b -> In b l').
    { intros c Hin Hdc. apply (IH (push_all Q ks q') l' (push_all_valid _ Q ks q' Hv') El c b); [|assumption].
      now rewrite push_all_content. }
    destruct Ha as [<-|Ha].
    - apply desc_inv_left in Hd as [->|(c & Hin & Hdc)]; [now left|]. right. apply (Hrest c); [|assumption].
      apply in_app_iff. left. unfold kidsl in Hin. now rewrite Ek in Hin.
    - right. apply (Hrest a); [|assumption]. apply in_app_iff. now right.
  Qed.
End Tree.

(** ** Augmenting paths *)
Section Flow.
  Variables (g : graph) (s t : N).
  Hypothesis W : wf g.

  Lemma aug_exhausts m n : forall q, (forall p, In p q -> simple_from (gE g) s p) ->
    aug_next g m t n (map tag q) = Done None -> exists l, collect (bfs_path_next g) n q = Done l.
  Proof.
    induction n as [|n IH]; intros q Hq H; [discriminate|].
    destruct q as [|p q]; [now exists []|]. cbn [map aug_next] in H. cbn [collect].
    pose proof (Hq p (or_introl eq_refl)) as Hp.
    destruct (path_last p) as [vid|] eqn:El.
    2:{ rewrite tag_last, El in H. discriminate. }
    pose proof (tag_kids g W p vid El) as Hk. rewrite tag_last, El in H. cbn [option_map] in H.
    unfold bfs_path_next at 1, tree_next at 1. cbn [Queue q_pop pop_front].
    destruct (path_kids g p) as [kids|] eqn:Ek; [|discriminate]. cbn [option_map] in Hk. injection Hk as Hk.
    rewrite push_all_list. rewrite Hk, <- map_app in H.
    assert (Hq' : forall p', In p' (q ++ kids) -> simple_from (gE g) s p').
    { intros p' Hp'. apply in_app_iff in Hp' as [Hp'|Hp']; [apply Hq; now right|].
      apply (path_kids_good g W s p p'); [assumption|]. unfold kidsl. rewrite Ek. assumption. }
    assert (Hn : aug_next g m t n (map tag (q ++ kids)) = Done None).
    { destruct (N.eqb vid t); [|assumption]. destruct (residual_capacity (tag p) m) as [r| |]; try discriminate. cbn [obind] in H.
      destruct (0 <? r)%N; [discriminate|assumption]. }
    apply (IH _ Hq') in Hn as [l Hl]. exists (p :: l).
    change (obind (collect (bfs_path_next g) n (q ++ kids)) (fun l => Done (p :: l)) = Done (p :: l)). now rewrite Hl.
  Qed.

  Lemma loop_exhausts n : forall k value m r, flow_loop g s t n k value m = Done r ->
    exists m', find_augmenting_path g m' s t n = Done None.
  Proof.
    induction k as [|k IH]; intros value m r H; [discriminate|]. cbn [flow_loop] in H.
    destruct (find_augmenting_path g m s t n) as [[[p d]|]| |] eqn:E; try discriminate; [|now exists m].
    cbn [obind] in H. destruct (update_flow m p d) as [m'| |]; try discriminate. cbn [obind] in H.
    destruct (u64_add value d) as [v'| |]; try discriminate. cbn [obind] in H. now apply IH in H.
  Qed.

  Lemma max_flow_calls cap n r (D : list (list N)) : max_flow g cap s t n = Done r -> NoDup D ->
    (forall p, In p D -> simple_from (gE g) s p) -> length D < n.
  Proof.
    intros H Hn HD. apply loop_exhausts in H as [m H]. unfold find_augmenting_path in H.
    change [aug_new s] with (map tag [[s]]) in H. apply aug_exhausts in H as [l Hl].
    - pose proof (collect_calls _ _ _ _ _ _ Hl) as Hc.
      assert (Hin : incl D l).
      { intros p Hp. apply (tree_collect_all path (path_kids g) (Queue path) n [[s]] l I Hl [s] p); [now left|].
        apply path_desc; auto. }
      exact (Nat.le_lt_trans _ _ _ (NoDup_incl_length Hn Hin) Hc).
    - intros p [<-|[]]. split; [split; [now exists []|apply chain_one]|repeat constructor; intros []].
  Qed.
End Flow.

(** ** The constrained search *)
Section Csp.
  Variables (Q : squeue scored) (g : graph) (cost heur : path -> Z) (cs : list constraint) (s t : N).
  Hypothesis W : wf g.
  Let f := fun p => (cost p + heur p)%Z.

  Lemma csp_calls n (D : list (list N)) :
    constrained_shortest_path Q g cost heur s t cs n = Done None -> NoDup D ->
    (forall p, In p D -> live g f cs s p) -> length D < n.
  Proof.
    intros H Hn HD. unfold constrained_shortest_path in H. apply iter_find_none_collect in H as [l Hl].
    pose proof (collect_calls _ _ _ _ _ _ Hl) as Hc.
    assert (Hin : incl (map (node f) D) l).
    { intros x Hx. apply in_map_iff in Hx as (p & <- & Hp).
      refine (tree_collect_all scored (constrained_kids g f cs) Q n _ l _ Hl (node f [s]) (node f p) _ _).
      - apply q_push_valid, q_empty_valid.
      - unfold constrained_iter_from. rewrite q_push_content by apply q_empty_valid. now left.
      - apply dsc_live; [assumption|]. exists p. auto. }
    apply NoDup_incl_length in Hin.
    - rewrite map_length in Hin. exact (Nat.le_lt_trans _ _ _ Hin Hc).
    - apply NoDup_map_in; [|assumption]. intros x y _ _ Hxy. now injection Hxy as ->.
  Qed.
End Csp.

(** ** The search for cycles *)
Lemma cycle_next_mono g n : forall st r, cycle_next g n st = Done r -> forall m, n <= m -> cycle_next g m st = Done r.
Proof.
  induction n as [|n IH]; intros st r H m Hm; [discriminate|]. destruct m as [|m]; [lia|].
  cbn [cycle_next] in *. destruct st as [stack ret]. destruct (q_pop (Stack path) stack) as [[p st']|]; [|assumption].
  destruct (extract_canonical_cycle_from_last p) as [[c|]|]; [| |assumption].
  - destruct (negb (memC c ret)); [assumption|]. apply IH; [assumption|lia].
  - destruct (path_last p); [|assumption]. apply IH; [assumption|lia].
Qed.
Lemma cycle_first_settles g n r : cycle_first g n = Done r -> settles (cycle_first g) r.
Proof.
  intro H. exists n. intros m Hm. unfold cycle_first, omap in *.
  destruct (cycle_next g n (cycle_iter g)) as [x| |] eqn:E; try discriminate.
  now rewrite (cycle_next_mono g n _ _ E m Hm).
Qed.
Section Cycles.
  Variable g : graph.
  Hypothesis W : wf g.

  Lemma cycle_exhausts n : forall stack, cycle_next g n (stack, []) = Done None ->
    exists l, collect (tree_next path (Stack path) (cycle_kids g)) n stack = Done l.
  Proof.
    induction n as [|n IH]; intros stack H; [discriminate|]. cbn [cycle_next] in H. cbn [collect].
    unfold tree_next at 1. destruct (q_pop (Stack path) stack) as [[p st]|] eqn:Ep; [|now exists []].
    unfold cycle_kids at 1. destruct (extract_canonical_cycle_from_last p) as [[c|]|]; try discriminate.
    destruct (path_last p) as [v|]; [|discriminate]. apply IH in H as [l ->]. now exists (p :: l).
  Qed.

  Lemma cycle_calls n (D : list (list N)) : cycle_first g n = Done None -> NoDup D ->
    (forall p, In p D -> exists s, In s (find_starting_edges g) /\ simple_from (gE g) s p) -> length D < n.
  Proof.
    intros H Hn HD. unfold cycle_first, omap, cycle_iter in H.
    destruct (cycle_next g n _) as [[[c st]|]| |] eqn:E in H; try discriminate. clear H.
    apply cycle_exhausts in E as [l Hl]. pose proof (collect_calls _ _ _ _ _ _ Hl) as Hc.
    assert (Hin : incl D l).
    { intros p Hp. destruct (HD p Hp) as (s & Hs & Hw & Hnd).
      apply (tree_collect_all path (cycle_kids g) (Stack path) n _ l I Hl [s] p).
      - rewrite push_all_stack. cbn. apply in_map_iff. exists s. split; [reflexivity|assumption].
      - apply desc_lollipop; [assumption|now apply (starts_spec g W)|]. split; [assumption|].
        destruct p as [|x p _] using rev_ind; [constructor|]. rewrite removelast_last. now apply NoDup_snoc in Hnd. }
    exact (Nat.le_lt_trans _ _ _ (NoDup_incl_length Hn Hin) Hc).
  Qed.
End Cycles.

(** ** The ladder: [k] rungs, each of which can be passed in two ways *)
Definition rung (i : nat) : list (nat * nat) :=
  [(3 * i, 3 * i + 1); (3 * i, 3 * i + 2); (3 * i + 1, 3 * i + 3); (3 * i + 2, 3 * i + 3)].
Definition ladder (k : nat) : list graph_command :=
  map (fun e => AddEdge (N.of_nat (fst e)) (N.of_nat (snd e))) (flat_map rung (seq 0 k)).
Definition ladder_graph (k : nat) : graph := apply_commands (ladder k) g_new.

Lemma ladder_length k : length (ladder k) = 4 * k.
Proof.
  unfold ladder. rewrite map_length. assert (H : forall i, length (flat_map rung (seq i k)) = 4 * k); [|apply H].
  induction k as [|k IH]; intro i; [reflexivity|].
  cbn [seq flat_map]. rewrite app_length, IH. cbn [rung length]. lia.
Qed.
Lemma ladder_built k : built_by (ladder k) (ladder_graph k).
Proof. apply built_by_apply. Qed.
Lemma ladder_gE k x y : gE (ladder_graph k) x y <-> exists i, i < k /\ In (N.to_nat x, N.to_nat y) (rung i).
Proof.
  pose proof (proj2 (refines (ladder_built k)) x y) as H. cbn in H. unfold gE. rewrite H.
  unfold a_run, ladder. rewrite add_edges_shown, in_flat_map. cbn [a_empty aE]. split.
  - intros [[]|(i & Hi & Hin)]. apply in_seq in Hi. exists i. split; [lia|assumption].
  - intros (i & Hi & Hin). right. exists i. split; [apply in_seq; lia|assumption].
Qed.
Lemma ladder_up k x y : gE (ladder_graph k) x y -> (x < y)%N /\ N.to_nat y <= 3 * k.
Proof.
  rewrite ladder_gE. intros (i & Hi & Hin). cbn [rung In] in Hin.
  destruct Hin as [E|[E|[E|[E|[]]]]]; injection E as E1 E2; lia.
Qed.

(** The [2 ^ i] ways to climb [i] rungs. *)
Fixpoint climbs (i : nat) : list (list N) :=
  match i with
  | O => [[0%N]]
  | S j => map (fun p => p ++ [N.of_nat (3 * j + 1); N.of_nat (3 * j + 3)]) (climbs j) ++
           map (fun p => p ++ [N.of_nat (3 * j + 2); N.of_nat (3 * j + 3)]) (climbs j)
  end.
Lemma climbs_length i : length (climbs i) = 2 ^ i.
Proof. induction i as [|i IH]; [reflexivity|]. cbn [climbs]. rewrite app_length, !map_length, IH. cbn. lia. Qed.
Lemma climbs_NoDup i : NoDup (climbs i).
Proof.
  induction i as [|i IH]; [repeat constructor; intros []|]. cbn [climbs]. apply NoDup_app_iff.
  split; [|split].
  - apply NoDup_map_in; [|assumption]. intros x y _ _ H. now apply app_inv_tail in H.
  - apply NoDup_map_in; [|assumption]. intros x y _ _ H. now apply app_inv_tail in H.
  - intros p Hp Hp'. apply in_map_iff in Hp as (x & <- & _). apply in_map_iff in Hp' as (y & Hy & _).
    apply (f_equal (@rev N)) in Hy. rewrite !rev_app_distr in Hy. cbn [rev app] in Hy.
    injection Hy as Hy _. lia.
Qed.
Lemma climbs_walk k i : i <= k -> forall p, In p (climbs i) ->
  walk_from_to (gE (ladder_graph k)) 0 (N.of_nat (3 * i)) p /\ NoDup p /\ forall v, In v p -> (v <= N.of_nat (3 * i))%N.
Proof.
  induction i as [|i IH]; intros Hi p Hp.
  - destruct Hp as [<-|[]]. split; [apply walk_one|]. split; [repeat constructor; intros []|]. intros v [<-|[]]. lia.
  - assert (Hstep : forall d, d = 1 \/ d = 2 -> forall q, In q (climbs i) ->
      let p := q ++ [N.of_nat (3 * i + d); N.of_nat (3 * i + 3)] in
      walk_from_to (gE (ladder_graph k)) 0 (N.of_nat (3 * S i)) p /\ NoDup p /\ forall v, In v p -> (v <= N.of_nat (3 * S i))%N).
    { intros d Hd q Hq p'. destruct (IH ltac:(lia) q Hq) as (H1 & H2 & H3).
      assert (Hp' : p' = (q ++ [N.of_nat (3 * i + d)]) ++ [N.of_nat (3 * i + 3)]) by (unfold p'; now rewrite <- app_assoc).
      replace (3 * S i) with (3 * i + 3) by lia. rewrite Hp'. split; [|split].
      - apply walk_snoc with (N.of_nat (3 * i + d)); [apply walk_snoc with (N.of_nat (3 * i)); [assumption|]|];
          apply ladder_gE; exists i; (split; [lia|]); rewrite !Nat2N.id; cbn [rung In]; destruct Hd as [-> | ->]; tauto.
      - apply NoDup_snoc. split; [apply NoDup_snoc; split; [assumption|]|]; intro Hin.
        + apply H3 in Hin. lia.
        + apply in_app_iff in Hin as [Hin|[Hin|[]]]; [apply H3 in Hin|]; lia.
      - intros v Hv. apply in_app_iff in Hv as [Hv|[<-|[]]]; [|lia].
        apply in_app_iff in Hv as [Hv|[<-|[]]]; [apply H3 in Hv|]; lia. }
    cbn [climbs] in Hp. apply in_app_iff in Hp as [Hp|Hp]; apply in_map_iff in Hp as (q & <- & Hq); apply Hstep; auto.
Qed.
