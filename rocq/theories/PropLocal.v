(** * Property C152: a search sees only the part of the graph it can reach *)
From Coq Require Import String.
From Coq Require Import List NArith ZArith Bool Arith Lia Permutation.
From Verif Require Import Spec Base WalkFacts Graph GraphSpec GraphFacts OrderFacts Path PathFacts
  Queue Heap Iter IterFacts Score Topo Cycle
  Text Format FormatSpec TextFacts FormatFacts Store StoreSpec StoreFacts PropFormat PropStore
  Cli CliSpec CliFacts Query QuerySpec QueryFacts PropQuery.
Import ListNotations.
Open Scope N_scope.

(** Two graphs offer the same edges, in the same order, at every vertex that [s]
    reaches in the first. *)
Definition alike_from (s : N) (g h : graph) : Prop :=
  forall v, reachable (gE g) s v -> outbound_edges g v = outbound_edges h v.

Lemma collect_local {A S} (n1 n2 : S -> step A S) (I : S -> Prop) :
  (forall s, I s -> n1 s = n2 s) -> (forall s a s', I s -> n1 s = Yield a s' -> I s') ->
  forall fuel s, I s -> collect n1 fuel s = collect n2 fuel s.
Proof.
  intros H1 H2. induction fuel as [|k IH]; intros s Hs; [reflexivity|]. cbn [collect].
  rewrite <- (H1 s Hs). destruct (n1 s) as [a s'| |] eqn:E; try reflexivity. now rewrite (IH s' (H2 _ _ _ Hs E)).
Qed.
Lemma find_local {A S} pred (n1 n2 : S -> step A S) (I : S -> Prop) :
  (forall s, I s -> n1 s = n2 s) -> (forall s a s', I s -> n1 s = Yield a s' -> I s') ->
  forall fuel s, I s -> iter_find pred n1 fuel s = iter_find pred n2 fuel s.
Proof.
  intros H1 H2. induction fuel as [|k IH]; intros s Hs; [reflexivity|]. cbn [iter_find].
  rewrite <- (H1 s Hs). destruct (n1 s) as [a s'| |] eqn:E; try reflexivity. now rewrite (IH s' (H2 _ _ _ Hs E)).
Qed.

Section Local.
  Variables (g h : graph) (s : N).
  Hypothesis W : wf g.
  Hypothesis L : alike_from s g h.
  Let R := reachable (gE g) s.

  Lemma R_step v e : R v -> In e (outbound_edges g v) -> R (snd e).
  Proof.
    intros Hv He. apply reachable_step with v; [exact Hv|]. destruct e as [a b]. apply outbound_In in He.
    destruct He as [-> He]. unfold gE. now apply contains_edge_hasE.
  Qed.

  (** Every queued node ends at a vertex of the region. *)
  Definition q_in {A} (Q : squeue A) (lastv : A -> option N) (q : q_car Q) : Prop :=
    q_valid Q q /\ forall a v, In a (q_content Q q) -> lastv a = Some v -> R v.
  Lemma q_in_pop {A} (Q : squeue A) lastv q a q' : q_in Q lastv q -> q_pop Q q = Some (a, q') ->
    q_in Q lastv q' /\ forall v, lastv a = Some v -> R v.
  Proof.
    intros [V H] E. pose proof (q_pop_content _ _ _ _ _ V E) as P. split; [split|].
    - eapply q_pop_valid; eassumption.
    - intros b v Hb Hl. apply (H b v); [|assumption]. eapply Permutation_in; [symmetry; exact P|now right].
    - intros v Hl. apply (H a v); [|assumption]. eapply Permutation_in; [symmetry; exact P|now left].
  Qed.
  Lemma q_in_push {A} (Q : squeue A) lastv q a : q_in Q lastv q -> (forall v, lastv a = Some v -> R v) ->
    q_in Q lastv (q_push Q q a).
  Proof.
    intros [V H] Ha. split; [now apply q_push_valid|]. intros b v Hb Hl.
    eapply Permutation_in in Hb; [|now apply q_push_content]. destruct Hb as [<-|Hb]; [auto|]. now apply (H b v).
  Qed.
  Lemma q_in_empty {A} (Q : squeue A) lastv : q_in Q lastv (q_empty Q).
  Proof. split; [apply q_empty_valid|]. intros a v Ha. rewrite q_empty_content in Ha. destruct Ha. Qed.

  (** *** With a visited set *)
  Section V.
    Variables (A : Type) (Q : squeue A) (lastv : A -> option N) (mk : A -> N -> A).
    Hypothesis mk_last : forall a v w, lastv (mk a v) = Some w -> w = v.
    Definition v_in (st : vstate A Q) : Prop := q_in Q lastv (snd st).
    Lemma v_edges a es : forall st, v_in st -> Forall (fun e => R (snd e)) es ->
      v_in (fold_left (visit_edge A Q mk a) es st).
    Proof.
      induction es as [|e es IH]; intros [vis q] Hs F; cbn [fold_left]; [assumption|].
      inversion F as [|? ? He F']; subst. apply IH; [|assumption]. unfold visit_edge.
      destruct (negb (memN (snd e) vis)); [|assumption]. unfold v_in in *. cbn [snd] in *. apply q_in_push; [assumption|].
      intros w Hw. apply mk_last in Hw. now subst.
    Qed.
    Lemma visit_same st : v_in st -> visit_next A Q g lastv mk st = visit_next A Q h lastv mk st.
    Proof.
      intro H. destruct st as [vis q]. unfold visit_next. destruct (q_pop Q q) as [[a q']|] eqn:E; [|reflexivity].
      destruct (lastv a) as [v|] eqn:El; [|reflexivity]. rewrite (L v); [reflexivity|].
      eapply (proj2 (q_in_pop Q lastv q a q' H E)). exact El.
    Qed.
    Lemma visit_stays st a st' : v_in st -> visit_next A Q g lastv mk st = Yield a st' -> v_in st'.
    Proof.
      intros H. destruct st as [vis q]. unfold visit_next. destruct (q_pop Q q) as [[a0 q']|] eqn:E; [|discriminate].
      destruct (lastv a0) as [v|] eqn:El; [|discriminate]. intros [= <- <-].
      destruct (q_in_pop Q lastv q a0 q' H E) as [H1 H2]. apply v_edges; [exact H1|].
      apply Forall_forall. intros e He. apply (R_step v); [now apply H2|assumption].
    Qed.
    Lemma visit_start a : (forall v, lastv a = Some v -> R v) -> v_in (visit_from A Q a s).
    Proof. intro H. unfold v_in, visit_from. cbn [snd]. apply q_in_push; [apply q_in_empty|exact H]. Qed.
  End V.

  (** *** Without *)
  Section T.
    Variables (A : Type) (Q : squeue A) (lastv : A -> option N) (k1 k2 : A -> option (list A)).
    Hypothesis same : forall a, (forall v, lastv a = Some v -> R v) -> k1 a = k2 a.
    Hypothesis stay : forall a l b v, (forall v, lastv a = Some v -> R v) -> k1 a = Some l -> In b l -> lastv b = Some v -> R v.
    Lemma tree_same q : q_in Q lastv q -> tree_next A Q k1 q = tree_next A Q k2 q.
    Proof.
      intro H. unfold tree_next. destruct (q_pop Q q) as [[a q']|] eqn:E; [|reflexivity].
      rewrite (same a); [reflexivity|]. exact (proj2 (q_in_pop Q lastv q a q' H E)).
    Qed.
    Lemma push_all_in l : forall q, q_in Q lastv q -> (forall b v, In b l -> lastv b = Some v -> R v) -> q_in Q lastv (push_all Q l q).
    Proof.
      induction l as [|b l IH]; intros q Hq Hl; [assumption|]. unfold push_all. cbn [fold_left]. apply IH.
      - apply q_in_push; [assumption|]. intros v. apply Hl. now left.
      - intros c v Hc. apply Hl. now right.
    Qed.
    Lemma tree_stays q a q' : q_in Q lastv q -> tree_next A Q k1 q = Yield a q' -> q_in Q lastv q'.
    Proof.
      intro H. unfold tree_next. destruct (q_pop Q q) as [[a0 q0]|] eqn:E; [|discriminate].
      destruct (k1 a0) as [l|] eqn:El; [|discriminate]. intros [= <- <-].
      destruct (q_in_pop Q lastv q a0 q0 H E) as [H1 H2]. apply push_all_in; [exact H1|].
      intros b v Hb. now apply (stay a0 l).
    Qed.
  End T.

  Lemma last_snoc p (v : N) : path_last (path_append p v) = Some v.
  Proof. unfold path_last, path_append. rewrite rev_app_distr. reflexivity. Qed.

  Lemma R_start : R s.
  Proof. apply reachable_refl. Qed.

  (** Score functions may even panic or wrap around. *)
  Section P.
    Variables (Q : squeue scored) (f : path -> option Z).
    Definition slast (sp : scored) : option N := path_last (sp_path sp).
    Lemma p_child_last a v c : p_child f a v = Some c -> slast c = Some v.
    Proof. unfold p_child. destruct (f _); [|discriminate]. intros [= <-]. apply last_snoc. Qed.
    Lemma p_edges a es : forall st st', q_in Q slast (snd st) -> Forall (fun e => R (snd e)) es ->
      opt_fold (p_visit_edge Q f a) es st = Some st' -> q_in Q slast (snd st').
    Proof.
      induction es as [|e es IH]; intros [vis q] st' Hs F; cbn [opt_fold]; [now intros [= <-]|].
      inversion F as [|? ? He F']; subst. unfold p_visit_edge at 1.
      destruct (negb (memN (snd e) vis)); [|now apply IH].
      destruct (p_child f a (snd e)) as [c|] eqn:Ec; [|discriminate]. apply IH; [|assumption].
      cbn [snd] in *. apply q_in_push; [assumption|]. intros w Hw. apply p_child_last in Ec. congruence.
    Qed.
    Lemma p_best_same st : q_in Q slast (snd st) -> p_best_next Q g f st = p_best_next Q h f st.
    Proof.
      intro H. destruct st as [vis q]. unfold p_best_next. destruct (q_pop Q q) as [[a q']|] eqn:E; [|reflexivity].
      destruct (path_last (sp_path a)) as [v|] eqn:El; [|reflexivity]. rewrite (L v); [reflexivity|].
      eapply (proj2 (q_in_pop Q slast q a q' H E)). exact El.
    Qed.
    Lemma p_best_stays st a st' : q_in Q slast (snd st) -> p_best_next Q g f st = Yield a st' -> q_in Q slast (snd st').
    Proof.
      intros H. destruct st as [vis q]. unfold p_best_next. destruct (q_pop Q q) as [[a0 q']|] eqn:E; [|discriminate].
      destruct (path_last (sp_path a0)) as [v|] eqn:El; [|discriminate].
      destruct (opt_fold _ _ _) as [st0|] eqn:Ef; [|discriminate]. intros [= <- <-].
      destruct (q_in_pop Q slast q a0 q' H E) as [H1 H2]. eapply p_edges; [|..|exact Ef]; [exact H1|].
      apply Forall_forall. intros e He. apply (R_step v); [now apply H2|assumption].
    Qed.
    Variable cs : list constraint.
    Lemma p_c_edges a es : forall q q', q_in Q slast q -> Forall (fun e => R (snd e)) es ->
      opt_fold (p_constrained_edge Q f cs a) es q = Some q' -> q_in Q slast q'.
    Proof.
      induction es as [|e es IH]; intros q q' Hs F; cbn [opt_fold]; [now intros [= <-]|].
      inversion F as [|? ? He F']; subst. unfold p_constrained_edge at 1.
      destruct (p_child f a (snd e)) as [c|] eqn:Ec; [|discriminate]. apply IH; [|assumption].
      destruct (check_all_partial cs c); [|assumption].
      apply q_in_push; [assumption|]. intros w Hw. apply p_child_last in Ec. congruence.
    Qed.
    Lemma p_c_same q : q_in Q slast q -> p_constrained_next Q g f cs q = p_constrained_next Q h f cs q.
    Proof.
      intro H. unfold p_constrained_next. destruct (q_pop Q q) as [[a q']|] eqn:E; [|reflexivity].
      destruct (path_last (sp_path a)) as [v|] eqn:El; [|reflexivity]. rewrite (L v); [reflexivity|].
      eapply (proj2 (q_in_pop Q slast q a q' H E)). exact El.
    Qed.
    Lemma p_c_stays q a q' : q_in Q slast q -> p_constrained_next Q g f cs q = Yield a q' -> q_in Q slast q'.
    Proof.
      intros H. unfold p_constrained_next. destruct (q_pop Q q) as [[a0 q0]|] eqn:E; [|discriminate].
      destruct (path_last (sp_path a0)) as [v|] eqn:El; [|discriminate].
      destruct (opt_fold _ _ _) as [st0|] eqn:Ef; [|discriminate]. intros [= <- <-].
      destruct (q_in_pop Q slast q a0 q0 H E) as [H1 H2]. eapply p_c_edges; [|..|exact Ef]; [exact H1|].
      apply Forall_forall. intros e He. apply (R_step v); [now apply H2|assumption].
    Qed.
  End P.

  (** *** SPFA *)
  Lemma spfa_edges w es : forall m q m' q', Forall R q -> Forall (fun e => R (snd e)) es ->
    ofold (spfa_edge w) es (m, q) = Done (m', q') -> Forall R q'.
  Proof.
    induction es as [|e es IH]; intros m q m' q' Hq F; cbn [ofold]; [now intros [= _ <-]|].
    inversion F as [|? ? He F']; subst. unfold spfa_edge at 1. cbn [fst snd].
    destruct (relax w m e) as [[m1 b]| |]; cbn [obind fst snd]; try discriminate.
    destruct b; apply IH; try assumption. apply Forall_app. auto.
  Qed.
  Lemma spfa_local w fuel : forall st, Forall R (snd st) -> spfa_loop g w fuel st = spfa_loop h w fuel st.
  Proof.
    induction fuel as [|k IH]; intros [m q] Hq; [reflexivity|]. cbn [spfa_loop fst snd] in *.
    destruct q as [|v q]; [reflexivity|]. inversion Hq as [|? ? Hv Hq']; subst. rewrite <- (L v Hv).
    destruct (ofold (spfa_edge w) (outbound_edges g v) (m, q)) as [[m' q']| |] eqn:E; cbn [obind]; try reflexivity.
    apply IH. cbn [snd]. eapply spfa_edges; [exact Hq'| |exact E]. apply Forall_forall. intros e. now apply R_step.
  Qed.
End Local.

(** ** The iterators and the searches *)
Theorem C152_iterators : forall g h s, built g -> alike_from s g h -> forall fuel,
  collect (bfs_next g) fuel (bfs_iter_from s) = collect (bfs_next h) fuel (bfs_iter_from s) /\
  collect (dfs_next g) fuel (dfs_iter_from s) = collect (dfs_next h) fuel (dfs_iter_from s) /\
  collect (bfs_path_next g) fuel (bfs_path_iter_from s) = collect (bfs_path_next h) fuel (bfs_path_iter_from s) /\
  collect (dfs_path_next g) fuel (dfs_iter_path_from s) = collect (dfs_path_next h) fuel (dfs_iter_path_from s) /\
  (forall Q f, collect (best_next Q g f) fuel (best_iter_from Q f s) = collect (best_next Q h f) fuel (best_iter_from Q f s)) /\
  (forall Q f cs, collect (constrained_next Q g f cs) fuel (constrained_iter_from Q f s) =
                  collect (constrained_next Q h f cs) fuel (constrained_iter_from Q f s)).
Proof.
  intros g h s B L fuel. apply built_wf in B.
  assert (S0 : forall v : N, Some s = Some v -> reachable (gE g) s v) by (intros v [= <-]; apply reachable_refl).
  assert (PK : forall p, (forall v, path_last p = Some v -> reachable (gE g) s v) -> path_kids g p = path_kids h p).
  { intros p Hp. unfold path_kids. destruct (path_last p) as [v|]; [|reflexivity]. now rewrite (L v (Hp v eq_refl)). }
  assert (PS : forall p l b v, (forall v, path_last p = Some v -> reachable (gE g) s v) -> path_kids g p = Some l ->
      In b l -> path_last b = Some v -> reachable (gE g) s v).
  { intros p l b v Hp El Hb Hv. unfold path_kids in El. destruct (path_last p) as [x|]; [|discriminate].
    injection El as <-. apply in_map_iff in Hb. destruct Hb as (e & <- & He). apply filter_In in He. destruct He as [He _].
    rewrite last_snoc in Hv. injection Hv as <-. now apply (R_step g s B x e); [apply Hp|]. }
  split; [|split; [|split; [|split; [|split]]]].
  - apply (collect_local _ _ (v_in g s N (Queue N) (fun v => Some v))).
    + intros st. now apply visit_same.
    + intros st a st'. apply (visit_stays g s B). now intros ? ? ? [= ->].
    + apply (visit_start g s N (Queue N) (fun v => Some v) s). exact S0.
  - apply (collect_local _ _ (v_in g s N (Stack N) (fun v => Some v))).
    + intros st. now apply visit_same.
    + intros st a st'. apply (visit_stays g s B). now intros ? ? ? [= ->].
    + apply (visit_start g s N (Stack N) (fun v => Some v) s). exact S0.
  - apply (collect_local _ _ (q_in g s (Queue path) path_last)).
    + intros q. now apply tree_same.
    + intros q a q'. now apply tree_stays.
    + change (q_in g s (Queue path) path_last (q_push (Queue path) (q_empty (Queue path)) [s])).
      apply q_in_push; [apply q_in_empty|]. exact S0.
  - apply (collect_local _ _ (q_in g s (Stack path) path_last)).
    + intros q. now apply tree_same.
    + intros q a q'. now apply tree_stays.
    + change (q_in g s (Stack path) path_last (q_push (Stack path) (q_empty (Stack path)) [s])).
      apply q_in_push; [apply q_in_empty|]. exact S0.
  - intros Q f. apply (collect_local _ _ (v_in g s scored Q slast)).
    + intros st. now apply visit_same.
    + intros st a st'. apply (visit_stays g s B). intros b v w Hw. unfold slast, scored_child in Hw. cbn [sp_path] in Hw.
      rewrite last_snoc in Hw. congruence.
    + apply (visit_start g s scored Q slast). exact S0.
  - intros Q f cs. apply (collect_local _ _ (q_in g s Q slast)).
    + intros q. apply tree_same. intros a Ha. unfold constrained_kids. unfold slast in Ha.
      destruct (path_last (sp_path a)) as [v|]; [|reflexivity]. now rewrite (L v (Ha v eq_refl)).
    + intros q a q'. apply tree_stays. intros b l c v Hb El Hc Hv. unfold constrained_kids in El. unfold slast in Hb.
      destruct (path_last (sp_path b)) as [x|]; [|discriminate]. injection El as <-. apply filter_In in Hc.
      destruct Hc as [Hc _]. apply in_map_iff in Hc. destruct Hc as (e & <- & He). unfold slast, scored_child in Hv.
      cbn [sp_path] in Hv. rewrite last_snoc in Hv. injection Hv as <-. now apply (R_step g s B x e); [apply Hb|].
    + unfold constrained_iter_from. apply q_in_push; [apply q_in_empty|]. exact S0.
Qed.
Print Assumptions C152_iterators.

Theorem C152_searches : forall g h s, built g -> alike_from s g h -> forall fuel t,
  (forall Q cost heur, Iter.a_star Q g cost heur s t fuel = Iter.a_star Q h cost heur s t fuel) /\
  (forall Q cost heur cs, constrained_shortest_path Q g cost heur s t cs fuel = constrained_shortest_path Q h cost heur s t cs fuel) /\
  (forall Q f, p_a_star Q g f s t fuel = p_a_star Q h f s t fuel) /\
  (forall Q f cs, p_constrained_shortest_path Q g f s t cs fuel = p_constrained_shortest_path Q h f s t cs fuel) /\
  (forall w, spfa g w s fuel = spfa h w s fuel).
Proof.
  intros g h s B L fuel t. apply built_wf in B.
  assert (S0 : forall v : N, Some s = Some v -> reachable (gE g) s v) by (intros v [= <-]; apply reachable_refl).
  split; [|split; [|split; [|split]]].
  - intros Q cost heur. unfold Iter.a_star. apply (find_local _ _ _ (v_in g s scored Q slast)).
    + intros st. now apply visit_same.
    + intros st a st'. apply (visit_stays g s B). intros b v w Hw. unfold slast, scored_child in Hw. cbn [sp_path] in Hw.
      rewrite last_snoc in Hw. congruence.
    + apply (visit_start g s scored Q slast). exact S0.
  - intros Q cost heur cs. unfold constrained_shortest_path. apply (find_local _ _ _ (q_in g s Q slast)).
    + intros q. apply tree_same. intros a Ha. unfold constrained_kids. unfold slast in Ha.
      destruct (path_last (sp_path a)) as [v|]; [|reflexivity]. now rewrite (L v (Ha v eq_refl)).
    + intros q a q'. apply tree_stays. intros b l c v Hb El Hc Hv. unfold constrained_kids in El. unfold slast in Hb.
      destruct (path_last (sp_path b)) as [x|]; [|discriminate]. injection El as <-. apply filter_In in Hc.
      destruct Hc as [Hc _]. apply in_map_iff in Hc. destruct Hc as (e & <- & He). unfold slast, scored_child in Hv.
      cbn [sp_path] in Hv. rewrite last_snoc in Hv. injection Hv as <-. now apply (R_step g s B x e); [apply Hb|].
    + unfold constrained_iter_from. apply q_in_push; [apply q_in_empty|]. exact S0.
  - intros Q f. unfold p_a_star, p_best_iter_from. destruct (f _) as [z|]; [|reflexivity].
    apply (find_local _ _ _ (fun st => q_in g s Q slast (snd st))).
    + intros st. now apply p_best_same.
    + intros st a st'. now apply p_best_stays.
    + apply q_in_push; [apply q_in_empty|]. exact S0.
  - intros Q f cs. unfold p_constrained_shortest_path, p_constrained_iter_from. destruct (f _) as [z|]; [|reflexivity].
    apply (find_local _ _ _ (q_in g s Q slast)).
    + intros q. now apply p_c_same.
    + intros q a q'. now apply p_c_stays.
    + apply q_in_push; [apply q_in_empty|]. exact S0.
  - intro w. unfold spfa. apply (spfa_local g h s B L). constructor; [apply reachable_refl|constructor].
Qed.
Print Assumptions C152_searches.

(** ** Commands about vertices that the start does not reach *)
(** A command that cannot matter to a search from [s]: the vertex removed and
    the tails of the edges added or removed are out of its reach. *)
Definition away (E : rel) (s : N) (c : graph_command) : Prop :=
  match c with
  | AddVertex _ => True
  | RemoveVertex v => ~ reachable E s v
  | AddEdge a _ | RemoveEdge a _ => ~ reachable E s a
  end.

Lemma filter_remove (x : N * N) v l : fst x <> v ->
  filter (fun e => fst e =? v) (remove pair_dec x l) = filter (fun e => fst e =? v) l.
Proof.
  intro H. induction l as [|e l IH]; [reflexivity|]. cbn [remove filter]. destruct (pair_dec x e) as [<-|Hx].
  - destruct (N.eqb_spec (fst x) v); [congruence|assumption].
  - cbn [filter]. now rewrite IH.
Qed.
Lemma filter_vertex x v l : x <> v -> (forall e, In e l -> fst e = v -> snd e <> x) ->
  filter (fun e => fst e =? v) (filter (fun e => negb (fst e =? x) && negb (snd e =? x)) l) = filter (fun e => fst e =? v) l.
Proof.
  intros Hx H. induction l as [|e l IH]; [reflexivity|]. cbn [filter].
  assert (IH' := IH (fun e He => H e (or_intror He))).
  destruct (N.eqb_spec (fst e) x) as [E|E]; cbn [negb andb].
  - destruct (N.eqb_spec (fst e) v); [congruence|assumption].
  - destruct (N.eqb_spec (snd e) x) as [E'|E']; cbn [negb].
    + destruct (N.eqb_spec (fst e) v) as [Ev|Ev]; [|assumption]. exfalso. now apply (H e (or_introl eq_refl)).
    + cbn [filter]. now rewrite IH'.
Qed.
Lemma away_order (E : rel) s cs' : forall l l0, Forall (away E s) cs' ->
  (forall a b, In (a, b) l0 -> E a b) ->
  (forall v, reachable E s v -> filter (fun e => fst e =? v) l = filter (fun e => fst e =? v) l0) ->
  forall v, reachable E s v -> filter (fun e => fst e =? v) (fold_left o_step cs' l) = filter (fun e => fst e =? v) l0.
Proof.
  induction cs' as [|c cs' IH]; intros l l0 F He Hl; [exact Hl|]. inversion F as [|? ? Hc F']; subst. cbn [fold_left].
  apply IH; [assumption|assumption|]. intros v Hv. rewrite <- (Hl v Hv). destruct c as [x|x|a b|a b]; cbn [o_step away] in *.
  - reflexivity.
  - apply filter_vertex; [intros ->; contradiction|]. intros e Hi Hf Hs. apply Hc. subst x.
    apply reachable_step with v; [assumption|]. apply He.
    assert (K : In e (filter (fun e => fst e =? v) l0)).
    { rewrite <- (Hl v Hv). apply filter_In. split; [assumption|]. now apply N.eqb_eq. }
    apply filter_In in K. destruct e as [p q]. cbn [fst snd] in *. subst p. now apply K.
  - destruct (in_dec pair_dec (a, b) l); [reflexivity|]. rewrite filter_app. cbn [filter fst].
    destruct (N.eqb_spec a v) as [->|_]; [contradiction|apply app_nil_r].
  - apply filter_remove. cbn [fst]. intros ->. contradiction.
Qed.
Theorem C152_away : forall cs cs' g h s, built_by cs g -> built_by (cs ++ cs') h -> Forall (away (gE g) s) cs' ->
  alike_from s g h /\ (forall v, reachable (gE g) s v <-> reachable (gE h) s v).
Proof.
  intros cs cs' g h s B B' F.
  assert (Wg : wf g) by (apply built_wf; now exists cs). assert (Wh : wf h) by (apply built_wf; now exists (cs ++ cs')).
  assert (A : alike_from s g h).
  { intros v Hv. rewrite (outbound_order _ _ v B), (outbound_order _ _ v B'). unfold insertion_order. rewrite fold_left_app.
    symmetry. apply (away_order (gE g) s cs'); auto.
    intros a b Hi. apply insertion_In in Hi. now apply (proj2 (refines B)). }
  split; [assumption|]. assert (EE : forall u v, reachable (gE g) s u -> (gE g u v <-> gE h u v)).
  { intros u v Hu. unfold gE. rewrite (contains_edge_hasE u v Wg), (contains_edge_hasE u v Wh).
    pose proof (outbound_In g u u v) as X. pose proof (outbound_In h u u v) as Y. rewrite (A u Hu) in X. tauto. }
  intro v. split.
  - apply reachable_ind'; [apply reachable_refl|]. intros u w Hu Hu' E. apply reachable_step with u; [assumption|]. now apply EE.
  - apply reachable_ind'; [apply reachable_refl|]. intros u w Hu Hu' E. apply reachable_step with u; [assumption|]. now apply EE.
Qed.
Print Assumptions C152_away.

(** ** The programs
    Two files whose histories offer the same edges in the same order wherever
    the start reaches: gc-short-path and gc-csp print the same text, to the
    letter. In particular a program run twice on one file prints the same path,
    whatever the order of the hash map. *)
Definition file_says (nd : N -> bool) (s : fs) (cs : list graph_command) : Prop :=
  exists content, commands_entry s = File content /\ gcmd_read_as_commands nd content = Done (Ok cs).
Lemma says_loads nd s cs : file_says nd s cs -> loads nd s (apply_commands cs g_new) /\ built_by cs (apply_commands cs g_new).
Proof.
  intros (c & E & H). split; [|apply built_by_apply]. unfold loads. rewrite run_load, E. unfold gcmd_read, read.
  unfold gcmd_read_as_commands in H. now rewrite H.
Qed.
Theorem C152_programs : forall nd order order' Q s s' cs cs' a b x y opts fuel,
  hash_order order -> hash_order order' -> file_says nd s cs -> file_says nd s' cs' ->
  id_argument a x -> id_argument b y ->
  (forall v, reachable (aE (a_run cs)) x v ->
     filter (fun e => fst e =? v) (insertion_order cs) = filter (fun e => fst e =? v) (insertion_order cs')) ->
  snd (run_prog (gc_short_path nd order Q a b fuel) s) = snd (run_prog (gc_short_path nd order' Q a b fuel) s') /\
  snd (run_prog (gc_csp nd order Q a b opts fuel) s) = snd (run_prog (gc_csp nd order' Q a b opts fuel) s').
Proof.
  intros nd order order' Q s s' cs cs' a b x y opts fuel O O' H H' Ha Hb A.
  destruct (says_loads _ _ _ H) as [HL B]. destruct (says_loads _ _ _ H') as [HL' B'].
  assert (Bo : built_by cs (order (apply_commands cs g_new))) by (eapply built_rehash; [exact B|apply O]).
  assert (Bo' : built_by cs' (order' (apply_commands cs' g_new))) by (eapply built_rehash; [exact B'|apply O']).
  assert (K : alike_from x (order (apply_commands cs g_new)) (order' (apply_commands cs' g_new))).
  { intros v Hv. rewrite (outbound_order _ _ v Bo), (outbound_order _ _ v Bo'). apply A.
    eapply reachable_same; [|exact Hv]. intros p q. apply (proj2 (refines Bo)). }
  destruct (C152_searches _ _ _ (ex_intro _ cs Bo) K fuel y) as (K1 & K2 & _).
  unfold gc_short_path, gc_csp. split.
  - rewrite (run_ids nd order _ s _ a b x y HL Ha Hb), (run_ids nd order' _ s' _ a b x y HL' Ha Hb). cbn [snd]. now rewrite K1.
  - rewrite (run_ids nd order _ s _ a b x y HL Ha Hb), (run_ids nd order' _ s' _ a b x y HL' Ha Hb). cbn [snd]. cbv zeta. now rewrite K2.
Qed.
Print Assumptions C152_programs.
Theorem C152_added_elsewhere : forall nd order order' Q s s' cs cs' a b x y opts fuel,
  hash_order order -> hash_order order' -> file_says nd s cs -> file_says nd s' (cs ++ cs') ->
  id_argument a x -> id_argument b y -> Forall (away (aE (a_run cs)) x) cs' ->
  snd (run_prog (gc_short_path nd order Q a b fuel) s) = snd (run_prog (gc_short_path nd order' Q a b fuel) s') /\
  snd (run_prog (gc_csp nd order Q a b opts fuel) s) = snd (run_prog (gc_csp nd order' Q a b opts fuel) s').
Proof.
  intros nd order order' Q s s' cs cs' a b x y opts fuel O O' H H' Ha Hb F.
  apply (C152_programs nd order order' Q s s' cs (cs ++ cs') a b x y opts fuel); try assumption.
  intros v Hv. unfold insertion_order. rewrite fold_left_app. symmetry. apply (away_order (aE (a_run cs)) x cs'); auto.
  intros p q Hi. now apply insertion_In.
Qed.
Print Assumptions C152_added_elsewhere.
(** The program run twice on one file. *)
Theorem C152_repeatable : forall nd order order' Q s cs a b x y opts fuel,
  hash_order order -> hash_order order' -> file_says nd s cs -> id_argument a x -> id_argument b y ->
  run_prog (gc_short_path nd order Q a b fuel) s = run_prog (gc_short_path nd order' Q a b fuel) s /\
  run_prog (gc_csp nd order Q a b opts fuel) s = run_prog (gc_csp nd order' Q a b opts fuel) s.
Proof.
  intros nd order order' Q s cs a b x y opts fuel O O' H Ha Hb.
  destruct (C152_programs nd order order' Q s s cs cs a b x y opts fuel O O' H H Ha Hb (fun _ _ => eq_refl)) as [K1 K2].
  destruct (says_loads _ _ _ H) as [HL B].
  unfold gc_short_path, gc_csp in *.
  rewrite !(run_ids nd order _ s _ a b x y HL Ha Hb), !(run_ids nd order' _ s _ a b x y HL Ha Hb) in *.
  cbn [snd] in *. now rewrite K1, K2.
Qed.
Print Assumptions C152_repeatable.

Example C152_case :
  let cs := [AddEdge 1 2; AddEdge 2 3; AddEdge 7 2] in
  let cs' := [AddEdge 9 1; AddEdge 7 3; AddVertex 50; RemoveEdge 7 2; RemoveVertex 7] in
  Forall (away (aE (a_run cs)) 1) cs' /\
  file_says table (with_file (commands_text cs)) cs /\
  file_says table (with_file (commands_text (cs ++ cs'))) (cs ++ cs') /\
  hash_order id_order /\ id_argument (txt "1") 1 /\ id_argument (txt "3") 3 /\
  snd (run_prog (gc_short_path table id_order (MinPriorityQueue sp_score) (txt "1") (txt "3") 9) (with_file (commands_text (cs ++ cs')))) =
    Done [txt "Shortest path from vertex 1 to vertex 3 with total cost of 2"; txt "1"; txt "2"; txt "3"].
Proof.
  cbv zeta.
  assert (E : forall x y, aE (a_run [AddEdge 1 2; AddEdge 2 3; AddEdge 7 2]) x y -> (x = 1 /\ y = 2) \/ (x = 2 /\ y = 3) \/ (x = 7 /\ y = 2)).
  { intros x y. cbn. tauto. }
  assert (K : forall v, reachable (aE (a_run [AddEdge 1 2; AddEdge 2 3; AddEdge 7 2])) 1 v -> v <> 7 /\ v <> 9).
  { apply reachable_ind'; [split; discriminate|]. intros u v _ _ H. apply E in H.
    destruct H as [[_ ->]|[[_ ->]|[_ ->]]]; split; discriminate. }
  assert (X : forall cs, Forall u64_command cs -> file_says table (with_file (commands_text cs)) cs).
  { intros cs Hc. exists (commands_text cs). split; [reflexivity|]. apply read_commands_text; [apply table_ok|assumption]. }
  split; [repeat apply Forall_cons; try apply Forall_nil; cbn [away]; try exact I; intro H; apply K in H; lia|].
  split; [apply X; repeat constructor|]. split; [apply X; repeat constructor|]. split; [apply id_order_ok|].
  split; [now apply parse_id_spec|]. split; [now apply parse_id_spec|]. vm_compute. reflexivity.
Qed.
