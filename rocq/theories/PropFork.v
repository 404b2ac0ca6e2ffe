(** * Theorems: the shortest paths of one answer form a tree (C166) *)
From Coq Require Import List NArith ZArith Bool Permutation Lia Arith.
From Verif Require Import Spec Base WalkFacts Graph GraphSpec GraphFacts Path SearchFacts IterFacts Topo TopoFacts
  PropTopo ShortSpec ShortFacts DagFacts PropShort BellmanFacts PropBellman ForkSpec.
Import ListNotations.
Open Scope Z_scope.

(** ** Generalities on answers *)

(** Every listed path is that of the source or prolongs the path listed for another vertex. *)
Definition prolongs (s : N) (answer : N -> option (list N * Z)) : Prop :=
  forall v p c, answer v = Some (p, c) ->
    p = [s] /\ v = s \/ exists u q c', answer u = Some (q, c') /\ p = q ++ [v].

Lemma prolongs_tree s answer : prolongs s answer -> one_tree answer.
Proof.
  intros H. assert (HP : forall n v p c, (length p <= n)%nat -> answer v = Some (p, c) ->
    forall front x rest, p = front ++ x :: rest -> exists c', answer x = Some (front ++ [x], c')).
  { induction n as [|n IH]; intros v p c Hn Hv front x rest Hp.
    - subst p. rewrite app_length in Hn. cbn in Hn. lia.
    - destruct (H v p c Hv) as [[Hs ->]|(u & q & c' & Hu & Hq)].
      + rewrite Hs in Hp. destruct front as [|f front]; [|destruct front; discriminate].
        injection Hp as <- _. exists c. rewrite Hv, Hs. reflexivity.
      + destruct (exists_last (l := x :: rest) ltac:(discriminate)) as (r & y & Hr).
        assert (Heq : q ++ [v] = (front ++ r) ++ [y]) by (rewrite <- Hq, Hp, Hr; apply app_assoc).
        apply app_inj_tail in Heq as [Hq2 <-].
        destruct r as [|z r].
        * cbn in Hr. injection Hr as -> ->. exists c. rewrite Hv, Hp. reflexivity.
        * injection Hr as -> ->. apply (IH u q c') with r; [|assumption|exact Hq2].
          rewrite Hq, app_length in Hn. cbn in Hn. lia. }
  intros v p c Hv. exact (HP (length p) v p c (le_n _) Hv).
Qed.

Lemma tree_no_detour answer : one_tree answer -> no_detour answer.
Proof.
  intros H v p c Hv.
  assert (HP : forall front rest, p = front ++ rest -> NoDup rest -> NoDup p).
  { intro front. induction front as [|x front IH] using rev_ind; intros rest Hp Hr.
    - cbn in Hp. now rewrite Hp.
    - rewrite <- app_assoc in Hp. cbn in Hp. apply (IH (x :: rest) Hp). constructor; [|assumption].
      intro Hx. apply in_split in Hx as (a & b & ->).
      destruct (H v p c Hv front x _ Hp) as (c1 & H1).
      destruct (H v p c Hv (front ++ x :: a) x b) as (c2 & H2).
      { rewrite Hp, <- app_assoc. reflexivity. }
      rewrite H1 in H2. injection H2 as H2 _. apply (f_equal (@length N)) in H2.
      rewrite !app_length in H2. cbn in H2. lia. }
  apply (HP p []); [now rewrite app_nil_r|constructor].
Qed.

(** ** What one relaxation keeps *)
Section Fork.
  Variables (g : graph) (w : edge -> Z) (s : N).
  Let E := gE g.
  Let wt (a b : N) : Z := w (a, b).

  (** Every entry comes from an edge out of a vertex whose own entry is still what it was, or has
      become lower since. *)
  Definition derived (m : scores) : Prop := forall x sp, sc_get x m = Some sp ->
    sp_path sp = [s] /\ x = s \/
    exists u su q, sc_get u m = Some su /\ E u x /\ sp_path sp = q ++ [x] /\
      (sp_path su = q /\ sp_score su + wt u x = sp_score sp \/ sp_score su + wt u x < sp_score sp).

  Lemma init_derived : derived (m_init s).
  Proof.
    intros x sp H. rewrite init_get in H. destruct (N.eqb_spec x s) as [->|]; [|discriminate].
    injection H as <-. left. split; reflexivity.
  Qed.

  Lemma put_derived m u x su : E u x -> sc_get u m = Some su ->
    (forall c, sc_get x m = Some c -> sp_score su + wt u x < sp_score c) ->
    derived m -> derived (improved w m u x su).
  Proof.
    intros He Hu Hlt Hd y sp Hy. unfold improved in *. fold (wt u x) in *. rewrite sc_get_put in Hy.
    destruct (N.eqb_spec y x) as [->|Hne].
    - injection Hy as <-. right. destruct (N.eqb_spec u x) as [->|Hux].
      + exists x. eexists. exists (sp_path su). rewrite sc_get_put, N.eqb_refl. split; [reflexivity|].
        split; [assumption|]. split; [reflexivity|]. right. cbn. specialize (Hlt su Hu). lia.
      + exists u, su, (sp_path su). rewrite sc_get_put. apply N.eqb_neq in Hux. rewrite Hux.
        split; [assumption|]. split; [assumption|]. split; [reflexivity|]. left. split; reflexivity.
    - destruct (Hd y sp Hy) as [H|(v & sv & q & H1 & H2 & H3 & H4)]; [now left|right].
      destruct (N.eqb_spec v x) as [->|Hvx].
      + exists x. eexists. exists q. rewrite sc_get_put, N.eqb_refl. split; [reflexivity|].
        split; [assumption|]. split; [assumption|]. right. cbn. specialize (Hlt sv H1). lia.
      + exists v, sv, q. rewrite sc_get_put. apply N.eqb_neq in Hvx. rewrite Hvx. auto.
  Qed.
  Lemma relax_derived m u x m' b : E u x -> relax w m (u, x) = Done (m', b) -> derived m -> derived m'.
  Proof.
    intros He H Hd. unfold relax in H. cbn [fst snd] in H. destruct (sc_get u m) as [su|] eqn:Eu.
    - apply obind_done in H as (z & Hz & H). apply i64_inv in Hz as [-> _]. injection H as H.
      unfold current_score_of_vertex in H.
      destruct (Z.ltb_spec (sp_score su + w (u, x))
        (match sc_get x m with Some sp => sp_score sp | None => i64_max end)) as [Hlt|Hge].
      + injection H as <- <-. apply (put_derived m u x su He Eu); [|assumption].
        intros c Hc. rewrite Hc in Hlt. exact Hlt.
      + injection H as <- <-. assumption.
    - injection H as <- <-. assumption.
  Qed.
  Lemma dag_relax_derived m u x m' : E u x -> dag_relax w u m (u, x) = Done m' -> derived m -> derived m'.
  Proof.
    intros He H Hd. apply dag_relax_done in H as (_ & b & H). destruct H as [| |su Hu Hx]; try assumption.
    now apply put_derived.
  Qed.

  (** When no edge between listed vertices can lower anything, what is listed fits together. *)
  Lemma derived_tree m : derived m ->
    (forall u x su sx, E u x -> sc_get u m = Some su -> sc_get x m = Some sx ->
       sp_score sx <= sp_score su + wt u x) -> one_tree (entry m).
  Proof.
    intros Hd Hset. apply (prolongs_tree s). intros v p c Hv. unfold entry in *.
    destruct (sc_get v m) as [sp|] eqn:Ev; [|discriminate]. injection Hv as <- <-.
    destruct (Hd v sp Ev) as [H|(u & su & q & H1 & H2 & H3 & H4)]; [now left|right].
    exists u, q, (sp_score su). rewrite H1. destruct H4 as [[H4 _]|H4].
    - rewrite H4. split; [reflexivity|assumption].
    - specialize (Hset u v su sp H2 H1 Ev). lia.
  Qed.
End Fork.

Lemma bf_passes_derived g w s : wf g -> forall n m m', bf_passes g w n m = Done m' ->
  derived g w s m -> derived g w s m'.
Proof.
  intros W. assert (HP : forall es m m', (forall a b, In (a, b) es -> gE g a b) ->
    ofold (fun m e => obind (relax w m e) (fun r => Done (fst r))) es m = Done m' ->
    derived g w s m -> derived g w s m').
  { induction es as [|[u x] es IH]; intros m m' Hes H Hd.
    - injection H as <-. assumption.
    - cbn [ofold] in H. apply obind_done in H as (m1 & H1 & H). apply obind_done in H1 as ([m2 b] & H1 & H2).
      injection H2 as <-. apply (IH m2 m'); [intros; apply Hes; now right|assumption|].
      eapply relax_derived; [apply Hes; now left|exact H1|assumption]. }
  induction n as [|n IH]; intros m m' H Hd.
  - injection H as <-. assumption.
  - cbn [bf_passes] in H. apply obind_done in H as (m1 & H1 & H). apply (IH m1 m' H).
    apply (HP (edges g) m m1); [|exact H1|assumption]. intros a b Hab. now apply gE_edges.
Qed.

Lemma bf_check_settled w m : forall es, bf_check w es m = Done false ->
  forall u x su sx, In (u, x) es -> sc_get u m = Some su -> sc_get x m = Some sx ->
    sp_score sx <= sp_score su + w (u, x).
Proof.
  induction es as [|e es IH]; intros H u x su sx Hin Hu Hx; [destruct Hin|].
  cbn [bf_check] in H. apply obind_done in H as ([m1 b] & H1 & H). cbn [snd] in H.
  destruct b; [discriminate|]. destruct Hin as [->|Hin]; [|now apply (IH H)].
  unfold relax in H1. cbn [fst snd] in H1. rewrite Hu in H1. apply obind_done in H1 as (z & Hz & H1).
  apply i64_inv in Hz as [-> _]. unfold current_score_of_vertex in H1. rewrite Hx in H1.
  destruct (Z.ltb_spec (sp_score su + w (u, x)) (sp_score sx)); [discriminate|assumption].
Qed.

Lemma spfa_derived g w s : wf g -> forall n x m, spfa_loop g w n x = Done m ->
  derived g w s (fst x) -> derived g w s m.
Proof.
  intros W. assert (HP : forall es x x', (forall a b, In (a, b) es -> gE g a b) ->
    ofold (spfa_edge w) es x = Done x' -> derived g w s (fst x) -> derived g w s (fst x')).
  { induction es as [|[u y] es IH]; intros x x' Hes H Hd.
    - injection H as <-. assumption.
    - cbn [ofold] in H. apply obind_done in H as (x1 & H1 & H). unfold spfa_edge in H1.
      apply obind_done in H1 as ([m2 b] & H1 & H2). cbn [fst snd] in H2.
      apply (IH x1 x'); [intros; apply Hes; now right|assumption|].
      replace (fst x1) with m2 by (destruct b; injection H2 as <-; reflexivity).
      eapply relax_derived; [apply Hes; now left|exact H1|assumption]. }
  induction n as [|n IH]; intros [m0 q] m H Hd; [discriminate|].
  cbn [spfa_loop snd fst] in H. destruct q as [|v q].
  - injection H as <-. assumption.
  - apply obind_done in H as (x1 & H1 & H). apply (IH x1 m H).
    apply (HP (outbound_edges g v) (m0, q) x1); [|exact H1|exact Hd].
    intros a b Hab. assert (a = v) as -> by now apply outbound_In in Hab. now apply (gE_outbound g W).
Qed.

Lemma dag_visit_derived g w s : wf g -> forall l m m', dag_visit g w l m = Done m' ->
  derived g w s m -> derived g w s m'.
Proof.
  intros W. assert (HP : forall v es m m', (forall e, In e es -> fst e = v /\ gE g v (snd e)) ->
    ofold (dag_relax w v) es m = Done m' -> derived g w s m -> derived g w s m').
  { intro v. induction es as [|[u x] es IH]; intros m m' Hes H Hd.
    - injection H as <-. assumption.
    - cbn [ofold] in H. apply obind_done in H as (m1 & H1 & H).
      destruct (Hes (u, x) (or_introl eq_refl)) as [Hu He]. cbn in Hu, He. subst u.
      apply (IH m1 m'); [intros; apply Hes; now right|assumption|].
      eapply dag_relax_derived; [exact He|exact H1|assumption]. }
  induction l as [|v l IH]; intros m m' H Hd.
  - injection H as <-. assumption.
  - unfold dag_visit in H. cbn [ofold] in H. apply obind_done in H as (m1 & H1 & H). apply (IH m1 m' H).
    apply (HP v (outbound_edges g v) m m1); [|exact H1|assumption].
    intros [a b] Hab. assert (a = v) as -> by now apply outbound_In in Hab. cbn. split; [reflexivity|].
    now apply (gE_outbound g W).
Qed.

Lemma answer_tree g w s m : derived g w s m -> shortest_answer (gE g) (by_ends w) s (entry m) ->
  one_tree (entry m).
Proof.
  intros Hd Ha. apply (derived_tree g w s m Hd). intros u x su sx He Hu Hx.
  pose proof (Ha u) as H1. pose proof (Ha x) as H2. unfold entry in H1, H2. rewrite Hu in H1. rewrite Hx in H2.
  destruct H1 as (H1 & H3 & _). destruct H2 as (_ & _ & H2).
  specialize (H2 (sp_path su ++ [x]) ltac:(now apply walk_snoc with u)).
  rewrite (weight_snoc _ x (proj1 (proj2 H1))) in H2. unfold by_ends in *. lia.
Qed.

(** ** C166 *)
Theorem C166_bellman_ford : forall g w s m, built g -> bellman_ford g w s = Done (Some m) ->
  one_tree (entry m) /\ no_detour (entry m).
Proof.
  intros g w s m Hb H. pose proof (built_wf Hb) as W. unfold bellman_ford in H. fold (m_init s) in H.
  apply obind_done in H as (m1 & H1 & H). apply obind_done in H as (b & H2 & H).
  destruct b; [discriminate|]. injection H as ->.
  assert (Ht : one_tree (entry m)); [|split; [exact Ht|now apply tree_no_detour]].
  apply (derived_tree g w s m).
  - apply (bf_passes_derived g w s W _ _ _ H1). apply init_derived.
  - intros u x su sx He. apply (bf_check_settled w m (edges g) H2). now apply gE_edges.
Qed.
Print Assumptions C166_bellman_ford.

Theorem C166_spfa : forall g w s B m, built g ->
  0 <= B -> (forall a b, gE g a b -> Z.abs (w (a, b)) <= B) ->
  B * Z.of_nat (vertex_count g + 1) < i64_max ->
  settles (spfa g w s) m -> one_tree (entry m) /\ no_detour (entry m).
Proof.
  intros g w s B m Hb HB0 HB Hmax [n Hm]. pose proof (built_wf Hb) as W. rewrite vertex_count_len in Hmax.
  specialize (Hm n (le_n _)).
  assert (Ht : one_tree (entry m)); [|split; [exact Ht|now apply tree_no_detour]].
  apply (answer_tree g w s).
  - unfold spfa in Hm. apply (spfa_derived g w s W _ _ _ Hm). apply init_derived.
  - now apply (spfa_done g w s B W HB0 HB Hmax n m).
Qed.
Print Assumptions C166_spfa.

Theorem C166_dag : forall g w s m, built g -> (forall v, contains_edge g (v, v) = false) ->
  acyclic (gE g) ->
  settles (dag_shortest_paths g w s) m \/ settles (dag_longest_paths g w s) m ->
  one_tree (entry m) /\ no_detour (entry m).
Proof.
  intros g w s m Hb Hl Ha Hm. pose proof (built_wf Hb) as W.
  assert (Hd : forall w' m1, settles (dag_shortest_paths g w' s) m1 -> one_tree (entry m1)).
  { intros w' m1 H1. apply (answer_tree g w' s).
    - destruct (dag_run g w' s Hb Hl Ha) as (order & n0 & _ & _ & _ & Hrun).
      apply (dag_visit_derived g w' s W _ _ _ (settles_const _ _ _ _ _ Hrun H1)). apply init_derived.
    - now apply dag_answer. }
  assert (Ht : one_tree (entry m)); [|split; [exact Ht|now apply tree_no_detour]].
  destruct Hm as [Hm|[n Hm]]; [now apply (Hd w)|].
  destruct (dag_run g (fun e => -1 * w e) s Hb Hl Ha) as (order & n0 & _ & _ & _ & Hrun).
  specialize (Hm (n + n0)%nat ltac:(lia)). unfold dag_longest_paths in Hm.
  apply obind_done in Hm as (m1 & H1 & H2).
  assert (Ht1 : one_tree (entry m1)).
  { apply (Hd (fun e => -1 * w e)). exists n0. intros k Hk. rewrite Hrun by assumption. rewrite <- H1.
    symmetry. apply Hrun. lia. }
  intros v p c Hv front x rest Hp. pose proof (negate_get m1 m H2 v) as Hnv. pose proof (negate_get m1 m H2 x) as Hnx.
  unfold one_tree, entry in *. destruct (sc_get v m1) as [sv|] eqn:Ev; rewrite Hnv in Hv; [|discriminate].
  cbn [sp_path sp_score scored_path_of] in Hv. injection Hv as Hv _.
  destruct (Ht1 v p (sp_score sv)) with front x rest as (c' & Hc'); [rewrite Ev, Hv; reflexivity|assumption|].
  destruct (sc_get x m1) as [sx|]; [|discriminate]. rewrite Hnx. cbn [sp_path sp_score scored_path_of].
  injection Hc' as -> _. eexists. reflexivity.
Qed.
Print Assumptions C166_dag.
(** Two routes of the same weight to 4, one of them passing a closed walk of weight 0: the route
    listed for 5 goes on from the one listed for 4. *)
Definition fork_graph : graph :=
  apply_commands [AddEdge 1 2; AddEdge 1 3; AddEdge 2 4; AddEdge 3 4; AddEdge 4 5; AddEdge 4 2; AddEdge 5 6] g_new.
Definition fork_w (e : edge) : Z :=
  match e with (2, 4)%N => -2 | (3, 4)%N => -1 | (1, 3)%N => 1 | (4, 2)%N => 2 | _ => 2 end.
Example C166_case : built fork_graph /\
  (forall a b, gE fork_graph a b -> Z.abs (fork_w (a, b)) <= 2) /\
  2 * Z.of_nat (vertex_count fork_graph + 1) < i64_max /\
  match bellman_ford fork_graph fork_w 1, spfa fork_graph fork_w 1 20 with
  | Done (Some m), Done m' =>
    entry m 6 = Some ([1; 2; 4; 5; 6]%N, 4) /\ entry m 4 = Some ([1; 2; 4]%N, 0) /\
    entry m' 6 = entry m 6 /\ entry m' 4 = entry m 4
  | _, _ => False
  end.
Proof.
  assert (Hb : built fork_graph) by (eexists; apply built_by_apply). split; [exact Hb|].
  split; [apply small_dec; [apply (built_wf Hb)|vm_compute; reflexivity]|].
  split; [vm_compute; reflexivity|]. vm_compute. repeat split; reflexivity.
Qed.
Example C166_dag_case : built dag_graph /\ (forall v, contains_edge dag_graph (v, v) = false) /\
  acyclic (gE dag_graph) /\
  exists m, settles (dag_longest_paths dag_graph dag_w 1) m /\
    entry m 5 = Some ([1; 2; 4; 5]%N, -15) /\ exists c, entry m 4 = Some ([1; 2; 4]%N, c).
Proof.
  split; [exact dag_built|]. split; [exact dag_loop_free|]. split; [exact dag_graph_acyclic|].
  eexists. split.
  - exists 9%nat. intros n Hn. do 9 (destruct n as [|n]; [lia|]). vm_compute. reflexivity.
  - vm_compute. split; [reflexivity|]. eexists. reflexivity.
Qed.
