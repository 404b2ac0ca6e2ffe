(** * Property C152, continued: a flow only sees what its source reaches *)
From Coq Require Import List NArith ZArith Bool Arith Lia.
From Verif Require Import Spec Base Graph GraphSpec GraphFacts Path WalkFacts PathFacts Queue Topo Iter IterFacts
  MaxFlow FlowSpec FlowFacts PropTopo PropGraph LogSpec PropLog PropLocal.
Import ListNotations.
Open Scope N_scope.

Section Local.
  Variables (g h : graph) (s t : N).
  Hypothesis W : wf g.
  Hypothesis Wh : wf h.
  Hypothesis L : alike_from s g h.

  Definition from_here (p : list N) : Prop := p <> [] /\ Forall (reachable (gE g) s) p.
  (** The same entries for the edges that leave vertices the source reaches. *)
  Definition alike_flows (m m' : flows) : Prop := forall e, reachable (gE g) s (fst e) -> fl_get e m = fl_get e m'.

  Lemma kids_alike p vid : from_here p -> path_last p = Some vid -> aug_kids g (tag p) vid = aug_kids h (tag p) vid.
  Proof.
    intros [_ F] El. assert (Hr : reachable (gE g) s vid).
    { rewrite Forall_forall in F. apply F. apply path_last_spec in El. now apply ends_with_In. }
    pose proof (tag_kids g W p vid El) as K1. pose proof (tag_kids h Wh p vid El) as K2.
    unfold path_kids in K1, K2. rewrite El in K1, K2. rewrite (L vid Hr) in K1. cbn [option_map] in K1, K2. congruence.
  Qed.
  Lemma kids_here p vid x : from_here p -> path_last p = Some vid -> In x (aug_kids g (tag p) vid) ->
    exists p', x = tag p' /\ from_here p'.
  Proof.
    intros [Hp F] El Hx. assert (Hr : reachable (gE g) s vid).
    { rewrite Forall_forall in F. apply F. apply path_last_spec in El. now apply ends_with_In. }
    pose proof (tag_kids g W p vid El) as K1. unfold path_kids in K1. rewrite El in K1. cbn [option_map] in K1.
    injection K1 as K1. rewrite K1 in Hx. apply in_map_iff in Hx. destruct Hx as (p' & <- & Hp').
    exists p'. split; [reflexivity|]. apply in_map_iff in Hp'. destruct Hp' as ([a b] & <- & Hv).
    apply filter_In in Hv. destruct Hv as [He _]. apply outbound_In in He. destruct He as [-> He]. unfold path_append. split; [now destruct p|].
    apply Forall_app. split; [assumption|]. constructor; [|constructor]. eapply reachable_step; [exact Hr|]. now apply (contains_edge_hasE vid b W).
  Qed.
  Lemma edges_here p a b : from_here p -> In (a, b) (to_edge_list p) -> reachable (gE g) s a.
  Proof.
    intros [_ F] H. apply to_edge_list_In in H. destruct H as (q & r & ->). rewrite Forall_forall in F. apply F.
    apply in_or_app. right. now left.
  Qed.
  Lemma residual_alike m m' p : alike_flows m m' -> from_here p -> residual_capacity (tag p) m = residual_capacity (tag p) m'.
  Proof.
    intros A Hp. unfold residual_capacity. f_equal. rewrite tag_edges.
    assert (F : forall e, In e (to_edge_list p) -> reachable (gE g) s (fst e)).
    { intros [a b] He. now apply (edges_here p a b). }
    induction (to_edge_list p) as [|e es IH]; [reflexivity|]. cbn [map min_residual edge_residual_capacity].
    rewrite (A e) by (apply F; now left). rewrite IH by (intros; apply F; now right). reflexivity.
  Qed.
  Lemma update_alike d p : from_here p -> forall m m', alike_flows m m' ->
    match update_flow m (tag p) d, update_flow m' (tag p) d with
    | Done n, Done n' => alike_flows n n'
    | Panic, Panic => True
    | OutOfFuel, OutOfFuel => True
    | _, _ => False
    end.
  Proof.
    intros Hp. unfold update_flow. rewrite tag_edges.
    assert (F : forall e, In e (to_edge_list p) -> reachable (gE g) s (fst e)).
    { intros [a b] He. now apply (edges_here p a b). }
    induction (to_edge_list p) as [|e es IH]; intros m m' A; [exact A|]. cbn [map ofold fst snd].
    assert (M : (modify (fun v => u64_add v d) e m = Panic /\ modify (fun v => u64_add v d) e m' = Panic) \/
      exists n n', modify (fun v => u64_add v d) e m = Done n /\ modify (fun v => u64_add v d) e m' = Done n' /\ alike_flows n n').
    { unfold modify. rewrite <- (A e) by (apply F; now left). destruct (fl_get e m) as [[f c]|]; [|right; eauto].
      unfold u64_add. destruct (f + d <=? u64_max); [|left; now split]. right. cbn [obind]. do 2 eexists.
      split; [reflexivity|]. split; [reflexivity|]. intros x Hx. unfold fl_get.
      rewrite !(hm_get_insert _ edge_eqb_spec). destruct (edge_eqb x e); [reflexivity|]. now apply A. }
    destruct M as [[-> ->]|(n & n' & -> & -> & A')]; [exact I|]. cbn [obind].
    apply IH; [intros; apply F; now right|assumption].
  Qed.

  Lemma aug_alike m m' : alike_flows m m' -> forall n q, Forall (fun x => exists p, x = tag p /\ from_here p) q ->
    aug_next g m t n q = aug_next h m' t n q /\
    (forall x d, aug_next g m t n q = Done (Some (x, d)) -> exists p, x = tag p /\ from_here p).
  Proof.
    intros A. induction n as [|n IH]; intros q F; [split; [reflexivity|discriminate]|]. cbn [aug_next].
    destruct F as [|x q (p & -> & Hp) F]; [split; [reflexivity|discriminate]|].
    rewrite tag_last. destruct (path_last p) as [vid|] eqn:El; cbn [option_map]; [|split; [reflexivity|discriminate]].
    rewrite <- (kids_alike p vid Hp El).
    assert (F2 : Forall (fun x => exists p, x = tag p /\ from_here p) (q ++ aug_kids g (tag p) vid)).
    { apply Forall_app. split; [assumption|]. apply Forall_forall. intros x Hx. now apply (kids_here p vid). }
    destruct (IH _ F2) as [E K]. destruct (N.eqb vid t); [|now split].
    rewrite <- (residual_alike m m' p A Hp). destruct (residual_capacity (tag p) m) as [r| |]; cbn [obind]; try (split; [reflexivity|discriminate]).
    destruct (0 <? r); [|now split]. split; [reflexivity|]. intros x d [= <- <-]. eauto.
  Qed.
  Lemma loop_alike n : forall k value m m', alike_flows m m' ->
    match flow_loop g s t n k value m, flow_loop h s t n k value m' with
    | Done (v, x), Done (v', x') => v = v' /\ alike_flows x x'
    | Panic, Panic => True
    | OutOfFuel, OutOfFuel => True
    | _, _ => False
    end.
  Proof.
    induction k as [|k IH]; intros value m m' A; [exact I|]. cbn [flow_loop]. unfold find_augmenting_path.
    assert (F0 : Forall (fun x => exists p, x = tag p /\ from_here p) [aug_new s]).
    { constructor; [|constructor]. exists [s]. split; [reflexivity|]. split; [discriminate|]. constructor; [apply reachable_refl|constructor]. }
    destruct (aug_alike m m' A n _ F0) as [E K]. rewrite <- E.
    destruct (aug_next g m t n [aug_new s]) as [[[x d]|]| |] eqn:Ea; cbn [obind]; [| |exact I|exact I].
    - destruct (K x d eq_refl) as (p & -> & Hp). pose proof (update_alike d p Hp m m' A) as U.
      destruct (update_flow m (tag p) d) as [m1| |], (update_flow m' (tag p) d) as [m1'| |]; try contradiction; cbn [obind]; try exact I.
      destruct (u64_add value d) as [v| |]; cbn [obind]; try exact I. now apply IH.
    - now split.
  Qed.
End Local.

Lemma init_get g cap e : fl_get e (flow_init g cap) = if in_dec edge_dec e (edges g) then Some (0, cap e) else None.
Proof.
  unfold flow_init.
  assert (H : forall es m e, fl_get e (fold_left (fun m e => hm_insert edge_eqb e (0, cap e) m) es m) =
    if in_dec edge_dec e es then Some (0, cap e) else fl_get e m).
  { clear. induction es as [|a es IH]; intros m e; [reflexivity|]. cbn [fold_left]. rewrite IH.
    unfold fl_get. rewrite (hm_get_insert _ edge_eqb_spec).
    destruct (in_dec edge_dec e es) as [Hi|Hi], (in_dec edge_dec e (a :: es)) as [Hj|Hj];
      destruct (edge_eqb_spec e a) as [->|Hne]; try reflexivity; exfalso; cbn [In] in *; intuition congruence. }
  rewrite H. reflexivity.
Qed.
Lemma init_alike g h s cap cap' : wf g -> wf h -> alike_from s g h ->
  (forall a b, reachable (gE g) s a -> gE g a b -> cap (a, b) = cap' (a, b)) ->
  alike_flows g s (flow_init g cap) (flow_init h cap').
Proof.
  intros W Wh L C [a b] Hr. cbn [fst] in Hr.
  assert (EE : gE g a b <-> gE h a b).
  { unfold gE. rewrite (contains_edge_hasE a b W), (contains_edge_hasE a b Wh).
    pose proof (outbound_In g a a b) as X. pose proof (outbound_In h a a b) as Y. rewrite (L a Hr) in X. tauto. }
  rewrite !init_get.
  destruct (in_dec edge_dec (a, b) (edges g)) as [I1|I1], (in_dec edge_dec (a, b) (edges h)) as [I2|I2].
  - rewrite (C a b Hr); [reflexivity|]. now apply (gE_edges g).
  - exfalso. apply I2, (gE_edges h), EE, (gE_edges g); assumption.
  - exfalso. apply I1, (gE_edges g), EE, (gE_edges h); assumption.
  - reflexivity.
Qed.

(** The flow from [s] to [t] in two graphs that offer the same edges, in the same
    order and with the same capacities, at every vertex that [s] reaches: the same
    value, and the same flow on these edges. *)
Theorem C152_max_flow : forall g h s t cap cap' v m, built g -> built h -> alike_from s g h ->
  (forall a b, reachable (gE g) s a -> gE g a b -> cap (a, b) = cap' (a, b)) ->
  settles (max_flow g cap s t) (v, m) ->
  exists m', settles (max_flow h cap' s t) (v, m') /\
    forall a b, reachable (gE g) s a -> fl_get (a, b) m = fl_get (a, b) m'.
Proof.
  intros g h s t cap cap' v m Bg Bh L C [n0 H]. apply built_wf in Bg, Bh.
  pose proof (init_alike g h s cap cap' Bg Bh L C) as A.
  pose proof (loop_alike g h s t Bg Bh L n0 n0 0 _ _ A) as K. specialize (H n0 (le_n n0)). unfold max_flow in H. rewrite H in K.
  destruct (flow_loop h s t n0 n0 0 (flow_init h cap')) as [[v' m']| |] eqn:E; try contradiction.
  destruct K as [<- K]. exists m'. split; [|intros a b Hr; now apply (K (a, b))].
  apply (max_flow_settles h cap' s t n0). exact E.
Qed.
Print Assumptions C152_max_flow.

(** So what is changed out of reach does not matter. *)
Theorem C152_max_flow_away : forall cs cs' g h s t cap v m, built_by cs g -> built_by (cs ++ cs') h ->
  Forall (away (gE g) s) cs' -> settles (max_flow g cap s t) (v, m) ->
  exists m', settles (max_flow h cap s t) (v, m') /\ forall a b, reachable (gE g) s a -> fl_get (a, b) m = fl_get (a, b) m'.
Proof.
  intros cs cs' g h s t cap v m B B' F H. destruct (C152_away cs cs' g h s B B' F) as [A _].
  apply (C152_max_flow g h s t cap cap v m); [now exists cs|now exists (cs ++ cs')|assumption|reflexivity|assumption].
Qed.
Print Assumptions C152_max_flow_away.

Example C152_flow_case :
  let g := apply_commands [AddEdge 1 2; AddEdge 2 3] g_new in
  let h := apply_commands [AddEdge 1 2; AddEdge 2 3; AddEdge 7 2; AddEdge 7 3] g_new in
  Forall (away (gE g) 1) [AddEdge 7 2; AddEdge 7 3] /\
  max_flow g (fun e => fst e + 3) 1 3 20 = Done (4, [((1, 2), (4, 4)); ((2, 3), (4, 5))]) /\
  exists m, max_flow h (fun e => fst e + 3) 1 3 20 = Done (4, m) /\ fl_get (2, 3) m = Some (4, 5).
Proof.
  cbn zeta. split; [|split; [vm_compute; reflexivity|eexists; split; [vm_compute; reflexivity|reflexivity]]].
  set (g := apply_commands [AddEdge 1 2; AddEdge 2 3] g_new).
  assert (E : forall x y, gE g x y -> (x = 1 /\ y = 2) \/ (x = 2 /\ y = 3)).
  { intros x y H. apply (proj2 (refines (built_by_apply [AddEdge 1 2; AddEdge 2 3]))) in H. cbn in H. tauto. }
  assert (K : forall v, reachable (gE g) 1 v -> v <> 7).
  { apply reachable_ind'; [discriminate|]. intros u v _ _ H. apply E in H. destruct H as [[_ ->]|[_ ->]]; discriminate. }
  constructor; [|constructor; [|constructor]]; cbn [away]; intro H; now apply K in H.
Qed.
