(** * Proofs about the graph model *)
From Coq Require Import List NArith Bool Lia Permutation Arith.
From Verif Require Import Spec Base Graph GraphSpec.
Import ListNotations.

Set Implicit Arguments.

Notation spec := N.eqb_spec.

Global Arguments g_get : simpl never.
Global Arguments hm_keys : simpl never.

Definition keep (e : edge) := filter (fun x => negb (edge_eqb x e)).

Lemma keep_In e x l : In x (keep e l) <-> In x l /\ x <> e.
Proof.
  unfold keep. rewrite filter_In. destruct (edge_eqb_spec x e); cbn; intuition congruence.
Qed.

Lemma keep_idem e l : keep e (keep e l) = keep e l.
Proof.
  unfold keep. rewrite filter_filter. apply filter_ext. intro a.
  destruct (edge_eqb a e); reflexivity.
Qed.

Lemma keep_notin e l : ~ In e l -> keep e l = l.
Proof.
  intro H. apply filter_all. intros x Hx. destruct (edge_eqb_spec x e); cbn; congruence.
Qed.

(** ** [g_get] through each mutation *)

Lemma get_add_vertex g v u :
  g_get u (fst (add_vertex g v)) =
  if N.eqb u v then Some (match g_get v g with Some es => es | None => [] end)
  else g_get u g.
Proof.
  unfold add_vertex. destruct (g_get v g) as [es|] eqn:E; cbn.
  - destruct (spec u v); [now subst|reflexivity].
  - unfold g_get. rewrite (hm_get_insert _ spec). destruct (spec u v); reflexivity.
Qed.

Lemma get_remove_edge g a b u :
  g_get u (fst (remove_edge g (a, b))) =
  if N.eqb u a || N.eqb u b then option_map (keep (a, b)) (g_get u g)
  else g_get u g.
Proof.
  cbn -[hm_update]. unfold g_get.
  rewrite !(hm_get_update _ spec). fold (keep (a, b)).
  destruct (spec u b); destruct (spec u a); cbn; try reflexivity.
  destruct (hm_get N.eqb u g); cbn; [|reflexivity]. now rewrite keep_idem.
Qed.

Lemma get_push g v e u :
  g_get u (push g v e) =
  if N.eqb u v then option_map (fun es => es ++ [e]) (g_get u g) else g_get u g.
Proof. unfold push, g_get. now rewrite (hm_get_update _ spec). Qed.

Definition incident (u : N) (e : edge) : bool := N.eqb u (fst e) || N.eqb u (snd e).

Definition drop_all (u : N) (es : list edge) (l : list edge) : list edge :=
  filter (fun x => negb (memE x es && incident u x)) l.

Lemma get_remove_edges es : forall g u,
  g_get u (fold_left (fun h e => fst (remove_edge h e)) es g) =
  option_map (drop_all u es) (g_get u g).
Proof.
  induction es as [|[a b] es IH]; intros g u; cbn -[remove_edge].
  - destruct (g_get u g); cbn; [|reflexivity]. f_equal. symmetry. now apply filter_all.
  - rewrite IH, get_remove_edge. destruct (g_get u g) as [l|]; cbn;
      [|destruct (_ || _); reflexivity].
    unfold drop_all. destruct (N.eqb u a || N.eqb u b) eqn:Ei; cbn.
    + f_equal. unfold keep. rewrite filter_filter. apply filter_ext. intros [x y].
      unfold incident. cbn.
      destruct (edge_eqb_spec (x, y) (a, b)) as [[= -> ->]|Hn]; cbn; [now rewrite Ei|].
      reflexivity.
    + f_equal. apply filter_ext. intros [x y]. unfold incident. cbn.
      destruct (edge_eqb_spec (x, y) (a, b)) as [[= -> ->]|Hn]; cbn; [|reflexivity].
      rewrite Ei. now rewrite andb_false_r.
Qed.

Lemma get_remove_vertex g v u :
  g_get u (fst (remove_vertex g v)) =
  if N.eqb u v then None
  else option_map (drop_all u (match g_get v g with Some es => es | None => [] end))
         (g_get u g).
Proof.
  unfold remove_vertex.
  destruct (g_get v g) as [es|] eqn:E; cbn -[remove_edge hm_remove].
  - rewrite get_remove_edges. unfold g_get. rewrite (hm_get_remove _ spec).
    destruct (spec u v); reflexivity.
  - unfold g_get. rewrite (hm_get_remove _ spec). destruct (spec u v); [reflexivity|].
    fold (g_get u g). destruct (g_get u g); [|reflexivity]. cbn. f_equal. symmetry.
    now apply filter_all.
Qed.

(** ** Well-formed graphs *)

Record wf (g : graph) : Prop := {
  wf_keys : NoDup (hm_keys g);
  wf_list : forall v es, g_get v g = Some es -> NoDup es;
  wf_inc  : forall v es e, g_get v g = Some es -> In e es -> fst e = v \/ snd e = v;
  wf_src  : forall v es e, g_get v g = Some es -> In e es ->
              exists es', g_get (fst e) g = Some es' /\ In e es';
  wf_dst  : forall v es e, g_get v g = Some es -> In e es ->
              exists es', g_get (snd e) g = Some es' /\ In e es' }.

(** Edge membership read off the source list. *)
Definition hasE (g : graph) (a b : N) : Prop :=
  exists es, g_get a g = Some es /\ In (a, b) es.
Definition hasV (g : graph) (v : N) : Prop := exists es, g_get v g = Some es.

Lemma wf_new : wf g_new.
Proof. split; cbn; try discriminate. constructor. Qed.

Lemma keys_add_vertex g v : NoDup (hm_keys g) -> NoDup (hm_keys (fst (add_vertex g v))).
Proof.
  intro H. unfold add_vertex. destruct (g_get v g); cbn; [assumption|].
  now apply (hm_NoDup_insert _ spec).
Qed.

Lemma keys_remove_edge g e : hm_keys (fst (remove_edge g e)) = hm_keys g.
Proof. destruct e as [a b]. cbn. now rewrite !(hm_keys_update _ spec). Qed.

Lemma keys_remove_edges es : forall g,
  hm_keys (fold_left (fun h e => fst (remove_edge h e)) es g) = hm_keys g.
Proof.
  induction es as [|e es IH]; intro g; cbn -[remove_edge]; [reflexivity|].
  now rewrite IH, keys_remove_edge.
Qed.

Lemma wf_add_vertex g v : wf g -> wf (fst (add_vertex g v)).
Proof.
  intros [Hk Hl Hi Hs Hd].
  assert (G : forall u es, g_get u (fst (add_vertex g v)) = Some es ->
              (g_get u g = Some es) \/ (es = [] /\ u = v)).
  { intros u es. rewrite get_add_vertex. destruct (spec u v).
    - subst. destruct (g_get v g); intros [= <-]; tauto.
    - tauto. }
  assert (G' : forall u es, g_get u g = Some es -> g_get u (fst (add_vertex g v)) = Some es).
  { intros u es H. rewrite get_add_vertex. destruct (spec u v); [|assumption].
    subst. now rewrite H. }
  split.
  - now apply keys_add_vertex.
  - intros u es H. apply G in H as [H|[-> _]]; [eauto|constructor].
  - intros u es e H Hin. apply G in H as [H|[-> _]]; [eauto|destruct Hin].
  - intros u es e H Hin. apply G in H as [H|[-> _]]; [|destruct Hin].
    destruct (Hs _ _ _ H Hin) as (es' & H1 & H2). exists es'. split; auto.
  - intros u es e H Hin. apply G in H as [H|[-> _]]; [|destruct Hin].
    destruct (Hd _ _ _ H Hin) as (es' & H1 & H2). exists es'. split; auto.
Qed.

Lemma wf_remove_edge g e : wf g -> wf (fst (remove_edge g e)).
Proof.
  destruct e as [a b]. intros [Hk Hl Hi Hs Hd].
  assert (G : forall u es, g_get u (fst (remove_edge g (a, b))) = Some es ->
              exists es0, g_get u g = Some es0 /\ es = keep (a, b) es0).
  { intros u es. rewrite get_remove_edge.
    destruct (g_get u g) as [es0|] eqn:E; cbn; [|destruct (_ || _); discriminate].
    intro H. exists es0. split; [reflexivity|].
    destruct (N.eqb u a || N.eqb u b) eqn:Ei; injection H as <-; [reflexivity|].
    symmetry. apply keep_notin. intro Hin. apply (Hi _ _ _ E) in Hin. cbn in Hin.
    destruct (spec u a), (spec u b); cbn in Ei; try discriminate. intuition congruence. }
  assert (G' : forall u es, g_get u g = Some es ->
               g_get u (fst (remove_edge g (a, b))) = Some (keep (a, b) es)).
  { intros u es H. destruct (g_get u (fst (remove_edge g (a, b)))) as [es'|] eqn:E.
    - apply G in E as (es0 & H0 & ->). congruence.
    - rewrite get_remove_edge, H in E. cbn in E. destruct (_ || _); discriminate. }
  split.
  - now rewrite keys_remove_edge.
  - intros u es H. apply G in H as (es0 & H0 & ->). apply NoDup_filter. eauto.
  - intros u es e H Hin. apply G in H as (es0 & H0 & ->). apply keep_In in Hin as [Hin _].
    eauto.
  - intros u es e H Hin. apply G in H as (es0 & H0 & ->). apply keep_In in Hin as [Hin Hn].
    destruct (Hs _ _ _ H0 Hin) as (es' & H1 & H2). exists (keep (a, b) es').
    split; [auto|]. apply keep_In. tauto.
  - intros u es e H Hin. apply G in H as (es0 & H0 & ->). apply keep_In in Hin as [Hin Hn].
    destruct (Hd _ _ _ H0 Hin) as (es' & H1 & H2). exists (keep (a, b) es').
    split; [auto|]. apply keep_In. tauto.
Qed.

Lemma incident_true u e : fst e = u \/ snd e = u -> incident u e = true.
Proof.
  unfold incident. destruct (spec u (fst e)), (spec u (snd e)); cbn; intuition congruence.
Qed.

Lemma drop_all_In u es l e :
  (forall x, In x l -> fst x = u \/ snd x = u) ->
  In e (drop_all u es l) <-> In e l /\ ~ In e es.
Proof.
  intro Hinc. unfold drop_all. rewrite filter_In. split.
  - intros [H1 H2]. split; [assumption|]. intro H3. apply memE_In in H3.
    rewrite H3, (incident_true _ (Hinc _ H1)) in H2. discriminate.
  - intros [H1 H2]. split; [assumption|]. rewrite <- memE_In in H2.
    destruct (memE e es); [congruence|reflexivity].
Qed.

Lemma wf_remove_vertex g v : wf g -> wf (fst (remove_vertex g v)).
Proof.
  intros [Hk Hl Hi Hs Hd].
  set (es0 := match g_get v g with Some es => es | None => [] end).
  assert (Hes0 : forall e, In e es0 <-> (exists es, g_get v g = Some es /\ In e es)).
  { intro e. unfold es0. destruct (g_get v g) as [l|].
    - split; [intro; eauto|]. intros (es & [= <-] & H). assumption.
    - cbn. split; [tauto|]. intros (es & H & _). discriminate. }
  assert (G : forall u es, g_get u (fst (remove_vertex g v)) = Some es ->
              u <> v /\ exists l, g_get u g = Some l /\
              (forall e, In e es <-> In e l /\ ~ In e es0) /\ (NoDup l -> NoDup es)).
  { intros u es. rewrite get_remove_vertex. fold es0. destruct (spec u v); [discriminate|].
    destruct (g_get u g) as [l|] eqn:E; cbn; [|discriminate]. intros [= <-].
    split; [assumption|]. exists l. split; [reflexivity|]. split.
    - intro e. apply drop_all_In. eauto.
    - apply NoDup_filter. }
  assert (G' : forall u l e, g_get u g = Some l -> u <> v -> In e l -> ~ In e es0 ->
               exists es, g_get u (fst (remove_vertex g v)) = Some es /\ In e es).
  { intros u l e H Hn Hin Hni. destruct (g_get u (fst (remove_vertex g v))) as [es|] eqn:E.
    - pose proof E as E'. apply G in E' as (_ & l' & Hl' & He & _).
      exists es. split; [reflexivity|]. apply He. rewrite H in Hl'. injection Hl' as <-.
      split; assumption.
    - rewrite get_remove_vertex, H in E. destruct (spec u v); [congruence|discriminate]. }
  split.
  - unfold remove_vertex. destruct (g_get v g) as [es|]; cbn -[remove_edge hm_remove].
    + rewrite keys_remove_edges. now apply hm_NoDup_remove.
    + now apply hm_NoDup_remove.
  - intros u es H. apply G in H as (_ & l & H1 & _ & H3). eauto.
  - intros u es e H Hin. apply G in H as (_ & l & H1 & H2 & _). apply H2 in Hin as [Hin _].
    eauto.
  - intros u es e H Hin. apply G in H as (_ & l & H1 & H2 & _). apply H2 in Hin as [Hin Hni].
    destruct (Hs _ _ _ H1 Hin) as (l' & Hl' & Hin').
    apply (G' _ _ _ Hl'); [|assumption|assumption].
    intro Heq. apply Hni. apply Hes0. rewrite <- Heq. eauto.
  - intros u es e H Hin. apply G in H as (_ & l & H1 & H2 & _). apply H2 in Hin as [Hin Hni].
    destruct (Hd _ _ _ H1 Hin) as (l' & Hl' & Hin').
    apply (G' _ _ _ Hl'); [|assumption|assumption].
    intro Heq. apply Hni. apply Hes0. rewrite <- Heq. eauto.
Qed.

(** ** Membership queries in terms of [hasV] and [hasE] *)

Lemma contains_vertex_hasV g v : contains_vertex g v = true <-> hasV g v.
Proof.
  unfold contains_vertex, hm_mem, hasV, g_get. destruct (hm_get N.eqb v g).
  - split; eauto.
  - split; [discriminate|intros (? & H); discriminate].
Qed.

Lemma existsb_edge e es : existsb (fun x => edge_eqb x e) es = true <-> In e es.
Proof.
  rewrite existsb_exists. split.
  - intros (x & Hx & H). destruct (edge_eqb_spec x e); congruence.
  - intro H. exists e. split; [assumption|apply edge_eqb_refl].
Qed.

Lemma contains_edge_hasE_raw g a b :
  contains_edge g (a, b) = true <-> hasE g a b /\ hasV g b.
Proof.
  unfold contains_edge.
  destruct (contains_vertex g a) eqn:Ea; [|cbn].
  2:{ split; [discriminate|]. intros ((es & H & _) & _).
      assert (contains_vertex g a = true) by (apply contains_vertex_hasV; eexists; eauto).
      congruence. }
  destruct (contains_vertex g b) eqn:Eb; cbn.
  2:{ split; [discriminate|]. intros (_ & H). apply contains_vertex_hasV in H. congruence. }
  apply contains_vertex_hasV in Ea as [es Ea]. apply contains_vertex_hasV in Eb.
  rewrite Ea, existsb_edge. unfold hasE. split.
  - intro H. split; eauto.
  - intros ((es' & H & H') & _). rewrite H in Ea. injection Ea as ->. assumption.
Qed.

Lemma wf_hasE_V g a b : wf g -> hasE g a b -> hasV g a /\ hasV g b.
Proof.
  intros W (es & H & Hin). split; [eexists; eauto|].
  destruct (wf_dst W _ _ H Hin) as (es' & H' & _). eexists; eauto.
Qed.

Lemma contains_edge_hasE g a b : wf g -> contains_edge g (a, b) = true <-> hasE g a b.
Proof.
  intro W. rewrite contains_edge_hasE_raw. split; [tauto|]. intro H.
  split; [assumption|]. now apply (wf_hasE_V W H).
Qed.

Lemma contains_edge_spec g a b : wf g -> reflect (hasE g a b) (contains_edge g (a, b)).
Proof. intro W. apply iff_reflect. symmetry. now apply contains_edge_hasE. Qed.

(** ** No panic (C08) *)

Lemma contains_edge_m_total g e : contains_edge_m g e = Done (contains_edge g e).
Proof.
  destruct e as [a b]. unfold contains_edge_m, contains_edge.
  destruct (contains_vertex g a) eqn:E; cbn; [|reflexivity].
  destruct (contains_vertex g b); cbn; [|reflexivity].
  apply contains_vertex_hasV in E as [es E]. now rewrite E.
Qed.

Lemma push_m_ok g v e : hasV g v -> push_m g v e = Done (push g v e).
Proof. intros [es H]. unfold push_m. now rewrite H. Qed.

Lemma hasV_add_vertex g v u : hasV (fst (add_vertex g v)) u <-> hasV g u \/ u = v.
Proof.
  unfold hasV. rewrite get_add_vertex. destruct (spec u v).
  - split; [tauto|eauto].
  - intuition.
Qed.

Lemma hasV_push g w e u : hasV (push g w e) u <-> hasV g u.
Proof.
  unfold hasV. rewrite get_push. destruct (spec u w); [|reflexivity].
  destruct (g_get u g); cbn; split; intros [? H]; eauto; discriminate.
Qed.

Lemma add_edge_m_total g e : add_edge_m g e = Done (add_edge g e).
Proof.
  unfold add_edge_m, add_edge. rewrite contains_edge_m_total. cbn.
  destruct (contains_edge g e); cbn; [reflexivity|]. destruct e as [a b].
  rewrite push_m_ok. cbn.
  - destruct (N.eqb a b); cbn; [reflexivity|].
    rewrite push_m_ok; [reflexivity|]. rewrite hasV_push, hasV_add_vertex. tauto.
  - rewrite !hasV_add_vertex. tauto.
Qed.

(** ** [add_edge] *)

Lemma add_vertex_state g v : add_vertex g v = (fst (add_vertex g v), contains_vertex g v).
Proof.
  unfold add_vertex, contains_vertex, hm_mem, g_get. destruct (hm_get N.eqb v g); reflexivity.
Qed.

Definition get0 (v : N) (g : graph) : list edge :=
  match g_get v g with Some es => es | None => [] end.

Lemma get_add_edge_new g a b u : contains_edge g (a, b) = false ->
  g_get u (fst (add_edge g (a, b))) =
  if incident u (a, b) then Some (get0 u g ++ [(a, b)]) else g_get u g.
Proof.
  intro Hn. unfold add_edge. rewrite Hn. cbn [negb]. cbv zeta.
  set (g2 := fst (add_vertex (fst (add_vertex g a)) b)).
  assert (H2 : forall u, g_get u g2 = if incident u (a, b) then Some (get0 u g) else g_get u g).
  { intro x. unfold g2. rewrite !get_add_vertex. unfold incident, get0; cbn.
    destruct (spec x b), (spec x a); cbn; try reflexivity.
    - subst x. subst b. now rewrite N.eqb_refl.
    - subst x. destruct (spec b a); [congruence|]. reflexivity.
    - now subst x. }
  destruct (spec a b); cbn [negb fst].
  - subst b. rewrite get_push, H2. unfold incident. cbn. destruct (spec u a); cbn; reflexivity.
  - rewrite !get_push, H2. unfold incident. cbn.
    destruct (spec u a), (spec u b); cbn; try reflexivity. congruence.
Qed.

Lemma keys_push g v e : hm_keys (push g v e) = hm_keys g.
Proof. unfold push. apply (hm_keys_update _ spec). Qed.

Lemma wf_add_edge g e : wf g -> wf (fst (add_edge g e)).
Proof.
  destruct e as [a b]. intro W.
  destruct (contains_edge g (a, b)) eqn:Hc.
  { unfold add_edge. rewrite Hc. cbn. assumption. }
  assert (Hnot : forall v, ~ In (a, b) (get0 v g)).
  { intros v Hin. unfold get0 in Hin. destruct (g_get v g) as [es|] eqn:E; [|destruct Hin].
    destruct (wf_src W _ _ E Hin) as (es' & H1 & H2). cbn in H1.
    assert (contains_edge g (a, b) = true)
      by (apply contains_edge_hasE; [assumption|exists es'; tauto]). congruence. }
  pose proof (fun u => @get_add_edge_new g a b u Hc) as G.
  set (g' := fst (add_edge g (a, b))) in *.
  assert (Hinab : forall v, incident v (a, b) = true <-> a = v \/ b = v).
  { intro v. unfold incident; cbn. destruct (spec v a), (spec v b); cbn; intuition congruence. }
  (* every edge of g' comes from g or is the new one *)
  assert (Ga : g_get a g' = Some (get0 a g ++ [(a, b)])).
  { rewrite G. unfold incident; cbn. now rewrite N.eqb_refl. }
  assert (Gb : g_get b g' = Some (get0 b g ++ [(a, b)])).
  { rewrite G. unfold incident; cbn. now rewrite N.eqb_refl, orb_true_r. }
  assert (Gold : forall v es, g_get v g = Some es ->
                 exists es', g_get v g' = Some es' /\ incl es es').
  { intros v es H. rewrite G. unfold get0. rewrite H.
    destruct (incident v (a, b)); eexists; (split; [reflexivity|]).
    - apply incl_appl, incl_refl.
    - apply incl_refl. }
  assert (Gnew : forall v es e, g_get v g' = Some es -> In e es ->
                 (exists es0, g_get v g = Some es0 /\ In e es0) \/ (e = (a, b) /\ (a = v \/ b = v))).
  { intros v es e. rewrite G. destruct (incident v (a, b)) eqn:Ei.
    - intros [= <-] Hin. apply in_app_iff in Hin as [Hin|[<-|[]]].
      + left. unfold get0 in Hin. destruct (g_get v g) as [es0|]; [eauto|destruct Hin].
      + right. split; [reflexivity|]. now apply Hinab.
    - eauto. }
  split.
  - subst g'. unfold add_edge. rewrite Hc. cbn [negb]. cbv zeta.
    destruct (N.eqb a b); cbn [fst negb]; rewrite ?keys_push;
      now do 2 apply keys_add_vertex; apply wf_keys.
  - intros v es H. rewrite G in H. destruct (incident v (a, b)).
    + injection H as <-. apply NoDup_snoc. split; [|apply Hnot].
      unfold get0. destruct (g_get v g) as [es0|] eqn:E; [|constructor].
      now apply (wf_list W v).
    + now apply (wf_list W v).
  - intros v es e H Hin. destruct (Gnew _ _ _ H Hin) as [(es0 & H0 & Hin0)|[-> Hv]].
    + now apply (wf_inc W _ _ H0).
    + assumption.
  - intros v es e H Hin. destruct (Gnew _ _ _ H Hin) as [(es0 & H0 & Hin0)|[-> Hv]].
    + destruct (wf_src W _ _ H0 Hin0) as (es1 & H1 & Hin1).
      destruct (Gold _ _ H1) as (es2 & H2 & Hincl). exists es2. split; [assumption|]. auto.
    + cbn. eexists. split; [exact Ga|]. apply in_app_iff. right. now left.
  - intros v es e H Hin. destruct (Gnew _ _ _ H Hin) as [(es0 & H0 & Hin0)|[-> Hv]].
    + destruct (wf_dst W _ _ H0 Hin0) as (es1 & H1 & Hin1).
      destruct (Gold _ _ H1) as (es2 & H2 & Hincl). exists es2. split; [assumption|]. auto.
    + cbn. eexists. split; [exact Gb|]. apply in_app_iff. right. now left.
Qed.

Lemma wf_apply_to c g : wf g -> wf (apply_to c g).
Proof.
  destruct c; cbn -[add_vertex remove_vertex add_edge remove_edge];
    [apply wf_add_vertex|apply wf_remove_vertex|apply wf_add_edge|apply wf_remove_edge].
Qed.

Lemma get_perm v g g' : NoDup (hm_keys g) -> Permutation g g' -> g_get v g' = g_get v g.
Proof. apply (hm_get_perm _ spec). Qed.

Lemma wf_perm g g' : wf g -> Permutation g g' -> wf g'.
Proof.
  intros W HP.
  assert (G : forall v, g_get v g' = g_get v g) by (intro; apply get_perm; [apply W|assumption]).
  split.
  - eapply Permutation_NoDup; [apply Permutation_map, HP|apply W].
  - intros v es. rewrite G. apply W.
  - intros v es e. rewrite G. apply W.
  - intros v es e. rewrite !G. apply W.
  - intros v es e. rewrite !G. apply W.
Qed.

Lemma built_by_wf cs g : built_by cs g -> wf g.
Proof.
  induction 1; [apply wf_new|now apply wf_apply_to|now apply (wf_perm IHbuilt_by)].
Qed.

Lemma built_wf g : built g -> wf g.
Proof. intros [cs H]. now apply built_by_wf in H. Qed.

(** ** Refinement to a pair of sets (C01) *)

Lemma hasE_add_vertex g v a b : hasE (fst (add_vertex g v)) a b <-> hasE g a b.
Proof.
  unfold hasE. rewrite get_add_vertex. destruct (spec a v); [|reflexivity]. subst.
  destruct (g_get v g) as [es|]; [reflexivity|]. split; intros (? & [= <-] & []).
Qed.

Lemma hasV_add_edge g a b x : wf g ->
  hasV (fst (add_edge g (a, b))) x <-> hasV g x \/ x = a \/ x = b.
Proof.
  intro W. destruct (contains_edge g (a, b)) eqn:Hc.
  - unfold add_edge. rewrite Hc. cbn. apply contains_edge_hasE in Hc; [|assumption].
    apply wf_hasE_V in Hc as [Ha Hb]; [|assumption].
    split; [tauto|]. intros [?|[->| ->]]; assumption.
  - unfold hasV. rewrite get_add_edge_new by assumption. unfold incident; cbn.
    destruct (spec x a), (spec x b); cbn; split; try tauto; eauto.
Qed.

Lemma hasE_add_edge g a b x y : wf g ->
  hasE (fst (add_edge g (a, b))) x y <-> hasE g x y \/ (x = a /\ y = b).
Proof.
  intro W. destruct (contains_edge g (a, b)) eqn:Hc.
  - unfold add_edge. rewrite Hc. cbn. apply contains_edge_hasE in Hc; [|assumption].
    split; [tauto|]. intros [?|[-> ->]]; assumption.
  - unfold hasE. rewrite get_add_edge_new by assumption.
    destruct (incident x (a, b)) eqn:Ei.
    + split.
      * intros (es & [= <-] & Hin). apply in_app_iff in Hin as [Hin|[[= -> ->]|[]]]; [|tauto].
        left. unfold get0 in Hin. destruct (g_get x g); [eauto|destruct Hin].
      * intro H. eexists. split; [reflexivity|]. apply in_app_iff.
        destruct H as [(es & H & Hin)|[-> ->]]; [left|right; now left].
        unfold get0. now rewrite H.
    + split; [tauto|]. intros [?|[-> ->]]; [assumption|].
      unfold incident in Ei; cbn in Ei. now rewrite N.eqb_refl in Ei.
Qed.

Lemma hasV_remove_edge g a b x : hasV (fst (remove_edge g (a, b))) x <-> hasV g x.
Proof.
  unfold hasV. rewrite get_remove_edge. destruct (g_get x g); cbn.
  - destruct (_ || _); split; eauto.
  - destruct (_ || _); reflexivity.
Qed.

Lemma hasE_remove_edge g a b x y :
  hasE (fst (remove_edge g (a, b))) x y <-> hasE g x y /\ ~ (x = a /\ y = b).
Proof.
  unfold hasE. rewrite get_remove_edge. destruct (g_get x g) as [es|]; cbn.
  - destruct (spec x a); cbn.
    + subst. split.
      * intros (l & [= <-] & Hin). apply keep_In in Hin as [H1 H2]. split; [eauto|].
        intros [_ ->]. congruence.
      * intros [(l & [= <-] & Hin) Hn]. eexists. split; [reflexivity|]. apply keep_In.
        split; [assumption|]. intros [= ->]. tauto.
    + assert (Hk : forall l, In (x, y) (keep (a, b) l) <-> In (x, y) l).
      { intro l. rewrite keep_In. split; [tauto|]. intro H. split; [assumption|]. congruence. }
      destruct (N.eqb x b); cbn.
      * split.
        -- intros (l & [= <-] & Hin). rewrite Hk in Hin. split; [eauto|tauto].
        -- intros [(l & [= <-] & Hin) _]. eexists. split; [reflexivity|]. now apply Hk.
      * split; [|tauto]. intro H. split; [assumption|tauto].
  - destruct (_ || _); (split; [intros (l & H & _); discriminate|]);
      intros [(l & H & _) _]; discriminate.
Qed.

Lemma hasV_remove_vertex g v x : hasV (fst (remove_vertex g v)) x <-> hasV g x /\ x <> v.
Proof.
  unfold hasV. rewrite get_remove_vertex. destruct (spec x v).
  - split; [intros [? H]; discriminate|tauto].
  - destruct (g_get x g); cbn; (split; [intros [? H]|intros [[? H] _]]); try discriminate; eauto.
Qed.

Lemma hasE_remove_vertex g v x y : wf g ->
  hasE (fst (remove_vertex g v)) x y <-> hasE g x y /\ x <> v /\ y <> v.
Proof.
  intro W. unfold hasE. rewrite get_remove_vertex. destruct (spec x v).
  - split; [intros (? & H & _); discriminate|tauto].
  - destruct (g_get x g) as [l|] eqn:E; cbn.
    + assert (Hd : forall e, In e (drop_all x (get0 v g) l) <-> In e l /\ ~ In e (get0 v g)).
      { intro e. apply drop_all_In. intros z Hz. now apply (wf_inc W _ _ E). }
      assert (Hv : In (x, y) l -> In (x, y) (get0 v g) <-> y = v).
      { intro Hin. split.
        - unfold get0. destruct (g_get v g) as [es|] eqn:Ev; [|intros []].
          intro H. destruct (wf_inc W _ _ Ev H); cbn in *; congruence.
        - intros ->. destruct (wf_dst W _ _ E Hin) as (es & H1 & H2). cbn in H1.
          unfold get0. now rewrite H1. }
      split.
      * intros (es & [= <-] & Hin). apply Hd in Hin as [H1 H2].
        split; [eauto|]. split; [assumption|]. intro. apply H2. now apply Hv.
      * intros ((es & [= <-] & Hin) & _ & Hy). eexists. split; [reflexivity|].
        apply Hd. split; [assumption|]. intro H. apply Hy. now apply Hv.
    + split; [intros (? & H & _); discriminate|]. intros ((? & H & _) & _). discriminate.
Qed.

Lemma shown_has g : wf g -> a_same (shown g) {| aV := hasV g; aE := hasE g |}.
Proof.
  intro W. split; cbn; intros.
  - apply contains_vertex_hasV.
  - now apply contains_edge_hasE.
Qed.

Lemma a_same_refl s : a_same s s.
Proof. split; reflexivity. Qed.
Lemma a_same_sym s t : a_same s t -> a_same t s.
Proof. intros [H1 H2]. split; intros; symmetry; auto. Qed.
Lemma a_same_trans s t u : a_same s t -> a_same t u -> a_same s u.
Proof. intros [H1 H2] [H3 H4]. split; intros; [rewrite H1|rewrite H2]; auto. Qed.

Lemma a_step_same s t c : a_same s t -> a_same (a_step s c) (a_step t c).
Proof.
  intros [H1 H2]. destruct c; split; cbn; intros; rewrite ?H1, ?H2; reflexivity.
Qed.

Lemma shown_step g c : wf g -> a_same (shown (apply_to c g)) (a_step (shown g) c).
Proof.
  intro W. pose proof (wf_apply_to c W) as W'.
  eapply a_same_trans; [now apply shown_has|].
  eapply a_same_trans; [|apply a_step_same, a_same_sym, shown_has, W].
  destruct c; split; cbn -[add_vertex remove_vertex add_edge remove_edge]; intros.
  - apply hasV_add_vertex.
  - apply hasE_add_vertex.
  - apply hasV_remove_vertex.
  - now apply hasE_remove_vertex.
  - now apply hasV_add_edge.
  - now apply hasE_add_edge.
  - apply hasV_remove_edge.
  - apply hasE_remove_edge.
Qed.

Lemma shown_perm g g' : wf g -> Permutation g g' -> a_same (shown g') (shown g).
Proof.
  intros W HP. pose proof (wf_perm W HP) as W'.
  eapply a_same_trans; [now apply shown_has|].
  eapply a_same_trans; [|apply a_same_sym, shown_has, W].
  split; cbn; intros; unfold hasV, hasE; rewrite (get_perm _ (wf_keys W) HP); reflexivity.
Qed.

Theorem refines cs g : built_by cs g -> a_same (shown g) (a_run cs).
Proof.
  induction 1.
  - split; cbn; intros; split; discriminate || tauto.
  - unfold a_run. rewrite fold_left_app. cbn. fold (a_run cs).
    eapply a_same_trans; [apply shown_step; now apply built_by_wf in H|].
    now apply a_step_same.
  - eapply a_same_trans; [|exact IHbuilt_by]. apply shown_perm; [|assumption].
    now apply built_by_wf in H.
Qed.

Lemma a_run_app_same cs : forall s t, a_same s t ->
  a_same (fold_left a_step cs s) (fold_left a_step cs t).
Proof.
  induction cs as [|c cs IH]; cbn; intros s t H; [assumption|]. apply IH.
  now apply a_step_same.
Qed.

Lemma wf_apply_commands cs : forall g, wf g -> wf (apply_commands cs g).
Proof.
  induction cs as [|c cs IH]; cbn; intros g W; [assumption|]. apply IH. now apply wf_apply_to.
Qed.

Lemma shown_commands cs : forall g, wf g ->
  a_same (shown (apply_commands cs g)) (fold_left a_step cs (shown g)).
Proof.
  induction cs as [|c cs IH]; cbn -[shown apply_to]; intros g W; [apply a_same_refl|].
  eapply a_same_trans; [apply IH; now apply wf_apply_to|]. apply a_run_app_same.
  now apply shown_step.
Qed.

Lemma built_apply_commands cs : forall g, built g -> built (apply_commands cs g).
Proof.
  induction cs as [|c cs IH]; cbn; intros g W; [assumption|]. apply IH.
  destruct W as [cs' H]. exists (cs' ++ [c]). now constructor.
Qed.

Lemma built_by_apply cs : built_by cs (apply_commands cs g_new).
Proof.
  assert (H : forall cs0 g, built_by cs0 g -> built_by (cs0 ++ cs) (apply_commands cs g)).
  { induction cs as [|c cs' IH]; cbn; intros cs0 g H.
    - now rewrite app_nil_r.
    - replace (cs0 ++ c :: cs') with ((cs0 ++ [c]) ++ cs') by (now rewrite <- app_assoc).
      apply IH. now constructor. }
  apply (H [] g_new). constructor.
Qed.

(** ** Listing queries (C02) *)

Lemma vertices_spec g : wf g -> enumerates (vertices g) (fun v => contains_vertex g v = true).
Proof.
  intro W. split; [apply W|]. intro x. unfold vertices, contains_vertex.
  symmetry. apply (hm_mem_keys _ spec).
Qed.

Lemma vertices_In g v : In v (vertices g) <-> contains_vertex g v = true.
Proof. unfold vertices, contains_vertex. symmetry. apply (hm_mem_keys _ spec). Qed.

Lemma edges_In g a b : wf g -> In (a, b) (edges g) <-> hasE g a b.
Proof.
  intro W. unfold edges. rewrite in_flat_map. split.
  - intros ([k es] & Hk & Hin). cbn in Hin. apply filter_In in Hin as [Hin Hf]. cbn in Hf.
    apply N.eqb_eq in Hf. subst k. exists es. split; [|assumption].
    apply (hm_In_get _ spec); [apply W|assumption].
  - intros (es & H & Hin). exists (a, es). split; [now apply (hm_get_In _ spec)|]. cbn.
    apply filter_In. split; [assumption|]. cbn. apply N.eqb_refl.
Qed.

Lemma NoDup_edges g : wf g -> NoDup (edges g).
Proof.
  intro W.
  assert (Hl : forall k es, In (k, es) g -> NoDup es).
  { intros k es H. apply (wf_list W k). apply (hm_In_get _ spec); [apply W|assumption]. }
  pose proof (wf_keys W) as Hk. unfold edges. clear W. revert Hl Hk. unfold hm_keys.
  induction g as [|[k es] g IH]; cbn; intros Hl Hk; [constructor|].
  inversion Hk as [|? ? Hni Hnd]; subst. apply NoDup_app_iff. split; [|split].
  - apply NoDup_filter. eauto.
  - apply IH; eauto.
  - intros [a b] H1 H2. apply filter_In in H1 as [_ H1]. cbn in H1. apply N.eqb_eq in H1. subst a.
    apply in_flat_map in H2 as ([k' es'] & H2 & H3). apply filter_In in H3 as [_ H3]. cbn in H3.
    apply N.eqb_eq in H3. subst k'. apply Hni. now apply (in_map fst) in H2.
Qed.

Lemma edges_spec g : wf g ->
  enumerates (edges g) (fun e => contains_edge g e = true).
Proof.
  intro W. split; [now apply NoDup_edges|]. intros [a b].
  rewrite (edges_In _ _ W). symmetry. now apply contains_edge_hasE.
Qed.

Lemma outbound_In g v a b : In (a, b) (outbound_edges g v) <-> a = v /\ hasE g v b.
Proof.
  unfold outbound_edges, hasE. destruct (g_get v g) as [es|].
  - rewrite filter_In. cbn. rewrite N.eqb_eq. split.
    + intros [H ->]. eauto.
    + intros [-> (l & [= <-] & H)]. tauto.
  - cbn. split; [tauto|]. intros (_ & l & H & _). discriminate.
Qed.

Lemma inbound_In g v a b : wf g -> In (a, b) (inbound_edges g v) <-> b = v /\ hasE g a v.
Proof.
  intro W. unfold inbound_edges. destruct (g_get v g) as [es|] eqn:E.
  - rewrite filter_In. cbn. rewrite N.eqb_eq. split.
    + intros [H ->]. split; [reflexivity|]. destruct (wf_src W _ _ E H) as (l & H1 & H2).
      exists l. tauto.
    + intros [-> (l & H1 & H2)]. destruct (wf_dst W _ _ H1 H2) as (l' & H3 & H4). cbn in H3.
      rewrite E in H3. injection H3 as <-. split; [assumption|reflexivity].
  - cbn. split; [tauto|]. intros (-> & l & H1 & H2).
    destruct (wf_dst W _ _ H1 H2) as (l' & H3 & H4). cbn in H3. congruence.
Qed.

Lemma outbound_NoDup g v : wf g -> NoDup (outbound_edges g v).
Proof.
  intro W. unfold outbound_edges. destruct (g_get v g) eqn:E; [|constructor].
  apply NoDup_filter. now apply (wf_list W v).
Qed.

Lemma inbound_NoDup g v : wf g -> NoDup (inbound_edges g v).
Proof.
  intro W. unfold inbound_edges. destruct (g_get v g) eqn:E; [|constructor].
  apply NoDup_filter. now apply (wf_list W v).
Qed.

Lemma outbound_spec g v : wf g ->
  enumerates (outbound_edges g v) (fun e => fst e = v /\ contains_edge g e = true).
Proof.
  intro W. split; [now apply outbound_NoDup|]. intros [a b]. rewrite outbound_In. cbn [fst].
  rewrite (contains_edge_hasE _ _ W). split; intros [-> H]; tauto.
Qed.

Lemma inbound_spec g v : wf g ->
  enumerates (inbound_edges g v) (fun e => snd e = v /\ contains_edge g e = true).
Proof.
  intro W. split; [now apply inbound_NoDup|]. intros [a b]. rewrite (inbound_In _ _ _ W). cbn [snd].
  rewrite (contains_edge_hasE _ _ W). split; intros [-> H]; tauto.
Qed.

(** ** [edge_count] (C04) *)

Definition is_loop (e : edge) : bool := N.eqb (fst e) (snd e).

Lemma total_acc (g : graph) : forall n,
  fold_left (fun acc kv => acc + length (snd kv)) g n =
  n + length (flat_map snd g).
Proof.
  induction g as [|[k es] g IH]; intro n; cbn; [lia|].
  rewrite IH, app_length. lia.
Qed.

(** Each list splits into the edges leaving and the non-loops entering. *)
Definition in_nonloop (k : N) (e : edge) : bool := N.eqb k (snd e) && negb (is_loop e).

Lemma filter_len_split A (f : A -> bool) l :
  length l = length (filter f l) + length (filter (fun x => negb (f x)) l).
Proof. induction l as [|a l IH]; cbn; [reflexivity|]. destruct (f a); cbn; lia. Qed.

Lemma stored_split g : (forall k es e, In (k, es) g -> In e es -> fst e = k \/ snd e = k) ->
  length (flat_map snd g) =
  length (edges g) +
  length (flat_map (fun kv => filter (in_nonloop (fst kv)) (snd kv)) g).
Proof.
  unfold edges. induction g as [|[k es] g IH]; cbn; intro H; [reflexivity|].
  rewrite !app_length, IH by eauto.
  rewrite (filter_len_split (fun e => N.eqb k (fst e)) es).
  assert (Hf : filter (in_nonloop k) es = filter (fun x => negb (N.eqb k (fst x))) es).
  { apply filter_ext_in. intros [a b] Hin. unfold in_nonloop, is_loop. cbn.
    specialize (H k es (a, b) (or_introl eq_refl) Hin). cbn in H.
    destruct (spec k a), (spec k b), (spec a b); cbn; try reflexivity; intuition congruence. }
  unfold edge in *. rewrite Hf. lia.
Qed.

Lemma in_lists_spec g : wf g ->
  let L := flat_map (fun kv => filter (in_nonloop (fst kv)) (snd kv)) g in
  NoDup L /\ forall e, In e L <-> In e (filter (fun e => negb (is_loop e)) (edges g)).
Proof.
  intros W L. split.
  - assert (Hl : forall k es, In (k, es) g -> NoDup es).
    { intros k es H. apply (wf_list W k). apply (hm_In_get _ spec); [apply W|assumption]. }
    pose proof (wf_keys W) as Hk. unfold L. clear W L. revert Hl Hk. unfold hm_keys.
    induction g as [|[k es] g IH]; cbn; intros Hl Hk; [constructor|].
    inversion Hk as [|? ? Hni Hnd]; subst. apply NoDup_app_iff. split; [|split].
    + apply NoDup_filter. eauto.
    + apply IH; eauto.
    + intros [a b] H1 H2. apply filter_In in H1 as [_ H1]. unfold in_nonloop in H1. cbn in H1.
      apply andb_true_iff in H1 as [H1 _]. apply N.eqb_eq in H1. subst b.
      apply in_flat_map in H2 as ([k' es'] & H2 & H3). apply filter_In in H3 as [_ H3].
      unfold in_nonloop in H3. cbn in H3. apply andb_true_iff in H3 as [H3 _].
      apply N.eqb_eq in H3. subst k'. apply Hni. now apply (in_map fst) in H2.
  - intros [a b]. unfold L. rewrite in_flat_map, filter_In, (edges_In _ _ W). split.
    + intros ([k es] & H1 & H2). cbn in H2. apply filter_In in H2 as [H2 H3].
      unfold in_nonloop in H3. cbn in H3. apply andb_true_iff in H3 as [H3 H4].
      apply N.eqb_eq in H3. subst k.
      apply (hm_In_get _ spec) in H1; [|apply W].
      destruct (wf_src W _ _ H1 H2) as (l & H5 & H6). split; [exists l; tauto|assumption].
    + intros [(es & H1 & H2) H3]. destruct (wf_dst W _ _ H1 H2) as (l & H4 & H5). cbn in H4.
      exists (b, l). split; [now apply (hm_get_In _ spec)|]. cbn. apply filter_In.
      split; [assumption|]. unfold in_nonloop. cbn [snd]. now rewrite N.eqb_refl, H3.
Qed.

Theorem edge_count_law g : wf g ->
  edge_count g = length (filter (fun e => negb (is_loop e)) (edges g))
               + Nat.div (length (filter is_loop (edges g))) 2.
Proof.
  intro W. unfold edge_count. rewrite total_acc. cbn [Nat.add].
  rewrite stored_split.
  2:{ intros k es e H1 H2. apply (hm_In_get _ spec) in H1; [|apply W].
      now apply (wf_inc W _ _ H1). }
  destruct (in_lists_spec W) as [Hnd Hin].
  rewrite (Permutation_length
    (NoDup_Permutation Hnd (NoDup_filter _ (NoDup_edges W)) Hin)).
  rewrite (filter_len_split is_loop (edges g)).
  set (a := length (filter is_loop (edges g))).
  set (b := length (filter (fun e => negb (is_loop e)) (edges g))).
  replace (a + b + b) with (a + b * 2) by lia. rewrite Nat.div_add by lia. lia.
Qed.

Lemma vertex_count_len g : vertex_count g = length (vertices g).
Proof. unfold vertex_count, vertices, hm_keys. now rewrite map_length. Qed.

(** ** Idempotence (C07) *)

Lemma add_vertex_present g v : contains_vertex g v = true -> fst (add_vertex g v) = g.
Proof.
  intro H. apply contains_vertex_hasV in H as [es H]. unfold add_vertex. now rewrite H.
Qed.

Lemma add_edge_present g e : contains_edge g e = true -> fst (add_edge g e) = g.
Proof. intro H. unfold add_edge. now rewrite H. Qed.

Lemma remove_edge_absent g e : wf g -> contains_edge g e = false -> fst (remove_edge g e) = g.
Proof.
  destruct e as [a b]. intros W H.
  assert (Hn : forall v es, g_get v g = Some es -> keep (a, b) es = es).
  { intros v es Hv. apply keep_notin. intro Hin.
    destruct (wf_src W _ _ Hv Hin) as (l & H1 & H2). cbn in H1.
    assert (contains_edge g (a, b) = true) by (apply contains_edge_hasE; [assumption|exists l; tauto]).
    congruence. }
  cbn. fold (keep (a, b)).
  assert (E1 : hm_update N.eqb a (keep (a, b)) g = g).
  { apply (hm_update_same _ spec). apply Hn. }
  rewrite E1. apply (hm_update_same _ spec). apply Hn.
Qed.

Lemma remove_vertex_absent g v : contains_vertex g v = false -> fst (remove_vertex g v) = g.
Proof.
  intro H. unfold remove_vertex. destruct (g_get v g) eqn:E.
  - assert (contains_vertex g v = true) by (apply contains_vertex_hasV; eexists; eauto). congruence.
  - cbn. now apply (hm_remove_same _ spec).
Qed.

Lemma apply_twice g c : wf g -> apply_to c (apply_to c g) = apply_to c g.
Proof.
  intro W. pose proof (wf_apply_to c W) as W'.
  destruct c; cbn -[add_vertex remove_vertex add_edge remove_edge] in *.
  - apply add_vertex_present. apply contains_vertex_hasV, hasV_add_vertex. tauto.
  - apply remove_vertex_absent. apply not_true_iff_false. intro H.
    apply contains_vertex_hasV, hasV_remove_vertex in H. tauto.
  - apply add_edge_present. apply contains_edge_hasE; [assumption|].
    apply hasE_add_edge; [assumption|]. tauto.
  - apply remove_edge_absent; [assumption|]. apply not_true_iff_false. intro H.
    apply contains_edge_hasE in H; [|assumption]. apply hasE_remove_edge in H. tauto.
Qed.

(** ** Round-trip through commands (C10) *)

Lemma a_run_adds vs : forall s x y,
  (aV (fold_left a_step (map AddVertex vs) s) x <-> aV s x \/ In x vs) /\
  (aE (fold_left a_step (map AddVertex vs) s) x y <-> aE s x y).
Proof.
  induction vs as [|v vs IH]; cbn; intros s x y; [tauto|].
  destruct (IH (a_add_vertex v s) x y) as [H1 H2]. rewrite H1, H2. cbn. intuition.
Qed.

Lemma a_run_add_edges es : forall s x y,
  (aV (fold_left a_step (map (fun e => AddEdge (fst e) (snd e)) es) s) x <->
   aV s x \/ exists e, In e es /\ (x = fst e \/ x = snd e)) /\
  (aE (fold_left a_step (map (fun e => AddEdge (fst e) (snd e)) es) s) x y <->
   aE s x y \/ In (x, y) es).
Proof.
  induction es as [|[a b] es IH]; cbn; intros s x y.
  - split; [split; [tauto|intros [?|(e & [] & _)]; assumption]|tauto].
  - destruct (IH (a_add_edge a b s) x y) as [H1 H2]. rewrite H1, H2. cbn. split.
    + split.
      * intros [[?|[?|?]]|(e & H & Hx)]; [tauto| | |right; exists e; tauto];
          right; exists (a, b); cbn; tauto.
      * intros [?|(e & [<-|H] & Hx)]; [tauto|cbn in Hx; tauto|right; exists e; tauto].
    + split.
      * intros [[?|[-> ->]]|?]; tauto.
      * intros [?|[[= -> ->]|?]]; tauto.
Qed.

Lemma as_commands_roundtrip g : wf g ->
  a_same (shown (apply_commands (as_commands g) g_new)) (shown g).
Proof.
  intro W. eapply a_same_trans; [apply shown_commands, wf_new|].
  unfold as_commands. rewrite fold_left_app.
  set (s1 := fold_left a_step (map AddVertex (vertices g)) (shown g_new)).
  assert (H1 : forall x, aV s1 x <-> In x (vertices g)).
  { intro x. destruct (a_run_adds (vertices g) (shown g_new) x x) as [H _].
    unfold s1. rewrite H. cbn. split; [intros [?|?]; [discriminate|assumption]|tauto]. }
  assert (H2 : forall x y, ~ aE s1 x y).
  { intros x y. destruct (a_run_adds (vertices g) (shown g_new) x y) as [_ H].
    unfold s1. rewrite H. cbn. discriminate. }
  split; intros; destruct (a_run_add_edges (edges g) s1 x) with (y := x) as [Hv _];
    [|destruct (a_run_add_edges (edges g) s1 x) with (y := y) as [_ He]].
  - rewrite Hv, H1, vertices_In. cbn [shown aV]. split; [|tauto]. intros [?|([a b] & Hin & Hx)]; [assumption|].
    apply (edges_In _ _ W) in Hin. apply (wf_hasE_V W) in Hin as [Ha Hb].
    apply contains_vertex_hasV. cbn in Hx. destruct Hx as [-> | ->]; assumption.
  - rewrite He. cbn [shown aE]. rewrite (edges_In _ _ W), (contains_edge_hasE _ _ W).
    specialize (H2 x y). tauto.
Qed.

(** Determinism of the abstract view: graphs showing the same sets have the
    same sizes. *)
Lemma same_vertices_perm g h : wf g -> wf h -> a_same (shown g) (shown h) ->
  Permutation (vertices g) (vertices h).
Proof.
  intros Wg Wh [H _]. apply NoDup_Permutation; [apply Wg|apply Wh|].
  intro x. rewrite !vertices_In. apply H.
Qed.

Lemma same_edges_perm g h : wf g -> wf h -> a_same (shown g) (shown h) ->
  Permutation (edges g) (edges h).
Proof.
  intros Wg Wh [_ H]. apply NoDup_Permutation; [now apply NoDup_edges|now apply NoDup_edges|].
  intros [a b]. rewrite !edges_In, <- !contains_edge_hasE by assumption. apply H.
Qed.

(** ** [revert] (C11, C12) *)

Lemma revert_same g c : wf g ->
  (a_same (shown (apply_to (revert c) (apply_to c g))) (shown g) <-> undoable g c).
Proof.
  intro W. pose proof (wf_apply_to c W) as W'.
  assert (HS : a_same (shown (apply_to (revert c) (apply_to c g)))
                      (a_step (a_step (shown g) c) (revert c))).
  { eapply a_same_trans; [now apply shown_step|]. apply a_step_same. now apply shown_step. }
  assert (HE : forall a b, contains_edge g (a, b) = true ->
               contains_vertex g a = true /\ contains_vertex g b = true).
  { intros a b H. apply (contains_edge_hasE _ _ W) in H. apply (wf_hasE_V W) in H.
    now rewrite !contains_vertex_hasV. }
  transitivity (a_same (a_step (a_step (shown g) c) (revert c)) (shown g)).
  { split; intro H; (eapply a_same_trans; [|exact H]); [now apply a_same_sym|assumption]. }
  unfold a_same, undoable.
  destruct c as [v|v|a b|a b];
    cbn [revert a_step a_add_vertex a_remove_vertex a_add_edge a_remove_edge aV aE shown].
  - split.
    + intros [H _]. specialize (H v). destruct (contains_vertex g v); [|reflexivity].
      destruct H as [_ H]. specialize (H eq_refl). tauto.
    + intro Hn. split; intros.
      * split; [intros [[?|?] ?]; congruence|]. intro. split; [tauto|congruence].
      * split; [tauto|]. intro H. split; [assumption|]. apply HE in H as [H1 H2].
        split; congruence.
  - split.
    + intros [H1 H2]. split; [apply H1; tauto|]. intros a b H. apply H2 in H. tauto.
    + intros [Hv He]. split; intros.
      * split; [intros [[? ?]|?]; congruence|]. intro. destruct (spec x v); tauto.
      * split; [tauto|]. intro H. split; [assumption|]. now apply He.
  - split.
    + intros [H1 H2]. repeat split.
      * specialize (H2 a b). destruct (contains_edge g (a, b)); [|reflexivity].
        destruct H2 as [_ H2]. specialize (H2 eq_refl). tauto.
      * apply H1. tauto.
      * apply H1. tauto.
    + intros (Hn & Ha & Hb). split; intros.
      * split; [intros [?|[-> | ->]]; assumption|tauto].
      * split; [tauto|]. intro H. split; [tauto|]. intros [-> ->]. congruence.
  - split.
    + intros [_ H2]. apply H2. tauto.
    + intro He. pose proof (HE _ _ He) as [Ha Hb]. split; intros.
      * split; [intros [?|[-> | ->]]; assumption|tauto].
      * split; [intros [?|[-> ->]]; tauto|]. intro H.
        destruct (spec x a), (spec y b); tauto.
Qed.

(** ** [==] (C09) *)

Lemma vec_eqb_eq a : forall b, vec_eqb a b = true <-> a = b.
Proof.
  induction a as [|x a IH]; destruct b as [|y b]; cbn; try (split; congruence).
  rewrite andb_true_iff, IH. destruct (edge_eqb_spec x y); intuition congruence.
Qed.

Lemma graph_eqb_get g h : wf g -> wf h ->
  (graph_eqb g h = true <-> forall v, g_get v g = g_get v h).
Proof.
  intros Wg Wh. unfold graph_eqb. rewrite andb_true_iff, Nat.eqb_eq, forallb_forall. split.
  - intros [Hl Hf].
    assert (Hsub : forall v es, g_get v g = Some es -> g_get v h = Some es).
    { intros v es H. apply (hm_get_In _ spec) in H. specialize (Hf _ H). cbn in Hf.
      destruct (g_get v h); [|discriminate]. apply vec_eqb_eq in Hf. congruence. }
    intro v. destruct (g_get v g) as [es|] eqn:E; [now rewrite (Hsub _ _ E)|].
    destruct (g_get v h) as [es|] eqn:E'; [exfalso|reflexivity].
    assert (Hinc : incl (hm_keys g) (hm_keys h)).
    { intros k Hk. apply (hm_keys_get _ spec) in Hk as [es' Hk].
      apply Hsub in Hk. now apply (hm_get_some_keys _ spec) in Hk. }
    assert (Hinc' : incl (hm_keys h) (hm_keys g)).
    { apply NoDup_length_incl; [apply Wg| |assumption].
      unfold hm_keys. rewrite !map_length. lia. }
    assert (In v (hm_keys g)) by (apply Hinc', (hm_get_some_keys _ spec) with es, E').
    apply (hm_keys_get _ spec) in H as [es' H]. unfold g_get in *. congruence.
  - intro G. split.
    + rewrite <- (map_length fst g), <- (map_length fst h). apply Permutation_length.
      apply NoDup_Permutation; [apply Wg|apply Wh|]. intro v.
      change (In v (hm_keys g) <-> In v (hm_keys h)). rewrite !(hm_get_in_keys _ spec).
      unfold g_get in G. now rewrite G.
    + intros [k es] Hin. cbn. apply (hm_In_get _ spec) in Hin; [|apply Wg].
      rewrite <- G. unfold g_get. rewrite Hin. now apply vec_eqb_eq.
Qed.

Lemma graph_eqb_sound g h : wf g -> wf h -> graph_eqb g h = true -> a_same (shown g) (shown h).
Proof.
  intros Wg Wh H. rewrite (graph_eqb_get Wg Wh) in H.
  eapply a_same_trans; [apply shown_has, Wg|].
  eapply a_same_trans; [|apply a_same_sym, shown_has, Wh].
  split; cbn; intros; unfold hasV, hasE; rewrite H; reflexivity.
Qed.

Lemma graph_eqb_rehash g g' : wf g -> Permutation g g' -> graph_eqb g g' = true.
Proof.
  intros W HP. apply graph_eqb_get; [assumption|now apply (wf_perm W)|].
  intro v. symmetry. apply get_perm; [apply W|assumption].
Qed.

Lemma built_empty : built g_new.
Proof. exists []. constructor. Qed.
