(** * Facts about max_flow *)
From Coq Require Import List NArith ZArith Bool Permutation Lia Arith.
From Verif Require Import Spec Base WalkFacts Graph GraphSpec GraphFacts Path PathFacts Queue Iter IterFacts
  TreeFacts SearchFacts Topo TopoFacts ShortFacts PropTopo MaxFlow FlowSpec.
Import ListNotations.
Open Scope Z_scope.

(** ** Sums *)
Lemma sum_ext {A} (f f' : A -> Z) l : (forall a, In a l -> f a = f' a) -> sum f l = sum f' l.
Proof.
  intro H. induction l as [|a l IH]; [reflexivity|]. cbn. rewrite (H a) by now left.
  unfold sum in IH. rewrite IH; [reflexivity|]. intros; apply H; now right.
Qed.
Lemma sum_le {A} (f f' : A -> Z) l : (forall a, In a l -> f a <= f' a) -> sum f l <= sum f' l.
Proof.
  intro H. induction l as [|a l IH]; [cbn; lia|]. cbn. pose proof (H a (or_introl eq_refl)).
  unfold sum in IH. assert (fold_right (fun a z => f a + z) 0 l <= fold_right (fun a z => f' a + z) 0 l); [|lia].
  apply IH. intros; apply H; now right.
Qed.
Lemma sum_filter {A} (f : A -> Z) P l : sum f (filter P l) = sum (fun a => if P a then f a else 0) l.
Proof.
  induction l as [|a l IH]; [reflexivity|]. cbn. destruct (P a); cbn; unfold sum in *; rewrite IH; lia.
Qed.
Lemma sum_sub {A} (f f' : A -> Z) l : sum f l - sum f' l = sum (fun a => f a - f' a) l.
Proof. induction l as [|a l IH]; [reflexivity|]. cbn. unfold sum in *. lia. Qed.
Lemma sum_zero {A} (f : A -> Z) l : (forall a, In a l -> f a = 0) -> sum f l = 0.
Proof.
  intro H. induction l as [|a l IH]; [reflexivity|]. cbn. rewrite (H a) by now left. unfold sum in IH.
  rewrite IH; [reflexivity|]. intros; apply H; now right.
Qed.

Definition edge_dec (x y : edge) : {x = y} + {x <> y} := Bool.reflect_dec _ _ (edge_eqb_spec x y).

(** Adding [d] on one edge. *)
Lemma sum_bump (F : edge -> Z) (h : edge -> Z) L e d : NoDup L -> In e L ->
  sum (fun a => (F a + (if edge_eqb a e then d else 0)) * h a) L = sum (fun a => F a * h a) L + d * h e.
Proof.
  induction L as [|a L IH]; intros Hn He; [contradiction|]. inversion Hn as [|? ? Hn1 Hn2]; subst. cbn.
  unfold sum in IH. destruct He as [->|He].
  - destruct (edge_eqb_spec e e) as [_|]; [|congruence].
    assert (H : fold_right (fun a z => (F a + (if edge_eqb a e then d else 0)) * h a + z) 0 L =
      fold_right (fun a z => F a * h a + z) 0 L).
    { apply (sum_ext (fun a => (F a + (if edge_eqb a e then d else 0)) * h a)). intros b Hb.
      destruct (edge_eqb_spec b e) as [->|]; [contradiction|]. now rewrite Z.add_0_r. }
    rewrite H. lia.
  - rewrite IH by assumption. destruct (edge_eqb_spec a e) as [->|]; [contradiction|]. lia.
Qed.

Section Flow.
  Variables (g : graph) (cap : edge -> N) (s t : N).
  Hypothesis W : wf g.
  Hypothesis Hst : s <> t.
  Let L := edges g.
  Hypothesis Hcap : forall e, In e L -> (cap e <= u64_max)%N.

  Lemma L_NoDup : NoDup L.
  Proof. now apply NoDup_edges. Qed.
  Lemma L_gE a b : In (a, b) L <-> gE g a b.
  Proof. symmetry. now apply gE_edges. Qed.

  (** The flow stored for an edge. *)
  Definition flow_of (m : flows) (e : edge) : N := match fl_get e m with Some (f, _) => f | None => 0%N end.
  Definition flowZ (m : flows) (e : edge) : Z := Z.of_N (flow_of m e).

  (** The map holds exactly the edges with their capacities. *)
  Definition table (m : flows) : Prop := forall e,
    if in_dec edge_dec e L then exists f, fl_get e m = Some (f, cap e) /\ (f <= cap e)%N
    else fl_get e m = None.

  Lemma table_in m e : table m -> In e L -> fl_get e m = Some (flow_of m e, cap e) /\ (flow_of m e <= cap e)%N.
  Proof.
    intros H He. specialize (H e). destruct (in_dec edge_dec e L); [|contradiction].
    destruct H as (f & H1 & H2). unfold flow_of. rewrite H1. auto.
  Qed.
  Lemma table_out m e : table m -> ~ In e L -> fl_get e m = None.
  Proof. intros H He. specialize (H e). destruct (in_dec edge_dec e L); [contradiction|assumption]. Qed.

  Lemma init_table : table (flow_init g cap).
  Proof.
    unfold flow_init. fold L.
    assert (H : forall es m e, fl_get e (fold_left (fun m e => hm_insert edge_eqb e (0%N, cap e) m) es m) =
      if in_dec edge_dec e es then Some (0%N, cap e) else fl_get e m).
    { induction es as [|a es IH]; intros m e; [reflexivity|]. cbn [fold_left]. rewrite IH.
      unfold fl_get. rewrite (hm_get_insert _ edge_eqb_spec).
      destruct (in_dec edge_dec e es) as [Hi|Hi], (in_dec edge_dec e (a :: es)) as [Hj|Hj];
        destruct (edge_eqb_spec e a) as [->|Hne]; try reflexivity;
        exfalso; cbn [In] in *; intuition congruence. }
    intro e. rewrite H. destruct (in_dec edge_dec e L); [|reflexivity]. exists 0%N. split; [reflexivity|lia].
  Qed.
  Lemma init_flow e : flow_of (flow_init g cap) e = 0%N.
  Proof.
    destruct (in_dec edge_dec e L) as [Hi|Hi].
    - unfold flow_of, flow_init. fold L.
      assert (H : forall es m, (forall f c, fl_get e m = Some (f, c) -> f = 0%N) ->
        forall f c, fl_get e (fold_left (fun m e => hm_insert edge_eqb e (0%N, cap e) m) es m) = Some (f, c) -> f = 0%N).
      { induction es as [|a es IH]; intros m Hm f c Hf; [eapply Hm; exact Hf|]. cbn [fold_left] in Hf.
        eapply IH; [|exact Hf]. intros f' c' H'. unfold fl_get in *. rewrite (hm_get_insert _ edge_eqb_spec) in H'.
        destruct (edge_eqb e a); [injection H' as <- _; reflexivity|]. eapply Hm; exact H'. }
      destruct (fl_get e _) as [[f c]|] eqn:Ef; [|reflexivity]. eapply H; [|exact Ef]. cbn. discriminate.
    - unfold flow_of. now rewrite (table_out _ e init_table Hi).
  Qed.

  (** ** Tagged paths: the search only ever holds forward steps *)
  Definition tag (p : list N) : aug_path := map (fun v => (v, Forward)) p.

  Lemma tag_edges p : aug_edges (tag p) = map (fun e => (e, Forward)) (to_edge_list p).
  Proof.
    induction p as [|x p IH]; [reflexivity|]. destruct p as [|y p]; [reflexivity|].
    change (aug_edges (tag (x :: y :: p))) with (((x, y), Forward) :: aug_edges (tag (y :: p))).
    rewrite IH. reflexivity.
  Qed.
  Lemma tag_last p : aug_last (tag p) = option_map (fun v => (v, Forward)) (path_last p).
  Proof. unfold aug_last, path_last, tag. rewrite <- map_rev. destruct (rev p); reflexivity. Qed.
  Lemma tag_contains p v : aug_contains (tag p) v = path_contains_vertex p v.
  Proof.
    unfold aug_contains, path_contains_vertex, tag. induction p as [|x p IH]; [reflexivity|]. cbn.
    destruct (N.eqb v x); [reflexivity|]. exact IH.
  Qed.
  Lemma tag_kids p vid : path_last p = Some vid ->
    Some (aug_kids g (tag p) vid) = option_map (map tag) (path_kids g p).
  Proof.
    intro Hl. unfold aug_kids, path_kids. rewrite Hl. cbn [option_map]. f_equal.
    rewrite filter_app, map_app.
    assert (Hin : In vid p).
    { apply path_last_spec in Hl. now apply ends_with_In. }
    rewrite (filter_none _ (map (fun e => (snd e, Backward)) (inbound_edges g vid))).
    - cbn. rewrite app_nil_r. induction (outbound_edges g vid) as [|e es IH]; [reflexivity|]. cbn.
      rewrite tag_contains. destruct (path_contains_vertex p (snd e)); cbn; rewrite IH; [reflexivity|].
      f_equal. unfold aug_append, tag, path_append. now rewrite map_app.
    - intros [v d] Hv. apply in_map_iff in Hv as ([a b] & Hv & Hi). apply (inbound_In _ _ _ W) in Hi as [-> _].
      injection Hv as <- _. cbn. rewrite tag_contains. apply negb_false_iff. apply path_contains_vertex_spec. assumption.
  Qed.

  (** ** Residual capacity of a path *)
  Definition resid (m : flows) (e : edge) : N := (cap e - flow_of m e)%N.
  Fixpoint least (l : list N) : N := match l with [] => 0%N | [a] => a | a :: t => N.min a (least t) end.
  Lemma least_spec l : l <> [] -> In (least l) l /\ forall a, In a l -> (least l <= a)%N.
  Proof.
    induction l as [|a l IH]; intro H; [congruence|]. destruct l as [|b l].
    - split; [now left|]. intros x [<-|[]]. reflexivity.
    - destruct IH as [H1 H2]; [discriminate|]. change (least (a :: b :: l)) with (N.min a (least (b :: l))). split.
      + destruct (N.min_spec a (least (b :: l))) as [[_ ->]|[_ ->]]; [now left|right; assumption].
      + intros x [<-|Hx]; [lia|]. specialize (H2 x Hx). lia.
  Qed.
  Lemma min_residual_spec m es : table m -> incl es L ->
    min_residual (map (fun e => (e, Forward)) es) m =
    Done (match es with [] => None | _ => Some (least (map (resid m) es)) end).
  Proof.
    intros Ht. induction es as [|e es IH]; intro Hi; [reflexivity|]. cbn [map min_residual].
    destruct (table_in m e Ht) as [H1 H2]; [apply Hi; now left|].
    unfold edge_residual_capacity. rewrite H1. unfold u64_sub.
    replace (flow_of m e <=? cap e)%N with true by (symmetry; now apply N.leb_le). cbn [obind].
    rewrite IH by (intros x Hx; apply Hi; now right). cbn [obind]. destruct es as [|e' es]; reflexivity.
  Qed.
  Lemma residual_spec m p : table m -> incl (to_edge_list p) L -> to_edge_list p <> [] ->
    residual_capacity (tag p) m = Done (least (map (resid m) (to_edge_list p))).
  Proof.
    intros Ht Hi Hne. unfold residual_capacity. rewrite tag_edges, min_residual_spec by assumption.
    destruct (to_edge_list p); [congruence|reflexivity].
  Qed.

  Lemma to_edge_list_In p a b : In (a, b) (to_edge_list p) <-> adjacent a b p.
  Proof.
    induction p as [|x p IH]; [split; [intros []|apply adjacent_nil]|]. destruct p as [|y p].
    - split; [intros []|apply adjacent_one].
    - change (to_edge_list (x :: y :: p)) with ((x, y) :: to_edge_list (y :: p)).
      rewrite adjacent_cons. cbn [In]. rewrite IH, starts_with_cons. split.
      + intros [[= <- <-]|H]; auto.
      + intros [[-> ->]|H]; auto.
  Qed.
  Lemma simple_edges_incl p : simple_from (gE g) s p -> incl (to_edge_list p) L.
  Proof.
    intros [[_ Hadj] _] [a b] He. apply to_edge_list_In in He. apply L_gE. now apply Hadj.
  Qed.
  Lemma simple_edges_NoDup (p : list N) : NoDup p -> NoDup (to_edge_list p).
  Proof.
    induction p as [|x p IH]; intro Hn; [constructor|]. destruct p as [|y p]; [constructor|].
    inversion Hn as [|? ? H1 H2]; subst. change (to_edge_list (x :: y :: p)) with ((x, y) :: to_edge_list (y :: p)).
    constructor; [|now apply IH]. intro Hi. apply to_edge_list_In in Hi. apply adjacent_In in Hi. tauto.
  Qed.
  Lemma path_has_edge p : starts_with s p -> ends_with t p -> to_edge_list p <> [].
  Proof.
    intros [q ->] He. destruct q as [|y q]; [|discriminate]. apply ends_with_one in He. congruence.
  Qed.

  (** ** The search for an augmenting path *)
  Definition augments (m : flows) (p : list N) : bool :=
    match path_last p with
    | Some v => N.eqb v t && (0 <? least (map (resid m) (to_edge_list p)))%N
    | None => false
    end.

  Lemma aug_next_find m : table m -> forall n q, (forall p, In p q -> simple_from (gE g) s p) ->
    aug_next g m t n (map tag q) =
    obind (iter_find (augments m) (bfs_path_next g) n q)
      (fun r => Done (option_map (fun p => (tag p, least (map (resid m) (to_edge_list p)))) r)).
  Proof.
    intro Ht. induction n as [|n IH]; intros q Hq; [reflexivity|].
    destruct q as [|p q]; [reflexivity|]. cbn [map aug_next iter_find].
    pose proof (Hq p (or_introl eq_refl)) as Hp.
    destruct (path_last p) as [vid|] eqn:El.
    2:{ exfalso. assert (Hne : p <> []) by now apply (simple_ne g s).
        destruct (ends_with_ex Hne) as [v Hv]. apply path_last_spec in Hv. congruence. }
    pose proof (tag_kids p vid El) as Hk. rewrite tag_last, El. cbn [option_map].
    unfold bfs_path_next at 1, tree_next at 1. cbn [Queue q_pop pop_front].
    destruct (path_kids g p) as [kids|] eqn:Ek; [|discriminate]. cbn [option_map] in Hk. injection Hk as Hk.
    rewrite push_all_list. rewrite Hk, <- map_app.
    assert (Hq' : forall p', In p' (q ++ kids) -> simple_from (gE g) s p').
    { intros p' Hp'. apply in_app_iff in Hp' as [Hp'|Hp']; [apply Hq; now right|].
      apply (path_kids_good g W s p p'); [assumption|]. unfold kidsl. rewrite Ek. assumption. }
    unfold augments at 1. rewrite El. destruct (N.eqb_spec vid t) as [->|Hne]; cbn [andb].
    - rewrite residual_spec.
      + cbn [obind]. destruct (0 <? _)%N; [reflexivity|]. now apply IH.
      + assumption.
      + now apply simple_edges_incl.
      + apply path_has_edge; [apply Hp|]. now apply path_last_spec.
    - now apply IH.
  Qed.

  (** A bound on the fuel of a search that does not depend on the flow. *)
  Lemma search_bound : exists n0, forall m, table m ->
    exists r, (forall n, (n0 <= n)%nat -> find_augmenting_path g m s t n =
        Done (option_map (fun p => (tag p, least (map (resid m) (to_edge_list p)))) r)) /\
      match r with
      | Some p => simple_from_to (gE g) s t p /\ (0 < least (map (resid m) (to_edge_list p)))%N
      | None => forall p, simple_from_to (gE g) s t p -> exists e, In e (to_edge_list p) /\ flow_of m e = cap e
      end.
  Proof.
    destruct (bfs_path_collect g W s) as (out & Hset & Henum & _). destruct Hset as [n0 Hn0]. exists n0.
    intros m Ht. exists (find (augments m) out). split.
    - intros n Hn. unfold find_augmenting_path. change [aug_new s] with (map tag [[s]]).
      rewrite aug_next_find; [|assumption|].
      + rewrite (iter_find_collect _ _ _ _ n _ out); [reflexivity|]. now apply Hn0.
      + intros p [<-|[]]. split; [split; [now exists []|]|repeat constructor; tauto].
        intros x y H. now apply adjacent_one in H.
    - destruct Henum as [_ Henum]. destruct (find (augments m) out) as [p|] eqn:Ef.
      + apply find_some in Ef as [H1 H2]. apply Henum in H1 as [[Hs Hadj] Hn]. unfold augments in H2.
        destruct (path_last p) as [v|] eqn:El; [|discriminate]. apply andb_true_iff in H2 as [H2 H3].
        apply N.eqb_eq in H2 as ->. apply path_last_spec in El. apply N.ltb_lt in H3.
        split; [|assumption]. split; [|assumption]. split; [assumption|]. split; assumption.
      + intros p [(Hs & He & Hadj) Hn].
        assert (Hp : In p out) by (apply Henum; split; [split|]; assumption).
        pose proof (find_none _ _ Ef p Hp) as Hf. unfold augments in Hf.
        apply path_last_spec in He as El. rewrite El, N.eqb_refl in Hf. cbn [andb] in Hf.
        apply N.ltb_ge in Hf.
        assert (Hne : map (resid m) (to_edge_list p) <> []).
        { intro H. apply map_eq_nil in H. now apply (path_has_edge p Hs He). }
        destruct (least_spec _ Hne) as [Hin _]. apply in_map_iff in Hin as (e & H1 & H2).
        exists e. split; [assumption|]. rewrite <- H1 in Hf. unfold resid in Hf.
        destruct (table_in m e Ht) as [_ Hle].
        { apply (simple_edges_incl p); [split; [split|]; assumption|assumption]. }
        lia.
  Qed.

  (** ** Augmenting *)

  (** The weighted balance of a flow; with an indicator this is the net flow
      out of a set of vertices. *)
  Definition balance (F : edge -> Z) (chi : N -> Z) : Z :=
    sum (fun e => F e * (chi (fst e) - chi (snd e))) L.
  Definition carries (m : flows) (value : N) : Prop :=
    forall chi, balance (flowZ m) chi = Z.of_N value * (chi s - chi t).

  Lemma bump_flow m e f c d : fl_get e m = Some (f, c) -> forall a,
    flowZ (hm_insert edge_eqb e ((f + d)%N, c) m) a = flowZ m a + (if edge_eqb a e then Z.of_N d else 0).
  Proof.
    intros H a. unfold flowZ, flow_of, fl_get. rewrite (hm_get_insert _ edge_eqb_spec).
    destruct (edge_eqb_spec a e) as [->|].
    - unfold fl_get in H. rewrite H. lia.
    - lia.
  Qed.

  Lemma update_spec d : forall es m, table m -> NoDup es -> incl es L ->
    (forall e, In e es -> (d <= resid m e)%N) ->
    exists m', ofold (fun m x => match snd x with
        | Forward => modify (fun v => u64_add v d) (fst x) m
        | Backward => modify (fun v => u64_sub v d) (edge_reverse (fst x)) m end)
        (map (fun e => (e, Forward)) es) m = Done m' /\ table m' /\
      (forall e, flow_of m' e = if in_dec edge_dec e es then (flow_of m e + d)%N else flow_of m e) /\
      (forall chi, balance (flowZ m') chi = balance (flowZ m) chi + Z.of_N d * sum (fun e => chi (fst e) - chi (snd e)) es).
  Proof.
    induction es as [|e es IH]; intros m Ht Hn Hi Hd.
    - exists m. split; [reflexivity|]. split; [assumption|]. split; [reflexivity|]. intro chi. cbn. lia.
    - inversion Hn as [|? ? Hn1 Hn2]; subst.
      assert (He : In e L) by (apply Hi; now left).
      destruct (table_in m e Ht He) as [H1 H2]. pose proof (Hd e (or_introl eq_refl)) as Hde. unfold resid in Hde.
      cbn [map ofold fst snd]. unfold modify at 1. rewrite H1.
      pose proof (Hcap e He) as Hce.
      unfold u64_add at 1. replace (flow_of m e + d <=? u64_max)%N with true by (symmetry; apply N.leb_le; lia).
      cbn [obind].
      set (m1 := hm_insert edge_eqb e ((flow_of m e + d)%N, cap e) m).
      assert (Hf1 : forall a, flow_of m1 a = if edge_eqb a e then (flow_of m e + d)%N else flow_of m a).
      { intro a. unfold flow_of at 1, m1, fl_get. rewrite (hm_get_insert _ edge_eqb_spec). now destruct (edge_eqb a e). }
      assert (Ht1 : table m1).
      { intro a. unfold m1, fl_get. rewrite (hm_get_insert _ edge_eqb_spec). specialize (Ht a).
        destruct (edge_eqb_spec a e) as [->|]; [|assumption].
        destruct (in_dec edge_dec e L); [|contradiction]. eexists. split; [reflexivity|]. lia. }
      destruct (IH m1 Ht1 Hn2) as (m' & I1 & I2 & I3 & I4).
      { intros x Hx. apply Hi. now right. }
      { intros x Hx. unfold resid. rewrite Hf1. destruct (edge_eqb_spec x e) as [->|]; [contradiction|].
        apply Hd. now right. }
      exists m'. split; [exact I1|]. split; [assumption|]. split.
      + intro a. rewrite I3, !Hf1.
        destruct (in_dec edge_dec a es) as [Ha|Ha], (in_dec edge_dec a (e :: es)) as [Hb|Hb];
          destruct (edge_eqb_spec a e) as [->|Hne]; try reflexivity;
          exfalso; cbn [In] in *; intuition congruence.
      + intro chi. rewrite I4. unfold balance.
        rewrite (sum_ext (fun a => flowZ m1 a * (chi (fst a) - chi (snd a)))
                   (fun a => (flowZ m a + (if edge_eqb a e then Z.of_N d else 0)) * (chi (fst a) - chi (snd a)))).
        2:{ intros a _. now rewrite (bump_flow m e _ _ d H1). }
        rewrite (sum_bump (flowZ m) (fun a => chi (fst a) - chi (snd a)) L e (Z.of_N d) L_NoDup He).
        cbn. unfold sum. lia.
  Qed.

  Lemma telescope chi z : forall p x, ends_with z (x :: p) ->
    sum (fun e => chi (fst e) - chi (snd e)) (to_edge_list (x :: p)) = chi x - chi z.
  Proof.
    induction p as [|y p IH]; intros x Hz.
    - apply ends_with_one in Hz as ->. cbn. lia.
    - change (to_edge_list (x :: y :: p)) with ((x, y) :: to_edge_list (y :: p)). cbn [sum fold_right fst snd].
      rewrite ends_with_cons in Hz. specialize (IH y Hz). unfold sum in IH. rewrite IH. lia.
  Qed.

  (** Room left over all edges. *)
  Definition slack (m : flows) : nat := fold_right (fun e n => N.to_nat (resid m e) + n)%nat 0%nat L.

  Lemma augment m value p : table m -> carries m value -> simple_from_to (gE g) s t p ->
    let d := least (map (resid m) (to_edge_list p)) in (0 < d)%N ->
    exists m', update_flow m (tag p) d = Done m' /\ table m' /\ carries m' (value + d) /\
      (slack m' < slack m)%nat.
  Proof.
    intros Ht Hc Hp d Hd. destruct Hp as [(Hs & He & Hadj) Hn].
    assert (Hsf : simple_from (gE g) s p) by (split; [split|]; assumption).
    pose proof (path_has_edge p Hs He) as Hne.
    assert (Hm : map (resid m) (to_edge_list p) <> []) by (intro H; now apply map_eq_nil in H).
    destruct (least_spec _ Hm) as [_ Hleast]. fold d in Hleast.
    destruct (update_spec d (to_edge_list p) m Ht (simple_edges_NoDup p Hn) (simple_edges_incl p Hsf))
      as (m' & H1 & H2 & H3 & H4).
    { intros e Hin. apply Hleast. apply in_map_iff. eauto. }
    assert (Hc' : carries m' (value + d)).
    { intro chi. rewrite H4, Hc. destruct Hs as [q ->]. rewrite (telescope chi t q s He). lia. }
    exists m'. unfold update_flow. rewrite tag_edges. split; [exact H1|]. split; [assumption|].
    split; [assumption|].
    { assert (Hle : forall e, In e L -> (resid m' e <= resid m e)%N).
      { intros e _. unfold resid. rewrite H3. destruct (in_dec edge_dec e (to_edge_list p)); lia. }
      destruct (to_edge_list p) as [|e es] eqn:Ees; [congruence|].
      assert (Hlt : (resid m' e < resid m e)%N).
      { assert (Hde : (d <= resid m e)%N) by (apply Hleast; now left). unfold resid in *. rewrite H3.
        destruct (in_dec edge_dec e (e :: es)) as [|Hno]; [lia|]. exfalso. apply Hno. now left. }
      assert (Hin : In e L).
      { apply (simple_edges_incl p Hsf). rewrite Ees. now left. }
      clear -Hle Hlt Hin. unfold slack. induction L as [|a l IH]; [contradiction|]. cbn.
      assert (Hl : (fold_right (fun e n => N.to_nat (resid m' e) + n)%nat 0%nat l <=
        fold_right (fun e n => N.to_nat (resid m e) + n)%nat 0%nat l)%nat).
      { assert (Hle' : forall e, In e l -> (resid m' e <= resid m e)%N) by (intros; apply Hle; now right).
        clear -Hle'. induction l as [|b l IH]; cbn; [lia|].
        pose proof (Hle' b (or_introl eq_refl)). assert (forall e, In e l -> (resid m' e <= resid m e)%N)
          by (intros; apply Hle'; now right). specialize (IH H0). lia. }
      pose proof (Hle a (or_introl eq_refl)). destruct Hin as [->|Hin]; [lia|].
      assert (Hle' : forall e, In e l -> (resid m' e <= resid m e)%N) by (intros; apply Hle; now right).
      specialize (IH Hle' Hin). lia. }
  Qed.

  (** No augmenting path left. *)
  Definition blocked (m : flows) : Prop := forall p, simple_from_to (gE g) s t p ->
    exists e, In e (to_edge_list p) /\ flow_of m e = cap e.

  (** The rounds of the loop, each with the amount it adds. *)
  Inductive rounds (n0 : nat) : flows -> list N -> flows -> Prop :=
  | rounds_end m : (forall n, (n0 <= n)%nat -> find_augmenting_path g m s t n = Done None) -> rounds n0 m [] m
  | rounds_step m p d m1 ds m' :
      (forall n, (n0 <= n)%nat -> find_augmenting_path g m s t n = Done (Some (p, d))) ->
      update_flow m p d = Done m1 -> rounds n0 m1 ds m' -> rounds n0 m (d :: ds) m'.
  Definition total (ds : list N) : N := fold_right N.add 0%N ds.

  Lemma loop_spec : exists n0, forall fuel m value, table m -> carries m value -> (slack m < fuel)%nat ->
    exists ds m', rounds n0 m ds m' /\ (length ds < fuel)%nat /\
      table m' /\ carries m' (value + total ds) /\ blocked m' /\
      ((ds = [] /\ m' = m) \/ ((0 < total ds)%N /\ exists p, simple_from_to (gE g) s t p /\
      forall e, In e (to_edge_list p) -> (0 < resid m e)%N)).
  Proof.
    destruct search_bound as [n0 Hn0]. exists n0. induction fuel as [|fuel IH]; intros m value Ht Hc Hf; [lia|].
    destruct (Hn0 m Ht) as (r & Hr & Hspec). destruct r as [p|].
    - destruct Hspec as [Hp Hpos]. destruct (augment m value p Ht Hc Hp Hpos) as (m1 & U1 & U2 & U3 & U5).
      set (d := least (map (resid m) (to_edge_list p))) in *.
      destruct (IH m1 (value + d)%N U2 U3) as (ds & m' & H1 & H0 & H2 & H3 & H4 & H5); [lia|].
      exists (d :: ds), m'. split; [now apply rounds_step with (p := tag p) (m1 := m1)|].
      split; [cbn; lia|]. split; [assumption|]. split; [|split; [assumption|]].
      { cbn [total fold_right]. now rewrite N.add_assoc. }
      right. split; [cbn [total fold_right]; lia|]. exists p. split; [assumption|].
      intros e He. assert (Hm : map (resid m) (to_edge_list p) <> []) by (destruct (to_edge_list p); [contradiction|discriminate]).
      destruct (least_spec _ Hm) as [_ Hl]. specialize (Hl (resid m e) (in_map _ _ _ He)). lia.
    - exists [], m. split; [now apply rounds_end|]. split; [cbn; lia|]. split; [assumption|].
      split; [cbn; now rewrite N.add_0_r|]. split; [exact Hspec|left; split; reflexivity].
  Qed.

  (** With overflow checks the loop ends normally exactly if the total fits. *)
  Lemma rounds_loop n0 m ds m' : rounds n0 m ds m' -> forall n k value, (n0 <= n)%nat -> (length ds < k)%nat ->
    (value <= u64_max)%N ->
    flow_loop g s t n k value m =
      if (value + total ds <=? u64_max)%N then Done ((value + total ds)%N, m') else Panic.
  Proof using.
    clear Hst. induction 1 as [m H|m p d m1 ds m' H Hu Hr IH]; intros n k value Hn Hk Hv; (destruct k as [|k]; [cbn in Hk; lia|]);
      cbn [flow_loop]; rewrite H by assumption; cbn [obind].
    - cbn [total fold_right]. rewrite N.add_0_r. replace (value <=? u64_max)%N with true by (symmetry; now apply N.leb_le).
      reflexivity.
    - rewrite Hu. cbn [obind]. unfold u64_add. cbn [length] in Hk. cbn [total fold_right]. fold (total ds).
      destruct (N.leb_spec (value + d) u64_max) as [Hd|Hd]; cbn [obind].
      + rewrite IH by (try assumption; lia). now rewrite N.add_assoc.
      + replace (value + (d + total ds) <=? u64_max)%N with false by (symmetry; apply N.leb_gt; lia). reflexivity.
  Qed.

  Lemma flow_rounds : exists n0 ds m, rounds n0 (flow_init g cap) ds m /\
      table m /\ carries m (total ds) /\ blocked m /\
      ((0 < total ds)%N <-> exists p, simple_from_to (gE g) s t p /\ forall e, In e (to_edge_list p) -> (0 < cap e)%N).
  Proof.
    destruct loop_spec as [n0 H]. exists n0.
    destruct (H (S (slack (flow_init g cap))) (flow_init g cap) 0%N) as (ds & m & H1 & _ & H2 & H3 & H4 & H5).
    - apply init_table.
    - intro chi. unfold balance. apply sum_zero. intros e _. unfold flowZ. rewrite init_flow. reflexivity.
    - lia.
    - exists ds, m. split; [assumption|]. split; [assumption|]. split; [assumption|]. split; [assumption|]. split.
      + intro Hv. destruct H5 as [[-> _]|(_ & p & Hp & Hr)]; [cbn in Hv; lia|]. exists p. split; [assumption|].
        intros e He. specialize (Hr e He). unfold resid in Hr. lia.
      + intros (p & Hp & Hc). destruct H5 as [[-> ->]|[H5 _]]; [|assumption]. exfalso.
        destruct (H4 p Hp) as (e & He & Hf). specialize (Hc e He). rewrite init_flow in Hf. lia.
  Qed.

  (** ** Reading the invariant *)
  Lemma indicator_balance F v : balance F (fun x => if N.eqb x v then 1 else 0) = outflow L F v - inflow L F v.
  Proof.
    unfold balance, outflow, inflow. rewrite !sum_filter, sum_sub. apply sum_ext. intros e _.
    destruct (N.eqb (fst e) v), (N.eqb (snd e) v); lia.
  Qed.
  Lemma carries_feasible m value : table m -> carries m value ->
    feasible L (fun e => Z.of_N (cap e)) s t (flowZ m) (Z.of_N value).
  Proof.
    intros Ht Hc. split; [|split; [|split]].
    - intros e He. destruct (table_in m e Ht He) as [_ H]. unfold flowZ. lia.
    - intros v Hs Ht'. pose proof (indicator_balance (flowZ m) v) as H. rewrite Hc in H.
      destruct (N.eqb_spec s v); [congruence|]. destruct (N.eqb_spec t v); [congruence|]. lia.
    - rewrite <- indicator_balance, Hc. rewrite N.eqb_refl. destruct (N.eqb_spec t s); [congruence|]. lia.
    - pose proof (indicator_balance (flowZ m) t) as H. rewrite Hc, N.eqb_refl in H.
      destruct (N.eqb_spec s t); [congruence|]. lia.
  Qed.
  Lemma carries_cut m value S : table m -> carries m value -> S s = true -> S t = false ->
    Z.of_N value <= cut L (fun e => Z.of_N (cap e)) S.
  Proof.
    intros Ht Hc Hs Ht'. specialize (Hc (fun v => if S v then 1 else 0)). cbn beta in Hc. rewrite Hs, Ht' in Hc.
    unfold cut. rewrite sum_filter.
    assert (balance (flowZ m) (fun v => if S v then 1 else 0) <=
      sum (fun e => if S (fst e) && negb (S (snd e)) then Z.of_N (cap e) else 0) L); [|lia].
    apply sum_le. intros e He. destruct (table_in m e Ht He) as [_ H2]. unfold flowZ.
    destruct (S (fst e)), (S (snd e)); cbn [andb negb]; lia.
  Qed.
  Lemma value_fits m value : sum (fun e => Z.of_N (cap e)) L <= Z.of_N u64_max -> table m -> carries m value -> (value <= u64_max)%N.
  Proof.
    intros Hsum Ht Hc. specialize (Hc (fun v => if N.eqb v s then 1 else 0)). cbn beta in Hc.
    rewrite N.eqb_refl in Hc. destruct (N.eqb_spec t s); [congruence|].
    assert (Hle : balance (flowZ m) (fun v => if N.eqb v s then 1 else 0) <= sum (fun e => Z.of_N (cap e)) L).
    { apply sum_le. intros e He. destruct (table_in m e Ht He) as [_ H2]. unfold flowZ.
      assert (0 <= Z.of_N (flow_of m e) <= Z.of_N (cap e)) by lia.
      destruct (N.eqb (fst e) s), (N.eqb (snd e) s); lia. }
    lia.
  Qed.

End Flow.

Lemma sum_member (f : edge -> N) L e : In e L -> Z.of_N (f e) <= sum (fun e => Z.of_N (f e)) L.
Proof.
  intro He. induction L as [|a l IHl]; [contradiction|]. cbn.
  assert (0 <= fold_right (fun a z => Z.of_N (f a) + z) 0 l) by (clear; induction l; cbn; lia).
  destruct He as [->|He]; [lia|]. specialize (IHl He). unfold sum in IHl. lia.
Qed.
Theorem max_flow_run g cap s t : wf g -> s <> t -> sum (fun e => Z.of_N (cap e)) (edges g) <= Z.of_N u64_max ->
  exists value m, settles (max_flow g cap s t) (value, m) /\
    table g cap m /\ carries g s t m value /\ blocked g cap s t m /\
    ((0 < value)%N <-> exists p, simple_from_to (gE g) s t p /\ forall e, In e (to_edge_list p) -> (0 < cap e)%N).
Proof.
  intros W Hst Hsum.
  assert (Hcap : forall e, In e (edges g) -> (cap e <= u64_max)%N).
  { intros e He. pose proof (sum_member cap _ _ He). lia. }
  destruct (flow_rounds g cap s t W Hst Hcap) as (n0 & ds & m & H1 & H2 & H3 & H4 & H5).
  exists (total ds), m. split; [|now repeat (split; [assumption|])].
  exists (n0 + S (length ds))%nat. intros n Hn. unfold max_flow.
  rewrite (rounds_loop g s t _ _ _ _ H1) by (unfold u64_max; lia).
  pose proof (value_fits g cap s t Hst m (total ds) Hsum H2 H3) as Hv. rewrite N.add_0_l.
  replace (total ds <=? u64_max)%N with true by (symmetry; now apply N.leb_le). reflexivity.
Qed.

(** ** Fuel *)
Lemma aug_next_mono g m t : forall n k q r, (n <= k)%nat -> aug_next g m t n q = Done r -> aug_next g m t k q = Done r.
Proof.
  induction n as [|n IH]; intros k q r Hk H; [discriminate|]. destruct k as [|k]; [lia|]. cbn [aug_next] in *.
  destruct q as [|p q]; [assumption|]. destruct (aug_last p) as [[v d]|]; [|assumption].
  destruct (N.eqb v t).
  - destruct (residual_capacity p m) as [x| |]; cbn [obind] in *; try discriminate.
    destruct (0 <? x)%N; [assumption|]. apply IH; [lia|assumption].
  - apply IH; [lia|assumption].
Qed.
Lemma flow_loop_mono g s t : forall f n k f' value m r, (n <= k)%nat -> (f <= f')%nat ->
  flow_loop g s t n f value m = Done r -> flow_loop g s t k f' value m = Done r.
Proof.
  induction f as [|f IH]; intros n k f' value m r Hk Hf H; [discriminate|]. destruct f' as [|f']; [lia|].
  cbn [flow_loop] in *. destruct (find_augmenting_path g m s t n) as [x| |] eqn:Ef; try discriminate.
  apply (aug_next_mono _ _ _ _ k) in Ef; [|assumption]. unfold find_augmenting_path. rewrite Ef.
  cbn [obind] in *. destruct x as [[p d]|]; [|assumption].
  destruct (update_flow m p d) as [m'| |]; try discriminate. cbn [obind] in *.
  destruct (u64_add value d) as [v'| |]; try discriminate. cbn [obind] in *. apply (IH n); [assumption|lia|assumption].
Qed.
Lemma max_flow_settles g cap s t n r : max_flow g cap s t n = Done r -> settles (max_flow g cap s t) r.
Proof. intro H. exists n. intros k Hk. now apply (flow_loop_mono _ _ _ n n). Qed.
