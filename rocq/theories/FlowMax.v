(** * When the flow found is a maximum one *)
From Coq Require Import List NArith ZArith Bool Permutation Lia Arith.
From Verif Require Import Spec Base WalkFacts Graph GraphSpec GraphFacts Path PathFacts SearchFacts IterFacts Topo TopoFacts
  MaxFlow FlowSpec FlowFacts FlowBound.
Import ListNotations.
Open Scope Z_scope.

Lemma reachable_mono (E E' : rel) s v : (forall a b, E a b -> E' a b) -> reachable E s v -> reachable E' s v.
Proof. intros H (l & Hs & He & Ha). exists l. split; [assumption|]. split; [assumption|]. intros x y Hxy. apply H. now apply Ha. Qed.
Lemma reachable_cons (E : rel) a b v : E a b -> reachable E b v -> reachable E a v.
Proof. intros H1 H2. refine (reachable_trans _ H2). exact (reachable_step _ (reachable_refl E a) H1). Qed.
Lemma reachable_last (E : rel) s v : reachable E s v -> v <> s -> exists c, reachable E s c /\ E c v.
Proof.
  intros H. revert v H. apply (reachable_ind' (fun v => v <> s -> exists c, reachable E s c /\ E c v)); [congruence|]. intros u v Hu _ Huv _. now exists u.
Qed.
Lemma reachable_first (E : rel) s v : reachable E s v -> s <> v -> exists c, E s c /\ reachable E c v.
Proof.
  intros H. revert v H. apply (reachable_ind' (fun v => s <> v -> exists c, E s c /\ reachable E c v)); [congruence|]. intros u v Hu IH Huv Hsv.
  destruct (N.eq_dec s u) as [->|Hne].
  - exists v. split; [assumption|apply reachable_refl].
  - destruct (IH Hne) as (c & H1 & H2). exists c. split; [assumption|]. exact (reachable_step _ H2 Huv).
Qed.
Lemma reachable_ind_l (E : rel) t (P : N -> Prop) : P t -> (forall u v, E u v -> P v -> P u) -> forall v, reachable E v t -> P v.
Proof.
  intros H0 Hs v (l & [q Hq] & He & Ha). revert v q Hq He Ha. induction l as [|x l IH]; intros v q Hq He Ha; [discriminate|].
  injection Hq as -> <-. destruct l as [|y l].
  - destruct He as [q He]. destruct q as [|? q]; cbn in He; [injection He as ->; assumption|injection He as _ He; now destruct q].
  - apply (Hs v y); [apply Ha; exists [], l; reflexivity|]. apply (IH y l eq_refl).
    + destruct He as [q He]. destruct q as [|z q]; [discriminate|]. cbn in He. injection He as _ He. now exists q.
    + intros a b (p & r & E'). apply Ha. exists (v :: p), r. cbn. now rewrite E'.
Qed.
(** Reachability along finitely many edges can be computed. *)
Lemma reach_bool (R : list edge) : exists Q : N -> N -> bool, forall v w, Q v w = true <-> reachable (fun a b => In (a, b) R) v w.
Proof.
  induction R as [|[a b] R (Q & HQ)].
  - exists N.eqb. intros v w. rewrite N.eqb_eq. split; [intros ->; apply reachable_refl|].
    apply (@reachable_ind' (fun a b => In (a, b) []) v (fun w => v = w)); [reflexivity|]. intros ? ? _ _ [].
  - exists (fun v w => Q v w || (Q v a && Q b w)). intros v w. rewrite orb_true_iff, andb_true_iff, !HQ.
    set (E := fun x y => In (x, y) R) in *. set (E' := fun x y => In (x, y) ((a, b) :: R)).
    assert (Hm : forall x y, reachable E x y -> reachable E' x y) by (intros x y; apply reachable_mono; intros ? ?; now right).
    split.
    + intros [H|[H1 H2]]; [now apply Hm|]. apply (reachable_trans (Hm _ _ H1)). apply (reachable_cons E' a b w); [now left|now apply Hm].
    + revert w. apply (reachable_ind' (fun w => reachable E v w \/ reachable E v a /\ reachable E b w)); [left; apply reachable_refl|].
      intros x y _ IH [Exy|Hxy].
      * injection Exy as <- <-. right. split; [|apply reachable_refl]. destruct IH as [IH|[IH _]]; assumption.
      * destruct IH as [IH|[H1 H2]]; [left; exact (reachable_step _ IH Hxy)|right]. split; [assumption|exact (reachable_step _ H2 Hxy)].
Qed.

Section Max.
  Variables (g : graph) (cap : edge -> N) (s t : N).
  Hypothesis W : wf g.
  Hypothesis Hst : s <> t.
  Let L := edges g.
  Hypothesis Hcap : forall e, In e L -> (cap e <= u64_max)%N.

  (** Nothing flows into the start or out of the end. *)
  Definition ends_dry (m : flows) : Prop := forall x, flow_of m (x, s) = 0%N /\ flow_of m (t, x) = 0%N.

  Lemma simple_ends_dry p x : simple_from_to (gE g) s t p -> ~ adjacent x s p /\ ~ adjacent t x p.
  Proof.
    intros [(Hs & He & _) Hn]. split; intros (a & b & Hab).
    - destruct Hs as [q Hq]. rewrite Hab in Hq. destruct a as [|y a]; cbn in Hq; injection Hq as E1 E2.
      + subst x q. rewrite Hab in Hn. cbn in Hn. inversion Hn as [|? ? H1 _]; subst. apply H1. now left.
      + subst y. rewrite Hab in Hn. cbn in Hn. inversion Hn as [|? ? H1 _]; subst. apply H1. apply in_or_app. right. right. now left.
    - destruct He as [q Hq]. rewrite Hab in Hq. destruct (@exists_last _ (x :: b)) as (b' & y & Eb); [discriminate|].
      rewrite Eb in Hab, Hq. assert (Ey : y = t).
      { change (a ++ t :: b' ++ [y]) with (a ++ (t :: b') ++ [y]) in Hq. rewrite app_assoc in Hq. apply app_inj_tail in Hq. tauto. }
      subst y. rewrite Hab in Hn. apply NoDup_remove_2 in Hn. apply Hn. apply in_or_app. right. apply in_or_app. right. now left.
  Qed.
  Lemma rounds_dry n0 m ds m' : rounds g s t n0 m ds m' -> forall value, table g cap m -> carries g s t m value ->
    ends_dry m -> ends_dry m'.
  Proof.
    destruct (search_bound g cap s t W Hst) as [n1 Hn1].
    induction 1 as [m H|m p d m1 ds m' H Hu Hr IH]; intros value Ht Hc Hd; [assumption|].
    destruct (Hn1 m Ht) as (r & Hrr & Hspec). specialize (H (n0 + n1)%nat ltac:(lia)). specialize (Hrr (n0 + n1)%nat ltac:(lia)).
    rewrite Hrr in H. destruct r as [q|]; [|discriminate]. cbn in H. injection H as <- <-. destruct Hspec as [Hp Hpos].
    destruct (augment g cap s t W Hst Hcap m value q Ht Hc Hp Hpos) as (m2 & U1 & U2 & U3 & _).
    rewrite U1 in Hu. injection Hu as <-. apply (IH _ U2 U3). clear IH Hr.
    pose proof (fun x => simple_ends_dry q x Hp) as Hdry. destruct Hp as [(Hs & He & Hadj) Hn].
    assert (Hsf : simple_from (gE g) s q) by (split; [split|]; assumption).
    pose proof (path_has_edge s t Hst q Hs He) as Hne.
    assert (Hm : map (resid cap m) (to_edge_list q) <> []) by (intro H; now apply map_eq_nil in H).
    destruct (least_spec s t Hst _ Hm) as [_ Hleast].
    destruct (update_spec g cap s t W Hst Hcap (least (map (resid cap m) (to_edge_list q))) (to_edge_list q) m Ht
      (simple_edges_NoDup q Hn) (simple_edges_incl g s W q Hsf)) as (m3 & V1 & _ & V3 & _).
    { intros e Hin. apply Hleast. apply in_map_iff. eauto. }
    unfold update_flow in U1. rewrite tag_edges, V1 in U1. injection U1 as <-.
    intro x. rewrite !V3. destruct (Hd x) as [D1 D2], (Hdry x) as [N1 N2].
    destruct (in_dec edge_dec (x, s) (to_edge_list q)) as [C|C]; [exfalso; apply to_edge_list_In in C; contradiction|].
    destruct (in_dec edge_dec (t, x) (to_edge_list q)) as [C'|C']; [exfalso; apply to_edge_list_In in C'; contradiction|].
    now split.
  Qed.
  Theorem max_flow_dry : sum (fun e => Z.of_N (cap e)) L <= Z.of_N u64_max -> exists value m,
    settles (max_flow g cap s t) (value, m) /\ table g cap m /\ carries g s t m value /\ blocked g cap s t m /\ ends_dry m.
  Proof.
    intro Hsum. destruct (flow_rounds g cap s t W Hst Hcap) as (n0 & ds & m1 & H1 & H2 & H3 & H4 & _).
    exists (total ds), m1. split.
    { exists (n0 + S (length ds))%nat. intros n Hn. unfold max_flow.
      rewrite (rounds_loop g s t _ _ _ _ H1) by (unfold u64_max; lia).
      pose proof (value_fits g cap s t Hst m1 (total ds) Hsum H2 H3) as Hv. rewrite N.add_0_l.
      replace (total ds <=? u64_max)%N with true by (symmetry; now apply N.leb_le). reflexivity. }
    split; [assumption|]. split; [assumption|]. split; [assumption|].
    apply (rounds_dry n0 (flow_init g cap) ds m1 H1 0%N).
    - apply (init_table g cap s t Hst).
    - intro chi. unfold balance. apply sum_zero. intros e _. unfold flowZ. rewrite (init_flow g cap s t Hst). reflexivity.
    - intro x. now rewrite !(init_flow g cap s t Hst).
  Qed.

  (** A cut that is full one way and dry the other way. *)
  Lemma tight_cut m value S F value' : table g cap m -> carries g s t m value -> S s = true -> S t = false ->
    (forall e, In e L -> S (fst e) = true -> S (snd e) = false -> flow_of m e = cap e) ->
    (forall e, In e L -> S (fst e) = false -> S (snd e) = true -> flow_of m e = 0%N) ->
    feasible L (fun e => Z.of_N (cap e)) s t F value' -> value' <= Z.of_N value.
  Proof.
    intros Ht Hc Hs Hts Hfull Hdry HF. pose proof (feasible_crosses g cap s t Hst F value' S HF Hs Hts) as Hx.
    specialize (Hc (fun v => if S v then 1 else 0)). cbn beta in Hc. rewrite Hs, Hts in Hc.
    replace (Z.of_N value * (1 - 0)) with (Z.of_N value) in Hc by lia. rewrite <- Hc. refine (Z.le_trans _ _ _ Hx _).
    rewrite sum_filter. apply sum_le. intros e He. destruct HF as [HF _]. specialize (HF e He). cbn beta in HF. unfold flowZ.
    specialize (Hfull e He). specialize (Hdry e He).
    destruct (S (fst e)), (S (snd e)); cbn [andb negb].
    - lia.
    - rewrite Hfull by reflexivity. lia.
    - rewrite Hdry by reflexivity. lia.
    - lia.
  Qed.

  (** One step along which more could be sent: an edge with room, or back along an edge carrying something. *)
  Definition res_step (F : edge -> Z) (a b : N) : Prop :=
    (In (a, b) L /\ F (a, b) < Z.of_N (cap (a, b))) \/ (In (b, a) L /\ 0 < F (b, a)).

  Lemma no_res_path_max m value F value' : table g cap m -> carries g s t m value ->
    ~ reachable (res_step (flowZ m)) s t ->
    feasible L (fun e => Z.of_N (cap e)) s t F value' -> value' <= Z.of_N value.
  Proof.
    intros Ht Hc Hno HF.
    set (R := filter (fun e => flowZ m e <? Z.of_N (cap e)) L ++ map edge_reverse (filter (fun e => 0 <? flowZ m e) L)).
    assert (HR : forall a b, In (a, b) R <-> res_step (flowZ m) a b).
    { intros a b. unfold R, res_step. rewrite in_app_iff, filter_In, in_map_iff, Z.ltb_lt. split.
      - intros [H|([x y] & H1 & H2)]; [now left|right]. unfold edge_reverse in H1. cbn in H1. injection H1 as -> ->.
        apply filter_In in H2 as [H2 H3]. apply Z.ltb_lt in H3. now split.
      - intros [H|[H1 H2]]; [now left|right]. exists (b, a). split; [reflexivity|]. apply filter_In. split; [assumption|now apply Z.ltb_lt]. }
    destruct (reach_bool R) as [Q HQ].
    assert (HQ' : forall v, Q s v = true <-> reachable (res_step (flowZ m)) s v).
    { intro v. rewrite HQ. split; apply reachable_mono; intros a b; apply HR. }
    apply (tight_cut m value (Q s) F value' Ht Hc).
    - apply HQ', reachable_refl.
    - destruct (Q s t) eqn:E; [|reflexivity]. apply HQ' in E. contradiction.
    - intros [a b] He Ha Hb. cbn [fst snd] in *. pose proof (table_in g cap m _ Ht He) as [_ Hle].
      destruct (N.eq_dec (flow_of m (a, b)) (cap (a, b))) as [|Hne]; [assumption|exfalso].
      assert (C : Q s b = true); [|congruence]. apply HQ'. apply HQ' in Ha. refine (reachable_step _ Ha _).
      left. split; [assumption|]. unfold flowZ. lia.
    - intros [a b] He Ha Hb. cbn [fst snd] in *.
      destruct (N.eq_dec (flow_of m (a, b)) 0) as [|Hne]; [assumption|exfalso].
      assert (C : Q s a = true); [|congruence]. apply HQ'. apply HQ' in Hb. refine (reachable_step _ Hb _).
      right. split; [assumption|]. unfold flowZ. lia.
    - assumption.
  Qed.

  (** Sending one unit along such a path. *)
  Lemma send_unit l : forall F a, starts_with a l -> ends_with t l -> NoDup l ->
    (forall x y, adjacent x y l -> res_step F x y) ->
    (forall e, In e L -> 0 <= F e <= Z.of_N (cap e)) ->
    exists F', (forall e, In e L -> 0 <= F' e <= Z.of_N (cap e)) /\
      forall chi, balance g F' chi = balance g F chi + (chi a - chi t).
  Proof.
    induction l as [|x l IH]; intros F a [q Hs] He Hn Hstep Hcaps; [discriminate|]. injection Hs as -> <-.
    destruct l as [|b l].
    - destruct He as [q He]. destruct q as [|? q]; cbn in He; [injection He as ->|injection He as _ He; now destruct q].
      exists F. split; [assumption|]. intro chi. lia.
    - inversion Hn as [|? ? N1 N2]; subst.
      assert (Hb : exists F1, (forall e, In e L -> 0 <= F1 e <= Z.of_N (cap e)) /\
        (forall e, fst e <> a -> snd e <> a -> F1 e = F e) /\
        forall chi, balance g F1 chi = balance g F chi + (chi a - chi b)).
      { destruct (Hstep a b) as [[H1 H2]|[H1 H2]]; [exists [], l; reflexivity| |].
        - exists (fun e => F e + (if edge_eqb e (a, b) then 1 else 0)). split; [|split].
          + intros e Hin. specialize (Hcaps e Hin). destruct (edge_eqb_spec e (a, b)) as [->|]; lia.
          + intros e Ha _. destruct (edge_eqb_spec e (a, b)) as [->|]; [cbn in Ha; congruence|lia].
          + intro chi. unfold balance. rewrite (sum_bump F (fun e => chi (fst e) - chi (snd e)) (edges g) (a, b) 1 (L_NoDup g W) H1). cbn [fst snd]. lia.
        - exists (fun e => F e + (if edge_eqb e (b, a) then -1 else 0)). split; [|split].
          + intros e Hin. specialize (Hcaps e Hin). destruct (edge_eqb_spec e (b, a)) as [->|]; lia.
          + intros e _ Ha. destruct (edge_eqb_spec e (b, a)) as [->|]; [cbn in Ha; congruence|lia].
          + intro chi. unfold balance. rewrite (sum_bump F (fun e => chi (fst e) - chi (snd e)) (edges g) (b, a) (-1) (L_NoDup g W) H1). cbn [fst snd]. lia. }
      destruct Hb as (F1 & C1 & C2 & C3).
      destruct (IH F1 b) as (F' & D1 & D2).
      + now exists l.
      + destruct He as [q He]. destruct q as [|y q]; [discriminate|]. cbn in He. injection He as _ He. now exists q.
      + assumption.
      + intros x y Hxy. assert (Hx : In x (b :: l) /\ In y (b :: l)).
        { destruct Hxy as (p & r & ->). split; apply in_or_app; right; [now left|right; now left]. }
        assert (Hxa : x <> a) by (intros ->; tauto). assert (Hya : y <> a) by (intros ->; tauto).
        unfold res_step. rewrite !C2 by (cbn; assumption). apply Hstep. destruct Hxy as (p & r & E). exists (a :: p), r. cbn. now rewrite E.
      + assumption.
      + exists F'. split; [assumption|]. intro chi. rewrite D2, C3. lia.
  Qed.

  Lemma balance_feasible F value : (forall e, In e L -> 0 <= F e <= Z.of_N (cap e)) ->
    (forall chi, balance g F chi = value * (chi s - chi t)) -> feasible L (fun e => Z.of_N (cap e)) s t F value.
  Proof.
    intros Hcaps Hc. split; [assumption|]. split; [|split].
    - intros v Hs Ht'. pose proof (indicator_balance g s t Hst F v) as H. rewrite Hc in H.
      destruct (N.eqb_spec s v); [congruence|]. destruct (N.eqb_spec t v); [congruence|]. unfold L. lia.
    - pose proof (indicator_balance g s t Hst F s) as H. rewrite Hc in H. rewrite N.eqb_refl in H.
      destruct (N.eqb_spec t s); [congruence|]. unfold L. lia.
    - pose proof (indicator_balance g s t Hst F t) as H. rewrite Hc in H. rewrite N.eqb_refl in H.
      destruct (N.eqb_spec s t); [congruence|]. unfold L. lia.
  Qed.

  Lemma res_path_not_max m value : table g cap m -> carries g s t m value ->
    reachable (res_step (flowZ m)) s t ->
    exists F, feasible L (fun e => Z.of_N (cap e)) s t F (Z.of_N value + 1).
  Proof.
    intros Ht Hc Hr. apply reachable_simple in Hr as (l & (Hs & He & Hadj) & Hn).
    destruct (send_unit l (flowZ m) s Hs He Hn Hadj) as (F & H1 & H2).
    { intros e Hin. pose proof (table_in g cap m _ Ht Hin) as [_ Hle]. unfold flowZ. lia. }
    exists F. apply balance_feasible; [assumption|]. intro chi. rewrite H2, Hc. lia.
  Qed.

  Lemma blocked_unreachable m : blocked g cap s t m -> ~ reachable (fun a b => gE g a b /\ flow_of m (a, b) <> cap (a, b)) s t.
  Proof.
    intros Hb Hr. apply reachable_simple in Hr as (p & (Hs & He & Hadj) & Hn).
    destruct (Hb p) as ([a b] & Hi & Hf).
    { split; [|assumption]. split; [assumption|]. split; [assumption|]. intros a b Hab. now apply Hadj. }
    apply to_edge_list_In in Hi. now apply (proj2 (Hadj a b Hi)).
  Qed.

  (** One edge into every inner vertex: going back along the used one leads where one came from. *)
  Lemma single_in m value : table g cap m -> carries g s t m value -> blocked g cap s t m -> ends_dry m ->
    (forall v a b, v <> s -> v <> t -> gE g a v -> gE g b v -> a = b) -> ~ reachable (res_step (flowZ m)) s t.
  Proof.
    intros Ht Hc Hb Hd H1 Hr.
    assert (H : forall v, reachable (res_step (flowZ m)) s v -> reachable (fun a b => gE g a b /\ flow_of m (a, b) <> cap (a, b)) s v).
    { apply (reachable_ind' (fun v => reachable (fun a b => gE g a b /\ flow_of m (a, b) <> cap (a, b)) s v)); [apply reachable_refl|]. intros u v _ IH [[Hi Hlt]|[Hi Hpos]].
      - refine (reachable_step _ IH _). split; [now apply (L_gE g W)|]. unfold flowZ in Hlt. lia.
      - destruct (N.eq_dec u s) as [->|Hus].
        { exfalso. unfold flowZ in Hpos. rewrite (proj1 (Hd v)) in Hpos. lia. }
        destruct (N.eq_dec u t) as [->|Hut]; [now apply (blocked_unreachable m Hb) in IH|].
        destruct (reachable_last _ _ _ IH Hus) as (c & Hc' & Hcu & _).
        rewrite (H1 u v c Hus Hut); [assumption|now apply (L_gE g W)|assumption]. }
    now apply (blocked_unreachable m Hb), H.
  Qed.
  Lemma single_out m value : table g cap m -> carries g s t m value -> blocked g cap s t m -> ends_dry m ->
    (forall v a b, v <> s -> v <> t -> gE g v a -> gE g v b -> a = b) -> ~ reachable (res_step (flowZ m)) s t.
  Proof.
    intros Ht Hc Hb Hd H1 Hr.
    assert (H : forall v, reachable (res_step (flowZ m)) v t -> reachable (fun a b => gE g a b /\ flow_of m (a, b) <> cap (a, b)) v t).
    { apply reachable_ind_l; [apply reachable_refl|]. intros u v [[Hi Hlt]|[Hi Hpos]] IH.
      - refine (reachable_cons _ _ _ _ _ IH). split; [now apply (L_gE g W)|]. unfold flowZ in Hlt. lia.
      - destruct (N.eq_dec v t) as [->|Hvt].
        { exfalso. unfold flowZ in Hpos. rewrite (proj2 (Hd u)) in Hpos. lia. }
        destruct (N.eq_dec v s) as [->|Hvs]; [now apply (blocked_unreachable m Hb) in IH|].
        destruct (reachable_first _ _ _ IH Hvt) as (c & (Hcu & _) & Hc').
        rewrite (H1 v u c Hvs Hvt); [assumption|now apply (L_gE g W)|assumption]. }
    now apply (blocked_unreachable m Hb), H.
  Qed.
End Max.
