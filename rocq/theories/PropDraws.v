(** * Exactly which graph gc-random generates (C118) *)
From Coq Require Import String.
From Coq Require Import List NArith Bool Arith Lia Permutation.
From Verif Require Import Spec Base Graph GraphSpec GraphFacts Text Format FormatSpec TextFacts FormatFacts
  Store StoreSpec StoreFacts Cli CliSpec RandomFacts Topo.
Import ListNotations.
Open Scope N_scope.

(** ** What is expected, in terms of the random numbers alone *)
(** The [k]-th random number is paired with the vertices 1, 2, .., vc - 1 in turn; the pair becomes the edge
    [a -> b] from the smaller to the larger if they are more than a tenth of the vertex count apart. *)
Definition draws (vc : nat) (rng : nat -> N) (k : nat) (a b : N) : Prop :=
  let v := N.of_nat (1 + k mod (vc - 1)) in
  ((a = v /\ b = rng k) \/ (a = rng k /\ b = v)) /\ a + N.of_nat (Nat.div vc 10) < b.
(** At least [ec] different edges come out of the first [n] draws. *)
Definition enough (vc ec : nat) (rng : nat -> N) (n : nat) : Prop :=
  exists L : list (N * N), NoDup L /\ length L = ec /\
    forall a b, In (a, b) L -> exists k, (k < n)%nat /\ draws vc rng k a b.

(** ** The generator *)
Section Draws.
  Variable vc : nat.
  Variable rng : nat -> N.
  Hypothesis Hvc : (2 <= vc)%nat.
  Let layer := N.of_nat (Nat.div vc 10).

  Definition exact (st : graph * nat) : Prop :=
    (forall a b, hasE (fst st) a b <-> exists k, (k < snd st)%nat /\ draws vc rng k a b) /\
    (forall v, hasV (fst st) v <-> exists w, hasE (fst st) v w \/ hasE (fst st) w v).

  Lemma exact_step st vid : dag_inv vc layer rng st -> exact st -> vid = (1 + snd st mod (vc - 1))%nat ->
    exact (dag_step layer rng st vid).
  Proof.
    intros I [He Hv] Evid. pose proof (di_built _ _ _ _ I) as B. apply built_wf in B as W.
    destruct st as [g k]. cbn [fst snd] in *. unfold dag_step. set (this := N.of_nat vid). set (other := rng k). cbn zeta.
    assert (Hnow : forall a b, draws vc rng k a b <-> layer <? N.max this other - N.min this other = true /\
                                                 a = N.min this other /\ b = N.max this other).
    { intros a b. unfold draws. rewrite <- Evid. fold this other layer. rewrite N.ltb_lt. lia. }
    assert (Hstep : forall a b, (exists j, (j < S k)%nat /\ draws vc rng j a b) <->
                              (exists j, (j < k)%nat /\ draws vc rng j a b) \/ draws vc rng k a b).
    { intros a b. split.
      - intros (j & Hj & Hd). destruct (Nat.eq_dec j k) as [->|]; [now right|]. left. exists j. split; [lia|assumption].
      - intros [(j & Hj & Hd)|Hd]; [exists j; split; [lia|assumption]|exists k; split; [lia|assumption]]. }
    split; cbn [fst snd].
    - intros a b. rewrite Hstep, Hnow, <- He. destruct (layer <? N.max this other - N.min this other) eqn:El.
      + destruct (contains_edge g (N.min this other, N.max this other)) eqn:Ec.
        * rewrite add_edge_present by assumption. apply (contains_edge_hasE _ _ W) in Ec.
          split; [tauto|]. intros [H|(_ & -> & ->)]; assumption.
        * rewrite (hasE_add_edge _ _ a b W). tauto.
      + split; [tauto|]. intros [H|(H & _)]; [assumption|discriminate H].
    - intro v. destruct (layer <? N.max this other - N.min this other) eqn:El; [|apply Hv].
      destruct (contains_edge g (N.min this other, N.max this other)) eqn:Ec.
      + rewrite add_edge_present by assumption. apply Hv.
      + rewrite (hasV_add_edge _ _ v W), Hv. split.
        * intros [(w & Hw)|[->| ->]].
          -- exists w. rewrite !(hasE_add_edge _ _ _ _ W). tauto.
          -- exists (N.max this other). rewrite !(hasE_add_edge _ _ _ _ W). tauto.
          -- exists (N.min this other). rewrite !(hasE_add_edge _ _ _ _ W). tauto.
        * intros (w & Hw). rewrite !(hasE_add_edge _ _ _ _ W) in Hw.
          destruct Hw as [[Hw|[-> _]]|[Hw|[_ ->]]]; [left; exists w; tauto|tauto|left; exists w; tauto|tauto].
  Qed.

  Lemma exact_round st q : dag_inv vc layer rng st -> exact st -> snd st = (q * (vc - 1))%nat -> exact (dag_round vc layer rng st).
  Proof.
    intros I X Es. unfold dag_round.
    assert (H : forall m j st, (j + m = vc - 1)%nat -> dag_inv vc layer rng st -> exact st -> snd st = (q * (vc - 1) + j)%nat ->
                           exact (fold_left (dag_step layer rng) (seq (1 + j) m) st)).
    { induction m as [|m IH]; intros j st0 Hj I0 X0 E0; [exact X0|]. cbn [seq fold_left].
      assert (Ev : (1 + j = 1 + snd st0 mod (vc - 1))%nat).
      { rewrite E0, Nat.add_comm, (Nat.add_comm _ j), Nat.mod_add by lia. rewrite Nat.mod_small by lia. lia. }
      destruct (dag_step_inv vc layer rng st0 (1 + j) ltac:(lia) I0) as (I1 & E1 & _).
      apply (IH (S j)); [lia|exact I1|now apply exact_step|]. rewrite E1, E0. lia. }
    apply (H (vc - 1)%nat 0%nat); [lia|assumption|assumption|lia].
  Qed.

  Lemma exact_rounds n : forall q st, dag_inv vc layer rng st -> exact st -> snd st = (q * (vc - 1))%nat ->
    dag_inv vc layer rng (rounds vc layer rng n st) /\ exact (rounds vc layer rng n st) /\
    snd (rounds vc layer rng n st) = ((q + n) * (vc - 1))%nat.
  Proof.
    induction n as [|n IH]; intros q st I X E; cbn [rounds].
    - rewrite Nat.add_0_r. auto.
    - destruct (dag_round_inv vc layer rng st I) as (I1 & E1 & _).
      replace (q + S n)%nat with (S q + n)%nat by lia.
      apply IH; [assumption|now apply (exact_round st q)|]. rewrite E1, E. lia.
  Qed.

  Definition start : graph * nat := (g_new, O).
  Lemma exact_start : exact start.
  Proof.
    split; cbn [fst snd start].
    - intros a b. split; [intros (es & H & _); discriminate H|intros (k & Hk & _); lia].
    - intro v. split; [intros (es & H); discriminate H|]. intros (w & [(es & H & _)|(es & H & _)]); discriminate H.
  Qed.
  Lemma after n : dag_inv vc layer rng (rounds vc layer rng n start) /\ exact (rounds vc layer rng n start) /\
    snd (rounds vc layer rng n start) = (n * (vc - 1))%nat.
  Proof. exact (exact_rounds n 0 start (dag_inv_start vc layer rng) exact_start eq_refl). Qed.

  Lemma enough_edges ec n : enough vc ec rng (n * (vc - 1)) <-> (ec <= length (edges (fst (rounds vc layer rng n start))))%nat.
  Proof.
    destruct (after n) as (I & [He _] & Es). rewrite Es in He. pose proof (di_built _ _ _ _ I) as B. apply built_wf in B as W.
    set (g := fst (rounds vc layer rng n start)) in *. split.
    - intros (L & ND & <- & HL). apply NoDup_incl_length; [assumption|]. intros [a b] Hi. apply (edges_In a b W), He, HL, Hi.
    - intro Hle. exists (firstn ec (edges g)). split; [|split].
      + pose proof (NoDup_edges W) as Hn. rewrite <- (firstn_skipn ec (edges g)) in Hn. now apply NoDup_app_iff in Hn.
      + now apply firstn_length_le.
      + intros a b Hi. apply He, (edges_In a b W). rewrite <- (firstn_skipn ec (edges g)). apply in_or_app. now left.
  Qed.

  (** The loop runs the least number of rounds that is enough. *)
  Lemma loop_rounds ec fuel : forall n, (forall m, (m < n)%nat -> length (edges (fst (rounds vc layer rng m start))) < ec)%nat ->
    (ec <= length (edges (fst (rounds vc layer rng n start))))%nat -> (n <= fuel)%nat ->
    dag_loop fuel vc ec layer rng start = Done (fst (rounds vc layer rng n start)).
  Proof.
    assert (G : forall fuel n st, dag_inv vc layer rng st ->
      (forall m, (m < n)%nat -> length (edges (fst (rounds vc layer rng m st))) < ec)%nat ->
      (ec <= length (edges (fst (rounds vc layer rng n st))))%nat -> (n <= fuel)%nat ->
      dag_loop fuel vc ec layer rng st = Done (fst (rounds vc layer rng n st))).
    { clear fuel. induction fuel as [|f IH]; intros n st I Hl Hge Hf; cbn [dag_loop]; rewrite (dag_edge_count vc layer rng st I).
      - replace n with 0%nat in * by lia. cbn [rounds] in *.
        destruct (Nat.ltb_spec (length (edges (fst st))) ec); [lia|reflexivity].
      - destruct n as [|n].
        + cbn [rounds] in *. destruct (Nat.ltb_spec (length (edges (fst st))) ec); [lia|reflexivity].
        + pose proof (Hl O ltac:(lia)) as H0. cbn [rounds] in H0.
          destruct (Nat.ltb_spec (length (edges (fst st))) ec); [|lia].
          destruct (dag_round_inv vc layer rng st I) as (I1 & _). cbn [rounds] in *. apply IH; [assumption| |assumption|lia].
          intros m Hm. exact (Hl (S m) ltac:(lia)). }
    intro n. apply G. apply dag_inv_start.
  Qed.

  Lemma loop_value ec fuel g : dag_loop fuel vc ec layer rng start = Done g ->
    exists n, (forall m, (m < n)%nat -> length (edges (fst (rounds vc layer rng m start))) < ec)%nat /\
      (ec <= length (edges (fst (rounds vc layer rng n start))))%nat /\ g = fst (rounds vc layer rng n start).
  Proof.
    assert (G : forall fuel st, dag_inv vc layer rng st -> dag_loop fuel vc ec layer rng st = Done g ->
      exists n, (forall m, (m < n)%nat -> length (edges (fst (rounds vc layer rng m st))) < ec)%nat /\
      (ec <= length (edges (fst (rounds vc layer rng n st))))%nat /\ g = fst (rounds vc layer rng n st)).
    { clear fuel. induction fuel as [|f IH]; intros st I H; cbn [dag_loop] in H; rewrite (dag_edge_count vc layer rng st I) in H;
        destruct (Nat.ltb_spec (length (edges (fst st))) ec) as [Hlt|Hge]; try discriminate H.
      - injection H as <-. exists O. split; [lia|]. split; [exact Hge|reflexivity].
      - destruct (dag_round_inv vc layer rng st I) as (I1 & _). destruct (IH _ I1 H) as (n & H1 & H2 & H3).
        exists (S n). split; [|split; assumption]. intros [|m] Hm; [exact Hlt|]. apply H1. lia.
      - injection H as <-. exists O. split; [lia|]. split; [exact Hge|reflexivity]. }
    apply G. apply dag_inv_start.
  Qed.
End Draws.

(** ** C118 *)
Definition least_nat (P : nat -> Prop) (n : nat) : Prop := P n /\ forall m, (m < n)%nat -> ~ P m.

Theorem C118_generated_graph : forall rng vc ec, (2 <= vc)%nat -> forall n,
  least_nat (fun n => enough vc ec rng (n * (vc - 1))) n ->
  exists g, settles (fun fuel => creates_random_dag fuel vc ec rng) g /\
    (forall a b, contains_edge g (a, b) = true <-> exists k, (k < n * (vc - 1))%nat /\ draws vc rng k a b) /\
    (forall v, contains_vertex g v = true <-> exists w, contains_edge g (v, w) = true \/ contains_edge g (w, v) = true).
Proof.
  intros rng vc ec Hvc n [Hn Hleast]. set (layer := N.of_nat (Nat.div vc 10)).
  destruct (after vc rng Hvc n) as (I & [He Hv] & Es). fold layer in I, He, Hv, Es.
  pose proof (di_built _ _ _ _ I) as B. apply built_wf in B as W.
  exists (fst (rounds vc layer rng n start)). split; [|split].
  - exists n. intros fuel Hf. apply (loop_rounds vc rng Hvc); [|now apply (enough_edges vc rng Hvc)|assumption].
    intros m Hm. specialize (Hleast m Hm). rewrite (enough_edges vc rng Hvc) in Hleast. fold layer in Hleast. fold layer. lia.
  - intros a b. rewrite <- Es, <- He. now apply contains_edge_hasE.
  - intro v. split.
    + intro H. apply contains_vertex_hasV in H. apply Hv in H as (w & [H|H]); exists w;
        [left|right]; now apply contains_edge_hasE.
    + intros (w & H). apply contains_vertex_hasV, Hv. exists w.
      destruct H as [H|H]; [left|right]; now apply (contains_edge_hasE _ _ W).
Qed.
Print Assumptions C118_generated_graph.

(** It returns exactly if enough different edges are ever drawn. *)
Theorem C118_returns_iff : forall rng vc ec, (2 <= vc)%nat ->
  ((exists g, settles (fun fuel => creates_random_dag fuel vc ec rng) g) <-> exists n, enough vc ec rng n).
Proof.
  intros rng vc ec Hvc. set (layer := N.of_nat (Nat.div vc 10)). split.
  - intros (g & n0 & H). specialize (H n0 (le_n _)). unfold creates_random_dag in H.
    destruct (loop_value vc rng Hvc ec n0 g H) as (n & _ & Hn & _). exists (n * (vc - 1))%nat. now apply (enough_edges vc rng Hvc).
  - intros (n & L & ND & Hlen & HL).
    assert (Hn : enough vc ec rng (n * (vc - 1))).
    { exists L. split; [assumption|]. split; [assumption|]. intros a b Hi. destruct (HL a b Hi) as (k & Hk & Hd).
      exists k. split; [|assumption]. apply (Nat.lt_le_trans _ n); [assumption|].
      assert (n * 1 <= n * (vc - 1))%nat by (apply Nat.mul_le_mono_l; lia). lia. }
    assert (Hex : exists m, least_nat (fun n => enough vc ec rng (n * (vc - 1))) m).
    { clear -Hn Hvc. induction n as [n IH] using (well_founded_induction lt_wf).
      assert (Hd : forall k, (forall m, (m < k)%nat -> ~ enough vc ec rng (m * (vc - 1))) \/ exists m, (m < k)%nat /\ enough vc ec rng (m * (vc - 1))).
      { induction k as [|k IHk]; [left; lia|]. destruct IHk as [H|(m & H1 & H2)]; [|right; exists m; split; [lia|assumption]].
        destruct (le_lt_dec ec (length (edges (fst (rounds vc (N.of_nat (Nat.div vc 10)) rng k start))))) as [H1|H1].
        - right. exists k. split; [lia|]. now apply (enough_edges vc rng Hvc).
        - left. intros m Hm. destruct (Nat.eq_dec m k) as [->|]; [|apply H; lia]. rewrite (enough_edges vc rng Hvc). lia. }
      destruct (Hd n) as [H|(m & H1 & H2)]; [exists n; split; assumption|exact (IH m H1 H2)]. }
    destruct Hex as [m Hm]. destruct (C118_generated_graph rng vc ec Hvc m Hm) as (g & Hg & _). eauto.
Qed.
Print Assumptions C118_returns_iff.
Example C118_case : (2 <= 3)%nat /\
  least_nat (fun n => enough 3 3 (fun k => N.of_nat (10 * k)) (n * (3 - 1))) 2.
Proof.
  split; [lia|]. split.
  - exists [(0, 1); (1, 20); (2, 10)]. split; [repeat constructor; cbn; intuition discriminate|]. split; [reflexivity|].
    intros a b [[= <- <-]|[[= <- <-]|[[= <- <-]|[]]]].
    + exists 0%nat. vm_compute. intuition.
    + exists 2%nat. vm_compute. intuition lia.
    + exists 1%nat. vm_compute. intuition lia.
  - intros m Hm. rewrite (enough_edges 3 _ ltac:(lia)). destruct m as [|[|m]]; [vm_compute; lia|vm_compute; lia|lia].
Qed.
