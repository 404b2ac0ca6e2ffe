(** * Facts about gc-random and gc-desc *)
From Coq Require Import String.
From Coq Require Import List NArith Bool Arith Lia Permutation.
From Verif Require Import Spec Base Graph GraphSpec GraphFacts Text Format FormatSpec TextFacts FormatFacts
  Store StoreSpec StoreFacts Cli CliSpec.
Import ListNotations.
Open Scope N_scope.

(** ** Ascending edges make no cycle *)
Lemma ascending_acyclic (E : rel) : (forall a b, E a b -> a < b) -> acyclic E.
Proof.
  intros H l (s & ([t ->] & [u Hu] & Hw) & Hlen).
  assert (G : forall t x, (forall a b, adjacent a b (x :: t) -> E a b) -> forall z u, x :: t = u ++ [z] -> t <> [] -> x < z).
  { clear - H. induction t as [|y t IH]; intros x Hw z u Hu Hn; [congruence|].
    assert (Hxy : x < y) by (apply H, Hw; exists [], t; reflexivity).
    destruct t as [|y' t].
    - destruct u as [|u1 [|u2 [|? ?]]]; cbn in Hu; try discriminate. injection Hu as -> ->. exact Hxy.
    - destruct u as [|u1 u]; [discriminate|]. injection Hu as -> Hu.
      apply (N.lt_trans _ y); [exact Hxy|]. apply (IH y) with (u := u); [|exact Hu|discriminate].
      intros a b (p & q & Ep). apply Hw. exists (u1 :: p), q. now rewrite Ep. }
  assert (t <> []) by (destruct t; [cbn in Hlen; lia|discriminate]).
  pose proof (G t s Hw s u Hu H0). lia.
Qed.

(** ** One step of the generator *)
Section Gen.
  Variable vc : nat.
  Variable layer : N.
  Variable rng : nat -> N.
  Definition lower (x : N) : Prop := 1 <= x < N.of_nat vc.

  Record dag_inv (st : graph * nat) : Prop := {
    di_built : built (fst st);
    di_edge : forall a b, hasE (fst st) a b -> a + layer < b /\ (lower a \/ lower b);
    di_drawn : forall a b, hasE (fst st) a b -> exists k, (k < snd st)%nat /\ (rng k = a \/ rng k = b);
    di_vertices : exists xs, length xs = length (edges (fst st)) /\
      forall v, hasV (fst st) v -> lower v \/ In v xs;
    di_hit : forall k, (k < snd st)%nat -> N.of_nat vc + layer < rng k -> exists a, hasE (fst st) a (rng k);
    di_seen : forall v, hasV (fst st) v -> lower v \/ exists k, v = rng k
  }.
  Lemma dag_inv_start : dag_inv (g_new, O).
  Proof.
    split; cbn [fst snd].
    - apply built_empty.
    - intros a b (es & H & _). discriminate H.
    - intros a b (es & H & _). discriminate H.
    - exists []. split; [reflexivity|]. intros v (es & H). discriminate H.
    - lia.
    - intros v (es & H). discriminate H.
  Qed.

  Lemma edges_length_add g e : wf g -> contains_edge g e = false ->
    length (edges (fst (add_edge g e))) = S (length (edges g)).
  Proof.
    intros W H. destruct e as [a b].
    assert (W' : wf (fst (add_edge g (a, b)))) by now apply wf_add_edge.
    assert (P : Permutation (edges (fst (add_edge g (a, b)))) ((a, b) :: edges g)).
    { apply NoDup_Permutation.
      - now apply NoDup_edges.
      - constructor; [|now apply NoDup_edges]. intro Hi. apply (edges_In a b W) in Hi.
        apply (contains_edge_hasE a b W) in Hi. congruence.
      - intros [x y]. rewrite (edges_In x y W'), (hasE_add_edge a b x y W). cbn [In]. rewrite (edges_In x y W).
        split; [intros [Hh|[-> ->]]|intros [[= <- <-]|Hh]]; tauto. }
    apply Permutation_length in P. exact P.
  Qed.

  Lemma dag_step_inv st vid : (1 <= vid < vc)%nat -> dag_inv st ->
    dag_inv (dag_step layer rng st vid) /\ snd (dag_step layer rng st vid) = S (snd st) /\
    (length (edges (fst st)) <= length (edges (fst (dag_step layer rng st vid))) <= S (length (edges (fst st))))%nat.
  Proof.
    intros Hv I. destruct st as [g k]. destruct I as [Ib Ie Idr Iv Ih Is]. cbn [fst snd] in *.
    unfold dag_step. set (this := N.of_nat vid). set (other := rng k). cbn zeta.
    assert (Hl : lower this) by (unfold lower, this; lia).
    assert (W : wf g) by now apply built_wf.
    destruct (layer <? N.max this other - N.min this other) eqn:El; cbn [fst snd].
    - apply N.ltb_lt in El. set (e := (N.min this other, N.max this other)).
      assert (Hlt : N.min this other + layer < N.max this other) by lia.
      assert (Hend : lower (fst e) \/ lower (snd e)).
      { unfold e. cbn [fst snd]. destruct (N.min_spec this other) as [[? ->]|[? ->]]; [now left|].
        right. rewrite N.max_l by assumption. exact Hl. }
      assert (Hother : other = fst e \/ other = snd e) by (unfold e; cbn [fst snd]; lia).
      destruct (contains_edge g e) eqn:Ec.
      + rewrite add_edge_present by assumption. split; [|split; [reflexivity|lia]].
        split; cbn [fst snd]; try assumption.
        * intros a b H. destruct (Idr a b H) as (j & Hj & Hr). exists j. split; [lia|assumption].
        * intros j Hj Hr. destruct (Nat.eq_dec j k) as [->|Hne]; [|apply Ih; [lia|assumption]].
          exists (N.min this other). fold other in Hr.
          assert (this < other) by (unfold lower in Hl; lia).
          replace (rng k) with (N.max this other) by (fold other; lia).
          now apply (contains_edge_hasE _ _ W).
      + split; [|split; [reflexivity|rewrite edges_length_add by assumption; lia]].
        split; cbn [fst snd].
        * destruct Ib as [cs Hb]. exists (cs ++ [AddEdge (fst e) (snd e)]). exact (built_cmd (AddEdge (fst e) (snd e)) Hb).
        * intros a b. unfold e. rewrite (hasE_add_edge _ _ a b W). intros [H|[-> ->]]; [now apply Ie|].
          split; [exact Hlt|exact Hend].
        * intros a b. unfold e. rewrite (hasE_add_edge _ _ a b W). intros [H|[-> ->]].
          -- destruct (Idr a b H) as (j & Hj & Hr). exists j. split; [lia|assumption].
          -- exists k. split; [lia|]. exact Hother.
        * destruct Iv as (xs & Hx & Hxs). exists (other :: xs). rewrite edges_length_add by assumption.
          split; [cbn; now rewrite Hx|]. intro v. unfold e. rewrite (hasV_add_edge _ _ v W).
          intros [H|Hab].
          -- destruct (Hxs v H) as [Hl'|Hi]; [now left|right; now right].
          -- assert (Hv2 : v = this \/ v = other) by lia. destruct Hv2 as [->| ->]; [now left|right; now left].
        * intros j Hj Hr. destruct (Nat.eq_dec j k) as [->|Hne].
          -- exists (N.min this other). fold other in Hr |- *. unfold e. rewrite (hasE_add_edge _ _ _ _ W). right.
             split; [reflexivity|]. unfold lower in Hl. lia.
          -- destruct (Ih j) as [a Ha]; [lia|assumption|]. exists a. unfold e. rewrite (hasE_add_edge _ _ _ _ W). now left.
        * intro v. unfold e. rewrite (hasV_add_edge _ _ v W). intros [H|Hab]; [now apply Is|].
          assert (Hv2 : v = this \/ v = other) by lia. destruct Hv2 as [->| ->]; [now left|right; now exists k].
    - split; [|split; [reflexivity|lia]]. split; cbn [fst snd]; try assumption.
      + intros a b H. destruct (Idr a b H) as (j & Hj & Hr). exists j. split; [lia|assumption].
      + intros j Hj Hr. destruct (Nat.eq_dec j k) as [->|Hne]; [|apply Ih; [lia|assumption]].
        exfalso. apply N.ltb_ge in El. fold other in Hr. unfold lower in Hl. lia.
  Qed.

  Lemma dag_fold_inv vs : Forall (fun v => 1 <= v < vc)%nat vs -> forall st, dag_inv st ->
    dag_inv (fold_left (dag_step layer rng) vs st) /\
    snd (fold_left (dag_step layer rng) vs st) = (snd st + length vs)%nat /\
    (length (edges (fst st)) <= length (edges (fst (fold_left (dag_step layer rng) vs st))) <= length (edges (fst st)) + length vs)%nat.
  Proof.
    induction 1 as [|v vs Hv H IH]; intros st I; cbn [fold_left length].
    - split; [assumption|lia].
    - destruct (dag_step_inv st v Hv I) as (I1 & E1 & L1). destruct (IH _ I1) as (I2 & E2 & L2).
      split; [assumption|]. split; [lia|]. lia.
  Qed.
  Lemma dag_round_inv st : dag_inv st ->
    dag_inv (dag_round vc layer rng st) /\ snd (dag_round vc layer rng st) = (snd st + (vc - 1))%nat /\
    (length (edges (fst st)) <= length (edges (fst (dag_round vc layer rng st))) <= length (edges (fst st)) + (vc - 1))%nat.
  Proof.
    intro I. unfold dag_round. pose proof (dag_fold_inv (seq 1 (vc - 1))) as H. rewrite seq_length in H. apply H; [|assumption].
    rewrite Forall_forall. intros v Hv. apply in_seq in Hv. lia.
  Qed.

  Lemma dag_edge_count st : dag_inv st -> edge_count (fst st) = length (edges (fst st)).
  Proof.
    intro I. pose proof (di_built _ I) as B. apply built_wf in B as W. rewrite edge_count_law by assumption.
    assert (Hn : forall e, In e (edges (fst st)) -> is_loop e = false).
    { intros [a b] Hin. unfold is_loop. cbn. destruct (N.eqb_spec a b); [|reflexivity]. subst.
      apply (edges_In _ _ W) in Hin. apply (di_edge _ I) in Hin. lia. }
    rewrite (filter_none _ _ Hn), filter_all; [cbn; lia|]. intros x Hx. now rewrite (Hn x).
  Qed.

  (** ** The loop *)
  Fixpoint rounds (n : nat) (st : graph * nat) : graph * nat :=
    match n with O => st | S n => rounds n (dag_round vc layer rng st) end.
  Lemma rounds_inv n : forall st, dag_inv st -> dag_inv (rounds n st) /\ snd (rounds n st) = (snd st + n * (vc - 1))%nat /\
    (length (edges (fst st)) <= length (edges (fst (rounds n st))))%nat.
  Proof.
    induction n as [|n IH]; intros st I; cbn [rounds]; [split; [assumption|lia]|].
    destruct (dag_round_inv st I) as (I1 & E1 & L1). destruct (IH _ I1) as (I2 & E2 & L2).
    split; [assumption|]. split; [rewrite E2, E1; lia|lia].
  Qed.
  (** The loop stops after the first round with enough edges. *)
  Lemma dag_loop_done ec fuel : forall st g, dag_inv st -> dag_loop fuel vc ec layer rng st = Done g ->
    exists st', dag_inv st' /\ g = fst st' /\ (ec <= length (edges g))%nat /\
      (length (edges (fst st)) < ec -> length (edges g) < ec + (vc - 1))%nat /\
      (ec <= length (edges (fst st)) -> g = fst st)%nat.
  Proof.
    induction fuel as [|f IH]; intros st g I H; cbn [dag_loop] in H; rewrite (dag_edge_count st I) in H;
      destruct (Nat.ltb_spec (length (edges (fst st))) ec) as [Hlt|Hge]; try discriminate.
    - injection H as <-. exists st. split; [exact I|]. split; [reflexivity|]. split; [lia|]. split; [lia|reflexivity].
    - destruct (dag_round_inv st I) as (I1 & E1 & L1).
      destruct (IH _ _ I1 H) as (st' & I' & Eg & Hec & Ha & Hb). exists st'. split; [exact I'|]. split; [exact Eg|]. split; [exact Hec|].
      split; [|lia]. intros _. destruct (Nat.lt_ge_cases (length (edges (fst (dag_round vc layer rng st)))) ec) as [Hl|Hg]; [now apply Ha|].
      rewrite (Hb Hg). lia.
    - injection H as <-. exists st. split; [exact I|]. split; [reflexivity|]. split; [lia|]. split; [lia|reflexivity].
  Qed.
  Lemma dag_loop_reaches ec n : forall st, dag_inv st -> (ec <= length (edges (fst (rounds n st))))%nat ->
    exists g, forall fuel, (n <= fuel)%nat -> dag_loop fuel vc ec layer rng st = Done g.
  Proof.
    induction n as [|n IH]; intros st I H; cbn [rounds] in H.
    - exists (fst st). intros fuel _. destruct fuel; cbn [dag_loop]; rewrite (dag_edge_count st I);
        destruct (Nat.ltb_spec (length (edges (fst st))) ec); (lia || reflexivity).
    - destruct (Nat.ltb_spec (length (edges (fst st))) ec) as [Hlt|Hge].
      + destruct (dag_round_inv st I) as (I1 & _). destruct (IH _ I1 H) as [g Hg]. exists g. intros [|fuel] Hf; [lia|].
        cbn [dag_loop]. rewrite (dag_edge_count st I). destruct (Nat.ltb_spec (length (edges (fst st))) ec); [|lia].
        apply Hg. lia.
      + exists (fst st). intros fuel _. destruct fuel; cbn [dag_loop]; rewrite (dag_edge_count st I);
          destruct (Nat.ltb_spec (length (edges (fst st))) ec); (lia || reflexivity).
  Qed.
  Lemma dag_loop_never ec : forall fuel st, dag_inv st -> (forall n, (n <= fuel)%nat -> (length (edges (fst (rounds n st))) < ec)%nat) ->
    dag_loop fuel vc ec layer rng st = OutOfFuel.
  Proof.
    induction fuel as [|f IH]; intros st I H; cbn [dag_loop]; rewrite (dag_edge_count st I);
      (destruct (Nat.ltb_spec (length (edges (fst st))) ec) as [Hlt|Hge];
       [|specialize (H O (Nat.le_0_l _)); cbn [rounds] in H; lia]); [reflexivity|].
    destruct (dag_round_inv st I) as (I1 & _). apply IH; [assumption|]. intros n Hn. apply (H (S n)). lia.
  Qed.
  (** Large distinct draws give distinct edges. *)
  Lemma hits_edges L : NoDup L -> forall st, dag_inv st ->
    (forall x, In x L -> N.of_nat vc + layer < x /\ exists k, (k < snd st)%nat /\ rng k = x) ->
    (length L <= length (edges (fst st)))%nat.
  Proof.
    intros ND st I H. pose proof (di_built _ I) as B. apply built_wf in B as W.
    assert (Hle : (length L <= length (map snd (edges (fst st))))%nat); [|now rewrite map_length in Hle].
    apply NoDup_incl_length; [assumption|].
    intros x Hx. destruct (H x Hx) as (Hbig & k & Hk & <-). destruct (di_hit _ I k Hk Hbig) as [a Ha].
    apply in_map_iff. exists (a, rng k). split; [reflexivity|]. now apply (edges_In _ _ W).
  Qed.
End Gen.

(** ** gc-desc *)
Lemma iter_min_spec l : match iter_min l with
  | None => l = []
  | Some m => In m l /\ forall x, In x l -> m <= x
  end.
Proof.
  destruct l as [|a l]; [reflexivity|]. cbn [iter_min]. revert a. induction l as [|b l IH]; intro a; cbn [fold_left].
  - split; [now left|]. intros x [->|[]]. lia.
  - destruct (IH (N.min a b)) as [H1 H2]. split.
    + destruct H1 as [H1|H1]; [|now right; right]. rewrite <- H1. destruct (N.min_spec a b) as [[_ ->]|[_ ->]]; [now left|right; now left].
    + intros x [->|[->|Hx]].
      * specialize (H2 (N.min x b) (or_introl eq_refl)). lia.
      * specialize (H2 (N.min a x) (or_introl eq_refl)). lia.
      * apply H2. now right.
Qed.
Lemma iter_max_spec l : match iter_max l with
  | None => l = []
  | Some m => In m l /\ forall x, In x l -> x <= m
  end.
Proof.
  destruct l as [|a l]; [reflexivity|]. cbn [iter_max]. revert a. induction l as [|b l IH]; intro a; cbn [fold_left].
  - split; [now left|]. intros x [->|[]]. lia.
  - destruct (IH (N.max a b)) as [H1 H2]. split.
    + destruct H1 as [H1|H1]; [|now right; right]. rewrite <- H1. destruct (N.max_spec a b) as [[_ ->]|[_ ->]]; [right; now left|now left].
    + intros x [->|[->|Hx]].
      * specialize (H2 (N.max x b) (or_introl eq_refl)). lia.
      * specialize (H2 (N.max a x) (or_introl eq_refl)). lia.
      * apply H2. now right.
Qed.
