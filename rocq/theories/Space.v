(** * How much a search keeps *)
From Coq Require Import List NArith ZArith Bool Permutation Lia Arith.
From Verif Require Import Spec Base WalkFacts Graph GraphSpec GraphFacts Path PathFacts Queue ConstraintSpec Iter IterFacts TreeFacts
  SearchFacts BestFacts Cycle CycleSpec CycleFacts Work.
Import ListNotations.
Local Open Scope nat_scope.

(** The states an iterator goes through. Iterator::next, e.g. iter_best.rs l.27. *)
Inductive moment {A S} (next : S -> step A S) (s0 : S) : S -> Prop :=
| mo_start : moment next s0 s0
| mo_next s a s' : moment next s0 s -> next s = Yield a s' -> moment next s0 s'.

(** iter_cycle.rs l.88-108: one turn of the loop of [next]. [None]: the stack is empty. *)
Definition cycle_turn (g : graph) (st : cycle_state) : outcome (option (option cycle * cycle_state)) :=
  let (stack, returned) := st in
  match q_pop (Stack path) stack with
  | None => Done None
  | Some (p, stack') =>
    match extract_canonical_cycle_from_last p with
    | None => Panic
    | Some (Some c) =>
      if negb (memC c returned) then Done (Some (Some c, (stack', c :: returned))) else Done (Some (None, (stack', returned)))
    | Some None =>
      match path_last p with
      | None => Panic
      | Some v => Done (Some (None, (push_all (Stack path) (map (fun e => path_append p (snd e)) (outbound_edges g v)) stack', returned)))
      end
    end
  end.
(** The states of a cycle iterator, also within its loop, and the cycles it has returned so far. iter_cycle.rs l.87-109. *)
Inductive cycle_moment (g : graph) : list cycle -> cycle_state -> Prop :=
| cm_start : cycle_moment g [] (cycle_iter g)
| cm_on out st st' : cycle_moment g out st -> cycle_turn g st = Done (Some (None, st')) -> cycle_moment g out st'
| cm_found out st c st' : cycle_moment g out st -> cycle_turn g st = Done (Some (Some c, st')) -> cycle_moment g (out ++ [c]) st'.

(** ** A stack of partial answers *)
Section Low.
  Variables (A : Type) (depth : A -> nat) (D B : nat).
  Definition low (q : list A) : Prop := forall l p r, q = l ++ p :: r -> length l <= B + D * depth p.
  Lemma low_step q a xs : low (q ++ [a]) -> (forall b, In b xs -> depth b = S (depth a)) -> length xs <= D -> low (q ++ xs).
  Proof.
    intros H Hd Hx l p r E. apply app_eq_app in E. destruct E as (m & [(E1 & E2)|(E1 & E2)]).
    - destruct m as [|p' m].
      + rewrite app_nil_r in E1. cbn [app] in E2. subst q. specialize (H l a [] eq_refl).
        assert (P : In p xs) by (rewrite <- E2; now left). apply Hd in P. rewrite P. lia.
      + cbn [app] in E2. injection E2 as -> ->. apply (H l p' (m ++ [a])). rewrite E1. now rewrite <- app_assoc.
    - specialize (H q a [] eq_refl). assert (P : In p xs) by (rewrite E2; apply in_app_iff; right; now left).
      apply Hd in P. rewrite P, E1, app_length. apply (f_equal (@length A)) in E2. rewrite app_length in E2. lia.
  Qed.
  Lemma low_less q r : low (q ++ r) -> low q.
  Proof. intros H l p m ->. apply (H l p (m ++ r)). now rewrite <- app_assoc. Qed.
  Lemma low_length q h : low q -> (forall p, In p q -> depth p <= h) -> length q <= 1 + B + D * h.
  Proof.
    intros H Hh. destruct q as [|a q] using rev_ind; [cbn; lia|]. specialize (H q a [] eq_refl).
    assert (P : depth a <= h) by (apply Hh, in_app_iff; right; now left). rewrite app_length. cbn [length].
    assert (D * depth a <= D * h) by (now apply Nat.mul_le_mono_l). lia.
  Qed.
End Low.

(** ** Depth-first paths *)
Section Paths.
  Variables (g : graph) (s : N).
  Hypothesis W : wf g.
  Lemma out_few v : length (outbound_edges g v) <= length (vertices g).
  Proof.
    apply Nat.le_trans with (length (map (@snd N N) (outbound_edges g v))); [now rewrite map_length|]. apply NoDup_incl_length.
    - apply NoDup_map_in; [|now apply outbound_NoDup]. intros [a b] [c d] H1 H2 E. cbn in E.
      apply outbound_In in H1, H2. destruct H1 as [-> _], H2 as [-> _]. congruence.
    - intros x Hx. apply in_map_iff in Hx. destruct Hx as ([a b] & <- & Hx). cbn [snd].
      apply outbound_In in Hx as Hy. destruct Hy as [-> _]. apply gE_outbound in Hx; [|assumption]. now apply (gE_vertices g W) in Hx.
  Qed.
  Lemma kids_few p l : path_kids g p = Some l -> length l <= length (vertices g).
  Proof.
    unfold path_kids. destruct (path_last p) as [v|]; [|discriminate]. intros [= <-]. rewrite map_length.
    eapply Nat.le_trans; [|apply (out_few v)].
    induction (outbound_edges g v) as [|e es IH]; cbn [filter length]; [lia|]. destruct (negb _); cbn [length]; lia.
  Qed.
  Lemma good_start : simple_from (gE g) s [s].
  Proof. split; [split; [now exists []|apply chain_one]|]. constructor; [intros []|constructor]. Qed.
  Lemma kids_all_good p l : simple_from (gE g) s p -> path_kids g p = Some l ->
    forall b, In b l -> simple_from (gE g) s b /\ length b = S (length p).
  Proof.
    intros G E b I. assert (I' : In b (kidsl path (path_kids g) p)) by (unfold kidsl; now rewrite E).
    split; [now apply (path_kids_good g W s p b)|].
    apply (path_kids_spec g W) in I'; [|now apply (simple_ne g s)|apply G].
    destruct I' as (u & v & _ & -> & _). rewrite app_length. cbn. lia.
  Qed.
  Lemma dfs_low q : moment (dfs_path_next g) (dfs_iter_path_from s) q ->
    low path (fun p => length p - 1) (length (vertices g)) 0 q /\ Forall (simple_from (gE g) s) q.
  Proof.
    intro M. induction M as [|q a q' M (IH1 & IH2) E].
    - split; [|constructor; [apply good_start|constructor]]. intros l p r Eq. apply (f_equal (@length path)) in Eq. rewrite app_length in Eq. cbn in Eq. unfold path in *. assert (length l = 0) as -> by lia. apply Nat.le_0_l.
    - unfold dfs_path_next, tree_next in E. cbn [q_pop Stack] in E. destruct (pop_back q) as [[b q1]|] eqn:P; [|discriminate].
      apply pop_back_some in P. subst q. apply Forall_app in IH2 as (F1 & F2). inversion F2 as [|b' l' G _]; subst.
      destruct (path_kids g b) as [l|] eqn:K; [|discriminate]. injection E as <- <-.
      change (push_all (Stack path) l q1) with (push_all (Stack path) l q1). rewrite push_all_stack.
      pose proof (kids_all_good b l G K) as KG. split.
      + apply low_step with b; [assumption| |now apply kids_few in K].
        intros c I. destruct (KG c I) as (_ & ->). pose proof (simple_ne g s b G). destruct b; [now destruct H|cbn; lia].
      + apply Forall_app. split; [assumption|]. apply Forall_forall. intros c I. now apply KG.
  Qed.
  Lemma dfs_space q : moment (dfs_path_next g) (dfs_iter_path_from s) q ->
    length q <= 1 + length (vertices g) * length (vertices g) /\ Forall (fun p => length p <= length (vertices g) + 1) q.
  Proof.
    intro M. destruct (dfs_low q M) as (L & F). rewrite Forall_forall in F. split.
    - apply (low_length _ _ _ 0 q (length (vertices g)) L). intros p I. apply F in I. apply (simple_length g W s) in I. lia.
    - apply Forall_forall. intros p I. apply F in I. now apply (simple_length g W s) in I.
  Qed.

  (** ** Breadth-first paths: whole levels *)
  Fixpoint level (d : nat) : list path :=
    match d with O => [[s]] | S d => flat_map (kidsl path (path_kids g)) (level d) end.
  Lemma bfs_flush L : forall M, Forall (simple_from (gE g) s) L ->
    moment (bfs_path_next g) (bfs_path_iter_from s) (L ++ M) ->
    moment (bfs_path_next g) (bfs_path_iter_from s) (M ++ flat_map (kidsl path (path_kids g)) L).
  Proof.
    induction L as [|p L IH]; intros M F H; [cbn [flat_map]; now rewrite app_nil_r|].
    inversion F as [|p' l' G F']; subst. cbn [flat_map]. rewrite app_assoc. apply IH; [assumption|].
    rewrite app_assoc. cbn [app] in H.
    apply mo_next with (s := p :: L ++ M) (a := p); [exact H|].
    unfold bfs_path_next, tree_next. cbn [q_pop Queue pop_front]. unfold kidsl.
    destruct (path_kids g p) as [l|] eqn:K; [|now apply (path_kids_total g s p G) in K].
    f_equal. exact (push_all_list path l (L ++ M)).
  Qed.
  Lemma level_good d : Forall (simple_from (gE g) s) (level d).
  Proof.
    induction d as [|d IH]; cbn [level]; [constructor; [apply good_start|constructor]|].
    apply Forall_forall. intros p I. apply in_flat_map in I. destruct I as (q & Iq & Ip). rewrite Forall_forall in IH.
    unfold kidsl in Ip. destruct (path_kids g q) as [l|] eqn:K; [|destruct Ip]. exact (proj1 (kids_all_good q l (IH q Iq) K p Ip)).
  Qed.
  Lemma level_moment d : moment (bfs_path_next g) (bfs_path_iter_from s) (level d).
  Proof.
    induction d as [|d IH]; [constructor|]. cbn [level]. apply (bfs_flush (level d) []); [apply level_good|]. now rewrite app_nil_r.
  Qed.
  Lemma level_In d : forall p, simple_from (gE g) s p -> length p = S d -> In p (level d).
  Proof.
    induction d as [|d IH]; intros p G L.
    - destruct p as [|x [|y p]]; try discriminate. destruct G as [[[t E] _] _]. injection E as -> _. now left.
    - destruct p as [|v p _] using rev_ind; [discriminate|]. rewrite app_length in L. cbn in L.
      destruct G as [G1 G2]. apply walk_from_snoc in G1. destruct G1 as [(E & _)|(u & Hw & He)]; [subst p; cbn in L; lia|].
      apply NoDup_snoc in G2 as [G2 G3].
      assert (Hp : simple_from (gE g) s p) by (split; [now apply walk_from_to_from in Hw|assumption]).
      cbn [level]. apply in_flat_map. exists p. split; [apply IH; [assumption|lia]|].
      apply (path_kids_spec g W); [now apply (simple_ne g s)|assumption|]. exists u, v. destruct Hw as (_ & Hu & _). auto.
  Qed.
End Paths.
Lemma climbs_size i : forall p, In p (climbs i) -> length p = 2 * i + 1.
Proof.
  induction i as [|i IH]; cbn [climbs]; intros p I; [destruct I as [<-|[]]; reflexivity|].
  apply in_app_iff in I. destruct I as [I|I]; apply in_map_iff in I; destruct I as (q & <- & I); apply IH in I; rewrite app_length; cbn [length]; lia.
Qed.
Lemma ladder_space k : exists q, moment (bfs_path_next (ladder_graph k)) (bfs_path_iter_from 0%N) q /\ 2 ^ k <= length q.
Proof.
  assert (W : wf (ladder_graph k)) by (apply built_wf; exists (ladder k); apply ladder_built).
  exists (level (ladder_graph k) 0%N (2 * k)). split; [now apply level_moment|].
  rewrite <- climbs_length. apply NoDup_incl_length; [apply climbs_NoDup|]. intros p I.
  apply level_In; [assumption| |rewrite (climbs_size k p I); lia].
  destruct (climbs_walk k k (le_n _) p I) as (H1 & H2 & _). split; [now apply walk_from_to_from in H1|assumption].
Qed.

(** ** Cycles *)
Section Cycles.
  Variable g : graph.
  Hypothesis W : wf g.
  Lemma cycle_next_turn n st : cycle_next g (S n) st =
    match cycle_turn g st with
    | Done None => Done None
    | Done (Some (Some c, st')) => Done (Some (c, st'))
    | Done (Some (None, st')) => cycle_next g n st'
    | Panic => Panic
    | OutOfFuel => OutOfFuel
    end.
  Proof.
    destruct st as [stack returned]. cbn [cycle_next cycle_turn]. destruct (q_pop (Stack path) stack) as [[p stack']|]; [|reflexivity].
    destruct (extract_canonical_cycle_from_last p) as [[c|]|]; [destruct (negb _); reflexivity| |reflexivity].
    destruct (path_last p); reflexivity.
  Qed.
  Lemma cycle_low out st : cycle_moment g out st ->
    low path (fun p => length p - 1) (length (vertices g)) (length (find_starting_edges g)) (fst st) /\ Forall (good g) (fst st) /\ length (snd st) = length out.
  Proof.
    intro M. assert (STEP : forall stack returned x st', low path (fun p => length p - 1) (length (vertices g)) (length (find_starting_edges g)) stack ->
      Forall (good g) stack -> cycle_turn g (stack, returned) = Done (Some (x, st')) ->
      low path (fun p => length p - 1) (length (vertices g)) (length (find_starting_edges g)) (fst st') /\ Forall (good g) (fst st') /\
      length (snd st') = match x with Some _ => S (length returned) | None => length returned end).
    { clear out st M. intros stack returned x st' L F T. cbn [cycle_turn q_pop Stack] in T. destruct (pop_back stack) as [[p q]|] eqn:P; [|discriminate].
      apply pop_back_some in P. subst stack. apply Forall_app in F as (F1 & F2). inversion F2 as [|p' l' G _]; subst.
      pose proof (low_less _ _ _ _ _ _ L) as L1.
      pose proof (kids_good g W p) as KG. unfold kidsl, cycle_kids in KG.
      destruct (extract_canonical_cycle_from_last p) as [[c|]|]; [destruct (negb _); injection T as <- <-; cbn [fst snd length]; auto| |discriminate].
      destruct (path_last p) as [v|]; [|discriminate]. injection T as <- <-. cbn [fst snd]. rewrite push_all_stack. split; [|split; [|reflexivity]].
      - apply low_step with p; [assumption| |rewrite map_length; apply (out_few g W)]. intros b I. apply in_map_iff in I.
        destruct I as (e & <- & _). unfold path_append. rewrite app_length. destruct G as (NE & _). destruct p; [now destruct NE|cbn; lia].
      - apply Forall_app. split; [assumption|]. apply Forall_forall. intros b I. now apply (KG b G). }
    induction M as [|out st st' M (I1 & I2 & I3) T|out st c st' M (I1 & I2 & I3) T].
    - unfold cycle_iter. cbn [fst snd]. rewrite push_all_stack. cbn [app]. split; [|split; [|reflexivity]].
      + intros l p r E. apply (f_equal (@length path)) in E. rewrite map_length, app_length in E. cbn [length] in E. apply Nat.le_trans with (length (find_starting_edges g)); [|apply Nat.le_add_r]. unfold path in *. lia.
      + apply Forall_forall. intros p I. apply in_map_iff in I. destruct I as (v & <- & I). apply (proj1 (starts_spec g W)) in I.
        apply (good_snoc g []). split; [constructor|]. split; [apply chain_one|]. intros x [<-|[]]. assumption.
    - destruct st as [stack returned]. destruct (STEP _ _ _ _ I1 I2 T) as (A & B & C). split; [assumption|]. split; [assumption|]. cbn [snd] in I3. now rewrite C.
    - destruct st as [stack returned]. destruct (STEP _ _ _ _ I1 I2 T) as (A & B & C). split; [assumption|]. split; [assumption|].
      cbn [snd] in I3. rewrite C, app_length. cbn. lia.
  Qed.
  Lemma cycle_space out st : cycle_moment g out st ->
    length (fst st) <= 1 + length (vertices g) + length (vertices g) * length (vertices g) /\
    Forall (fun p => length p <= length (vertices g) + 1) (fst st) /\ length (snd st) = length out.
  Proof.
    intro M. destruct (cycle_low out st M) as (L & F & R).
    assert (S0 : length (find_starting_edges g) <= length (vertices g)).
    { destruct (starts_spec g W) as (H1 & H2 & _). apply NoDup_incl_length; [assumption|]. exact H1. }
    assert (H : forall p, In p (fst st) -> length p <= length (vertices g) + 1).
    { intros p I. rewrite Forall_forall in F. apply F in I. destruct (good_inv g p I) as (r & v & ->). apply (good_snoc g) in I.
      destruct I as (N & _ & Inc). rewrite app_length. cbn.
      assert (length r <= length (vertices g)); [|lia]. apply NoDup_incl_length; [assumption|]. intros x X. apply Inc, in_app_iff. now left. }
    split; [|split; [now apply Forall_forall|assumption]].
    pose proof (low_length _ _ _ _ (fst st) (length (vertices g)) L) as X. rewrite <- Nat.add_assoc in X.
    assert (Y : forall p, In p (fst st) -> length p - 1 <= length (vertices g)) by (intros p I; apply H in I; lia).
    apply X in Y. lia.
  Qed.
End Cycles.
