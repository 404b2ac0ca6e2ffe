(** * SPFA ends: every improvement lowers a 64-bit score *)
From Coq Require Import List NArith ZArith Bool Lia Arith.
From Verif Require Import Spec Base Graph GraphSpec GraphFacts Path Topo TopoFacts ShortFacts Release ReleaseFacts.
Import ListNotations.
Open Scope Z_scope.

Definition ranged (m : scores) : Prop := forall x sp, sc_get x m = Some sp -> i64_min <= sp_score sp <= i64_max.
(** How far the scores of the listed vertices are from the lowest value. *)
Fixpoint room (m : scores) (ks : list N) : Z :=
  match ks with
  | [] => 0
  | x :: ks => (current_score_of_vertex m x - i64_min) + room m ks
  end.

Lemma cur_range m x : ranged m -> i64_min <= current_score_of_vertex m x <= i64_max.
Proof.
  intro H. unfold current_score_of_vertex. destruct (sc_get x m) as [sp|] eqn:E; [now apply (H x)|].
  unfold i64_min, i64_max. lia.
Qed.
Lemma room_nonneg m ks : ranged m -> 0 <= room m ks.
Proof. intro H. induction ks as [|x ks IH]; cbn [room]; [lia|]. pose proof (cur_range m x H). lia. Qed.
Lemma cur_put m x sp y : current_score_of_vertex (sc_put x sp m) y = if N.eqb y x then sp_score sp else current_score_of_vertex m y.
Proof. unfold current_score_of_vertex. rewrite sc_get_put. now destruct (N.eqb y x). Qed.
Lemma room_put m x sp ks : NoDup ks -> sp_score sp <= current_score_of_vertex m x ->
  room (sc_put x sp m) ks = room m ks - (if in_dec N.eq_dec x ks then current_score_of_vertex m x - sp_score sp else 0).
Proof.
  intros Hn Hle. induction Hn as [|y ks Hy Hn IH]; cbn [room]; [reflexivity|]. rewrite cur_put, IH.
  destruct (N.eqb_spec y x) as [->|Hyx].
  - destruct (in_dec N.eq_dec x ks); [contradiction|]. destruct (in_dec N.eq_dec x (x :: ks)) as [|Hx]; [lia|]. exfalso. apply Hx. now left.
  - destruct (in_dec N.eq_dec x ks) as [Hi|Hi], (in_dec N.eq_dec x (y :: ks)) as [Hj|Hj]; try lia.
    + exfalso. apply Hj. now right.
    + destruct Hj as [Hj|Hj]; [congruence|contradiction].
Qed.
Lemma ranged_put m x sp : ranged m -> i64_min <= sp_score sp <= i64_max -> ranged (sc_put x sp m).
Proof. intros H Hs y sp' Hy. rewrite sc_get_put in Hy. destruct (N.eqb y x); [now injection Hy as <-|now apply (H y)]. Qed.
Lemma room_lower m x sp ks : NoDup ks -> In x ks -> sp_score sp < current_score_of_vertex m x ->
  room (sc_put x sp m) ks <= room m ks - 1.
Proof. intros Hn Hi Hlt. rewrite room_put by (assumption || lia). destruct (in_dec N.eq_dec x ks); [lia|contradiction]. Qed.

(** The measure of a state. *)
Definition todo (ks : list N) (x : scores * list N) : Z := 2 * room (fst x) ks + Z.of_nat (length (snd x)).
Definition targets (g : graph) : list N := nodup N.eq_dec (map snd (edges g)).
Lemma targets_edge g v e : wf g -> In e (outbound_edges g v) -> In (snd e) (targets g).
Proof.
  intros W He. unfold targets. rewrite nodup_In. apply in_map. destruct e as [a b]. apply outbound_In in He as [-> He].
  now apply edges_In.
Qed.

(** ** With overflow checks *)
Lemma todo_edges w ks es : NoDup ks -> (forall e, In e es -> In (snd e) ks) -> forall x x', ranged (fst x) ->
  ofold (spfa_edge w) es x = Done x' -> ranged (fst x') /\ todo ks x' <= todo ks x.
Proof.
  intros Hn. induction es as [|e es IH]; intros Hes [m q] x' Hr H; cbn [ofold] in H; [injection H as <-; split; [assumption|lia]|].
  apply obind_done in H as (x1 & H1 & H2). unfold spfa_edge in H1. apply obind_done in H1 as ([m1 b] & H1 & H3). cbn [fst snd] in *.
  assert (Hs : ranged (fst x1) /\ todo ks x1 <= todo ks (m, q)).
  { unfold relax in H1. destruct (sc_get (fst e) m) as [sp|]; [|injection H1 as <- <-; injection H3 as <-; split; [assumption|lia]].
    apply obind_done in H1 as (z & Hz & H1). apply i64_inv in Hz as [-> Hz].
    destruct (Z.ltb_spec (sp_score sp + w e) (current_score_of_vertex m (snd e))) as [Hlt|]; injection H1 as <- <-; injection H3 as <-; [|split; [assumption|lia]].
    split; [apply ranged_put; [assumption|exact Hz]|]. unfold todo. cbn [fst snd]. rewrite app_length. cbn [length].
    pose proof (room_lower m (snd e) (scored_path_of (path_append (sp_path sp) (snd e)) (sp_score sp + w e)) ks Hn (Hes e (or_introl eq_refl)) Hlt). lia. }
  destruct Hs as [Hs1 Hs2]. destruct (IH (fun y Hy => Hes y (or_intror Hy)) x1 x' Hs1 H2) as [H4 H5]. split; [assumption|lia].
Qed.
Lemma spfa_edges_not_fuel w es : forall x, ofold (spfa_edge w) es x <> OutOfFuel.
Proof.
  induction es as [|e es IH]; intros x; cbn [ofold]; [discriminate|]. unfold spfa_edge at 1, relax.
  destruct (sc_get (fst e) (fst x)) as [sp|]; cbn [obind snd]; [|apply IH].
  unfold i64. destruct (i64_ok _); cbn [obind]; [|discriminate]. destruct (_ <? _); cbn [obind snd]; apply IH.
Qed.
Lemma spfa_loop_ends g w : wf g -> forall k x, ranged (fst x) -> todo (targets g) x < Z.of_nat k -> spfa_loop g w k x <> OutOfFuel.
Proof.
  intro W. induction k as [|k IH]; intros [m q] Hr Hk.
  - exfalso. unfold todo in Hk. pose proof (room_nonneg (fst (m, q)) (targets g) Hr). lia.
  - cbn [spfa_loop fst snd]. destruct q as [|v q]; [discriminate|].
    destruct (ofold (spfa_edge w) (outbound_edges g v) (m, q)) as [x'| |] eqn:E; cbn [obind]; [|discriminate|].
    + destruct (todo_edges w (targets g) (outbound_edges g v) (NoDup_nodup _ _) (fun e => targets_edge g v e W) (m, q) x' Hr E) as [H1 H2].
      apply IH; [assumption|]. unfold todo in *. cbn [fst snd length] in *. lia.
    + exfalso. exact (spfa_edges_not_fuel _ _ _ E).
Qed.
Lemma spfa_loop_stable g w : forall k n x, (k <= n)%nat -> spfa_loop g w k x <> OutOfFuel -> spfa_loop g w n x = spfa_loop g w k x.
Proof.
  induction k as [|k IH]; intros n x Hn H; [cbn in H; congruence|]. destruct n as [|n]; [lia|]. cbn [spfa_loop] in *.
  destruct (snd x) as [|v q]; [reflexivity|]. destruct (ofold _ _ _) as [x'| |]; cbn [obind] in *; [|reflexivity|reflexivity].
  apply IH; [lia|assumption].
Qed.
Lemma ranged_init s : ranged (sc_put s (scored_path_of_one s 0) []).
Proof. apply ranged_put; [intros x sp H; discriminate|]. cbn. unfold i64_min, i64_max. lia. Qed.
Lemma spfa_ends g w s : wf g -> (exists m, settles (spfa g w s) m) \/ panics (spfa g w s).
Proof.
  intro W. set (x := (sc_put s (scored_path_of_one s 0) [], [s])). set (k := Z.to_nat (todo (targets g) x + 1)).
  assert (H0 : spfa_loop g w k x <> OutOfFuel).
  { apply spfa_loop_ends; [assumption|apply ranged_init|]. subst k.
    pose proof (room_nonneg (fst x) (targets g) (ranged_init s)). unfold todo. lia. }
  assert (Hs : forall n, (k <= n)%nat -> spfa g w s n = spfa_loop g w k x) by (intros n Hn; now apply spfa_loop_stable).
  destruct (spfa_loop g w k x) as [m| |] eqn:E; [left; exists m|right|congruence]; exists k; exact Hs.
Qed.

(** ** Without *)
Lemma r_todo_edges w ks es : NoDup ks -> (forall e, In e es -> In (snd e) ks) -> forall x, ranged (fst x) ->
  ranged (fst (fold_left (r_spfa_edge w) es x)) /\ todo ks (fold_left (r_spfa_edge w) es x) <= todo ks x.
Proof.
  intros Hn. induction es as [|e es IH]; intros Hes [m q] Hr; cbn [fold_left]; [split; [assumption|lia]|].
  assert (Hs : ranged (fst (r_spfa_edge w (m, q) e)) /\ todo ks (r_spfa_edge w (m, q) e) <= todo ks (m, q)).
  { unfold r_spfa_edge, r_relax. cbn [fst snd]. destruct (sc_get (fst e) m) as [sp|]; cbn [fst snd]; [|split; [assumption|lia]].
    cbv zeta. destruct (Z.ltb_spec (wrap (sp_score sp + w e)) (current_score_of_vertex m (snd e))) as [Hlt|]; cbn [fst snd]; [|split; [assumption|lia]].
    split; [apply ranged_put; [assumption|apply wrap_range]|]. unfold todo. cbn [fst snd]. rewrite app_length. cbn [length].
    pose proof (room_lower m (snd e) (scored_path_of (path_append (sp_path sp) (snd e)) (wrap (sp_score sp + w e))) ks Hn (Hes e (or_introl eq_refl)) Hlt). lia. }
  destruct Hs as [Hs1 Hs2]. destruct (IH (fun y Hy => Hes y (or_intror Hy)) _ Hs1) as [H4 H5]. split; [assumption|lia].
Qed.
Lemma r_spfa_loop_ends g w : wf g -> forall k x, ranged (fst x) -> todo (targets g) x < Z.of_nat k ->
  exists m, forall n, (k <= n)%nat -> r_spfa_loop g w n x = Done m.
Proof.
  intro W. induction k as [|k IH]; intros [m q] Hr Hk.
  - exfalso. unfold todo in Hk. pose proof (room_nonneg (fst (m, q)) (targets g) Hr). lia.
  - destruct q as [|v q]; [exists m; intros [|n] Hn; [lia|reflexivity]|].
    destruct (r_todo_edges w (targets g) (outbound_edges g v) (NoDup_nodup _ _) (fun e => targets_edge g v e W) (m, q) Hr) as [H1 H2].
    destruct (IH _ H1) as [m' Hm]; [unfold todo in *; cbn [fst snd length] in *; lia|].
    exists m'. intros [|n] Hn; [lia|]. cbn [r_spfa_loop fst snd]. apply Hm. lia.
Qed.
Lemma r_spfa_ends g w s : wf g -> exists m, settles (r_spfa g w s) m.
Proof.
  intro W. set (x := (sc_put s (scored_path_of_one s 0) [], [s])).
  destruct (r_spfa_loop_ends g w W (Z.to_nat (todo (targets g) x + 1)) x (ranged_init s)) as [m Hm].
  - pose proof (room_nonneg (fst x) (targets g) (ranged_init s)). unfold todo. lia.
  - exists m, (Z.to_nat (todo (targets g) x + 1)). exact Hm.
Qed.
