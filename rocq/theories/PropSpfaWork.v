(** * C129: how many turns SPFA takes *)
From Coq Require Import List NArith ZArith Bool Lia Arith.
From Verif Require Import Spec Base WalkFacts Graph GraphSpec GraphFacts Path SearchFacts Topo TopoFacts ShortSpec ShortFacts PropTopo PropShort BellmanFacts
  PropBellman SpfaWork Cascade.
Import ListNotations.
Local Open Scope Z_scope.

(** ** C129: at most one turn per simple path from the start.
    The fuel of [spfa] is one per vertex taken from the queue, and one to find it empty. *)
Theorem C129_simple_paths : forall g w s B D, built g ->
  0 <= B -> (forall a b, gE g a b -> Z.abs (w (a, b)) <= B) ->
  B * Z.of_nat (vertex_count g + 1) < i64_max ->
  ~ negative_cycle (gE g) (by_ends w) s ->
  (forall p, simple_from (gE g) s p -> In p D) ->
  exists m, spfa g w s (S (length D)) = Done m /\ shortest_answer (gE g) (by_ends w) s (entry m).
Proof.
  intros g w s B D Hb HB0 HB Hmax Hn HD. pose proof (built_wf Hb) as W. rewrite vertex_count_len in Hmax.
  destruct (spfa_turns g w s B W HB0 HB Hmax) with (D := D) as (m & Hm); [|assumption|].
  - intros x l Hx Hl. destruct (Z.ltb_spec (weight (by_ends w) l) 0) as [Hlt|]; [|assumption].
    exfalso. apply Hn. exists x, l. auto.
  - exists m. split; [assumption|]. now apply (spfa_done g w s B W HB0 HB Hmax _ m Hm).
Qed.
Print Assumptions C129_simple_paths.

(** Acyclic graphs with [k * (k + 1) / 2] vertices on which it takes [2 ^ k - 1] turns and more.  (The scores are 64-bit
    numbers, so no family can go on for every [k].) *)
Theorem C129_exponential : forall k, (1 <= k <= 50)%nat -> exists g w s, built g /\
  (2 * vertex_count g <= k * (k + 1))%nat /\ (2 * length (edges g) <= k * (k + 1) * (k + 1))%nat /\ acyclic (gE g) /\
  (forall a b, gE g a b -> Z.abs (w (a, b)) <= 2 ^ 50) /\ 2 ^ 50 * Z.of_nat (vertex_count g + 1) < i64_max /\
  forall n m, spfa g w s n = Done m -> (2 ^ k <= n)%nat.
Proof.
  intros k Hk. exists (cascade k), cascade_w, (vid 1 1).
  assert (Hb : built (cascade k)) by (eexists; apply cascade_built). pose proof (built_wf Hb) as W.
  assert (HE : (length (edges (cascade k)) <= length (cascade_edges k))%nat).
  { apply NoDup_incl_length; [exact (proj1 (edges_spec W))|]. intros [a b] Hi. apply cascade_gE; [lia|]. now apply (gE_edges _ _ _ W). }
  pose proof (cascade_vertices k ltac:(lia)) as HV. pose proof (places_length k) as HP. pose proof (cascade_length k) as HL.
  split; [assumption|]. split; [lia|]. split; [nia|]. split; [|split; [|split]].
  - assert (Hup : forall l a b, walk_from_to (gE (cascade k)) a b l -> (rank a <= rank b)%nat).
    { intro l. induction l as [|v l IH] using rev_ind; intros a b Hw.
      - apply walk_nonempty in Hw. congruence.
      - apply walk_inv in Hw as [[_ ->]|(l' & u & Hl & Hw & He)]; [lia|].
        apply app_inj_tail in Hl as [<- _]. apply IH in Hw. apply cascade_up in He; lia. }
    intros l (v & Hw & Hlen). apply walk_inv_cons in Hw as [[-> _]|(l' & u & -> & He & Hw)]; [cbn in Hlen; lia|].
    apply Hup in Hw. apply cascade_up in He; lia.
  - intros a b H. apply (cascade_weight k); [lia|assumption].
  - assert (Hc : (vertex_count (cascade k) <= 1275)%nat) by nia. change i64_max with (2 ^ 63 - 1). lia.
  - intros n m H. now apply cascade_turns in H.
Qed.
Print Assumptions C129_exponential.

(** In particular the [V * E] turns that bound Bellman-Ford do not bound it. *)
Theorem C129_bellman_ford_bound_refuted : ~ (forall g w s B, built g ->
  0 <= B -> (forall a b, gE g a b -> Z.abs (w (a, b)) <= B) ->
  B * Z.of_nat (vertex_count g + 1) < i64_max ->
  ~ negative_cycle (gE g) (by_ends w) s ->
  exists m, spfa g w s (S (vertex_count g * length (edges g))) = Done m).
Proof.
  intro H. destruct (C129_exponential 30 ltac:(lia)) as (g & w & s & Hb & HV & HE & Hac & Hw & Hmax & Hn).
  destruct (H g w s (2 ^ 50) Hb ltac:(lia) Hw Hmax) as [m Hm].
  - intros (x & l & _ & Hl & Hlt). destruct l as [|a [|c l]]; [discriminate Hlt|discriminate Hlt|].
    apply (Hac (a :: c :: l)). exists x. split; [assumption|cbn; lia].
  - apply Hn in Hm. apply Nat2Z.inj_le in Hm. rewrite pw_nat in Hm. change (pw 30) with 1073741824 in Hm.
    assert (HV' : Z.of_nat (vertex_count g) <= 465) by lia. assert (HE' : Z.of_nat (length (edges g)) <= 14415) by lia.
    assert (HP : Z.of_nat (vertex_count g) * Z.of_nat (length (edges g)) <= 465 * 14415) by (apply Z.mul_le_mono_nonneg; lia). lia.
Qed.
Print Assumptions C129_bellman_ford_bound_refuted.

(** Six layers: 21 vertices, 50 edges, 105 turns. *)
Example C129_case : vertex_count (cascade 6) = 21%nat /\ length (edges (cascade 6)) = 50%nat /\
  spfa (cascade 6) cascade_w (vid 1 1) 105 = OutOfFuel /\
  (exists m, spfa (cascade 6) cascade_w (vid 1 1) 106 = Done m /\ entry m (vid 6 6) = Some (map (fun k => vid k k) [1; 2; 3; 4; 5; 6]%nat, -31)) /\
  (exists m, bellman_ford (cascade 6) cascade_w (vid 1 1) = Done (Some m) /\ option_map snd (entry m (vid 6 6)) = Some (-31)).
Proof.
  split; [vm_compute; reflexivity|]. split; [vm_compute; reflexivity|]. split; [vm_compute; reflexivity|]. split.
  - destruct (spfa (cascade 6) cascade_w (vid 1 1) 106) as [m| |] eqn:E; [|vm_compute in E; discriminate..].
    exists m. split; [reflexivity|]. vm_compute in E. injection E as <-. vm_compute. reflexivity.
  - destruct (bellman_ford (cascade 6) cascade_w (vid 1 1)) as [[m|]| |] eqn:E; [|vm_compute in E; discriminate..].
    exists m. split; [reflexivity|]. vm_compute in E. injection E as <-. vm_compute. reflexivity.
Qed.
