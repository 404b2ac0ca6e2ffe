(** * Theorems on Bellman-Ford and SPFA (C56-C58) *)
From Coq Require Import List NArith ZArith Bool Permutation Lia Arith.
From Verif Require Import Spec Base WalkFacts Graph GraphSpec GraphFacts Path SearchFacts IterFacts Topo TopoFacts
  PropTopo ShortSpec ShortFacts DagFacts PropShort BellmanFacts.
Import ListNotations.
Open Scope Z_scope.

(** A closed walk of negative weight can be reached from [s]. *)
Definition negative_cycle (E : rel) (w : N -> N -> Z) (s : N) : Prop :=
  exists x l, reachable E s x /\ walk_from_to E x x l /\ weight w l < 0.

(** ** C56 *)
Theorem C56_bellman_ford : forall g w s B, built g ->
  0 <= B -> (forall a b, gE g a b -> Z.abs (w (a, b)) <= B) ->
  B * Z.of_nat (vertex_count g * length (edges g) + 1) < i64_max ->
  exists r, bellman_ford g w s = Done r /\
    (r = None <-> negative_cycle (gE g) (by_ends w) s) /\
    (forall m, r = Some m -> shortest_answer (gE g) (by_ends w) s (entry m)).
Proof.
  intros g w s B Hb HB0 HB Hmax. pose proof (built_wf Hb) as W. rewrite vertex_count_len in Hmax.
  destruct (bellman_ford_spec g w s B W HB0 HB Hmax) as (r & Hr & H). exists r. split; [assumption|].
  destruct r as [m|].
  - destruct H as [H1 H2]. split.
    + split; [discriminate|]. intros (x & l & Hx & Hl & Hlt). specialize (H2 x l Hx Hl).
      exfalso. apply (Zlt_not_le _ _ Hlt). exact H2.
    + intros m' [= <-]. exact H1.
  - split; [|discriminate]. split; [intros _; exact H|reflexivity].
Qed.
Print Assumptions C56_bellman_ford.

Definition bf_graph : graph :=
  apply_commands [AddEdge 1 2; AddEdge 2 3; AddEdge 3 1; AddEdge 1 3; AddEdge 3 4; AddEdge 7 1] g_new.
Definition bf_w (e : edge) : Z :=
  match e with (1, 2)%N => 4 | (2, 3)%N => -3 | (3, 1)%N => -1 | (1, 3)%N => 2 | (3, 4)%N => -5 | _ => 1 end.
Definition bf_w' (e : edge) : Z :=
  match e with (3, 1)%N => -2 | _ => bf_w e end.
Lemma bf_built : built bf_graph.
Proof. eexists. apply built_by_apply. Qed.
Lemma small_dec g w B : wf g -> forallb (fun e => Z.abs (w e) <=? B) (edges g) = true ->
  forall a b, gE g a b -> Z.abs (w (a, b)) <= B.
Proof.
  intros W H a b He. rewrite forallb_forall in H. apply Z.leb_le. apply (H (a, b)). now apply gE_edges.
Qed.
Lemma bf_w_small : forall a b, gE bf_graph a b -> Z.abs (bf_w (a, b)) <= 5.
Proof. apply small_dec; [apply (built_wf bf_built)|vm_compute; reflexivity]. Qed.
Example C56_case : built bf_graph /\ (forall a b, gE bf_graph a b -> Z.abs (bf_w (a, b)) <= 5) /\
  5 * Z.of_nat (vertex_count bf_graph * length (edges bf_graph) + 1) < i64_max /\
  bellman_ford bf_graph bf_w' 1 = Done None /\
  match bellman_ford bf_graph bf_w 1 with
  | Done (Some m) => entry m 4 = Some ([1; 2; 3; 4]%N, -4) /\ entry m 7 = None
  | _ => False
  end.
Proof.
  split; [exact bf_built|]. split; [exact bf_w_small|]. split; [vm_compute; reflexivity|].
  split; [vm_compute; reflexivity|]. vm_compute. split; reflexivity.
Qed.

(** ** C57 *)
Theorem C57_spfa : forall g w s B, built g ->
  0 <= B -> (forall a b, gE g a b -> Z.abs (w (a, b)) <= B) ->
  B * Z.of_nat (vertex_count g + 1) < i64_max ->
  ~ negative_cycle (gE g) (by_ends w) s ->
  exists m, settles (spfa g w s) m /\ shortest_answer (gE g) (by_ends w) s (entry m).
Proof.
  intros g w s B Hb HB0 HB Hmax Hn. pose proof (built_wf Hb) as W. rewrite vertex_count_len in Hmax.
  destruct (spfa_total g w s B W HB0 HB Hmax) as (m & Hm).
  - intros x l Hx Hl. destruct (Z.ltb_spec (weight (by_ends w) l) 0) as [Hlt|]; [|assumption].
    exfalso. apply Hn. exists x, l. auto.
  - exists m. split; [assumption|]. destruct Hm as [n Hm].
    now apply (spfa_done g w s B W HB0 HB Hmax n m (Hm n (le_n _))).
Qed.
Print Assumptions C57_spfa.
Example C57_case : built bf_graph /\ (forall a b, gE bf_graph a b -> Z.abs (bf_w (a, b)) <= 5) /\
  5 * Z.of_nat (vertex_count bf_graph + 1) < i64_max /\
  ~ negative_cycle (gE bf_graph) (by_ends bf_w) 1 /\
  match spfa bf_graph bf_w 1 20 with
  | Done m => entry m 4 = Some ([1; 2; 3; 4]%N, -4) /\ entry m 7 = None
  | _ => False
  end.
Proof.
  split; [exact bf_built|]. split; [exact bf_w_small|]. split; [vm_compute; reflexivity|].
  split; [|vm_compute; split; reflexivity].
  destruct (C56_bellman_ford bf_graph bf_w 1%N 5) as (r & Hr & H & _).
  - exact bf_built.
  - lia.
  - exact bf_w_small.
  - vm_compute. reflexivity.
  - rewrite <- H. intros ->. vm_compute in Hr. discriminate.
Qed.

(** ** C58 *)
Theorem C58_spfa_agrees : forall g w s B, built g ->
  0 <= B -> (forall a b, gE g a b -> Z.abs (w (a, b)) <= B) ->
  B * Z.of_nat (vertex_count g * length (edges g) + 1) < i64_max ->
  B * Z.of_nat (vertex_count g + 1) < i64_max ->
  forall m, bellman_ford g w s = Done (Some m) ->
  exists m', settles (spfa g w s) m' /\
    forall x, option_map snd (entry m' x) = option_map snd (entry m x).
Proof.
  intros g w s B Hb HB0 HB H1 H2 m Hm.
  destruct (C56_bellman_ford g w s B Hb HB0 HB H1) as (r & Hr & Hneg & Hans).
  rewrite Hm in Hr. injection Hr as <-. specialize (Hans m eq_refl).
  destruct (C57_spfa g w s B Hb HB0 HB H2) as (m' & Hs & Hans').
  { rewrite <- Hneg. discriminate. }
  exists m'. split; [assumption|]. intro x. specialize (Hans x). specialize (Hans' x).
  destruct (entry m x) as [[p d]|], (entry m' x) as [[p' d']|]; cbn.
  - destruct Hans as (A1 & A2 & A3), Hans' as (B1 & B2 & B3). f_equal.
    apply Z.le_antisymm; [rewrite <- A2; apply B3|rewrite <- B2; apply A3]; assumption.
  - exfalso. apply Hans'. exists p. apply Hans.
  - exfalso. apply Hans. exists p'. apply Hans'.
  - reflexivity.
Qed.
Print Assumptions C58_spfa_agrees.

(** With a negative cycle in reach there is no result, however long it runs. *)
Theorem C58_spfa_negative_never_returns : forall g w s B, built g ->
  0 <= B -> (forall a b, gE g a b -> Z.abs (w (a, b)) <= B) ->
  B * Z.of_nat (vertex_count g + 1) < i64_max ->
  negative_cycle (gE g) (by_ends w) s ->
  forall n m, spfa g w s n <> Done m.
Proof.
  intros g w s B Hb HB0 HB Hmax (x & l & Hx & Hl & Hlt) n m Hm. pose proof (built_wf Hb) as W.
  rewrite vertex_count_len in Hmax. apply (spfa_done g w s B W HB0 HB Hmax) in Hm as [_ Hm].
  specialize (Hm x l Hx Hl). apply (Zlt_not_le _ _ Hlt). exact Hm.
Qed.
Print Assumptions C58_spfa_negative_never_returns.
Example C58_case : negative_cycle (gE bf_graph) (by_ends bf_w') 1 /\
  (forall a b, gE bf_graph a b -> Z.abs (bf_w' (a, b)) <= 5) /\ spfa bf_graph bf_w' 1 300 = OutOfFuel.
Proof.
  split; [|split].
  - exists 1%N, [1; 2; 3; 1]%N. split; [|split].
    + exists [1]%N. concrete_walk.
    + concrete_walk.
    + vm_compute. reflexivity.
  - apply small_dec; [apply (built_wf bf_built)|vm_compute; reflexivity].
  - vm_compute. reflexivity.
Qed.
