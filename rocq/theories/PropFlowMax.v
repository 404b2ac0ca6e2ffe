(** * When the reported flow is a maximum one (C125) *)
From Coq Require Import List NArith ZArith Bool Permutation Lia Arith.
From Verif Require Import Spec Base WalkFacts Graph GraphSpec GraphFacts Path PathFacts SearchFacts IterFacts Topo TopoFacts
  PropTopo MaxFlow FlowSpec FlowFacts PropFlow FlowBound FlowMax.
Import ListNotations.
Open Scope Z_scope.

(** More can be sent from [a] to [b]: along an edge with room, or by taking back what the opposite edge carries. *)
Definition can_push (L : list (N * N)) (cap F : N * N -> Z) (a b : N) : Prop :=
  (In (a, b) L /\ F (a, b) < cap (a, b)) \/ (In (b, a) L /\ 0 < F (b, a)).

Lemma flow_facts g cap s t value m : built g -> s <> t -> sum (capZ cap) (edges g) < 2 ^ 64 ->
  settles (max_flow g cap s t) (value, m) ->
  wf g /\ (forall e, In e (edges g) -> (cap e <= u64_max)%N) /\
  table g cap m /\ carries g s t m value /\ blocked g cap s t m /\ ends_dry s t m.
Proof.
  intros Hb Hst Hsum Hm. pose proof (built_wf Hb) as W.
  assert (Hs : sum (fun e => Z.of_N (cap e)) (edges g) <= Z.of_N u64_max) by (unfold capZ in Hsum; unfold u64_max; lia).
  assert (Hc : forall e, In e (edges g) -> (cap e <= u64_max)%N) by (intros e He; pose proof (sum_member cap _ _ He); lia).
  destruct (max_flow_dry g cap s t W Hst Hc Hs) as (v2 & m2 & H1 & H2 & H3 & H4 & H5).
  pose proof (settles_fun _ _ _ _ Hm H1) as [= -> ->]. now refine (conj W (conj Hc (conj H2 (conj H3 (conj H4 H5))))).
Qed.
Lemma push_res g cap m a b : can_push (edges g) (capZ cap) (flow_in m) a b <-> res_step g cap (flowZ m) a b.
Proof. unfold can_push, res_step, capZ. now rewrite !flow_in_eq. Qed.

(** The reported value is the maximum exactly when the reported flow leaves no way to push more from [s] to [t],
    counting the ways that take back flow already sent: the program's answer can be checked from its own output. *)
Theorem C125_maximum_iff : forall g cap s t value m, built g -> s <> t ->
  sum (capZ cap) (edges g) < 2 ^ 64 -> settles (max_flow g cap s t) (value, m) ->
  ((forall F value', feasible (edges g) (capZ cap) s t F value' -> value' <= Z.of_N value) <->
   ~ reachable (can_push (edges g) (capZ cap) (flow_in m)) s t).
Proof.
  intros g cap s t value m Hb Hst Hsum Hm. destruct (flow_facts g cap s t value m Hb Hst Hsum Hm) as (W & Hc & H2 & H3 & H4 & H5). split.
  - intros Hmax Hr. destruct (res_path_not_max g cap s t W Hst m value H2 H3) as (F & HF).
    { revert Hr. apply reachable_mono. intros a b. apply push_res. }
    specialize (Hmax F _ HF). lia.
  - intros Hno F value' HF. refine (no_res_path_max g cap s t Hst m value F value' H2 H3 _ HF).
    intro Hr. apply Hno. revert Hr. apply reachable_mono. intros a b. apply push_res.
Qed.
Print Assumptions C125_maximum_iff.

(** It is the maximum when every vertex between has one edge into it. *)
Theorem C125_maximum_fan_out : forall g cap s t value m, built g -> s <> t ->
  sum (capZ cap) (edges g) < 2 ^ 64 -> settles (max_flow g cap s t) (value, m) ->
  (forall v a b, v <> s -> v <> t -> gE g a v -> gE g b v -> a = b) ->
  forall F value', feasible (edges g) (capZ cap) s t F value' -> value' <= Z.of_N value.
Proof.
  intros g cap s t value m Hb Hst Hsum Hm H1 F value' HF.
  destruct (flow_facts g cap s t value m Hb Hst Hsum Hm) as (W & Hc & H2 & H3 & H4 & H5).
  exact (no_res_path_max g cap s t Hst m value F value' H2 H3 (single_in g cap s t W Hst m value H2 H3 H4 H5 H1) HF).
Qed.
Print Assumptions C125_maximum_fan_out.

(** It is the maximum when every vertex between has one edge out of it. *)
Theorem C125_maximum_fan_in : forall g cap s t value m, built g -> s <> t ->
  sum (capZ cap) (edges g) < 2 ^ 64 -> settles (max_flow g cap s t) (value, m) ->
  (forall v a b, v <> s -> v <> t -> gE g v a -> gE g v b -> a = b) ->
  forall F value', feasible (edges g) (capZ cap) s t F value' -> value' <= Z.of_N value.
Proof.
  intros g cap s t value m Hb Hst Hsum Hm H1 F value' HF.
  destruct (flow_facts g cap s t value m Hb Hst Hsum Hm) as (W & Hc & H2 & H3 & H4 & H5).
  exact (no_res_path_max g cap s t Hst m value F value' H2 H3 (single_out g cap s t W Hst m value H2 H3 H4 H5 H1) HF).
Qed.
Print Assumptions C125_maximum_fan_in.

(** 1 -> 2 -> {3, 4} -> 9, with 1 -> 5 -> 9. *)
Definition fan_graph : graph :=
  apply_commands [AddEdge 1 2; AddEdge 2 3; AddEdge 2 4; AddEdge 3 9; AddEdge 4 9; AddEdge 1 5; AddEdge 5 9] g_new.
Definition fan_cap (e : edge) : N := match e with (1, 2)%N => 7 | (2, 3)%N => 3 | (4, 9)%N => 2 | (1, 5)%N => 1 | _ => 5 end.
Example C125_case : (built fan_graph /\ 1%N <> 9%N /\ sum (capZ fan_cap) (edges fan_graph) < 2 ^ 64 /\
    (exists m, settles (max_flow fan_graph fan_cap 1 9) (6%N, m)) /\
    forall v a b, v <> 1%N -> v <> 9%N -> gE fan_graph a v -> gE fan_graph b v -> a = b) /\
  (** the graph of C60, where the value is not the maximum: 1 -> 7 -> 8 -> 3, back to 2, -> 5 -> 6 -> 4 *)
  exists m, settles (max_flow flow_graph unit_cap 1 4) (1%N, m) /\
    reachable (can_push (edges flow_graph) (capZ unit_cap) (flow_in m)) 1%N 4%N.
Proof.
  split; [split; [|split; [|split; [|split]]]|].
  - eexists. apply built_by_apply.
  - discriminate.
  - vm_compute. reflexivity.
  - assert (Hm : exists m, max_flow fan_graph fan_cap 1 9 50 = Done (6%N, m)) by (eexists; vm_compute; reflexivity).
    destruct Hm as [m Hm]. exists m. now apply max_flow_settles in Hm.
  - assert (W : wf fan_graph) by (apply built_wf; eexists; apply built_by_apply).
    intros v a b H1 H9 Ha Hb. apply (L_gE fan_graph W) in Ha, Hb.
    set (l := edges fan_graph) in *. vm_compute in l. unfold l in *. cbn [In] in Ha, Hb.
    repeat match goal with H : _ \/ _ |- _ => destruct H | H : False |- _ => destruct H end; congruence.
  - assert (Hm : exists m, max_flow flow_graph unit_cap 1 4 50 = Done (1%N, m) /\
       forallb (fun e => Z.eqb (flow_in m e) (if existsb (edge_eqb e) [(1, 2); (2, 3); (3, 4)]%N then 1 else 0)) (edges flow_graph) = true)
      by (eexists; split; [vm_compute; reflexivity|vm_compute; reflexivity]).
    destruct Hm as (m & Hm & Hf). exists m. split; [now apply max_flow_settles in Hm|].
    rewrite forallb_forall in Hf. set (L := edges flow_graph) in *.
    assert (Hfw : forall a b, In (a, b) L -> existsb (edge_eqb (a, b)) [(1, 2); (2, 3); (3, 4)]%N = false -> can_push L (capZ unit_cap) (flow_in m) a b).
    { intros a b Hi Hx. left. split; [assumption|]. specialize (Hf _ Hi). rewrite Hx in Hf. apply Z.eqb_eq in Hf. rewrite Hf. reflexivity. }
    assert (Hbw : can_push L (capZ unit_cap) (flow_in m) 3%N 2%N).
    { assert (Hi : In (2%N, 3%N) L) by (vm_compute; tauto). right. split; [assumption|]. specialize (Hf _ Hi). apply Z.eqb_eq in Hf. rewrite Hf. reflexivity. }
    apply (reachable_cons _ _ 7%N); [apply Hfw; [vm_compute; tauto|reflexivity]|].
    apply (reachable_cons _ _ 8%N); [apply Hfw; [vm_compute; tauto|reflexivity]|].
    apply (reachable_cons _ _ 3%N); [apply Hfw; [vm_compute; tauto|reflexivity]|].
    apply (reachable_cons _ _ 2%N); [assumption|].
    apply (reachable_cons _ _ 5%N); [apply Hfw; [vm_compute; tauto|reflexivity]|].
    apply (reachable_cons _ _ 6%N); [apply Hfw; [vm_compute; tauto|reflexivity]|].
    apply (reachable_cons _ _ 4%N); [apply Hfw; [vm_compute; tauto|reflexivity]|]. apply reachable_refl.
Qed.
