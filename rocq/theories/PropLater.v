(** * Property C188: what may be changed in a sorted graph *)
From Coq Require Import String.
From Coq Require Import List NArith ZArith Bool Arith Lia Permutation.
From Verif Require Import Spec Base WalkFacts Graph GraphSpec GraphFacts OrderFacts Path PathFacts Queue Iter IterFacts SearchFacts
  Topo TopoFacts PropGraph PropTopo FlowMax
  Text Format FormatSpec TextFacts FormatFacts Store StoreSpec StoreFacts PropFormat PropStore
  Cli CliSpec CliFacts Query QuerySpec QueryFacts PropQuery PropReady.
Import ListNotations.
Open Scope N_scope.

(** ** What it means *)
(** One more edge. *)
Definition one_more (E : rel) (a b : N) : rel := fun x y => E x y \/ (x = a /\ y = b).
(** An order is printed. *)
Definition sorted (nd : N -> bool) (order : graph -> graph) (s : fs) : Prop :=
  exists t, prints (gc_topo_sort nd order) s [txt "Topological order: " ++ t].

Lemma adjacent_or_not (a b : N) l : adjacent a b l \/ ~ adjacent a b l.
Proof.
  induction l as [|x [|y l] IH]; [right; apply adjacent_nil|right; apply adjacent_one|].
  destruct IH as [IH|IH].
  - left. apply WalkFacts.adjacent_cons. now right.
  - destruct (N.eq_dec a x) as [->|Hx], (N.eq_dec b y) as [->|Hy].
    + left. now exists [], l.
    + right. rewrite CliFacts.adjacent_cons. intros [[_ [q Eq]]|K]; [injection Eq as E1 _; congruence|contradiction].
    + right. rewrite CliFacts.adjacent_cons. intros [[E1 _]|K]; contradiction.
    + right. rewrite CliFacts.adjacent_cons. intros [[E1 _]|K]; contradiction.
Qed.
Lemma acyclic_fewer (E F : rel) : (forall x y, F x y -> E x y) -> acyclic E -> acyclic F.
Proof.
  intros H A l (s & (H1 & H2 & H3) & Hl). apply (A l). exists s. split; [|exact Hl]. split; [exact H1|]. split; [exact H2|].
  intros x y K. now apply H, H3.
Qed.
Lemma reach_target (E : rel) a b x : reachable (one_more E a b) x a -> reachable E x a.
Proof.
  intro H. revert x H. apply reachable_ind_l; [apply reachable_refl|].
  intros u v [He|[-> ->]] K; [now apply (reachable_cons E u v)|apply reachable_refl].
Qed.
(** An edge closes a cycle exactly when its start can be reached from its end. *)
Lemma one_more_acyclic (E : rel) a b : acyclic (one_more E a b) <-> acyclic E /\ ~ reachable E b a.
Proof.
  split.
  - intro A. split; [apply (acyclic_fewer (one_more E a b)); [now left|exact A]|].
    intros [l Hl]. apply (A (a :: l)). exists a. split.
    + apply walk_cons with (u := b); [now right|]. destruct Hl as (H1 & H2 & H3). split; [exact H1|]. split; [exact H2|]. intros x y K. left. now apply H3.
    + destruct Hl as ([t ->] & _). cbn. lia.
  - intros [A R] l (s & (H1 & H2 & H3) & Hl). destruct (adjacent_or_not a b l) as [K|K].
    + apply R. apply (reach_target E a b). destruct K as (p & q & ->). apply reachable_trans with (u := s).
      * exists (b :: q). split; [now exists q|]. split.
        -- destruct H2 as [t Et]. destruct (exists_last (l := b :: q)) as (u & z & Eu); [discriminate|]. exists u. rewrite Eu.
           change (p ++ a :: b :: q) with (p ++ [a] ++ b :: q) in Et. rewrite Eu, !app_assoc in Et. apply app_inj_tail in Et. now destruct Et as [_ ->].
        -- intros x y (p' & q' & Eq). apply H3. exists (p ++ a :: p'), q'. rewrite Eq, <- app_assoc. reflexivity.
      * exists (p ++ [a]). split; [destruct H1 as [t Et]; destruct p; injection Et as <- _; now eexists|]. split; [now exists p|].
        intros x y (p' & q' & Eq). apply H3. exists p', (q' ++ b :: q). change (a :: b :: q) with ([a] ++ b :: q). rewrite app_assoc, Eq, <- app_assoc. reflexivity.
    + apply (A l). exists s. split; [|exact Hl]. split; [exact H1|]. split; [exact H2|]. intros x y Kxy. destruct (H3 x y Kxy) as [He|[-> ->]]; [exact He|contradiction].
Qed.

Lemma before_both_self (x : N) vs : NoDup vs -> before x x vs -> False.
Proof.
  intros Nd H. apply before_positions in H. destruct H as (i & j & Hij & Hi & Hj).
  assert (i = j); [|lia]. apply (proj1 (NoDup_nth_error vs) Nd); [apply nth_error_Some; congruence|congruence].
Qed.
Lemma before_trans (x y z : N) vs : NoDup vs -> before x y vs -> before y z vs -> before x z vs.
Proof.
  intros Nd H1 H2. apply before_positions in H1, H2. destruct H1 as (i & j & Hij & Hi & Hj), H2 as (j' & k & Hjk & Hj' & Hk).
  assert (j = j') as <-. { apply (proj1 (NoDup_nth_error vs) Nd); [apply nth_error_Some; congruence|congruence]. }
  apply before_positions. exists i, k. split; [lia|]. now split.
Qed.
(** Edges that all go forward in one list close no cycle. *)
Lemma forward_acyclic (E : rel) vs : NoDup vs -> (forall x y, E x y -> before x y vs) -> acyclic E.
Proof.
  intros Nd H l (s & ([t ->] & H2 & H3) & Hl). destruct t as [|y t]; [cbn in Hl; lia|].
  assert (K : forall t x y, (forall u v, adjacent u v (x :: y :: t) -> E u v) -> ends_with s (x :: y :: t) -> before x s vs).
  { clear -Nd H. induction t as [|z t IH]; intros x y Ha He.
    - destruct He as [u Eu]. assert (y = s) as <-. { change [x; y] with ([x] ++ [y]) in Eu. now apply app_inj_tail in Eu. }
      apply H, Ha. now exists [], [].
    - apply (before_trans x y s vs Nd); [apply H, Ha; now exists [], (z :: t)|]. apply (IH y z).
      + intros u v (p & q & Eq). apply Ha. exists (x :: p), q. cbn. now rewrite Eq.
      + destruct He as [u Eu]. destruct u as [|x' u]; [discriminate|]. injection Eu as _ Eu. now exists u. }
  specialize (K t s y H3 H2). exact (before_both_self s vs Nd K).
Qed.

Lemma prints_one p s l l' : prints p s l -> prints p s l' -> l = l'.
Proof. apply settles_fun. Qed.

(** ** C188 *)
(** The library: after an edge is added the sort succeeds exactly when it did before and the new edge closes no cycle. *)
Theorem C188_add_edge : forall g g' a b, built g -> built g' -> (forall v, ~ gE g v v) -> a <> b ->
  (forall x y, gE g' x y <-> gE g x y \/ (x = a /\ y = b)) ->
  ((exists o, settles (topological_sort g') (Some o)) <-> (exists o, settles (topological_sort g) (Some o)) /\ ~ reachable (gE g) b a).
Proof.
  intros g g' a b B B' Hno Hab HE.
  assert (S : forall h, built h -> (forall v, ~ gE h v v) -> ((exists o, settles (topological_sort h) (Some o)) <-> acyclic (gE h))).
  { intros h Bh Hh. destruct (C51_topological_sort h Bh) as (r & Hr & _ & _ & Hs).
    - intro v. destruct (contains_edge h (v, v)) eqn:Ev; [|reflexivity]. elim (Hh v). exact Ev.
    - split.
      + intros [o Ho]. rewrite (settles_fun _ _ _ _ Hr Ho) in Hs. apply Hs.
      + intro A. destruct r as [o|]; [now exists o|]. destruct Hs as [l Hl]. elim (A l Hl). }
  rewrite (S g B Hno). rewrite (S g' B').
  - rewrite <- one_more_acyclic. split; apply acyclic_fewer; intros x y H; now apply HE.
  - intros v H. apply HE in H. destruct H as [H|[-> K]]; [exact (Hno v H)|exact (Hab K)].
Qed.
Print Assumptions C188_add_edge.

Lemma sorted_iff nd order s g : hash_order order -> loads nd s g -> (forall v, ~ gE g v v) -> (sorted nd order s <-> acyclic (gE g)).
Proof.
  intros O HL Hno. destruct (C88_topo_sort nd order s g O HL Hno) as [T1 T2]. split.
  - intros [t Ht]. destruct (C51_topological_sort (order g)) as (r & _ & _ & _ & Hr).
    + apply (loaded nd order s g O HL).
    + destruct (loaded nd order s g O HL) as (_ & _ & _ & HE). intro v. destruct (contains_edge (order g) (v, v)) eqn:E; [|reflexivity]. exfalso. apply (Hno v), HE. exact E.
    + destruct (loaded nd order s g O HL) as (_ & _ & _ & HE). destruct r as [o|]; [apply (acyclic_same _ _ HE), Hr|].
      destruct Hr as [l Hl]. assert (N1 : ~ acyclic (gE g)). { intro A. apply (acyclic_same _ _ (same_edges_sym _ _ HE)) in A. exact (A l Hl). }
      pose proof (prints_one _ _ _ _ Ht (T2 N1)) as K. discriminate K.
  - intro A. destruct (T1 A) as (vs & t & _ & _ & _ & Hp). now exists t.
Qed.
(** gc-topo-sort before and after an edge is added, by processes that go through their hash maps in any order. *)
Theorem C188_programs : forall nd order order' s s' g g' a b, hash_order order -> hash_order order' -> loads nd s g -> loads nd s' g' ->
  (forall v, ~ gE g v v) -> a <> b -> a_same (shown g') (a_step (shown g) (AddEdge a b)) ->
  (sorted nd order' s' <-> sorted nd order s /\ ~ reachable (gE g) b a).
Proof.
  intros nd order order' s s' g g' a b O O' HL HL' Hno Hab [_ HE].
  assert (HE' : forall x y, gE g' x y <-> one_more (gE g) a b x y).
  { intros x y. unfold one_more. specialize (HE x y). cbn in HE. rewrite HE. unfold gE. cbn. tauto. }
  rewrite (sorted_iff nd order s g O HL Hno), (sorted_iff nd order' s' g' O' HL').
  - rewrite <- one_more_acyclic. split; apply acyclic_fewer; intros x y H; now apply HE'.
  - intros v H. apply HE' in H. destruct H as [H|[-> K]]; [exact (Hno v H)|exact (Hab K)].
Qed.
Print Assumptions C188_programs.

(** Every edge that goes forward in the order printed can be added, and all of them together. *)
Theorem C188_forward : forall nd order order' s s' g g' vs t, hash_order order -> hash_order order' -> loads nd s g -> loads nd s' g' ->
  (forall v, ~ gE g v v) -> prints (gc_topo_sort nd order) s [txt "Topological order: " ++ t] -> spaced vs t ->
  (forall x y, gE g' x y -> gE g x y \/ before x y vs) ->
  acyclic (gE g') /\ exists t', prints (gc_topo_sort nd order') s' [txt "Topological order: " ++ t'].
Proof.
  intros nd order order' s s' g g' vs t O O' HL HL' Hno Hp Hs HE.
  assert (A : acyclic (gE g)) by (apply (sorted_iff nd order s g O HL Hno); now exists t).
  destruct (proj1 (C88_topo_sort nd order s g O HL Hno) A) as (ws & t0 & [Nd _] & Hb & Hs0 & Hp0).
  pose proof (prints_one _ _ _ _ Hp Hp0) as K. injection K as K. rewrite <- K in Hs0. rewrite (spaced_inj vs t Hs ws Hs0) in *.
  assert (A' : acyclic (gE g')). { apply (forward_acyclic (gE g') ws Nd). intros x y H. destruct (HE x y H) as [H1|H1]; [now apply Hb|exact H1]. }
  split; [exact A'|]. apply (sorted_iff nd order' s' g' O' HL'); [|exact A']. intros v H. apply (A' [v; v]). now apply loop_closed.
Qed.
Print Assumptions C188_forward.

(** Removing edges and vertices never takes the order away, self-loops or not. *)
Theorem C188_delete : forall g g', built g -> built g' -> (forall x y, gE g' x y -> gE g x y) ->
  (exists o, settles (topological_sort g) (Some o)) -> exists o, settles (topological_sort g') (Some o).
Proof.
  intros g g' B B' HE [o Ho]. destruct (C52_topo_exact g B) as (r & Hr & Hn & _). destruct (C52_topo_exact g' B') as (r' & Hr' & Hn' & _).
  rewrite (settles_fun _ _ _ _ Hr Ho) in Hn. assert (K : acyclic (gE g) \/ exists v, only_a_terminal_loop (gE g) v) by (apply Hn; discriminate).
  assert (K' : acyclic (gE g') \/ exists v, only_a_terminal_loop (gE g') v).
  { destruct K as [A|[v (L1 & L2 & L3)]]; [left; now apply (acyclic_fewer (gE g))|].
    assert (C : forall l, closed_walk (gE g') l -> closed_walk (gE g) l).
    { intros l (s & (H1 & H2 & H3) & Hl). exists s. split; [|exact Hl]. split; [exact H1|]. split; [exact H2|]. intros x y K. now apply HE, H3. }
    destruct (contains_edge g' (v, v)) eqn:Ev.
    - right. exists v. split; [exact Ev|]. split; [intros x Hx; now apply L2, HE|]. intros l Hl. apply L3. now apply C.
    - left. intros l Hl. pose proof (L3 l (C l Hl)) as Hv. destruct Hl as (s & ([u ->] & _ & H3) & Hl). destruct u as [|y u]; [cbn in Hl; lia|].
      assert (s = v) as -> by (apply Hv; now left). assert (y = v) as -> by (apply Hv; right; now left).
      assert (K : gE g' v v) by (apply H3; now exists [], u). unfold gE in K. rewrite Ev in K. discriminate K. }
  apply Hn' in K'. destruct r' as [o'|]; [now exists o'|congruence].
Qed.
Print Assumptions C188_delete.

(** A diamond: 4 is after 1 in every order, so 1 -> 4 can be added and 4 -> 1 cannot. *)
Example C188_case : let g := apply_commands [AddEdge 1 2; AddEdge 1 3; AddEdge 2 4; AddEdge 3 4] g_new in
  built g /\ (forall v, ~ gE g v v) /\ (exists o, settles (topological_sort g) (Some o) /\ before 1 4 o) /\ reachable (gE g) 1 4.
Proof.
  cbv zeta. set (g := apply_commands _ g_new). assert (B : built g) by (eexists; apply built_by_apply).
  assert (Hno : forall v, ~ gE g v v).
  { intros v H. apply (proj2 (C01_graph_is_pair_of_sets _ _ (built_by_apply [AddEdge 1 2; AddEdge 1 3; AddEdge 2 4; AddEdge 3 4]))) in H. cbn in H. lia. }
  assert (R : reachable (gE g) 1 4) by (apply (reachable_cons _ 1 2); [reflexivity|]; apply (reachable_cons _ 2 4); [reflexivity|]; apply reachable_refl).
  split; [exact B|]. split; [exact Hno|]. split; [|exact R].
  destruct (C51_topological_sort g B) as (r & Hr & _ & _ & Hs).
  { intro v. destruct (contains_edge g (v, v)) eqn:Ev; [|reflexivity]. elim (Hno v). exact Ev. }
  destruct r as [o|].
  - exists o. split; [exact Hr|]. destruct Hs as (_ & [Nd _] & Hb). apply (before_trans 1 2 4 o Nd); apply Hb; reflexivity.
  - exfalso. destruct Hs as [l Hl]. refine (forward_acyclic (gE g) [1; 2; 3; 4] _ _ l Hl).
    + repeat constructor; cbn; lia.
    + intros x y H. apply (proj2 (C01_graph_is_pair_of_sets _ _ (built_by_apply [AddEdge 1 2; AddEdge 1 3; AddEdge 2 4; AddEdge 3 4]))) in H. cbn in H.
      destruct H as [[[[K|[-> ->]]|[-> ->]]|[-> ->]]|[-> ->]]; [contradiction| | | |].
      * now exists [], [], [3; 4].
      * now exists [], [2], [4].
      * now exists [1], [3], [].
      * now exists [1; 2], [], [].
Qed.
