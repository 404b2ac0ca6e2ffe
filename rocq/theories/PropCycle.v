(** * Theorems on Hamiltonian paths and cycles (C63-C70) *)
From Coq Require Import List NArith ZArith Bool Permutation Lia Arith.
From Verif Require Import Spec Base WalkFacts Graph GraphSpec GraphFacts Path ConstraintSpec PathFacts Queue Iter IterFacts
  TreeFacts SearchFacts TopoFacts CycleSpec Cycle CycleFacts.
Import ListNotations.

(** The vertices shown by the API. *)
Definition gV (g : graph) (v : N) : Prop := contains_vertex g v = true.

Lemma omap_settles A B (f : A -> B) x a : settles x a -> settles (fun n => omap f (x n)) (f a).
Proof. intros [n0 H]. exists n0. intros n Hn. unfold omap. now rewrite H. Qed.

Lemma find_hd_filter A (P : A -> bool) l : find P l = hd_error (filter P l).
Proof. induction l as [|a l IH]; [reflexivity|]. cbn. destruct (P a); [reflexivity|exact IH]. Qed.

(** ** C63 *)
Lemma ham_paths_settles g : wf g -> forall vs, exists out,
  settles (fun n => ham_paths g n vs) out /\ settles (fun n => ham_first g n vs) (hd_error out) /\
  (forall p, In p out <-> exists v, In v vs /\ simple_from (gE g) v p /\ length p = vertex_count g) /\
  (NoDup vs -> NoDup out).
Proof.
  intros W. induction vs as [|v vs (out & [n0 H1] & [n1 H2] & H3 & H4)].
  - exists []. split; [exists 0; reflexivity|]. split; [exists 0; reflexivity|]. split.
    + intro p. split; [intros []|intros (v & [] & _)].
    + intros _. constructor.
  - destruct (dfs_path_collect g W v) as (l & [n2 Hl] & Hnd & Hin).
    set (P := fun p : path => Nat.eqb (path_size p) (vertex_count g)).
    exists (filter P l ++ out).
    split; [|split; [|split]].
    + exists (n0 + n1 + n2). intros n Hn. cbn [ham_paths]. rewrite Hl by lia. cbn [obind]. rewrite H1 by lia. reflexivity.
    + exists (n0 + n1 + n2). intros n Hn. cbn [ham_first].
      rewrite (iter_find_collect _ _ _ _ n _ l) by (apply Hl; lia). cbn [obind]. fold P.
      rewrite find_hd_filter. destruct (filter P l) as [|p l']; cbn [hd_error app]; [apply H2; lia|reflexivity].
    + intro p. rewrite in_app_iff, filter_In, H3, Hin. unfold P. rewrite Nat.eqb_eq. split.
      * intros [[Hp Hs]|(u & Hu & Hp)]; [exists v; split; [now left|]; auto|exists u; split; [now right|assumption]].
      * intros (u & [<-|Hu] & Hp & Hs); [left; auto|right; exists u; auto].
    + intro Hn. inversion Hn as [|? ? Hn1 Hn2]; subst. apply NoDup_app_iff. split; [now apply NoDup_filter|].
      split; [auto|]. intros p Hp Hp'. apply filter_In in Hp as [Hp _]. apply Hin in Hp.
      apply H3 in Hp' as (u & Hu & Hp' & _). destruct Hp as [[Hp _] _]. destruct Hp' as [[Hp' _] _].
      rewrite (starts_with_fun Hp Hp') in Hn1. contradiction.
Qed.

Lemma ham_length g p : wf g -> NoDup p -> incl p (vertices g) ->
  length p = vertex_count g <-> (forall v, In v p <-> gV g v).
Proof.
  intros W Hn Hi. rewrite vertex_count_len. unfold gV. split.
  - intros Hl v. rewrite <- vertices_In. split; [apply Hi|].
    apply (NoDup_length_incl Hn); [|assumption]. rewrite Hl. reflexivity.
  - intro H. apply Nat.le_antisymm; apply NoDup_incl_length; auto.
    + apply (wf_keys W).
    + intros v Hv. apply H. now apply vertices_In.
Qed.

Lemma hamiltonian_simple g p : wf g ->
  hamiltonian_path (gV g) (gE g) p <-> exists v, In v (vertices g) /\ simple_from (gE g) v p /\ length p = vertex_count g.
Proof.
  intro W. split.
  - intros ([Hne Hadj] & Hn & Hv). destruct p as [|v p]; [congruence|]. exists v.
    assert (Hi : incl (v :: p) (vertices g)) by (intros x Hx; apply vertices_In; now apply Hv).
    split; [apply Hi; now left|]. split; [split; [split; [now exists p|assumption]|assumption]|].
    now apply (ham_length g).
  - intros (v & Hv & [[Hs Hadj] Hn] & Hl). split; [|split; [assumption|]].
    + split; [|assumption]. destruct Hs as [t ->]. discriminate.
    + apply (ham_length g); auto. intros x Hx.
      assert (Hw : walk_from (gE g) v p) by (split; assumption).
      destruct (reachable_hasV g v x W (walk_In_reachable _ Hw Hx)) as [->|H]; assumption.
Qed.

Theorem C63_hamiltonian_paths : forall g, built g -> exists out,
  settles (iter_hamiltonian_paths g) out /\ enumerates out (hamiltonian_path (gV g) (gE g)) /\
  settles (first_path g) (hd_error out) /\
  exists b, settles (is_hamiltonian g) b /\
    (b = true <-> (forall v, ~ gV g v) \/ exists p, hamiltonian_path (gV g) (gE g) p).
Proof.
  intros g Hb. pose proof (built_wf Hb) as W. destruct (ham_paths_settles g W (vertices g)) as (out & H1 & H2 & H3 & H4).
  exists out. split; [assumption|]. split; [|split; [assumption|]].
  - split; [apply H4, (wf_keys W)|]. intro p. rewrite H3. now rewrite hamiltonian_simple.
  - assert (Hout : forall p, In p out <-> hamiltonian_path (gV g) (gE g) p)
      by (intro p; rewrite H3; now rewrite hamiltonian_simple).
    unfold is_hamiltonian, is_empty. destruct (Nat.eqb_spec (vertex_count g) 0) as [He|He].
    + exists true. split; [exists 0; reflexivity|]. split; [|reflexivity]. intros _. left. intros v Hv.
      rewrite vertex_count_len in He. apply length_zero_iff_nil in He. apply vertices_In in Hv. now rewrite He in Hv.
    + exists (match hd_error out with Some _ => true | None => false end). split.
      * exact (omap_settles _ _ (fun r : option path => match r with Some _ => true | None => false end) _ _ H2).
      * destruct out as [|p out]; cbn [hd_error].
        -- split; [discriminate|]. intros [Hv|(p & Hp)]; [|now apply Hout in Hp].
           exfalso. apply He. rewrite vertex_count_len. apply length_zero_iff_nil.
           destruct (vertices g) as [|v l] eqn:Ev; [reflexivity|]. exfalso. apply (Hv v). apply vertices_In. rewrite Ev. now left.
        -- split; [|reflexivity]. intros _. right. exists p. apply Hout. now left.
Qed.
Print Assumptions C63_hamiltonian_paths.

Theorem C63_is_path_hamiltonian : forall g p, built g -> is_walk (gE g) p -> (forall v, In v p -> gV g v) ->
  (is_path_hamiltonian p g = true <-> hamiltonian_path (gV g) (gE g) p).
Proof.
  intros g p Hb Hw Hv. pose proof (built_wf Hb) as W. unfold is_path_hamiltonian.
  rewrite andb_true_iff, negb_true_iff, contains_cycle_NoDup, Nat.eqb_eq. unfold hamiltonian_path, path_size.
  split.
  - intros [Hn Hl]. split; [assumption|]. split; [assumption|]. apply (ham_length g); auto.
    intros x Hx. apply vertices_In. now apply Hv.
  - intros (_ & Hn & H). split; [assumption|]. apply (ham_length g); auto.
    intros x Hx. apply vertices_In. now apply Hv.
Qed.
Print Assumptions C63_is_path_hamiltonian.

Definition ham_graph : graph :=
  apply_commands [AddEdge 1 2; AddEdge 2 3; AddEdge 3 1; AddEdge 3 4; AddEdge 4 2] g_new.
Lemma ham_built : built ham_graph.
Proof. eexists. apply built_by_apply. Qed.
Example C63_case : built ham_graph /\
  exists l, iter_hamiltonian_paths ham_graph 100 = Done l /\ In [1; 2; 3; 4]%N l /\
   is_walk (gE ham_graph) [1; 2; 3; 4]%N /\ (forall v, In v [1; 2; 3; 4]%N -> gV ham_graph v).
Proof.
  split; [exact ham_built|]. eexists. split; [vm_compute; reflexivity|]. split; [cbn; tauto|]. split.
  - split; [discriminate|]. concrete_chain.
  - intros v [<-|[<-|[<-|[<-|[]]]]]; reflexivity.
Qed.

(** ** C64 *)
Theorem C64_canonical : forall c, NoDup c -> c <> [] ->
  exists d, canonical c = Some d /\ rotation c d /\ least_first d /\
    canonical d = Some d /\
    (is_canonical c = Some true <-> c = d) /\ is_canonical c <> None.
Proof.
  intros c Hn Hne. destruct (canonical c) as [d|] eqn:Ec; [|now apply canonical_nil in Ec].
  exists d. apply canonical_spec in Ec as [Hr Hl]; [|assumption]. split; [reflexivity|]. split; [assumption|].
  split; [assumption|]. split.
  - apply canonical_spec; [now apply (rotation_NoDup _ c)|]. split; [apply rotation_refl|assumption].
  - destruct (is_canonical c) as [b|] eqn:Eb; [|now destruct c]. split; [|discriminate].
    pose proof (is_canonical_spec c b Hne Eb) as Hb. split.
    + intros [= ->]. assert (Hlc : least_first c) by now apply Hb.
      assert (H : canonical c = Some c) by (apply canonical_spec; [assumption|split; [apply rotation_refl|assumption]]).
      assert (H' : canonical c = Some d) by now apply canonical_spec. congruence.
    + intros ->. f_equal. now apply Hb.
Qed.
Print Assumptions C64_canonical.

Theorem C64_canonical_rotation : forall c d, NoDup c -> NoDup d -> c <> [] ->
  (canonical c = canonical d <-> rotation c d).
Proof.
  intros c d Hc Hd Hne. destruct (canonical c) as [e|] eqn:Ec; [|now apply canonical_nil in Ec].
  apply canonical_spec in Ec as [Hr Hl]; [|assumption]. split.
  - intro H. symmetry in H. apply canonical_spec in H as [Hr' _]; [|assumption].
    eapply rotation_trans; [exact Hr|]. now apply rotation_sym.
  - intro H. symmetry. apply canonical_spec; [assumption|]. split; [|assumption].
    eapply rotation_trans; [apply rotation_sym; exact H|assumption].
Qed.
Print Assumptions C64_canonical_rotation.

Theorem C64_from_vertices : forall l,
  (NoDup l /\ 2 <= length l -> from_vertices l = Some l) /\
  (~ (NoDup l /\ 2 <= length l) -> from_vertices l = None).
Proof.
  intro l. split.
  - intros H. apply from_vertices_spec. tauto.
  - intro H. destruct (from_vertices l) as [c|] eqn:E; [|reflexivity]. exfalso. apply H.
    apply from_vertices_spec in E. tauto.
Qed.
Print Assumptions C64_from_vertices.
Example C64_case : NoDup [7; 5; 1; 4]%N /\ canonical [7; 5; 1; 4]%N = Some [1; 4; 7; 5]%N.
Proof. split; [repeat constructor; cbn; intuition discriminate|reflexivity]. Qed.

(** ** C65, C66 *)

(** Where the search starts: the vertices without incoming edge, or the first
    vertex of the map when there is none. *)
Definition search_start (g : graph) (s : N) : Prop :=
  gV g s /\ (source (gE g) s \/ ((forall u, gV g u -> ~ source (gE g) u) /\ head_option g = Some s)).

Lemma search_start_spec g s : wf g -> In s (find_starting_edges g) <-> search_start g s.
Proof.
  intro W. destruct (starts_spec g W) as (_ & _ & H). rewrite H. unfold search_start, gV.
  rewrite vertices_In. split; (intros [H1 H2]; split; [assumption|]); destruct H2 as [H2|[H2 H3]]; auto;
    right; (split; [|assumption]); intros u Hu; apply H2; now apply vertices_In.
Qed.
Lemma cycle_out g : wf g -> exists out, runs (cycle_next g) (cycle_iter g) out /\
  enumerates out (fun c => simple_cycle (gE g) c /\ least_first c /\
    exists s x, search_start g s /\ In x c /\ reachable (gE g) s x).
Proof.
  intro W. destruct (cycle_run g W) as (out & H1 & H2 & H3). exists out. split; [assumption|]. split; [assumption|].
  intro c. rewrite H3. split; intros (I1 & I2 & s & x & I3 & I4); (split; [assumption|]); (split; [assumption|]);
    exists s, x; (split; [now apply (search_start_spec g s W)|assumption]).
Qed.

Theorem C65_cycle_iter_sound : forall g, built g -> exists out,
  settles (cycle_take_all g) out /\ NoDup out /\
  (forall c, In c out -> simple_cycle (gE g) c /\ least_first c) /\
  (forall c d, In c out -> In d out -> rotation c d -> c = d).
Proof.
  intros g Hb. destruct (cycle_out g (built_wf Hb)) as (out & H1 & H2 & H3). exists out.
  split; [exact (runs_collect _ _ _ _ _ H1)|]. split; [assumption|].
  assert (Hs : forall c, In c out -> simple_cycle (gE g) c /\ least_first c) by (intros c Hc; apply H3 in Hc; tauto).
  split; [assumption|]. intros c d Hc Hd Hr. destruct (Hs c Hc) as [[Hnc _] Hlc]. destruct (Hs d Hd) as [[Hnd _] Hld].
  assert (E1 : canonical c = Some c) by (apply canonical_spec; [assumption|]; split; [apply rotation_refl|assumption]).
  assert (E2 : canonical c = Some d) by (apply canonical_spec; [assumption|]; split; assumption).
  congruence.
Qed.
Print Assumptions C65_cycle_iter_sound.

Definition two_cycles : graph :=
  apply_commands [AddEdge 9 1; AddEdge 1 2; AddEdge 2 3; AddEdge 3 1; AddEdge 2 1; AddEdge 3 3; AddEdge 3 4] g_new.
Lemma two_cycles_built : built two_cycles.
Proof. eexists. apply built_by_apply. Qed.
Example C65_case : built two_cycles /\ cycle_take_all two_cycles 100 = Done [[1; 2]; [3]; [1; 2; 3]]%N.
Proof. split; [exact two_cycles_built|vm_compute; reflexivity]. Qed.

Theorem C66_cycle_iter_complete : forall g, built g -> exists out,
  settles (cycle_take_all g) out /\
  enumerates out (fun c => simple_cycle (gE g) c /\ least_first c /\
    exists s x, search_start g s /\ In x c /\ reachable (gE g) s x) /\
  settles (cycle_count g) (length out) /\
  (forall k, settles (cycle_take g k) (firstn k out)).
Proof.
  intros g Hb. destruct (cycle_out g (built_wf Hb)) as (out & H1 & H2). exists out.
  pose proof (runs_collect _ _ _ _ _ H1) as Hc. split; [exact Hc|]. split; [assumption|]. split.
  - exact (omap_settles _ _ (@length _) _ _ Hc).
  - intro k. exact (runs_take _ _ _ k _ _ H1).
Qed.
Print Assumptions C66_cycle_iter_complete.

Theorem C66_strongly_connected : forall g out, built g -> strongly_connected (gV g) (gE g) ->
  settles (cycle_take_all g) out ->
  enumerates out (fun c => simple_cycle (gE g) c /\ least_first c).
Proof.
  intros g out Hb Hsc Hout. pose proof (built_wf Hb) as W.
  destruct (C66_cycle_iter_complete g Hb) as (out' & H1 & [H2 H3] & _).
  rewrite (settles_fun _ _ _ _ Hout H1). split; [assumption|]. intro c. rewrite H3. split; [tauto|].
  intros [Hc Hl]. split; [assumption|]. split; [assumption|].
  pose proof Hc as (_ & _ & x & y & Hx & Hy & He). destruct (gE_vertices g W y x He) as [Vy Vx].
  assert (Hs : exists s, search_start g s).
  { destruct (starts_spec g W) as (_ & _ & Hst).
    destruct (find_starting_edges g) as [|s l] eqn:Es.
    - exfalso. unfold find_starting_edges in Es. destruct (filter _ (vertices g)) as [|a l]; [|discriminate].
      destruct (head_option g) as [h|] eqn:Eh; [discriminate|]. unfold head_option in Eh.
      destruct (vertices g); [contradiction|discriminate].
    - exists s. apply (search_start_spec g s W). rewrite Es. now left. }
  destruct Hs as [s Hs]. exists s, x. split; [assumption|]. split; [now apply starts_with_In|].
  apply Hsc; [apply Hs|]. now apply vertices_In.
Qed.
Print Assumptions C66_strongly_connected.
Example C66_case : built ham_graph /\ strongly_connected (gV ham_graph) (gE ham_graph) /\
  cycle_take_all ham_graph 100 = Done [[2; 3; 4]; [1; 2; 3]]%N.
Proof.
  split; [exact ham_built|]. split; [|vm_compute; reflexivity].
  assert (Hv : forall v, gV ham_graph v -> In v [1; 2; 3; 4]%N) by (intros v Hv; apply vertices_In in Hv; exact Hv).
  assert (Hc : reachable (gE ham_graph) 1 4 /\ reachable (gE ham_graph) 4 1 /\ reachable (gE ham_graph) 1 2 /\
    reachable (gE ham_graph) 2 1 /\ reachable (gE ham_graph) 1 3 /\ reachable (gE ham_graph) 3 1).
  { repeat split.
    - exists [1; 2; 3; 4]%N. concrete_walk.
    - exists [4; 2; 3; 1]%N. concrete_walk.
    - exists [1; 2]%N. concrete_walk.
    - exists [2; 3; 1]%N. concrete_walk.
    - exists [1; 2; 3]%N. concrete_walk.
    - exists [3; 1]%N. concrete_walk. }
  destruct Hc as (H14 & H41 & H12 & H21 & H13 & H31).
  assert (H1 : forall v, gV ham_graph v -> reachable (gE ham_graph) 1 v /\ reachable (gE ham_graph) v 1).
  { intros v H. apply Hv in H as [<-|[<-|[<-|[<-|[]]]]]; split; try assumption; apply reachable_refl. }
  intros x y Hx Hy. apply (reachable_trans (u := 1%N)); [apply (H1 x Hx)|apply (H1 y Hy)].
Qed.

(** ** C67: cycles that no start vertex reaches are missed, even in a connected graph *)
Definition missed_graph : graph :=
  apply_commands [AddEdge 1 2; AddEdge 3 4; AddEdge 4 3; AddEdge 3 2] g_new.
Lemma missed_built : built missed_graph.
Proof. eexists. apply built_by_apply. Qed.
Lemma cycle_take_all_settles g out n : built g -> cycle_take_all g n = Done out -> settles (cycle_take_all g) out.
Proof.
  intros _ H. exists n. intros m Hm. unfold cycle_take_all in *.
  assert (Hnext : forall n st r, cycle_next g n st = Done r -> forall m, n <= m -> cycle_next g m st = Done r).
  { clear. induction n as [|n IH]; intros st r H m Hm; [discriminate|]. destruct m as [|m]; [lia|].
    cbn [cycle_next] in *. destruct st as [stack ret]. destruct (q_pop (Stack path) stack) as [[p st']|]; [|assumption].
    destruct (extract_canonical_cycle_from_last p) as [[c|]|]; [| |assumption].
    - destruct (negb (memC c ret)); [assumption|]. apply IH; [assumption|lia].
    - destruct (path_last p); [|assumption]. apply IH; [assumption|lia]. }
  assert (Hall : forall k n st l, fcollect cycle cycle_state (cycle_next g) n k st = Done l ->
    forall m k', n <= m -> k <= k' -> fcollect cycle cycle_state (cycle_next g) m k' st = Done l).
  { clear -Hnext. induction k as [|k IH]; intros n st l H m k' Hm Hk; [discriminate|]. destruct k' as [|k']; [lia|].
    cbn [fcollect] in *. destruct (cycle_next g n st) as [r| |] eqn:Er; try discriminate.
    rewrite (Hnext _ _ _ Er m Hm). cbn [obind] in *. destruct r as [[a s']|]; [|assumption].
    destruct (fcollect cycle cycle_state (cycle_next g) n k s') as [l'| |] eqn:El; try discriminate.
    rewrite (IH _ _ _ El m k'); [assumption|assumption|lia]. }
  now apply (Hall n n).
Qed.
Lemma missed_connected : weakly_connected (gV missed_graph) (gE missed_graph).
Proof.
  set (E := fun a b => gE missed_graph a b \/ gE missed_graph b a).
  assert (Hs : forall a b, reachable E a b -> reachable E b a).
  { intros a b H. apply (reachable_ind' (E := E) (s := a) (fun b => reachable E b a)); [apply reachable_refl| |assumption].
    intros u v _ Hu Hv. apply (reachable_trans (u := u)); [|assumption].
    apply (reachable_step (u := v)); [apply reachable_refl|]. unfold E in *. tauto. }
  assert (Hv : forall v, gV missed_graph v -> reachable E 2 v).
  { intros v Hv. apply vertices_In in Hv. change (In v [1; 2; 3; 4]%N) in Hv.
    assert (E21 : E 2%N 1%N) by (right; reflexivity).
    assert (E23 : E 2%N 3%N) by (right; reflexivity).
    assert (E34 : E 3%N 4%N) by (left; reflexivity).
    destruct Hv as [<-|[<-|[<-|[<-|[]]]]].
    - apply (reachable_step (u := 2%N)); [apply reachable_refl|assumption].
    - apply reachable_refl.
    - apply (reachable_step (u := 2%N)); [apply reachable_refl|assumption].
    - apply (reachable_step (u := 3%N)); [|assumption]. apply (reachable_step (u := 2%N)); [apply reachable_refl|assumption]. }
  intros x y Hx Hy. apply (reachable_trans (u := 2%N)); [|now apply Hv]. apply Hs. now apply Hv.
Qed.
Theorem C67_connected_cycles_missed_refuted :
  ~ (forall g out, built g -> weakly_connected (gV g) (gE g) -> settles (cycle_take_all g) out ->
       (exists c, simple_cycle (gE g) c) -> out <> []).
Proof.
  intro H. apply (H missed_graph [] missed_built missed_connected).
  - apply (cycle_take_all_settles _ _ 20); [exact missed_built|vm_compute; reflexivity].
  - exists [3; 4]%N. split; [repeat constructor; cbn; intuition discriminate|]. split.
    + concrete_chain.
    + exists 3%N, 4%N. split; [now exists [4%N]|]. split; [now exists [3%N]|]. reflexivity.
  - reflexivity.
Qed.
Print Assumptions C67_connected_cycles_missed_refuted.

(** The set of cycles found depends on the hash order: the same history, two orders. *)
Theorem C67_order_dependent_refuted : exists cs g g' out out', built_by cs g /\ built_by cs g' /\
  weakly_connected (gV g) (gE g) /\
  settles (cycle_take_all g) out /\ settles (cycle_take_all g') out' /\ length out <> length out'.
Proof.
  set (cs := [AddEdge 1 2; AddEdge 2 1; AddEdge 2 3; AddEdge 3 4; AddEdge 4 3]).
  set (g := apply_commands cs g_new).
  assert (B : built_by cs g) by apply built_by_apply.
  assert (B' : built_by cs (rev g)) by (eapply built_rehash; [exact B|apply Permutation_rev]).
  exists cs, g, (rev g), [[3; 4]; [1; 2]]%N, [[3; 4]%N]. split; [assumption|]. split; [assumption|]. split.
  - assert (H : forall x, gV g x -> forall y, gV g y -> reachable (fun a b => gE g a b \/ gE g b a) x y).
    { intros x Hx y Hy. apply vertices_In in Hx, Hy. change (In x [1; 2; 3; 4]%N) in Hx. change (In y [1; 2; 3; 4]%N) in Hy.
      assert (forall a b l, walk_from_to (fun a b => gE g a b \/ gE g b a) a b l -> reachable (fun a b => gE g a b \/ gE g b a) a b)
        as Hr by (intros a b l Hl; exists l; exact Hl).
      assert (E12 : forall a b, In (a, b) [(1, 2); (2, 1); (2, 3); (3, 2); (3, 4); (4, 3)]%N -> gE g a b \/ gE g b a).
      { intros a b Hab. cbn in Hab. repeat (destruct Hab as [[= <- <-]|Hab]; [vm_compute; tauto|]). contradiction. }
      assert (Up : forall z, In z [1; 2; 3; 4]%N -> reachable (fun a b => gE g a b \/ gE g b a) z 3 /\
                                           reachable (fun a b => gE g a b \/ gE g b a) 3 z).
      { intros z Hz. destruct Hz as [<-|[<-|[<-|[<-|[]]]]]; split; try apply reachable_refl.
        - apply (reachable_step (u := 2%N)); [apply (reachable_step (u := 1%N)); [apply reachable_refl|]|]; apply E12; cbn; tauto.
        - apply (reachable_step (u := 2%N)); [apply (reachable_step (u := 3%N)); [apply reachable_refl|]|]; apply E12; cbn; tauto.
        - apply (reachable_step (u := 2%N)); [apply reachable_refl|]. apply E12; cbn; tauto.
        - apply (reachable_step (u := 3%N)); [apply reachable_refl|]. apply E12; cbn; tauto.
        - apply (reachable_step (u := 4%N)); [apply reachable_refl|]. apply E12; cbn; tauto.
        - apply (reachable_step (u := 3%N)); [apply reachable_refl|]. apply E12; cbn; tauto. }
      apply (reachable_trans (u := 3%N)); [apply (Up x Hx)|apply (Up y Hy)]. }
    intros x y Hx Hy. now apply H.
  - split; [apply (cycle_take_all_settles _ _ 30); [eexists; exact B|vm_compute; reflexivity]|].
    split; [apply (cycle_take_all_settles _ _ 30); [eexists; exact B'|vm_compute; reflexivity]|]. discriminate.
Qed.
Print Assumptions C67_order_dependent_refuted.

(** What does hold: if every vertex can be reached from a vertex without incoming
    edges (or every vertex from every other, C66), all cycles are found. *)
Theorem C67_all_cycles_from_sources : forall g out, built g ->
  (forall v, gV g v -> exists s, gV g s /\ source (gE g) s /\ reachable (gE g) s v) ->
  settles (cycle_take_all g) out ->
  enumerates out (fun c => simple_cycle (gE g) c /\ least_first c).
Proof.
  intros g out Hb Hsrc Hout. pose proof (built_wf Hb) as W.
  destruct (C66_cycle_iter_complete g Hb) as (out' & H1 & [H2 H3] & _).
  rewrite (settles_fun _ _ _ _ Hout H1). split; [assumption|]. intro c. rewrite H3. split; [tauto|].
  intros [Hc Hl]. split; [assumption|]. split; [assumption|].
  pose proof Hc as (_ & _ & x & y & Hx & Hy & He). destruct (gE_vertices g W y x He) as [_ Vx].
  destruct (Hsrc x) as (s & V & Hs & Hr); [now apply vertices_In|]. exists s, x.
  split; [split; [assumption|now left]|]. split; [now apply starts_with_In|assumption].
Qed.
Print Assumptions C67_all_cycles_from_sources.
Example C67_case : built two_cycles /\
  (forall v, gV two_cycles v -> exists s, gV two_cycles s /\ source (gE two_cycles) s /\ reachable (gE two_cycles) s v).
Proof.
  split; [exact two_cycles_built|]. intros v Hv. exists 9%N. split; [reflexivity|]. split.
  - intros u Hu. apply (gE_inbound two_cycles (built_wf two_cycles_built)) in Hu. contradiction.
  - apply vertices_In in Hv. change (In v [9; 1; 2; 3; 4]%N) in Hv. destruct Hv as [<-|[<-|[<-|[<-|[<-|[]]]]]].
    + apply reachable_refl.
    + exists [9; 1]%N. concrete_walk.
    + exists [9; 1; 2]%N. concrete_walk.
    + exists [9; 1; 2; 3]%N. concrete_walk.
    + exists [9; 1; 2; 3; 4]%N. concrete_walk.
Qed.

(** ** C68 *)
Theorem C68_hamiltonian_cycle : forall g, built g -> exists r, settles (hamiltonian g) r /\
  (forall c, r = Some c -> hamiltonian_cycle (gV g) (gE g) c) /\
  (r = None -> forall c, ~ hamiltonian_cycle (gV g) (gE g) c).
Proof.
  intros g Hb. pose proof (built_wf Hb) as W. destruct (cycle_out g W) as (out & H1 & _ & H3).
  set (P := fun c : cycle => Nat.eqb (cycle_len c) (vertex_count g)).
  exists (find P out). split; [exact (runs_find _ _ _ P _ _ H1)|].
  assert (Hincl : forall c, simple_cycle (gE g) c -> incl c (vertices g)).
  { intros c (Hn & Hadj & x & y & Hx & Hy & He) v Hv. destruct (gE_vertices g W y x He) as [_ Vx].
    assert (Hw : walk_from (gE g) x c) by (split; assumption).
    destruct (reachable_hasV g x v W (walk_In_reachable _ Hw Hv)) as [->|H]; assumption. }
  split.
  - intros c Hc. apply find_some in Hc as [Hc HP]. apply H3 in Hc as [Hc _]. split; [assumption|].
    apply (ham_length g); [assumption|apply Hc|now apply Hincl|]. now apply Nat.eqb_eq in HP.
  - intros Hnone c [Hc Hv]. pose proof (simple_cycle_ne _ _ Hc) as Hne.
    destruct (canonical c) as [d|] eqn:Ed; [|now apply canonical_nil in Ed].
    pose proof Hc as [Hn _]. apply canonical_spec in Ed as [Hr Hl]; [|assumption].
    pose proof (simple_cycle_rotation _ _ _ Hc Hr) as Hd.
    assert (Hvd : forall v, In v d <-> gV g v) by (intro v; rewrite <- Hv; symmetry; now apply rotation_In).
    assert (Hin : In d out).
    { apply H3. split; [assumption|]. split; [assumption|].
      assert (Hpred : forall v, gV g v -> ~ source (gE g) v).
      { intros v Hgv Hsrc. apply Hvd in Hgv. apply in_split in Hgv as (p & q & Hpq).
        assert (Hrv : rotation d (v :: q ++ p)) by (exists p, (v :: q); auto).
        destruct (simple_cycle_rotation _ _ _ Hd Hrv) as (_ & _ & a & b & Ha & _ & Hab).
        apply starts_with_cons in Ha as ->. now apply (Hsrc b). }
      destruct (head_option g) as [h|] eqn:Eh.
      - assert (Hgh : gV g h).
        { apply vertices_In. unfold head_option in Eh. destruct (vertices g); [discriminate|]. injection Eh as ->. now left. }
        exists h, h. split; [split; [assumption|right; auto]|]. split; [now apply Hvd|apply reachable_refl].
      - exfalso. unfold head_option in Eh. destruct d as [|x d]; [destruct Hl as (m & [t Ht] & _); discriminate|].
        assert (Hx : gV g x) by (apply Hvd; now left). apply vertices_In in Hx. now destruct (vertices g). }
    pose proof (find_none _ _ Hnone d Hin) as HP. unfold P in HP. apply Nat.eqb_neq in HP. apply HP.
    apply (ham_length g); [assumption|apply Hd|now apply Hincl|assumption].
Qed.
Print Assumptions C68_hamiltonian_cycle.
Definition ring_graph : graph :=
  apply_commands [AddEdge 1 2; AddEdge 2 3; AddEdge 3 4; AddEdge 4 1; AddEdge 3 1] g_new.
Example C68_case : built ring_graph /\ hamiltonian ring_graph 100 = Done (Some [1; 2; 3; 4]%N) /\
  built ham_graph /\ hamiltonian ham_graph 100 = Done None.
Proof.
  split; [eexists; apply built_by_apply|]. split; [vm_compute; reflexivity|]. split; [exact ham_built|].
  vm_compute; reflexivity.
Qed.

(** ** C69 *)
Lemma min_by_key_spec A (key : A -> nat) l :
  match min_by_key key l with
  | None => l = []
  | Some a => exists p q, l = p ++ a :: q /\ (forall x, In x p -> key a < key x) /\ (forall x, In x q -> key a <= key x)
  end.
Proof.
  destruct l as [|a l]; [reflexivity|]. cbn [min_by_key].
  assert (H : forall l pre p b q, pre = p ++ b :: q -> (forall x, In x p -> key b < key x) -> (forall x, In x q -> key b <= key x) ->
    let r := fold_left (fun b x => if Nat.ltb (key x) (key b) then x else b) l b in
    exists p' q', pre ++ l = p' ++ r :: q' /\ (forall x, In x p' -> key r < key x) /\ (forall x, In x q' -> key r <= key x)).
  { clear. induction l as [|y l IH]; intros pre p b q -> H1 H2; cbn [fold_left].
    - exists p, q. rewrite app_nil_r. auto.
    - replace ((p ++ b :: q) ++ y :: l) with (((p ++ b :: q) ++ [y]) ++ l) by now rewrite <- app_assoc.
      destruct (Nat.ltb_spec (key y) (key b)) as [Hlt|Hge].
      + apply (IH _ (p ++ b :: q) y []); [reflexivity| |intros ? []]. intros x Hx.
        apply in_app_iff in Hx as [Hx|[<-|Hx]]; [specialize (H1 x Hx); lia|assumption|specialize (H2 x Hx); lia].
      + apply (IH _ p b (q ++ [y])); [now rewrite <- app_assoc|assumption|]. intros x Hx.
        apply in_app_iff in Hx as [Hx|[<-|[]]]; auto. }
  apply (H l [a] [] a []); [reflexivity|intros ? []|intros ? []].
Qed.
Lemma max_by_key_spec A (key : A -> nat) l :
  match max_by_key key l with
  | None => l = []
  | Some a => exists p q, l = p ++ a :: q /\ (forall x, In x p -> key x <= key a) /\ (forall x, In x q -> key x < key a)
  end.
Proof.
  destruct l as [|a l]; [reflexivity|]. cbn [max_by_key].
  assert (H : forall l pre p b q, pre = p ++ b :: q -> (forall x, In x p -> key x <= key b) -> (forall x, In x q -> key x < key b) ->
    let r := fold_left (fun b x => if Nat.ltb (key x) (key b) then b else x) l b in
    exists p' q', pre ++ l = p' ++ r :: q' /\ (forall x, In x p' -> key x <= key r) /\ (forall x, In x q' -> key x < key r)).
  { clear. induction l as [|y l IH]; intros pre p b q -> H1 H2; cbn [fold_left].
    - exists p, q. rewrite app_nil_r. auto.
    - replace ((p ++ b :: q) ++ y :: l) with (((p ++ b :: q) ++ [y]) ++ l) by now rewrite <- app_assoc.
      destruct (Nat.ltb_spec (key y) (key b)) as [Hlt|Hge].
      + apply (IH _ p b (q ++ [y])); [now rewrite <- app_assoc|assumption|]. intros x Hx.
        apply in_app_iff in Hx as [Hx|[<-|[]]]; auto.
      + apply (IH _ (p ++ b :: q) y []); [reflexivity| |intros ? []]. intros x Hx.
        apply in_app_iff in Hx as [Hx|[<-|Hx]]; [specialize (H1 x Hx); lia|assumption|specialize (H2 x Hx); lia]. }
  apply (H l [a] [] a []); [reflexivity|intros ? []|intros ? []].
Qed.

Theorem C69_extremal : forall g out, built g -> settles (cycle_take_all g) out ->
  settles (cycle_first g) (hd_error out) /\
  (exists r, settles (girth g) r /\ (r = None <-> out = []) /\
     forall n, r = Some n -> (exists c, In c out /\ length c = n) /\ forall c, In c out -> n <= length c) /\
  (exists r, settles (shortest g) r /\ (r = None <-> out = []) /\
     forall c, r = Some c -> exists p q, out = p ++ c :: q /\
       (forall d, In d p -> length c < length d) /\ (forall d, In d q -> length c <= length d)) /\
  (exists r, settles (longest g) r /\ (r = None <-> out = []) /\
     forall c, r = Some c -> exists p q, out = p ++ c :: q /\
       (forall d, In d p -> length d <= length c) /\ (forall d, In d q -> length d < length c)).
Proof.
  intros g out Hb Hout. destruct (cycle_out g (built_wf Hb)) as (out' & H1 & _).
  assert (out = out') by (apply (settles_fun _ _ _ _ Hout), (runs_collect _ _ _ _ _ H1)). subst out'.
  split; [exact (runs_first _ _ _ _ _ H1)|]. split; [|split].
  - eexists. split; [exact (omap_settles _ _ (fun l => min_by_key (fun n => n) (map cycle_len l)) _ _ Hout)|].
    pose proof (min_by_key_spec nat (fun n => n) (map cycle_len out)) as H.
    destruct (min_by_key (fun n => n) (map cycle_len out)) as [n|].
    + destruct H as (p & q & Heq & H2 & H3). split.
      * split; [discriminate|]. intros ->. destruct p; discriminate.
      * intros m [= <-]. split.
        -- assert (Hi : In n (map cycle_len out)) by (rewrite Heq; apply in_app_iff; right; now left).
           apply in_map_iff in Hi as (c & Hc & Hi). exists c. auto.
        -- intros c Hc. assert (Hi : In (cycle_len c) (map cycle_len out)) by now apply in_map.
           rewrite Heq in Hi. apply in_app_iff in Hi as [Hi|[Hi|Hi]].
           ++ apply H2 in Hi. unfold cycle_len in Hi. unfold cycle in *. lia.
           ++ unfold cycle_len in Hi. unfold cycle in *. lia.
           ++ now apply H3 in Hi.
    + apply map_eq_nil in H. split; [tauto|discriminate].
  - eexists. split; [exact (omap_settles _ _ (min_by_key cycle_len) _ _ Hout)|].
    pose proof (min_by_key_spec cycle cycle_len out) as H.
    destruct (min_by_key cycle_len out) as [c|]; [|split; [tauto|discriminate]]. split.
    + split; [discriminate|]. intros ->. destruct H as (p & q & H & _). destruct p; discriminate.
    + intros c' [= <-]. exact H.
  - eexists. split; [exact (omap_settles _ _ (max_by_key cycle_len) _ _ Hout)|].
    pose proof (max_by_key_spec cycle cycle_len out) as H.
    destruct (max_by_key cycle_len out) as [c|]; [|split; [tauto|discriminate]]. split.
    + split; [discriminate|]. intros ->. destruct H as (p & q & H & _). destruct p; discriminate.
    + intros c' [= <-]. exact H.
Qed.
Print Assumptions C69_extremal.
Example C69_case : built two_cycles /\ settles (cycle_take_all two_cycles) [[1; 2]; [3]; [1; 2; 3]]%N /\
  longest two_cycles 100 = Done (Some [1; 2; 3]%N).
Proof.
  split; [exact two_cycles_built|]. split; [|vm_compute; reflexivity].
  apply (cycle_take_all_settles _ _ 100); [exact two_cycles_built|apply C65_case].
Qed.

(** ** C70: the closing edge is invisible to the constraints of gc-cycle *)
Theorem C70_closing_edge_refuted :
  (exists c a b, simple_cycle (gE ring_graph) c /\ cycle_edge a b c /\
     cycle_check c [ContainsEdge (a, b)] = false /\ cycle_check c [CNot (ContainsEdge (a, b))] = true) /\
  (exists c, gc_cycle_all ring_graph [CNot (ContainsEdge (4, 1)%N)] 100 = Done c /\ In [1; 2; 3; 4]%N c).
Proof.
  split.
  - exists [1; 2; 3; 4]%N, 4%N, 1%N. split.
    + split; [repeat constructor; cbn; intuition discriminate|]. split; [concrete_chain|].
      exists 1%N, 4%N. split; [now eexists|]. split; [now exists [1; 2; 3]%N|reflexivity].
    + split; [right; split; [now exists [1; 2; 3]%N|now eexists]|]. split; reflexivity.
  - eexists. split; [vm_compute; reflexivity|]. cbn. tauto.
Qed.
Print Assumptions C70_closing_edge_refuted.

(** What does hold: gc-cycle prints exactly the cycles found whose vertex list
    satisfies the constraints; for an edge other than the closing one this is
    membership in the cycle. *)
Theorem C70_cycle_filter : forall g cs out, built g -> settles (cycle_take_all g) out ->
  exists l, settles (gc_cycle_all g cs) l /\
    forall c, In c l <-> In c out /\ forall k, In k cs -> holds k c (Z.of_nat (length c)).
Proof.
  intros g cs out Hb Hout. eexists. split; [exact (omap_settles _ _ (filter (fun c => cycle_check c cs)) _ _ Hout)|].
  intro c. rewrite filter_In. unfold cycle_check. rewrite forallb_forall.
  split; (intros [H1 H2]; split; [assumption|]); intros k Hk; apply check_complete_spec; auto.
Qed.
Print Assumptions C70_cycle_filter.
Theorem C70_inner_edges : forall c a b, ~ (ends_with a c /\ starts_with b c) ->
  (cycle_check c [ContainsEdge (a, b)] = true <-> cycle_edge a b c) /\
  (cycle_check c [CNot (ContainsEdge (a, b))] = true <-> ~ cycle_edge a b c).
Proof.
  intros c a b Hno. unfold cycle_check. cbn [forallb]. rewrite !andb_true_r.
  split; rewrite check_complete_spec; cbn [holds fst snd]; unfold cycle_edge, as_path, path_from; tauto.
Qed.
Print Assumptions C70_inner_edges.
Example C70_case : ~ (ends_with 2%N [1; 2; 3; 4]%N /\ starts_with 3%N [1; 2; 3; 4]%N) /\
  cycle_edge 2 3 [1; 2; 3; 4]%N /\ built two_cycles /\
  settles (cycle_take_all two_cycles) [[1; 2]; [3]; [1; 2; 3]]%N.
Proof.
  split; [intros [_ H]; apply starts_with_cons in H; discriminate|]. split; [left; now exists [1%N], [4%N]|].
  split; apply C69_case.
Qed.
