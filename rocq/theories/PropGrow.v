(** * Answers about a graph and about a larger one (C139, C140) *)
From Coq Require Import String.
From Coq Require Import List NArith ZArith Bool Arith Lia Permutation.
From Verif Require Import Spec Base WalkFacts Graph GraphSpec GraphFacts Path ConstraintSpec PathFacts PropPath
  Queue Heap Iter IterFacts TreeFacts SearchFacts BestFacts ConstrainedFacts PropSearch Topo TopoFacts PropTopo
  Cycle CycleSpec CycleFacts PropCycle
  Text Format FormatSpec TextFacts FormatFacts Store StoreSpec StoreFacts CrashFacts PropFormat PropStore
  Cli CliSpec CliFacts Query QuerySpec QueryFacts EverySpec PropQuery PropEvery PropAgreeQuery.
Import ListNotations.
Open Scope N_scope.

(** ** C139 *)
Definition within (a b : aset) : Prop := (forall x, aV a x -> aV b x) /\ (forall x y, aE a x y -> aE b x y).
Lemma walk_more (E F : rel) x y l : (forall u v, E u v -> F u v) -> walk_from_to E x y l -> walk_from_to F x y l.
Proof. intros H (H1 & H2 & H3). split; [assumption|]. split; [assumption|]. auto. Qed.

Lemma canonical_value d n m : canonical_numeral d n -> canonical_numeral d m -> n = m.
Proof. intros (_ & <- & _) (_ & <- & _). reflexivity. Qed.
Lemma not_numeral n : ~ canonical_numeral (txt "Infinity") n.
Proof. intros ([_ F] & _). inversion F as [|? ? H _]; subst. apply ascii09_range in H. vm_compute in H. destruct H as [_ H]. now apply H. Qed.

(** What gc-short-path says about a pair of vertices. *)
Definition cost_printed (nd : N -> bool) (order : graph -> graph) (Q : squeue scored) (s : fs) (a b : text) (x y k : N) : Prop :=
  exists dx dy n lines, canonical_numeral dx x /\ canonical_numeral dy y /\ canonical_numeral n k /\
    prints (gc_short_path nd order Q a b) s
      ((txt "Shortest path from vertex " ++ dx ++ txt " to vertex " ++ dy ++ txt " with total cost of " ++ n) :: lines).
Definition none_printed (nd : N -> bool) (order : graph -> graph) (Q : squeue scored) (s : fs) (a b : text) (x y : N) : Prop :=
  exists dx dy, canonical_numeral dx x /\ canonical_numeral dy y /\
    prints (gc_short_path nd order Q a b) s [txt "Vertex " ++ dy ++ txt " is not reachable from vertex " ++ dx ++ txt "."].
Lemma short_path_cases nd order Q s g a b x y : hash_order order -> pops_least Q sp_score ->
  loads nd s g -> id_argument a x -> id_argument b y ->
  (~ reachable (gE g) x y /\ none_printed nd order Q s a b x y) \/
  (exists d, distance (gE g) x y d /\ cost_printed nd order Q s a b x y (N.of_nat d)).
Proof.
  intros O HQ HL Ha Hb. destruct (C84_short_path nd order Q s g a b x y O HQ HL Ha Hb) as (dx & dy & Hx & Hy & [[Hn HP]|(p & n & lines & _ & _ & Hd & Hn & _ & HP)]).
  - left. split; [assumption|]. now exists dx, dy.
  - right. exists (hops p). split; [assumption|]. exists dx, dy, n, lines. auto.
Qed.

(** Adding vertices and edges never makes a path longer or lets it disappear. *)
Theorem C139_short_path : forall nd order order' Q Q' s s' g g' a b x y, hash_order order -> hash_order order' ->
  pops_least Q sp_score -> pops_least Q' sp_score -> loads nd s g -> loads nd s' g' -> within (shown g) (shown g') ->
  id_argument a x -> id_argument b y ->
  none_printed nd order Q s a b x y \/
  exists k k', k' <= k /\ cost_printed nd order Q s a b x y k /\ cost_printed nd order' Q' s' a b x y k'.
Proof.
  intros nd order order' Q Q' s s' g g' a b x y O O' HQ HQ' HL HL' [_ HW] Ha Hb.
  destruct (short_path_cases nd order Q s g a b x y O HQ HL Ha Hb) as [[_ H]|(d & [[l [Hl Hd]] Hmin] & H)]; [now left|right].
  pose proof (walk_more _ (gE g') _ _ _ (fun u v => HW u v) Hl) as Hl'.
  destruct (short_path_cases nd order' Q' s' g' a b x y O' HQ' HL' Ha Hb) as [[Hn _]|(d' & [_ Hmin'] & H')].
  - exfalso. apply Hn. now exists l.
  - exists (N.of_nat d), (N.of_nat d'). split; [|now split]. specialize (Hmin' l Hl'). lia.
Qed.
Print Assumptions C139_short_path.

(** A part of a graph that can be ordered can be ordered. *)
Theorem C139_topo : forall nd order order' s s' g g' t, hash_order order -> hash_order order' -> loads nd s g -> loads nd s' g' ->
  within (shown g) (shown g') ->
  prints (gc_topo_sort nd order') s' [txt "Topological order: " ++ t] ->
  exists t', prints (gc_topo_sort nd order) s [txt "Topological order: " ++ t'].
Proof.
  intros nd order order' s s' g g' t O O' HL HL' [_ HW] HP.
  assert (HC : forall l, closed_walk (gE g) l -> closed_walk (gE g') l).
  { intros l (z & Hw & Hlen). exists z. split; [|assumption]. now apply (walk_more (gE g) (gE g')). }
  destruct (topo_run nd order' s' g' O' HL') as ([vs'|] & P' & R' & _).
  2:{ pose proof (settles_fun _ _ _ _ HP P') as E. discriminate. }
  assert (A : acyclic (gE g) \/ exists v, only_a_terminal_loop (gE g) v).
  { destruct (proj1 R') as [Ha|(v & V1 & V2 & V3)]; [discriminate|left; intros l Hl; exact (Ha l (HC l Hl))|].
    destruct (contains_edge g (v, v)) eqn:Ev.
    - right. exists v. split; [exact Ev|]. split; [intros x Hx; now apply V2, HW|]. intros l Hl. now apply V3, HC.
    - left. intros l Hl. pose proof (V3 l (HC l Hl)) as Hv. destruct Hl as (z & Hw & Hlen).
      apply walk_inv in Hw. destruct Hw as [[-> _]|(l' & u & -> & Hw & He)]; [cbn in Hlen; lia|].
      assert (u = v).
      { apply Hv. rewrite in_app_iff. left. destruct Hw as (_ & [p ->] & _). rewrite in_app_iff. right. now left. }
      assert (z = v) by (apply Hv; rewrite in_app_iff; right; now left). subst u z. unfold gE in He. congruence. }
  destruct (C88_exact nd order s g O HL) as [K _]. destruct (K A) as (vs & t' & _ & _ & _ & P). now exists t'.
Qed.
Print Assumptions C139_topo.

(** But gc-cycle can find less in a larger graph: one more vertex, and it finds no cycle at all. *)
Theorem C139_girth_refuted : exists nd s s' g g', loads nd s g /\ loads nd s' g' /\ within (shown g) (shown g') /\
  forall order, hash_order order ->
    prints (gc_cycle nd order ask_girth) s [txt "girth: 2"] /\ prints (gc_cycle nd order ask_girth) s' [txt "girth: Infinity"].
Proof.
  set (cs := [AddEdge 1 2; AddEdge 2 1]). set (cs' := [AddEdge 1 2; AddEdge 2 1; AddVertex 9]).
  set (file := txt "AddEdge 1 2" ++ [10] ++ txt "AddEdge 2 1").
  set (file' := txt "AddEdge 1 2" ++ [10] ++ txt "AddEdge 2 1" ++ [10] ++ txt "AddVertex 9").
  assert (HL : loads table (with_file file) (apply_commands cs g_new)) by reflexivity.
  assert (HL' : loads table (with_file file') (apply_commands cs' g_new)) by reflexivity.
  pose proof (refines (built_by_apply cs)) as [V1 E1]. pose proof (refines (built_by_apply cs')) as [V2 E2].
  exists table, (with_file file), (with_file file'), (apply_commands cs g_new), (apply_commands cs' g_new).
  split; [exact HL|]. split; [exact HL'|]. split.
  { split; [intros x Hx; apply V1 in Hx; apply V2; cbn in *; tauto|]. intros x y Hx. apply E1 in Hx. apply E2. cbn in *. tauto. }
  intros order O. split.
  - assert (Hall : forall u v, gV (apply_commands cs g_new) u -> gV (apply_commands cs g_new) v -> reachable (gE (apply_commands cs g_new)) u v).
    { assert (R12 : reachable (gE (apply_commands cs g_new)) 1 2) by (eapply reachable_step; [apply reachable_refl|reflexivity]).
      assert (R21 : reachable (gE (apply_commands cs g_new)) 2 1) by (eapply reachable_step; [apply reachable_refl|reflexivity]).
      intros u v Hu Hv. apply V1 in Hu, Hv. cbn in Hu, Hv. assert (Ku : u = 1 \/ u = 2) by tauto. assert (Kv : v = 1 \/ v = 2) by tauto.
      destruct Ku as [-> | ->], Kv as [-> | ->]; assumption || apply reachable_refl. }
    destruct (C87_cycle table order (with_file file) _ O HL) as (seen & [_ Hseen] & H).
    destruct (H ask_girth _ ask_girth_given eq_refl) as (kept & _ & _ & _ & K).
    destruct (K Girth eq_refl) as (lines & P & KK).
    assert (Hs : forall c, In c seen <-> simple_cycle (gE (apply_commands cs g_new)) c /\ least_first c).
    { intro c. rewrite Hseen. apply (C87_all_seen table order _ _ O HL (or_intror Hall)). }
    assert (H12 : In [1; 2] seen).
    { apply Hs. split.
      - split; [repeat constructor; cbn; intuition discriminate|]. split.
        + intros u v (p & q & Hp). destruct p as [|z [|z' p]]; cbn in Hp.
          * injection Hp as <- <- _. reflexivity.
          * discriminate.
          * apply (f_equal (@length N)) in Hp. cbn in Hp. rewrite app_length in Hp. cbn in Hp. lia.
        + exists 1, 2. split; [now exists [2]|]. split; [now exists [1]|]. reflexivity.
      - exists 1. split; [now exists [2]|]. intros y [<-|[<-|[]]]; lia. }
    destruct KK as [[Hn _]|(c & d & Hc & Hmin & Hd & ->)]; [rewrite Hn in H12; destruct H12|].
    assert (length c = 2)%nat.
    { pose proof (Hmin _ H12) as Hle. cbn in Hle. apply Hs in Hc. destruct Hc as [(_ & _ & a & b & [ta Ha] & [tb Hb] & Hab) _].
      destruct c as [|x [|y c]]; [discriminate| |cbn in *; lia]. injection Ha as -> _. destruct tb as [|z tb]; [injection Hb as ->|destruct tb; discriminate].
      apply E1 in Hab. cbn in Hab. exfalso. intuition congruence. }
    rewrite H0 in Hd. rewrite (canonical_unique _ _ _ Hd (show_spec 2)) in P. exact P.
  - destruct (girth_output table order (with_file file') _ O HL') as [[P _]|(d & n & c & _ & _ & Hc)]; [exact P|exfalso].
    assert (HE : forall u v, gE (apply_commands cs' g_new) u v -> u <> 9 /\ v <> 9).
    { intros u v H. apply E2 in H. cbn in H. intuition (subst; discriminate). }
    destruct Hc as ((_ & Hd2 & a & b & Ha & Hb & Hab) & _ & u & x & Vu & Hu & Hx & Hr).
    assert (S9 : source (gE (apply_commands cs' g_new)) 9) by (intros z Hz; apply HE in Hz; now apply (proj2 Hz)).
    assert (u = 9).
    { destruct Hu as [Hu|[Hu _]]; [|exfalso; now apply (Hu 9)]. apply V2 in Vu. cbn in Vu.
      assert (K : u = 9 \/ u = 1 \/ u = 2) by tauto. destruct K as [K|[-> | ->]]; [assumption| |].
      - exfalso. apply (Hu 2). reflexivity.
      - exfalso. apply (Hu 1). reflexivity. }
    subst u. destruct Hr as (l & Hl). apply walk_inv_cons in Hl. destruct Hl as [[_ <-]|(l' & z & _ & Hz & _)]; [|now apply HE in Hz].
    apply in_split in Hx. destruct Hx as (p & q & ->). destruct q as [|z q].
    + assert (b = 9) by (apply (ends_with_fun Hb); now exists p). subst b. now apply HE in Hab.
    + assert (Hz : gE (apply_commands cs' g_new) 9 z) by (apply Hd2; now exists p, q). now apply HE in Hz.
Qed.
Print Assumptions C139_girth_refuted.

(** It finds at least as much in the larger graph when it looks everywhere there (C87). *)
Theorem C139_cycles : forall nd order order' s s' g g', hash_order order -> hash_order order' ->
  loads nd s g -> loads nd s' g' -> within (shown g) (shown g') ->
  (forall v, gV g' v -> exists u, gV g' u /\ source (gE g') u /\ reachable (gE g') u v) \/
  (forall u v, gV g' u -> gV g' v -> reachable (gE g') u v) \/
  (* or where everything gc-cycle started from is still looked at *)
  ((exists u, gV g u /\ source (gE g) u) /\
   forall u, gV g u -> source (gE g) u -> exists w, gV g' w /\ source (gE g') w /\ reachable (gE g') w u) ->
  (forall d n, canonical_numeral d n -> prints (gc_cycle nd order ask_girth) s [txt "girth: " ++ d] ->
     exists d' n', n' <= n /\ canonical_numeral d' n' /\ prints (gc_cycle nd order' ask_girth) s' [txt "girth: " ++ d']) /\
  (forall a, asks a Count ->
     exists d d' n n', n <= n' /\ canonical_numeral d n /\ canonical_numeral d' n' /\
       prints (gc_cycle nd order a) s [txt "count: " ++ d] /\ prints (gc_cycle nd order' a) s' [txt "count: " ++ d']).
Proof.
  intros nd order order' s s' g g' O O' HL HL' [_ HW] Hall.
  destruct (C160_cycle nd order s g O HL) as (seen & [Hnd Hseen] & H).
  destruct (C160_cycle nd order' s' g' O' HL') as (seen' & [Hnd' Hseen'] & H').
  assert (Hin : forall c, In c seen -> In c seen').
  { intros c Hc. apply Hseen in Hc. apply Hseen'.
    assert (Hc' : simple_cycle (gE g') c /\ least_first c).
    { destruct Hc as ((C1 & C2 & x & y & C3 & C4 & C5) & C6 & _). split; [|assumption]. split; [assumption|].
      split; [intros u v Huv; now apply HW, C2|]. exists x, y. split; [assumption|]. split; [assumption|]. now apply HW. }
    destruct Hall as [Hall|[Hall|[(w & Vw & Sw) Hall]]].
    - now apply (C87_all_seen nd order' s' g' O' HL' (or_introl Hall)).
    - now apply (C87_all_seen nd order' s' g' O' HL' (or_intror Hall)).
    - destruct Hc as (_ & _ & u & x & Vu & [Su|[Su _]] & Hx & l & Hl); [|now elim (Su w)].
      destruct (Hall u Vu Su) as (z & Vz & Sz & Hr). split; [apply Hc'|]. split; [apply Hc'|]. exists z, x.
      split; [assumption|]. split; [now left|]. split; [assumption|]. apply (reachable_trans Hr). exists l.
      now apply (walk_more (gE g) (gE g')). }
  split.
  - intros d n Hd HP.
    destruct (H ask_girth _ (cycle_given_understood _ _ ask_girth_given)) as (kept & _ & _ & _ & K).
    destruct (H' ask_girth _ (cycle_given_understood _ _ ask_girth_given)) as (kept' & _ & _ & _ & K').
    destruct (K Girth eq_refl) as (lines & P & KK). destruct (K' Girth eq_refl) as (lines' & P' & KK').
    destruct KK as [[_ ->]|(c & e & Hc & Hmin & He & ->)].
    + exfalso. pose proof (settles_fun _ _ _ _ HP P) as E. injection E as E. rewrite E in Hd. now apply not_numeral in Hd.
    + pose proof (settles_fun _ _ _ _ HP P) as E. injection E as E. subst e.
      assert (n = N.of_nat (length c)) by exact (canonical_value _ _ _ Hd He). subst n.
      destruct KK' as [[Hn _]|(c' & e' & Hc' & Hmin' & He' & ->)]; [apply Hin in Hc; rewrite Hn in Hc; destruct Hc|].
      exists e', (N.of_nat (length c')). split; [specialize (Hmin' c (Hin c Hc)); lia|]. now split.
  - intros a Ha. destruct (proj2 (C160_understood no_options a)) as (r & Hg & _).
    destruct (H a r Hg) as (kept & N1 & I1 & _ & K). destruct (H' a r Hg) as (kept' & N2 & I2 & _ & K').
    destruct (K Count Ha) as (lines & P & d & Hd & ->). destruct (K' Count Ha) as (lines' & P' & d' & Hd' & ->).
    exists d, d', (N.of_nat (length kept)), (N.of_nat (length kept')). split; [|auto].
    assert (length kept <= length kept')%nat; [|lia]. apply NoDup_incl_length; [assumption|].
    intros c Hc. apply I1 in Hc. apply I2. destruct Hc as [Hc1 Hc2]. split; [now apply Hin|assumption].
Qed.
Print Assumptions C139_cycles.

(** An edge between two vertices of a Hamiltonian graph leaves it Hamiltonian; a vertex need not. *)
Theorem C139_hamiltonian : forall g g', built g -> built g' -> within (shown g) (shown g') ->
  (forall v, gV g' v -> gV g v) -> settles (is_hamiltonian g) true -> settles (is_hamiltonian g') true.
Proof.
  intros g g' Hb Hb' [W1 W2] HV Hs.
  destruct (C63_hamiltonian_paths g Hb) as (out & _ & _ & _ & b & H3 & H4).
  destruct (C63_hamiltonian_paths g' Hb') as (out' & _ & _ & _ & b' & H3' & H4').
  pose proof (settles_fun _ _ _ _ Hs H3) as E. assert (b' = true); [|now subst].
  apply H4'. symmetry in E. apply H4 in E. destruct E as [E|(p & [P1 P2] & P3 & P4)].
  - left. intros v Hv. apply (E v). now apply HV.
  - right. exists p. split; [split; [assumption|]|]. { intros x y Hxy. now apply W2, P2. }
    split; [assumption|]. intro v. rewrite P4. split; [apply W1|apply HV].
Qed.
Print Assumptions C139_hamiltonian.
Example C139_case : exists g g', loads table (with_file (txt "AddEdge 1 2")) g /\
  loads table (with_file (txt "AddEdge 1 2" ++ [10] ++ txt "AddEdge 2 3")) g' /\ within (shown g) (shown g') /\ (forall v, ~ gE g' v v) /\
  (forall v, gV g' v -> exists u, gV g' u /\ source (gE g') u /\ reachable (gE g') u v).
Proof.
  set (cs := [AddEdge 1 2; AddEdge 2 3]). exists (apply_commands [AddEdge 1 2] g_new), (apply_commands cs g_new).
  pose proof (refines (built_by_apply [AddEdge 1 2])) as [V1 E1]. pose proof (refines (built_by_apply cs)) as [V2 E2].
  split; [reflexivity|]. split; [reflexivity|]. split.
  { split; [intros x Hx; apply V1 in Hx; apply V2; cbn in *; tauto|]. intros x y Hx. apply E1 in Hx. apply E2. cbn in *. tauto. }
  split; [intros v Hv; apply E2 in Hv; cbn in Hv; intuition (subst; discriminate)|].
  intros v Hv. exists 1. split; [reflexivity|].
  split; [intros z Hz; apply E2 in Hz; cbn in Hz; intuition (subst; discriminate)|].
  assert (R2 : reachable (gE (apply_commands cs g_new)) 1 2) by (eapply reachable_step; [apply reachable_refl|reflexivity]).
  apply V2 in Hv. cbn in Hv. assert (K : v = 1 \/ v = 2 \/ v = 3) by tauto.
  destruct K as [-> | [-> | ->]]; [apply reachable_refl|exact R2|]. eapply reachable_step; [exact R2|reflexivity].
Qed.

(** ** C140: costs behave as distances *)
Theorem C140_distances : forall nd order order' order2 Q Q' Q2 s g a b c x y z, hash_order order -> hash_order order' -> hash_order order2 ->
  pops_least Q sp_score -> pops_least Q' sp_score -> pops_least Q2 sp_score -> loads nd s g ->
  id_argument a x -> id_argument b y -> id_argument c z ->
  (cost_printed nd order Q s a b x y 0 <-> x = y) /\
  (x <> y -> (cost_printed nd order Q s a b x y 1 <-> contains_edge g (x, y) = true)) /\
  (none_printed nd order Q s a b x y \/ none_printed nd order' Q' s b c y z \/
   exists k k' k2, cost_printed nd order Q s a b x y k /\ cost_printed nd order' Q' s b c y z k' /\
     cost_printed nd order2 Q2 s a c x z k2 /\ k2 <= k + k').
Proof.
  intros nd order order' order2 Q Q' Q2 s g a b c x y z O O' O2 HQ HQ' HQ2 HL Ha Hb Hc.
  assert (Huniq : forall k k', cost_printed nd order Q s a b x y k -> cost_printed nd order Q s a b x y k' -> k = k').
  { intros k k' (dx & dy & n & l & A1 & A2 & A3 & A4) (dx' & dy' & n' & l' & B1 & B2 & B3 & B4).
    rewrite (canonical_unique _ _ _ B1 A1), (canonical_unique _ _ _ B2 A2) in B4.
    pose proof (settles_fun _ _ _ _ A4 B4) as E. apply (f_equal (hd [])) in E. cbn [hd] in E.
    do 5 apply app_inv_head in E. subst n'. exact (canonical_value _ _ _ A3 B3). }
  assert (Hnone : forall k, none_printed nd order Q s a b x y -> ~ cost_printed nd order Q s a b x y k).
  { intros k (dx & dy & _ & _ & A4) (dx' & dy' & n' & l' & _ & _ & _ & B4).
    pose proof (settles_fun _ _ _ _ A4 B4) as E. discriminate. }
  destruct (short_path_cases nd order Q s g a b x y O HQ HL Ha Hb) as [[Hn HP]|(d & Hd & HP)].
  - split; [|split; [|now left]].
    + split; [intro H; now apply Hnone in H|]. intros ->. exfalso. apply Hn, reachable_refl.
    + intros _. split; [intro H; now apply Hnone in H|]. intro H. exfalso. apply Hn. eapply reachable_step; [apply reachable_refl|exact H].
  - pose proof Hd as [[l [Hl Hld]] Hmin]. split; [|split].
    + split.
      * intro H. apply (Huniq _ _ HP) in H. assert (d = 0)%nat by lia. subst d. destruct Hl as ([t ->] & Hend & _).
        destruct t as [|u t]; [|unfold hops in H0; cbn in H0; lia]. destruct Hend as [[|? t'] E]; [now injection E|destruct t'; discriminate].
      * intros ->. assert (d = 0)%nat; [|subst; rewrite H in HP; exact HP]. specialize (Hmin [y] (walk_one _ _)). unfold hops in Hmin. cbn in Hmin. lia.
    + intro Hne. split.
      * intro H. apply (Huniq _ _ HP) in H. assert (E1 : hops l = 1%nat) by lia. destruct Hl as ([t ->] & Hend & Hadj).
        destruct t as [|u [|w t]]; unfold hops in E1; cbn in E1; try lia. destruct Hend as [[|? [|? t']] E]; [discriminate| |destruct t'; discriminate].
        injection E as _ ->. apply Hadj. now exists [], [].
      * intro H. assert (d = 1)%nat; [|subst; rewrite H0 in HP; exact HP].
        assert (W : walk_from_to (gE g) x y [x; y]) by (apply walk_cons with y; [exact H|apply walk_one]).
        specialize (Hmin _ W). unfold hops in Hmin at 1. cbn in Hmin.
        assert (d <> 0)%nat; [|lia]. intro E0. destruct Hl as ([t ->] & Hend & _). destruct t as [|u t]; [|unfold hops in Hld; cbn in Hld; lia].
        apply Hne. destruct Hend as [[|? t'] E]; [now injection E|destruct t'; discriminate].
    + right. destruct (short_path_cases nd order' Q' s g b c y z O' HQ' HL Hb Hc) as [[_ HP']|(d' & [[l' [Hl' Hld']] Hmin'] & HP')]; [now left|right].
      assert (W : exists l2, walk_from_to (gE g) x z l2 /\ hops l2 = (d + d')%nat).
      { destruct (proj1 Hl') as [t Et]. subst l'. exists (l ++ t). split; [eapply walk_app; eassumption|].
        destruct (proj1 Hl) as [t' ->]. unfold hops in *. rewrite app_length in *. cbn in *. lia. }
      destruct W as (l2 & Hl2 & E2).
      destruct (short_path_cases nd order2 Q2 s g a c x z O2 HQ2 HL Ha Hc) as [[Hn _]|(d2 & [_ Hmin2] & HP2)].
      { exfalso. apply Hn. now exists l2. }
      exists (N.of_nat d), (N.of_nat d'), (N.of_nat d2). split; [assumption|]. split; [assumption|]. split; [assumption|].
      specialize (Hmin2 l2 Hl2). lia.
Qed.
Print Assumptions C140_distances.
Example C140_case : exists g, loads table (with_file (txt "AddEdge 1 2" ++ [10] ++ txt "AddEdge 2 3")) g /\
  id_argument (txt "1") 1 /\ id_argument (txt "3") 3 /\ reachable (gE g) 1 3.
Proof.
  exists (apply_commands [AddEdge 1 2; AddEdge 2 3] g_new). split; [reflexivity|]. split; [now apply parse_id_spec|].
  split; [now apply parse_id_spec|]. apply reachable_step with 2; [|reflexivity]. eapply reachable_step; [apply reachable_refl|reflexivity].
Qed.
