(** * C180: the k cheapest paths *)
From Coq Require Import List NArith ZArith Bool Arith Lia Permutation.
From Verif Require Import Spec Base WalkFacts Graph GraphSpec GraphFacts Path PathFacts ConstraintSpec
  Queue Heap Iter IterFacts TreeFacts SearchFacts BestFacts ConstrainedFacts PropSearch Further.
Import ListNotations.

(** [l] lists [k] cheapest elements of [P], or all elements of [P] if there are fewer, in order of cost. *)
Record k_cheapest (P : path -> Prop) (cost : path -> Z) (k : nat) (l : list path) : Prop := {
  kc_each_once : NoDup l;
  kc_belong : forall p, In p l -> P p;
  kc_order : forall p q, before p q l -> (cost p <= cost q)%Z;
  kc_cheap : forall p q, P p -> In q l -> ~ In p l -> (cost q <= cost p)%Z;
  kc_number : (length l = k \/ length l < k /\ forall p, P p -> In p l) }.
(** What the caller asks for: the items that end at [t] and pass the complete checks (a_star.rs l.60-63). *)
Definition asked_for (t : N) (cs : list constraint) (sp : scored) : bool :=
  last_is t sp && forallb (fun c => check_complete c sp) cs.
Definition meets g s t cs (f : path -> Z) (p : path) : Prop :=
  walk_from_to (gE g) s t p /\ forall c, In c cs -> holds c p (f p).

Lemma before_map A B (h : A -> B) l x y : before x y (map h l) -> exists a b, before a b l /\ h a = x /\ h b = y.
Proof.
  intros (p & q & r & E). apply map_eq_app in E as (lp & l1 & -> & <- & E). apply map_eq_cons in E as (a & l2 & -> & <- & E).
  apply map_eq_app in E as (lq & l3 & -> & <- & E). apply map_eq_cons in E as (b & lr & -> & <- & <-). exists a, b. split; [|now split]. now exists lp, lq, lr.
Qed.
Lemma before_filter A (h : A -> bool) l x y : before x y (filter h l) -> before x y l.
Proof.
  induction l as [|a l IH]; intros (p & q & r & E); [destruct p; discriminate|]. cbn [filter] in E.
  assert (Hcons : forall z, before x y l -> before x y (z :: l)).
  { intros z (p' & q' & r' & ->). now exists (z :: p'), q', r'. }
  destruct (h a).
  - destruct p as [|b p].
    + injection E as <- E. assert (Hy : In y l).
      { assert (X : In y (filter h l)) by (rewrite E; apply in_app_iff; right; now left). now apply filter_In in X. }
      apply in_split in Hy as (l1 & l2 & ->). now exists [], l1, l2.
    + injection E as <- E. apply Hcons, IH. now exists p, q, r.
  - apply Hcons, IH. now exists p, q, r.
Qed.
Lemma NoDup_map_filter A B (h : A -> bool) (m : A -> B) l : NoDup (map m l) -> NoDup (map m (filter h l)).
Proof.
  induction l as [|a l IH]; intro H; [constructor|]. cbn [map filter] in *. apply NoDup_cons_iff in H as [H1 H2]. destruct (h a); [|auto].
  cbn [map]. constructor; [|auto]. intro Hi. apply H1. apply in_map_iff in Hi as (x & <- & Hx). apply filter_In in Hx. now apply in_map.
Qed.

Lemma asked_for_spec t cs f p : asked_for t cs (node f p) = true <-> ends_with t p /\ (forall c, In c cs -> holds c p (f p)).
Proof. exact (pred_spec f cs t p). Qed.
Lemma k_cheapest_read Q g f cs s t k out q : wf g -> pops_least Q sp_score -> never_decreases g s f ->
  reads (constrained_next Q g f cs) (constrained_iter_from Q f s) out q ->
  length (filter (asked_for t cs) out) = k \/ (length (filter (asked_for t cs) out) < k /\ q_content Q q = []) ->
  k_cheapest (meets g s t cs f) f k (map sp_path (filter (asked_for t cs) out)) /\
  (forall sp, In sp (filter (asked_for t cs) out) -> sp_score sp = f (sp_path sp)).
Proof.
  intros W HQ Hm Hr Hk. pose proof (reads_oinv Q g f cs s W Hm HQ out q Hr) as HO. pose proof (oi_c _ _ _ _ _ _ _ HO) as Hc.
  assert (Hnode : forall sp, In sp out -> exists p, sp = node f p /\ walk_from (gE g) s p).
  { intros sp Hsp. destruct (out_node Q g f cs s W out q sp Hc Hsp) as (p & -> & Hl). exists p. split; [reflexivity|exact (proj1 Hl)]. }
  assert (Hsc : forall sp, In sp (filter (asked_for t cs) out) -> sp_score sp = f (sp_path sp)).
  { intros sp Hsp. apply filter_In in Hsp as [Hsp _]. destruct (Hnode sp Hsp) as (p & -> & _). reflexivity. }
  split; [|exact Hsc].
  assert (Hin : forall p, In (node f p) out -> meets g s t cs f p -> In p (map sp_path (filter (asked_for t cs) out))).
  { intros p Hp [Hw Hs]. apply in_map_iff. exists (node f p). split; [reflexivity|]. apply filter_In. split; [assumption|].
    apply asked_for_spec. split; [apply Hw|assumption]. }
  constructor.
  - apply NoDup_map_filter. eapply oinv_nodup; eassumption.
  - intros p Hp. apply in_map_iff in Hp as (sp & <- & Hsp). apply filter_In in Hsp as [Hsp Ha].
    destruct (Hnode sp Hsp) as (p & -> & Hw). cbn [node sp_path]. apply asked_for_spec in Ha as [He Hs]. split; [|assumption].
    destruct Hw as [H1 H2]. now repeat split.
  - intros p r Hb. apply before_map in Hb as (a & b & Hb & <- & <-). assert (Ha : In a (filter (asked_for t cs) out) /\ In b (filter (asked_for t cs) out)).
    { destruct Hb as (x & y & z & ->). split; apply in_app_iff; right; [now left|right; apply in_app_iff; right; now left]. }
    rewrite <- (Hsc a), <- (Hsc b) by apply Ha. apply (oi_order _ _ _ _ _ _ _ HO). eapply before_filter. exact Hb.
  - intros p r Hp Hq Hn. destruct (read_or_later Q g f cs s W Hm out q p HO (walk_from_to_from (proj1 Hp)) (proj2 Hp)) as [H|[_ H]].
    + elim Hn. now apply Hin.
    + apply in_map_iff in Hq as (sp & <- & Hsp). rewrite <- (Hsc sp Hsp). apply H. now apply filter_In in Hsp.
  - rewrite map_length. destruct Hk as [Hk|[Hk Hq]]; [now left|]. right. split; [assumption|]. intros p Hp.
    destruct (read_or_later Q g f cs s W Hm out q p HO (walk_from_to_from (proj1 Hp)) (proj2 Hp)) as [H|[H _]]; [now apply Hin|now elim H].
Qed.
(** ** Whatever is answered is right. *)
Theorem C180_answers : forall (Q : squeue scored) g f cs s t k fuel out, built g -> pops_least Q sp_score -> never_decreases g s f ->
  take_matching (asked_for t cs) (constrained_next Q g f cs) fuel k (constrained_iter_from Q f s) = Done out ->
  k_cheapest (meets g s t cs f) f k (map sp_path out) /\ (forall sp, In sp out -> sp_score sp = f (sp_path sp)).
Proof.
  intros Q g f cs s t k fuel out Hb HQ Hm H. apply take_matching_reads in H as (l & r & Hr & -> & Hk).
  apply (k_cheapest_read Q g f cs s t k l r (built_wf Hb) HQ Hm Hr). destruct Hk as [Hk|[Hk Hs]]; [now left|right]. split; [assumption|].
  pose proof (cinv_next Q g f cs s (built_wf Hb) l r (reads_cinv Q g f cs s (built_wf Hb) l r Hr)) as X. now rewrite Hs in X.
Qed.
Print Assumptions C180_answers.
(** ** [k] paths are found if there are [k]. *)
Theorem C180_found : forall (Q : squeue scored) g f cs s t ps, built g -> pops_least Q sp_score -> each_edge_costs g s f ->
  NoDup ps -> (forall p, In p ps -> meets g s t cs f p) ->
  exists out, settles (fun n => take_matching (asked_for t cs) (constrained_next Q g f cs) n (length ps) (constrained_iter_from Q f s)) out /\
    length out = length ps.
Proof.
  intros Q g f cs s t ps Hb HQ Hi Hnd Hps. pose proof (built_wf Hb) as W. pose proof (increasing_monotone g f s Hi) as Hm.
  assert (HC : exists C, forall p, In p ps -> (f p <= C)%Z).
  { clear - ps. induction ps as [|p ps [C IH]]; [exists 0%Z; intros p []|]. exists (Z.max (f p) C). intros q [<-|Hq]; [lia|]. specialize (IH q Hq). lia. }
  destruct HC as [C HC]. set (L := Z.to_nat (C - f [s]) + 1).
  destruct (take_matching_total (constrained_next Q g f cs) (asked_for t cs) (oinv Q g f cs s) (length (lists_upto (s :: vertices g) L)) (length ps)) with (s := constrained_iter_from Q f s) as [out Hout].
  - intros out q HO. pose proof (oinv_next Q g f cs s W Hm HQ out q HO) as X. now destruct (constrained_next Q g f cs q).
  - intros out q HO Hlt. apply (short_bound Q g f cs s W out q L (oi_c _ _ _ _ _ _ _ HO)). intros p Hp.
    assert (Hex : exists p0, In p0 ps /\ ~ In (node f p0) out).
    { destruct (Exists_dec (fun p => ~ In (node f p) out) ps) as [He|He].
      - intro x. destruct (in_dec (fun a b : scored => ltac:(decide equality; [apply Z.eq_dec|apply (list_eq_dec N.eq_dec)]) : {a = b} + {a <> b}) (node f x) out) as [Hx|Hx]; [right; tauto|now left].
      - apply Exists_exists in He. destruct He as (x & H1 & H2). now exists x.
      - exfalso. assert (Hle : length ps <= length (map sp_path (filter (asked_for t cs) out))).
        { apply NoDup_incl_length; [assumption|]. intros x Hx.
          destruct (in_dec (fun a b : scored => ltac:(decide equality; [apply Z.eq_dec|apply (list_eq_dec N.eq_dec)]) : {a = b} + {a <> b}) (node f x) out) as [Hy|Hy];
            [|elim He; apply Exists_exists; now exists x].
          apply in_map_iff. exists (node f x). split; [reflexivity|]. apply filter_In. split; [assumption|]. apply asked_for_spec.
          destruct (Hps x Hx) as [Hw Hs]. split; [apply Hw|assumption]. }
        rewrite map_length in Hle. lia. }
    destruct Hex as (p0 & Hp0 & Hno). destruct (Hps p0 Hp0) as [Hw Hs].
    destruct (read_or_later Q g f cs s W Hm out q p0 HO (walk_from_to_from Hw) Hs) as [H|[_ H]]; [contradiction|].
    specialize (H _ Hp). cbn [node sp_score] in H. specialize (HC p0 Hp0).
    destruct (out_node Q g f cs s W out q _ (oi_c _ _ _ _ _ _ _ HO) Hp) as (p' & E & Hl). injection E as <- _.
    pose proof (increasing_length g f s p Hi (proj1 Hl)) as Hlen. unfold L. unfold hops in Hlen. lia.
  - apply oinv_init; assumption.
  - exists out. split; [exact Hout|]. destruct Hout as [n0 Hn]. specialize (Hn n0 (le_n _)).
    destruct (C180_answers Q g f cs s t (length ps) n0 out Hb HQ Hm Hn) as [[_ _ _ _ Hk] _]. rewrite map_length in Hk.
    destruct Hk as [Hk|[Hk Hall]]; [assumption|]. exfalso.
    assert (length ps <= length (map sp_path out)) by (apply NoDup_incl_length; [assumption|]; intros x Hx; apply Hall; auto).
    rewrite map_length in *. lia.
Qed.
Print Assumptions C180_found.
(** ** With a bound on the length, or without cycles, the answer comes for every [k]. *)
Theorem C180_bounded : forall (Q : squeue scored) g f cs s t k, built g -> pops_least Q sp_score -> never_decreases g s f ->
  (exists n, In (MaxLength n) cs) \/ In (CNot ContainsCycle) cs ->
  exists out, settles (fun n => take_matching (asked_for t cs) (constrained_next Q g f cs) n k (constrained_iter_from Q f s)) out.
Proof.
  intros Q g f cs s t k Hb HQ Hm Hbd. pose proof (built_wf Hb) as W.
  assert (HL : exists L, forall p, live g f cs s p -> length p <= L).
  { destruct Hbd as [[n Hn]|Hc].
    - exists (Nat.max 1 n). intros p Hp. eapply live_max_length; eassumption.
    - exists (length (vertices g) + 1). intros p Hp. eapply live_no_cycle; eassumption. }
  destruct HL as [L HL].
  apply (take_matching_total (constrained_next Q g f cs) (asked_for t cs) (oinv Q g f cs s) (length (lists_upto (s :: vertices g) L)) k).
  - intros out q HO. pose proof (oinv_next Q g f cs s W Hm HQ out q HO) as X. now destruct (constrained_next Q g f cs q).
  - intros out q HO _. apply (short_bound Q g f cs s W out q L (oi_c _ _ _ _ _ _ _ HO)). intros p Hp.
    destruct (out_node Q g f cs s W out q _ (oi_c _ _ _ _ _ _ _ HO) Hp) as (p' & E & Hl). injection E as <- _. now apply HL.
  - apply oinv_init; assumption.
Qed.
Print Assumptions C180_bounded.
(** ** One path: what [constrained_shortest_path] answers. *)
Theorem C180_first : forall (Q : squeue scored) g cost heur cs s t fuel,
  let f := fun p => (cost p + heur p)%Z in
  constrained_shortest_path Q g cost heur s t cs fuel =
    obind (take_matching (asked_for t cs) (constrained_next Q g f cs) fuel 1 (constrained_iter_from Q f s)) (fun l => Done (hd_error l)).
Proof.
  intros Q g cost heur cs s t fuel f. unfold constrained_shortest_path. fold f.
  change (fun sp : scored => last_is t sp && forallb (fun c : constraint => check_complete c sp) cs) with (asked_for t cs).
  generalize (constrained_iter_from Q f s) as q. induction fuel as [|n IH]; intro q; [reflexivity|]. cbn [iter_find take_matching].
  destruct (constrained_next Q g f cs q) as [a q'| |]; [|reflexivity|reflexivity]. destruct (asked_for t cs a); [|apply IH]. now destruct n.
Qed.
Print Assumptions C180_first.
(** ** Asking for more paths does not change the first ones. *)
Theorem C180_more : forall A S (pred : A -> bool) (next : S -> step A S) j k n m s out more,
  take_matching pred next n k s = Done out -> take_matching pred next m (k + j) s = Done more -> out = firstn k more.
Proof.
  intros A S0 pred next j k n m s out more H1 H2.
  apply (fun H => take_matching_mono next pred n k s out (n + m) H ltac:(lia)) in H1.
  apply (fun H => take_matching_mono next pred m (k + j) s more (n + m) H ltac:(lia)) in H2. revert H1 H2. generalize (n + m) as u. clear n m.
  intro u. revert k s out more. induction u as [|u IH]; intros k s out more H1 H2.
  - destruct k; [now injection H1 as <-|discriminate].
  - destruct k as [|k]; [injection H1 as <-; reflexivity|]. cbn [take_matching plus] in H1, H2. destruct (next s) as [a s'| |]; [|now injection H1 as <-; injection H2 as <-|discriminate].
    destruct (pred a).
    + destruct (take_matching pred next u k s') as [o| |] eqn:E1; try discriminate. destruct (take_matching pred next u (k + j) s') as [o'| |] eqn:E2; try discriminate.
      cbn in H1, H2. injection H1 as <-. injection H2 as <-. cbn [firstn]. f_equal. now apply (IH k s').
    + apply (IH (Datatypes.S k) s' out more H1 H2).
Qed.
Print Assumptions C180_more.
(** ** The [k] shortest simple paths, by the breadth-first enumeration of paths. *)
Definition ends_at (t : N) (p : path) : bool := match path_last p with Some x => N.eqb x t | None => false end.
Theorem C180_simple : forall g s t k, built g ->
  exists out, settles (fun n => take_matching (ends_at t) (bfs_path_next g) n k (bfs_path_iter_from s)) out /\
    k_cheapest (simple_from_to (gE g) s t) (fun p => Z.of_nat (hops p)) k out.
Proof.
  intros g s t k Hb. destruct (C42_simple_paths g s Hb) as (_ & all & (n0 & Hn) & [Hnd Hall] & Hord).
  exists (firstn k (filter (ends_at t) all)). split.
  - exists n0. intros n Hle. apply take_matching_collect. now apply Hn.
  - assert (Hsp : forall p, In p (filter (ends_at t) all) <-> simple_from_to (gE g) s t p).
    { intro p. rewrite filter_In, Hall. pose proof (last_is_spec t {| sp_path := p; sp_score := 0 |}) as X. cbn [sp_path] in X.
      change (ends_at t p) with (last_is t {| sp_path := p; sp_score := 0 |}). rewrite X. unfold simple_from, simple_from_to, walk_from, walk_from_to. tauto. }
    assert (Hsplit : filter (ends_at t) all = firstn k (filter (ends_at t) all) ++ skipn k (filter (ends_at t) all)) by now rewrite firstn_skipn.
    assert (Hin : forall p, In p (firstn k (filter (ends_at t) all)) -> In p (filter (ends_at t) all)) by (intros p Hp; rewrite Hsplit; apply in_app_iff; now left).
    assert (Hlen : forall p q, before p q (filter (ends_at t) all) -> (Z.of_nat (hops p) <= Z.of_nat (hops q))%Z).
    { intros p q Hb'. apply before_filter in Hb'. specialize (Hord p q Hb'). unfold hops. unfold path in *. lia. }
    constructor.
    + assert (X : NoDup (filter (ends_at t) all)) by now apply NoDup_filter. rewrite Hsplit in X. now apply NoDup_app_iff in X.
    + intros p Hp. now apply Hsp, Hin.
    + intros p q (x & y & z & E). apply Hlen. rewrite Hsplit, E. exists x, y, (z ++ skipn k (filter (ends_at t) all)). now rewrite <- app_assoc, <- app_comm_cons, <- app_assoc, <- app_comm_cons.
    + intros p q Hp Hq Hno. apply Hsp in Hp. rewrite Hsplit in Hp. apply in_app_iff in Hp as [Hp|Hp]; [contradiction|]. apply Hlen. rewrite Hsplit.
      apply in_split in Hq as (x & y & ->). apply in_split in Hp as (z & w & ->). exists x, (y ++ z), w. now rewrite <- !app_assoc, <- app_comm_cons.
    + destruct (le_lt_dec k (length (filter (ends_at t) all))) as [Hk|Hk]; [left; now apply firstn_length_le|].
      right. rewrite firstn_all2 by lia. split; [assumption|]. intros p Hp. now apply Hsp.
Qed.
Print Assumptions C180_simple.
(** ** The search behind A* has one path for each vertex: there is no second one to ask for. *)
Theorem C180_best_first_one : forall (Q : squeue scored) g f s t k, built g -> 2 <= k ->
  exists out, settles (fun n => take_matching (last_is t) (best_next Q g f) n k (best_iter_from Q f s)) out /\
    (length out = 1 <-> reachable (gE g) s t) /\ (length out = 0 <-> ~ reachable (gE g) s t).
Proof.
  intros Q g f s t k Hb Hk. destruct (C43_best_first Q g f s Hb) as (all & (n0 & Hn) & Hnd & Hsound & Hall & Hone).
  exists (firstn k (filter (last_is t) all)). split; [exists n0; intros n Hle; apply take_matching_collect; now apply Hn|].
  assert (Hle : length (filter (last_is t) all) <= 1).
  { destruct (filter (last_is t) all) as [|a [|b l]] eqn:E; cbn [length]; try lia. exfalso.
    assert (Ha : In a (filter (last_is t) all)) by (rewrite E; now left). assert (Hb' : In b (filter (last_is t) all)) by (rewrite E; right; now left).
    apply filter_In in Ha as [Ha1 Ha2]. apply filter_In in Hb' as [Hb1 Hb2]. apply last_is_spec in Ha2. apply last_is_spec in Hb2.
    assert (a = b) by (eapply Hone; eassumption). subst b. assert (X : NoDup (filter (last_is t) all)) by now apply NoDup_filter.
    rewrite E in X. apply NoDup_cons_iff in X as [X _]. apply X. now left. }
  assert (Hr : reachable (gE g) s t <-> filter (last_is t) all <> []).
  { split.
    - intros H E. destruct (Hall t H) as (sp & Hsp & He). assert (X : In sp (filter (last_is t) all)) by (apply filter_In; split; [assumption|now apply last_is_spec]).
      rewrite E in X. destruct X.
    - intro H. destruct (filter (last_is t) all) as [|a l] eqn:E; [now elim H|]. assert (Ha : In a (filter (last_is t) all)) by (rewrite E; now left).
      apply filter_In in Ha as [Ha1 Ha2]. apply last_is_spec in Ha2. destruct (Hsound a Ha1) as (t' & [Hw _] & _).
      assert (t' = t) as ->; [|exists (sp_path a); exact Hw]. destruct Hw as (_ & [x Hx] & _). destruct Ha2 as [y Hy]. rewrite Hx in Hy. now apply app_inj_tail in Hy. }
  rewrite firstn_all2 by lia. rewrite Hr. destruct (filter (last_is t) all) as [|a [|b l]]; cbn [length] in *; try lia.
  - split; split; intro H; try lia; try (now elim H).
  - split; split; intro H; try lia; try discriminate. elim H. discriminate.
Qed.
Print Assumptions C180_best_first_one.
Example C180_case : built s_graph /\ pops_least (MinPriorityQueue sp_score) sp_score /\ each_edge_costs s_graph 1 one_weighted_edge /\
  (forall p, In p [[1; 5]; [1; 2; 5]; [1; 2; 4; 1; 5]]%N -> meets s_graph 1 5 [CNot (ContainsVertex 3)]%N one_weighted_edge p) /\
  take_matching (asked_for 5 [CNot (ContainsVertex 3)]%N) (constrained_next (MinPriorityQueue sp_score) s_graph one_weighted_edge [CNot (ContainsVertex 3)]%N) 40 3
    (constrained_iter_from (MinPriorityQueue sp_score) one_weighted_edge 1) =
    Done [{| sp_path := [1; 5]; sp_score := 1 |}; {| sp_path := [1; 2; 5]; sp_score := 2 |}; {| sp_path := [1; 2; 4; 1; 5]; sp_score := 4 |}]%N.
Proof.
  split; [exact s_built|]. split; [apply min_pops_least|]. split.
  { intros p v Hp _. unfold one_weighted_edge, path_size. rewrite app_length. cbn [length]. destruct p; [congruence|]. cbn [length]. lia. }
  split; [|vm_compute; reflexivity].
  intros p Hp. assert (X : exists n, take_matching (asked_for 5 [CNot (ContainsVertex 3)]%N) (constrained_next (MinPriorityQueue sp_score) s_graph one_weighted_edge [CNot (ContainsVertex 3)]%N) n 3
    (constrained_iter_from (MinPriorityQueue sp_score) one_weighted_edge 1) =
    Done [{| sp_path := [1; 5]; sp_score := 1 |}; {| sp_path := [1; 2; 5]; sp_score := 2 |}; {| sp_path := [1; 2; 4; 1; 5]; sp_score := 4 |}]%N) by (exists 40%nat; vm_compute; reflexivity).
  destruct X as [n X]. destruct (C180_answers _ s_graph one_weighted_edge _ 1 5 3 n _ s_built (min_pops_least sp_score)
    (fun p v _ _ => ltac:(unfold one_weighted_edge, path_size; rewrite app_length; cbn [length]; lia)) X) as [K _]. now apply (kc_belong _ _ _ _ K).
Qed.
