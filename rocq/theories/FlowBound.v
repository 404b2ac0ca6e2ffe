(** * How far the flow found can be from a maximum one *)
From Coq Require Import List NArith ZArith Bool Permutation Lia Arith.
From Verif Require Import Spec Base WalkFacts Graph GraphSpec GraphFacts Path PathFacts SearchFacts IterFacts Topo TopoFacts
  MaxFlow FlowSpec FlowFacts.
Import ListNotations.
Open Scope Z_scope.

Lemma edges_hops (p : list N) : length (to_edge_list p) = hops p.
Proof.
  destruct p as [|x p]; [reflexivity|]. revert x. induction p as [|y p IH]; intro x; [reflexivity|].
  change (to_edge_list (x :: y :: p)) with ((x, y) :: to_edge_list (y :: p)). cbn [length]. rewrite IH. unfold hops. cbn. lia.
Qed.

Lemma sum_incl_le {A} (f : A -> Z) P l : (forall a, In a l -> 0 <= f a) -> sum f (filter P l) <= sum f l.
Proof. intro H. rewrite sum_filter. apply sum_le. intros a Ha. specialize (H a Ha). destruct (P a); lia. Qed.

Section Bound.
  Variables (g : graph) (cap : edge -> N) (s t : N).
  Hypothesis W : wf g.
  Hypothesis Hst : s <> t.
  Let L := edges g.
  Hypothesis Hcap : forall e, In e L -> (cap e <= u64_max)%N.
  Variable k : nat.
  Hypothesis Hk : forall p, simple_from_to (gE g) s t p -> (hops p <= k)%nat.

  (** All the flow put on the edges: each round puts it on at most [k] of them. *)
  Definition spread (m : flows) (value : N) : Prop := sum (flowZ m) L <= Z.of_nat k * Z.of_N value.

  Lemma sum_path (m m' : flows) d es : NoDup es -> incl es L ->
    (forall e, flow_of m' e = if in_dec edge_dec e es then (flow_of m e + d)%N else flow_of m e) ->
    sum (flowZ m') L = sum (flowZ m) L + Z.of_N d * Z.of_nat (length es).
  Proof.
    intros Hn Hi Hf. pose proof (L_NoDup g W) as HL. fold L in HL.
    assert (E1 : sum (flowZ m') L = sum (flowZ m) L + sum (fun e => if in_dec edge_dec e es then Z.of_N d else 0) L).
    { clear -Hf. induction L as [|a l IH]; [reflexivity|]. cbn. unfold sum in IH. rewrite IH.
      assert (Ha : flowZ m' a = flowZ m a + (if in_dec edge_dec a es then Z.of_N d else 0)).
      { unfold flowZ. rewrite Hf. destruct (in_dec edge_dec a es); lia. }
      rewrite Ha. lia. }
    assert (E2 : sum (fun e => if in_dec edge_dec e es then Z.of_N d else 0) L = Z.of_N d * Z.of_nat (length es)); [|lia].
    clear -Hn Hi HL. revert es Hn Hi. induction L as [|a l IH]; intros es Hn Hi.
    - destruct es as [|e es]; [cbn; lia|]. exfalso. exact (Hi e (or_introl eq_refl)).
    - inversion HL as [|? ? H1 H2]; subst. cbn [sum fold_right]. destruct (in_dec edge_dec a es) as [Ha|Ha].
      + apply in_split in Ha as (p & q & ->). apply NoDup_remove in Hn as [Hn1 Hn2].
        assert (Hi' : incl (p ++ q) l).
        { intros e He. destruct (Hi e) as [<-|]; [apply in_app_iff in He; apply in_or_app; cbn; tauto|contradiction|assumption]. }
        assert (Hx : sum (fun e => if in_dec edge_dec e (p ++ a :: q) then Z.of_N d else 0) l =
                sum (fun e => if in_dec edge_dec e (p ++ q) then Z.of_N d else 0) l).
        { apply sum_ext. intros e He. destruct (in_dec edge_dec e (p ++ a :: q)) as [X|X], (in_dec edge_dec e (p ++ q)) as [Y|Y];
            try reflexivity; exfalso.
          - apply in_app_iff in X. destruct X as [X|[X|X]]; [apply Y, in_or_app; tauto|subst; contradiction|apply Y, in_or_app; tauto].
          - apply X. apply in_app_iff in Y. apply in_or_app. cbn. tauto. }
        change (Z.of_N d + sum (fun e => if in_dec edge_dec e (p ++ a :: q) then Z.of_N d else 0) l = Z.of_N d * Z.of_nat (length (p ++ a :: q))).
        rewrite Hx, (IH H2 (p ++ q) Hn1 Hi'). rewrite !app_length. cbn [length]. lia.
      + change (0 + sum (fun e => if in_dec edge_dec e es then Z.of_N d else 0) l = Z.of_N d * Z.of_nat (length es)).
        rewrite (IH H2 es Hn); [lia|]. intros e He. destruct (Hi e He) as [<-|]; [contradiction|assumption].
  Qed.

  Lemma augment_spread m value p m' : table g cap m -> spread m value -> simple_from_to (gE g) s t p ->
    update_flow m (tag p) (least (map (resid cap m) (to_edge_list p))) = Done m' ->
    spread m' (value + least (map (resid cap m) (to_edge_list p))).
  Proof.
    set (d := least (map (resid cap m) (to_edge_list p))). intros Ht Hsp Hp Hu. pose proof (Hk p Hp) as Hh.
    destruct Hp as [(Hs & He & Hadj) Hn].
    assert (Hsf : simple_from (gE g) s p) by (split; [split|]; assumption).
    pose proof (path_has_edge s t Hst p Hs He) as Hne.
    assert (Hm : map (resid cap m) (to_edge_list p) <> []) by (intro H; now apply map_eq_nil in H).
    destruct (least_spec s t Hst _ Hm) as [_ Hleast]. fold d in Hleast.
    destruct (update_spec g cap s t W Hst Hcap d (to_edge_list p) m Ht (simple_edges_NoDup p Hn) (simple_edges_incl g s W p Hsf))
      as (m2 & H1 & _ & H3 & _).
    { intros e Hin. apply Hleast. apply in_map_iff. eauto. }
    unfold update_flow in Hu. rewrite tag_edges, H1 in Hu. injection Hu as <-.
    unfold spread in *. rewrite (sum_path m m2 d (to_edge_list p) (simple_edges_NoDup p Hn) (simple_edges_incl g s W p Hsf) H3).
    rewrite edges_hops. apply inj_le in Hh. nia.
  Qed.

  Lemma rounds_spread n0 m ds m' : rounds g s t n0 m ds m' -> forall value, table g cap m -> carries g s t m value ->
    spread m value -> spread m' (value + total ds).
  Proof.
    destruct (search_bound g cap s t W Hst) as [n1 Hn1].
    induction 1 as [m H|m p d m1 ds m' H Hu Hr IH]; intros value Ht Hc Hsp.
    - cbn. now rewrite N.add_0_r.
    - destruct (Hn1 m Ht) as (r & Hrr & Hspec). specialize (H (n0 + n1)%nat ltac:(lia)). specialize (Hrr (n0 + n1)%nat ltac:(lia)).
      rewrite Hrr in H. destruct r as [q|]; [|discriminate]. cbn in H. injection H as <- <-. destruct Hspec as [Hp Hpos].
      destruct (augment g cap s t W Hst Hcap m value q Ht Hc Hp Hpos) as (m2 & U1 & U2 & U3 & _).
      rewrite U1 in Hu. injection Hu as <-.
      cbn [total fold_right]. rewrite N.add_assoc. apply IH; [assumption|assumption|].
      now apply augment_spread.
  Qed.

  (** The vertices reached along edges with room left. *)
  Lemma unsaturated_cut m : table g cap m -> blocked g cap s t m -> exists S : N -> bool, S s = true /\ S t = false /\
    forall e, In e L -> S (fst e) = true -> S (snd e) = false -> flow_of m e = cap e.
  Proof.
    intros Ht Hb. destruct (bfs_path_collect g W s) as (out & _ & [_ Henum] & _).
    set (E := fun a b => gE g a b /\ flow_of m (a, b) <> cap (a, b)).
    set (S := fun v => existsb (fun p => match path_last p with Some x => N.eqb x v | None => false end &&
                                forallb (fun e => negb (N.eqb (flow_of m e) (cap e))) (to_edge_list p)) out).
    assert (HS : forall v, S v = true <-> reachable E s v).
    { intro v. unfold S. rewrite existsb_exists. split.
      - intros (p & Hp & Hc). apply Henum in Hp as [[Hs Hadj] _]. apply andb_true_iff in Hc as [H1 H2].
        destruct (path_last p) as [x|] eqn:El; [|discriminate]. apply N.eqb_eq in H1 as ->.
        rewrite forallb_forall in H2. exists p. split; [assumption|]. split.
        { unfold path_last in El. destruct (rev p) as [|y q] eqn:Er; [discriminate|]. injection El as ->.
          exists (rev q). rewrite <- (rev_involutive p), Er. reflexivity. }
        intros a b Hab. split; [now apply Hadj|]. apply to_edge_list_In in Hab. specialize (H2 _ Hab).
        apply negb_true_iff, N.eqb_neq in H2. exact H2.
      - intros Hr. apply reachable_simple in Hr as (p & (Hs & [q He] & Hadj) & Hn). exists p. split.
        { apply Henum. split; [|assumption]. split; [assumption|]. intros a b Hab. now apply Hadj. }
        apply andb_true_iff. split.
        + unfold path_last. rewrite He, rev_app_distr. cbn. apply N.eqb_refl.
        + apply forallb_forall. intros [a b] Hab. apply to_edge_list_In in Hab. apply negb_true_iff, N.eqb_neq.
          now apply (Hadj a b). }
    exists S. split; [apply HS, reachable_refl|]. split.
    - destruct (S t) eqn:Et; [|reflexivity]. apply HS in Et. apply reachable_simple in Et as (p & (Hs & He & Hadj) & Hn). exfalso.
      destruct (Hb p) as ([a b] & Hi & Hf).
      { split; [|assumption]. split; [assumption|]. split; [assumption|]. intros a b Hab. now apply Hadj. }
      apply to_edge_list_In in Hi. now apply (proj2 (Hadj a b Hi)).
    - intros [a b] He Ha Hnb. cbn [fst snd] in *. destruct (N.eq_dec (flow_of m (a, b)) (cap (a, b))) as [|Hne]; [assumption|].
      exfalso. apply HS in Ha. assert (Hb' : S b = true); [|congruence]. apply HS. apply (@reachable_step E s a b Ha).
      split; [|assumption]. now apply (L_gE g W).
  Qed.

  (** What a feasible flow carries crosses every cut. *)
  Lemma feasible_crosses F value S : feasible L (fun e => Z.of_N (cap e)) s t F value -> S s = true -> S t = false ->
    value <= sum F (filter (fun e => S (fst e) && negb (S (snd e))) L).
  Proof.
    intros (Hc & Hv & Hs & Ht) Hss Hts.
    assert (Hbal : forall vs, NoDup vs -> sum (fun v => outflow L F v - inflow L F v) vs =
       sum (fun e => F e * ((if in_dec N.eq_dec (fst e) vs then 1 else 0) - (if in_dec N.eq_dec (snd e) vs then 1 else 0))) L).
    { induction vs as [|v vs IH]; intro Hn.
      - cbn [sum fold_right]. symmetry. apply sum_zero. intros e _. destruct (in_dec N.eq_dec (fst e) []), (in_dec N.eq_dec (snd e) []); cbn in *; try tauto; lia.
      - inversion Hn as [|? ? N1 N2]; subst. cbn [sum fold_right].
        change (outflow L F v - inflow L F v + sum (fun v => outflow L F v - inflow L F v) vs =
          sum (fun e => F e * ((if in_dec N.eq_dec (fst e) (v :: vs) then 1 else 0) - (if in_dec N.eq_dec (snd e) (v :: vs) then 1 else 0))) L).
        rewrite (IH N2). unfold outflow, inflow. rewrite !sum_filter.
        clear -N1. induction L as [|e l IHl]; [reflexivity|]. cbn [sum fold_right].
        unfold sum in IHl.
        assert (X : forall u : N, (if in_dec N.eq_dec u (v :: vs) then 1 else 0) = (if N.eqb u v then 1 else 0) + (if in_dec N.eq_dec u vs then 1 else 0)).
        { intro u. destruct (N.eqb_spec u v) as [->|Hne].
          - destruct (in_dec N.eq_dec v (v :: vs)) as [|C]; [|exfalso; apply C; now left]. destruct (in_dec N.eq_dec v vs); [contradiction|reflexivity].
          - destruct (in_dec N.eq_dec u (v :: vs)) as [[C|C]|C]; [congruence| |]; destruct (in_dec N.eq_dec u vs); try tauto; try reflexivity. exfalso. apply C. now right. }
        rewrite !X. destruct (N.eqb (fst e) v), (N.eqb (snd e) v); lia. }
    set (vs := nodup N.eq_dec (filter S (s :: map fst L ++ map snd L))).
    assert (Hn : NoDup vs) by apply NoDup_nodup.
    assert (Hvs : forall u, In u vs <-> S u = true /\ In u (s :: map fst L ++ map snd L)).
    { intro u. unfold vs. rewrite nodup_In, filter_In. tauto. }
    specialize (Hbal vs Hn).
    assert (Hleft : sum (fun v => outflow L F v - inflow L F v) vs = value).
    { assert (Hins : In s vs) by (apply Hvs; split; [assumption|now left]).
      assert (Hint : ~ In t vs) by (rewrite Hvs; intros [C _]; congruence).
      apply in_split in Hins as (a & b & Hab). rewrite Hab in Hn. apply NoDup_remove in Hn as [_ Hns].
      assert (Z0 : forall l, incl l vs -> ~ In s l -> sum (fun v => outflow L F v - inflow L F v) l = 0).
      { intros l Hl Hsl. apply sum_zero. intros v Hin. rewrite (Hv v); [lia| |].
        - intros ->. contradiction.
        - intros ->. apply Hint, Hl, Hin. }
      assert (Ha0 : sum (fun v => outflow L F v - inflow L F v) a = 0).
      { apply Z0; [intros x Hx; rewrite Hab; apply in_or_app; now left|]. intro C. apply Hns, in_or_app. now left. }
      assert (Hb0 : sum (fun v => outflow L F v - inflow L F v) b = 0).
      { apply Z0; [intros x Hx; rewrite Hab; apply in_or_app; right; now right|]. intro C. apply Hns, in_or_app. now right. }
      rewrite Hab. assert (Happ : forall (f : N -> Z) l1 l2, sum f (l1 ++ l2) = sum f l1 + sum f l2).
      { intros f l1 l2. induction l1 as [|x l1 IH1]; [reflexivity|]. cbn. unfold sum in IH1. rewrite IH1. unfold sum. lia. }
      rewrite Happ, Ha0. change (sum (fun v => outflow L F v - inflow L F v) (s :: b)) with
        (outflow L F s - inflow L F s + sum (fun v => outflow L F v - inflow L F v) b). rewrite Hb0, Z.add_0_l, Z.add_0_r. exact Hs. }
    rewrite <- Hleft, Hbal. rewrite sum_filter. apply sum_le. intros e He. destruct (Hc e He) as [Hc0 _].
    assert (I1 : forall u, In u (map fst L ++ map snd L) -> (if in_dec N.eq_dec u vs then 1 else 0) = if S u then 1 else 0).
    { intros u Hu. destruct (in_dec N.eq_dec u vs) as [C|C].
      - apply Hvs in C as [-> _]. reflexivity.
      - destruct (S u) eqn:Eu; [|reflexivity]. exfalso. apply C, Hvs. split; [assumption|now right]. }
    rewrite !I1 by (apply in_or_app; (left; now apply in_map) || (right; now apply in_map)).
    destruct (S (fst e)), (S (snd e)); cbn [andb negb]; lia.
  Qed.

  Theorem flow_bound : sum (fun e => Z.of_N (cap e)) L <= Z.of_N u64_max ->
    forall value m, settles (max_flow g cap s t) (value, m) ->
    forall F value', feasible L (fun e => Z.of_N (cap e)) s t F value' -> value' <= Z.of_nat k * Z.of_N value.
  Proof.
    intros Hsum value m Hm F value' HF.
    destruct (flow_rounds g cap s t W Hst Hcap) as (n0 & ds & m1 & H1 & H2 & H3 & H4 & _).
    assert (Hset : settles (max_flow g cap s t) (total ds, m1)).
    { exists (n0 + S (length ds))%nat. intros n Hn. unfold max_flow.
      rewrite (rounds_loop g s t _ _ _ _ H1) by (unfold u64_max; lia).
      pose proof (value_fits g cap s t Hst m1 (total ds) Hsum H2 H3) as Hv. rewrite N.add_0_l.
      replace (total ds <=? u64_max)%N with true by (symmetry; now apply N.leb_le). reflexivity. }
    pose proof (settles_fun _ _ _ _ Hm Hset) as [= -> ->].
    assert (Hsp : spread m1 (total ds)).
    { apply (rounds_spread n0 (flow_init g cap) ds m1 H1 0%N).
      - apply (init_table g cap s t Hst).
      - intro chi. unfold balance. apply sum_zero. intros e _. unfold flowZ. rewrite (init_flow g cap s t Hst). reflexivity.
      - unfold spread. rewrite sum_zero; [lia|]. intros e _. unfold flowZ. now rewrite (init_flow g cap s t Hst). }
    destruct (unsaturated_cut m1 H2 H4) as (S & Hs & Ht & Hcut).
    pose proof (feasible_crosses F value' S HF Hs Ht) as Hx. destruct HF as [HF _].
    assert (Hle : sum F (filter (fun e => S (fst e) && negb (S (snd e))) L) <= sum (flowZ m1) (filter (fun e => S (fst e) && negb (S (snd e))) L)).
    { apply sum_le. intros e He. apply filter_In in He as [He Hse]. apply andb_true_iff in Hse as [Ha Hb]. apply negb_true_iff in Hb.
      unfold flowZ. rewrite (Hcut e He Ha Hb). now apply HF. }
    pose proof (sum_incl_le (flowZ m1) (fun e => S (fst e) && negb (S (snd e))) L) as Hin.
    unfold spread in Hsp. specialize (Hin ltac:(intros; unfold flowZ; lia)). exact (Z.le_trans _ _ _ Hx (Z.le_trans _ _ _ Hle (Z.le_trans _ _ _ Hin Hsp))).
  Qed.
End Bound.
