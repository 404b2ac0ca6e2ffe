(** * Graphs on which the flow found is far from a maximum one *)
From Coq Require Import List NArith ZArith Bool Permutation Lia Arith.
From Verif Require Import Spec Base WalkFacts Graph GraphSpec GraphFacts Path PathFacts SearchFacts IterFacts Topo TopoFacts
  MaxFlow FlowSpec FlowFacts FlowBound FlowMax.
Import ListNotations.
Open Scope Z_scope.

Section Gap.
  Variables (g : graph) (cap : edge -> N) (s t : N).
  Hypothesis W : wf g.
  Hypothesis Hst : s <> t.
  Let L := edges g.
  Hypothesis Hcap : forall e, In e L -> cap e = 1%N.

  Lemma unit_fits : forall e, In e L -> (cap e <= u64_max)%N.
  Proof. intros e He. rewrite (Hcap e He). unfold u64_max. lia. Qed.

  (** The search returns a shortest path among those with room. *)
  Lemma search_shortest : exists n0, forall m, table g cap m -> forall n p d, (n0 <= n)%nat ->
    find_augmenting_path g m s t n = Done (Some (p, d)) -> exists q, p = tag q /\
      simple_from_to (gE g) s t q /\ d = least (map (resid cap m) (to_edge_list q)) /\ (0 < d)%N /\
      forall q', simple_from_to (gE g) s t q' -> (forall e, In e (to_edge_list q') -> (0 < resid cap m e)%N) ->
        (hops q <= hops q')%nat.
  Proof.
    destruct (bfs_path_collect g W s) as (out & Hset & Henum & Hlev). destruct Hset as [n0 Hn0]. exists n0.
    intros m Ht n p d Hn H. unfold find_augmenting_path in H. change [aug_new s] with (map tag [[s]]) in H.
    rewrite (aug_next_find g cap s t W Hst m Ht) in H.
    2:{ intros q [<-|[]]. split; [split; [now exists []|]|repeat constructor; tauto].
        intros x y Hxy. now apply adjacent_one in Hxy. }
    rewrite (iter_find_collect _ _ _ _ n _ out) in H by now apply Hn0. cbn [obind] in H.
    change (@find path (augments cap t m) out) with (@find (list N) (augments cap t m) out) in H. destruct (find (augments cap t m) out) as [q|] eqn:Ef; [|discriminate H]. injection H as <- <-.
    exists q. split; [reflexivity|]. destruct Henum as [_ Henum].
    assert (Hpre : exists l1 l2, out = l1 ++ q :: l2 /\ forall x, In x l1 -> augments cap t m x = false).
    { clear -Ef. revert Ef. generalize (augments cap t m). intros f Ef. revert Ef. induction out as [|a out IH]; [discriminate|].
      cbn [find]. destruct (f a) eqn:Ea.
      - intros [= ->]. exists [], out. split; [reflexivity|contradiction].
      - intro Ef. destruct (IH Ef) as (l1 & l2 & -> & Hl). exists (a :: l1), l2. split; [reflexivity|]. intros x [<-|Hx]; auto. }
    apply find_some in Ef as [H1 H2]. pose proof H1 as Hq. apply Henum in H1 as [[Hs Hadj] Hn1]. unfold augments in H2.
    destruct (path_last q) as [v|] eqn:El; [|discriminate]. apply andb_true_iff in H2 as [H2 H3].
    apply N.eqb_eq in H2 as ->. apply path_last_spec in El. apply N.ltb_lt in H3.
    split; [split; [split; [assumption|split; assumption]|assumption]|]. split; [reflexivity|]. split; [assumption|].
    intros q' [(Hs' & He' & Hadj') Hn'] Hpos.
    assert (Hq' : In q' out) by (apply Henum; split; [split|]; assumption).
    destruct Hpre as (l1 & l2 & -> & Hl1). apply in_app_iff in Hq' as [Hq'|[<-|Hq']].
    - exfalso. specialize (Hl1 _ Hq'). unfold augments in Hl1. apply path_last_spec in He' as El'.
      rewrite El', N.eqb_refl in Hl1. cbn [andb] in Hl1. apply N.ltb_ge in Hl1.
      assert (Hne : map (resid cap m) (to_edge_list q') <> []).
      { intro H. apply map_eq_nil in H. now apply (path_has_edge s t Hst q' Hs' He'). }
      destruct (least_spec s t Hst _ Hne) as [Hin _]. apply in_map_iff in Hin as (e & E1 & E2). specialize (Hpos e E2). lia.
    - lia.
    - unfold hops. enough (length q <= length q')%nat by lia. apply (Hlev q q').
      + apply in_split in Hq' as (a & b & ->). exists l1, a, b. reflexivity.
      + reflexivity.
      + reflexivity.
  Qed.

  (** If [z] is the only shortest path and every path shares an edge with it, one round is all there is. *)
  Lemma one_round z : simple_from_to (gE g) s t z ->
    (forall p, simple_from_to (gE g) s t p -> (hops p <= hops z)%nat -> p = z) ->
    (forall p, simple_from_to (gE g) s t p -> exists e, In e (to_edge_list p) /\ In e (to_edge_list z)) ->
    exists m, settles (max_flow g cap s t) (1%N, m).
  Proof.
    intros Hz Huniq Hmeet. pose proof unit_fits as Hfit.
    destruct (flow_rounds g cap s t W Hst Hfit) as (n0 & ds & m1 & H1 & H2 & H3 & H4 & _).
    assert (Hd : total ds = 1%N).
    { destruct search_shortest as [n1 Hn1]. pose proof (init_table g cap s t Hst) as Ht0.
      assert (Hz0 : forall e, In e (to_edge_list z) -> In e L /\ cap e = 1%N).
      { intros e He. assert (In e L); [|split; [assumption|now apply Hcap]].
        destruct Hz as [(Zs & Ze & Za) Zn]. apply (simple_edges_incl g s W z); [split; [split|]; assumption|assumption]. }
      inversion H1 as [m E|m p d m2 ds' m' E U R]; subst.
      { exfalso. destruct (H4 z Hz) as (e & He & Hf). rewrite (init_flow g cap s t Hst), (proj2 (Hz0 e He)) in Hf. discriminate. }
      destruct (Hn1 _ Ht0 (n0 + n1)%nat p d ltac:(lia) (E (n0 + n1)%nat ltac:(lia))) as (q & -> & Hq & -> & Hpos & Hshort).
      assert (Eq : q = z).
      { apply Huniq; [assumption|]. apply Hshort; [assumption|]. intros e He. unfold resid.
        rewrite (init_flow g cap s t Hst), (proj2 (Hz0 e He)). lia. }
      subst q. assert (Hne : map (resid cap (flow_init g cap)) (to_edge_list z) <> []).
      { intro H. apply map_eq_nil in H. destruct Hz as [(Zs & Ze & _) _]. now apply (path_has_edge s t Hst z Zs Ze). }
      destruct (least_spec s t Hst _ Hne) as [Hin Hle]. apply in_map_iff in Hin as (e0 & E1 & E2). unfold resid in E1 at 1.
      rewrite (init_flow g cap s t Hst), (proj2 (Hz0 e0 E2)) in E1. set (d := least (map (resid cap (flow_init g cap)) (to_edge_list z))) in *.
      assert (Ed : d = 1%N) by (rewrite <- E1; reflexivity).
      destruct Hz as [(Zs & Ze & Za) Zn]. assert (Zf : simple_from (gE g) s z) by (split; [split|]; assumption).
      destruct (update_spec g cap s t W Hst Hfit d (to_edge_list z) (flow_init g cap) Ht0 (simple_edges_NoDup z Zn) (simple_edges_incl g s W z Zf))
        as (m3 & V1 & V2 & V3 & _).
      { intros e Hi. apply Hle. apply in_map_iff. eauto. }
      unfold update_flow in U. rewrite tag_edges, V1 in U. injection U as <-.
      inversion R as [m E'|m p d' m2 ds'' m' E' U' R']; subst.
      - cbn. rewrite Ed. reflexivity.
      - exfalso. destruct (Hn1 _ V2 (n0 + n1)%nat p d' ltac:(lia) (E' (n0 + n1)%nat ltac:(lia))) as (q & -> & Hq' & -> & Hpos' & _).
        destruct (Hmeet q Hq') as (e & M1 & M2).
        assert (Hne' : map (resid cap m3) (to_edge_list q) <> []) by (intro H; apply map_eq_nil in H; rewrite H in M1; contradiction).
        destruct (least_spec s t Hst _ Hne') as [_ Hle']. specialize (Hle' _ (in_map (resid cap m3) _ _ M1)).
        unfold resid in Hle' at 2. rewrite V3, (init_flow g cap s t Hst), (proj2 (Hz0 e M2)), Ed in Hle'.
        destruct (in_dec edge_dec e (to_edge_list z)); [|contradiction]. cbn in Hle'. lia. }
    exists m1. rewrite <- Hd. exists (n0 + S (length ds))%nat. intros n Hn. unfold max_flow.
    rewrite (rounds_loop g s t _ _ _ _ H1) by (unfold u64_max; lia). rewrite N.add_0_l, Hd. reflexivity.
  Qed.

  (** Paths that share no edge carry one unit each. *)
  Lemma sum_members (h : edge -> Z) (es : list edge) : NoDup es -> incl es L ->
    sum (fun e => (if in_dec edge_dec e es then 1 else 0) * h e) L = sum h es.
  Proof.
    induction es as [|e es IH]; intros Hn Hi.
    - apply sum_zero. intros a _. destruct (in_dec edge_dec a []) as [[]|]. lia.
    - inversion Hn as [|? ? N1 N2]; subst. cbn [sum fold_right]. fold (sum h es).
      rewrite <- IH by (try assumption; intros x Hx; apply Hi; now right).
      rewrite (sum_ext _ (fun a => ((if in_dec edge_dec a es then 1 else 0) + (if edge_eqb a e then 1 else 0)) * h a)).
      + rewrite (sum_bump (fun a => if in_dec edge_dec a es then 1 else 0) h L e 1 (L_NoDup g W)); [lia|]. apply Hi. now left.
      + intros a _. f_equal. destruct (in_dec edge_dec a (e :: es)) as [X|X], (in_dec edge_dec a es) as [Y|Y], (edge_eqb_spec a e) as [->|Z];
          try reflexivity; exfalso; cbn [In] in *; intuition congruence.
  Qed.
  Lemma disjoint_paths ps : (forall p, In p ps -> walk_from_to (gE g) s t p) -> NoDup (flat_map to_edge_list ps) ->
    exists F, feasible L (fun e => Z.of_N (cap e)) s t F (Z.of_nat (length ps)).
  Proof.
    intros Hp Hn. exists (fun e => if in_dec edge_dec e (flat_map to_edge_list ps) then 1 else 0).
    apply (balance_feasible g cap s t Hst).
    - intros e He. rewrite (Hcap e He). destruct (in_dec edge_dec e (flat_map to_edge_list ps)); lia.
    - intro chi. unfold balance. rewrite (sum_members (fun e => chi (fst e) - chi (snd e))); [|assumption|].
      + clear Hn. induction ps as [|p ps IH]; [cbn; lia|]. cbn [flat_map].
        assert (Happ : forall (f : edge -> Z) l1 l2, sum f (l1 ++ l2) = sum f l1 + sum f l2).
        { intros f l1 l2. induction l1 as [|x l1 IH1]; [reflexivity|]. cbn. unfold sum in IH1. rewrite IH1. unfold sum. lia. }
        rewrite Happ, IH by (intros; apply Hp; now right). destruct (Hp p (or_introl eq_refl)) as ([q Hq] & He & _). subst p.
        assert (E : sum (fun e : edge => chi (fst e) - chi (snd e)) (to_edge_list (s :: q)) = chi s - chi t) by exact (telescope s t Hst chi t q s He).
        rewrite E. cbn [length]. lia.
      + intros [a b] He. apply in_flat_map in He as (p & Hin & He). apply to_edge_list_In in He.
        apply (L_gE g W). now apply (Hp p Hin).
  Qed.
End Gap.
