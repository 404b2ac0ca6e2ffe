(** * C163: which flow max_flow returns *)
From Coq Require Import List NArith ZArith Bool Arith Lia.
From Verif Require Import Spec Base WalkFacts Graph GraphSpec GraphFacts Path PathFacts Queue Iter IterFacts TreeFacts SearchFacts
  Topo MaxFlow FlowSpec FlowFacts PropFlow Release ReleaseFacts PropGraph PropSearch PropRelease VisitSpec VisitFacts PropVisit FillSpec.
Import ListNotations.

Lemma same_step_eq e e' : same_step e e' = true <-> e = e'.
Proof.
  unfold same_step. destruct e as [a b], e' as [a' b']. cbn. rewrite andb_true_iff, !N.eqb_eq. split; [intros [-> ->]; reflexivity|intros [= -> ->]; auto].
Qed.
Lemma steps_edges p : steps p = to_edge_list p.
Proof.
  induction p as [|x p IH]; [reflexivity|]. destruct p as [|y p]; [reflexivity|].
  change (to_edge_list (x :: y :: p)) with ((x, y) :: to_edge_list (y :: p)). rewrite <- IH. reflexivity.
Qed.
Lemma fold_min l : forall x, In (fold_left N.min l x) (x :: l) /\ forall a, In a (x :: l) -> (fold_left N.min l x <= a)%N.
Proof.
  induction l as [|y l IH]; intro x; cbn [fold_left]; [split; [now left|intros a [<-|[]]; apply N.le_refl]|].
  destruct (IH (N.min x y)) as [H1 H2]. split.
  - destruct H1 as [H1|H1]; [rewrite <- H1; destruct (N.min_spec x y) as [[_ ->]|[_ ->]]; cbn; tauto|right; now right].
  - assert (H3 : (fold_left N.min l (N.min x y) <= N.min x y)%N) by (apply H2; now left).
    intros a [<-|[<-|Ha]]; [lia|lia|apply H2; now right].
Qed.
Lemma least_ok l : l <> [] -> In (least l) l /\ forall a, In a l -> (least l <= a)%N.
Proof. apply (FlowFacts.least_spec 0%N 1%N). discriminate. Qed.
Lemma room_least cap used p : room cap used p = least (map (fun e => cap e - used e)%N (to_edge_list p)).
Proof.
  unfold room. rewrite steps_edges. destruct (map (fun e => cap e - used e)%N (to_edge_list p)) as [|x l]; [reflexivity|].
  destruct (fold_min l x) as [H1 H2]. destruct (least_ok (x :: l)) as [H3 H4]; [discriminate|].
  pose proof (H2 _ H3). pose proof (H4 _ H1). lia.
Qed.

Section Fill.
  Variable cap : N * N -> N.
  Lemma room_ext u u' p : (forall e, u e = u' e) -> room cap u p = room cap u' p.
  Proof. intro H. rewrite !room_least. f_equal. apply map_ext. intro e. now rewrite H. Qed.
  Lemma filled_ext ps : forall u u', (forall e, u e = u' e) ->
    fst (filled cap u ps) = fst (filled cap u' ps) /\ forall e, snd (filled cap u ps) e = snd (filled cap u' ps) e.
  Proof.
    induction ps as [|p ps IH]; intros u u' H; cbn [filled]; [auto|]. rewrite (room_ext u u' p H).
    assert (Hs : forall e, sent (room cap u' p) p u e = sent (room cap u' p) p u' e) by (intro e; unfold sent; now rewrite H).
    destruct (IH _ _ Hs) as [H1 H2]. destruct (filled cap (sent (room cap u' p) p u) ps), (filled cap (sent (room cap u' p) p u') ps).
    cbn [fst snd] in *. split; [now rewrite H1|exact H2].
  Qed.
  (** Paths on which nothing is left change nothing. *)
  Lemma filled_full ps : forall qs u, (forall p, In p ps -> room cap u p = 0%N) ->
    fst (filled cap u (ps ++ qs)) = fst (filled cap u qs) /\ forall e, snd (filled cap u (ps ++ qs)) e = snd (filled cap u qs) e.
  Proof.
    induction ps as [|p ps IH]; intros qs u H; cbn [app filled]; [auto|]. rewrite (H p (or_introl eq_refl)).
    assert (Hs : forall e, sent 0 p u e = u e) by (intro e; unfold sent; destruct (existsb _ _); [apply N.add_0_r|reflexivity]).
    destruct (filled_ext (ps ++ qs) _ _ Hs) as [H1 H2]. destruct (IH qs u) as [H3 H4]; [intros; apply H; now right|].
    destruct (filled cap (sent 0 p u) (ps ++ qs)). cbn [fst snd] in *. split; [rewrite N.add_0_l; congruence|]. intro e. now rewrite H2, H4.
  Qed.
  Lemma filled_none ps u : (forall p, In p ps -> room cap u p = 0%N) -> fst (filled cap u ps) = 0%N /\ forall e, snd (filled cap u ps) e = u e.
  Proof. intro H. pose proof (filled_full ps [] u H) as K. rewrite app_nil_r in K. exact K. Qed.
  Lemma room_more u u' p : (forall e, u e <= u' e)%N -> room cap u p = 0%N -> room cap u' p = 0%N.
  Proof.
    intros H H0. rewrite room_least in *. destruct (to_edge_list p) as [|e0 es] eqn:E; [reflexivity|].
    set (l := map (fun e => cap e - u e)%N (e0 :: es)) in *. set (l' := map (fun e => cap e - u' e)%N (e0 :: es)).
    destruct (least_ok l) as [H1 _]; [discriminate|]. destruct (least_ok l') as [_ H2]; [discriminate|].
    assert (H0' : least l = 0%N) by exact H0. rewrite H0' in H1. apply in_map_iff in H1 as (e & He & Hin). specialize (H2 (cap e - u' e)%N). specialize (H e).
    assert (Hl : (least l' <= cap e - u' e)%N) by (apply H2; unfold l'; apply (in_map (fun e => cap e - u' e)%N); exact Hin). lia.
  Qed.
End Fill.

Section Rounds.
  Variables (g : graph) (cap : edge -> N) (s t : N).
  Hypothesis W : wf g.
  Hypothesis Hst : s <> t.
  Hypothesis Hcap : forall e, In e (edges g) -> (cap e <= u64_max)%N.
  Variables (out : list path) (n1 : nat).
  Hypothesis Hn1 : forall n, (n1 <= n)%nat -> collect (bfs_path_next g) n (bfs_path_iter_from s) = Done out.
  Hypothesis Hen : enumerates out (simple_from (gE g) s).
  Let P := ending_at t out.

  Lemma search_exact m n : table g cap m -> (n1 <= n)%nat -> find_augmenting_path g m s t n =
    Done (option_map (fun p => (tag p, room cap (flow_of m) p)) (find (augments cap t m) out)).
  Proof.
    intros Ht Hn. unfold find_augmenting_path. change [aug_new s] with (map tag [[s]]).
    rewrite (aug_next_find g cap s t W Hst m Ht n [[s]]).
    - rewrite (iter_find_collect _ _ _ _ n _ out); [|now apply Hn1]. cbn [obind]. apply f_equal.
      assert (K : forall o, option_map (fun p => (tag p, least (map (resid cap m) (to_edge_list p)))) o = option_map (fun p => (tag p, room cap (flow_of m) p)) o).
      { intros [p|]; [|reflexivity]. cbn [option_map]. now rewrite room_least. }
      apply K.
    - intros p [<-|[]]. split; [split; [now exists []|]|constructor; [intros []|constructor]]. intros x y H. now apply adjacent_one in H.
  Qed.
  Lemma ends_at p : (match rev p with x :: _ => N.eqb x t | [] => false end) = match path_last p with Some v => N.eqb v t | None => false end.
  Proof. unfold path_last. now destruct (rev p). Qed.
  Lemma not_augments m p : augments cap t m p = false -> In p (ending_at t [p]) -> room cap (flow_of m) p = 0%N.
  Proof.
    unfold ending_at. cbn [filter]. rewrite ends_at. unfold augments. intros H Hin. rewrite room_least.
    destruct (path_last p) as [v|]; [|destruct Hin]. destruct (N.eqb v t); [|destruct Hin]. cbn [andb] in H. apply N.ltb_ge in H.
    apply N.le_0_r. exact H.
  Qed.
  Lemma saturated l m : (forall p, In p l -> augments cap t m p = false) -> forall p, In p (ending_at t l) -> room cap (flow_of m) p = 0%N.
  Proof.
    intros H p Hp. apply filter_In in Hp as [Hp Hl]. apply not_augments; [now apply H|]. unfold ending_at. cbn [filter]. rewrite Hl. now left.
  Qed.

  Lemma rounds_fill n0 m ds m' : rounds g s t n0 m ds m' -> table g cap m ->
    total ds = fst (filled cap (flow_of m) P) /\ forall e, flow_of m' e = snd (filled cap (flow_of m) P) e.
  Proof.
    induction 1 as [m H|m ap d m1 ds m' H Hu Hr IH]; intro Ht.
    - specialize (H (n0 + n1)%nat ltac:(lia)). rewrite search_exact in H by (assumption || lia).
      destruct (find (augments cap t m) out) as [p|] eqn:Ef; [discriminate|].
      destruct (filled_none cap P (flow_of m)) as [K1 K2].
      { apply saturated. intros p Hp. exact (find_none _ _ Ef p Hp). }
      split; [now rewrite K1|]. intro e. now rewrite K2.
    - specialize (H (n0 + n1)%nat ltac:(lia)). rewrite search_exact in H by (assumption || lia).
      destruct (find (augments cap t m) out) as [p|] eqn:Ef; [|discriminate]. cbn [option_map] in H. injection H as <- <-.
      (* where it is in the list *)
      assert (Hsp : exists l r, out = l ++ p :: r /\ (forall q, In q l -> augments cap t m q = false) /\ augments cap t m p = true).
      { clear -Ef. induction out as [|x o IHo]; cbn [find] in Ef; [discriminate|]. destruct (augments cap t m x) eqn:Ex.
        - injection Ef as ->. exists [], o. split; [reflexivity|]. split; [intros q []|assumption].
        - destruct (IHo Ef) as (l & r & -> & Hl & Hp). exists (x :: l), r. split; [reflexivity|]. split; [|assumption].
          intros q [<-|Hq]; [assumption|now apply Hl]. }
      destruct Hsp as (l & r & Hout & Hl & Hp).
      assert (Hpe : match rev p with x :: _ => N.eqb x t | [] => false end = true).
      { rewrite ends_at. unfold augments in Hp. destruct (path_last p); [|discriminate]. now apply andb_true_iff in Hp. }
      assert (HP : P = ending_at t l ++ p :: ending_at t r).
      { unfold P. rewrite Hout. unfold ending_at. rewrite filter_app. cbn [filter]. now rewrite Hpe. }
      assert (Hin : In p out) by (rewrite Hout, in_app_iff; right; now left).
      apply Hen in Hin. pose proof Hin as [[Hs Hadj] Hnd].
      assert (He : ends_with t p). { rewrite ends_at in Hpe. destruct (path_last p) as [v|] eqn:El; [|discriminate]. apply N.eqb_eq in Hpe as ->. now apply path_last_spec. }
      set (d := room cap (flow_of m) p) in *.
      assert (Hne : to_edge_list p <> []) by now apply (path_has_edge s t Hst).
      assert (Hleast : forall e, In e (to_edge_list p) -> (d <= resid cap m e)%N).
      { intros e Hi. unfold d. rewrite room_least. assert (Hm : map (resid cap m) (to_edge_list p) <> []) by (intro H; now apply map_eq_nil in H).
        apply (least_ok _ Hm). now apply in_map. }
      destruct (update_spec g cap s t W Hst Hcap d (to_edge_list p) m Ht (simple_edges_NoDup p Hnd) (simple_edges_incl g s W p Hin) Hleast) as (m1' & U1 & U2 & U3 & _).
      assert (Em : m1' = m1). { unfold update_flow in Hu. rewrite tag_edges, U1 in Hu. now injection Hu. } subst m1'.
      assert (Hsent : forall e, flow_of m1 e = sent d p (flow_of m) e).
      { intro e. rewrite U3. unfold sent. rewrite steps_edges. destruct (in_dec edge_dec e (to_edge_list p)) as [Hi|Hi].
        - assert (Hx : existsb (same_step e) (to_edge_list p) = true) by (apply existsb_exists; exists e; split; [assumption|now apply same_step_eq]). now rewrite Hx.
        - destruct (existsb (same_step e) (to_edge_list p)) eqn:Hx; [|reflexivity]. apply existsb_exists in Hx as (e' & Hi' & Ee).
          apply same_step_eq in Ee. now subst e'. }
      assert (Hmore : forall e, (flow_of m e <= flow_of m1 e)%N) by (intro e; rewrite Hsent; unfold sent; destruct (existsb _ _); lia).
      destruct (IH U2) as [I1 I2].
      (* before [p] nothing was left, and nothing is left on [p] now *)
      destruct (filled_full cap (ending_at t l) (p :: ending_at t r) (flow_of m)) as [A1 A2]; [now apply saturated|].
      destruct (filled_full cap (ending_at t l ++ [p]) (ending_at t r) (flow_of m1)) as [B1 B2].
      { intros q Hq. apply in_app_iff in Hq. destruct Hq as [Hq|[<-|[]]]; [apply (room_more cap (flow_of m)); [assumption|now apply (saturated l)]|].
        rewrite room_least. assert (Hm : map (fun e => cap e - flow_of m e)%N (to_edge_list p) <> []) by (intro H; now apply map_eq_nil in H).
        destruct (least_ok _ Hm) as [Hmin _]. rewrite <- room_least in Hmin. fold d in Hmin. apply in_map_iff in Hmin as (e & Ed & Hi).
        assert (Hm' : map (fun e => cap e - flow_of m1 e)%N (to_edge_list p) <> []) by (intro H; now apply map_eq_nil in H).
        destruct (least_ok _ Hm') as [_ Hle]. specialize (Hle _ (in_map _ _ _ Hi)). cbn beta in Hle.
        rewrite U3 in Hle. destruct (in_dec edge_dec e (to_edge_list p)); [|contradiction]. apply N.le_0_r. eapply N.le_trans; [exact Hle|]. cbn beta in Ed. lia. }
      rewrite <- app_assoc in B1, B2. cbn [app] in B1, B2. rewrite <- HP in A1, A2, B1, B2.
      destruct (filled_ext cap (ending_at t r) _ _ Hsent) as [C1 C2].
      cbn [filled] in A1, A2. fold d in A1, A2.
      destruct (filled cap (sent d p (flow_of m)) (ending_at t r)) as [v u] eqn:Er. cbn [fst snd] in *.
      split; [cbn [total fold_right]; fold (total ds); rewrite I1, A1, B1, C1; reflexivity|].
      intro e. rewrite I2, A2, B2, C2. reflexivity.
  Qed.
End Rounds.

(** For all 64-bit capacities: the paths without a repeated vertex from the start to the end, the shorter ones first and those of one
    length in the order in which the edges were added, are each given what is left on them. *)
Theorem C163_paths_filled : forall cs g cap s t out, built_by cs g -> s <> t -> (forall e, (cap e < 2 ^ 64)%N) ->
  level_order (listed cs) s out ->
  let result := filled cap (fun _ => 0%N) (ending_at t out) in
  exists m, (forall e, flow_in m e = Z.of_N (snd result e)) /\
    ((fst result < 2 ^ 64)%N -> settles (max_flow g cap s t) (fst result, m)) /\
    ((2 ^ 64 <= fst result)%N -> panics (max_flow g cap s t)) /\
    settles (r_max_flow g cap s t) ((fst result mod 2 ^ 64)%N, m).
Proof.
  intros cs g cap s t out B Hst Hcap Ho result. assert (Hb : built g) by now exists cs. pose proof (built_wf Hb) as W.
  apply (proj1 (C42_exact cs g s out B)) in Ho as Hs. destruct Hs as [n1 Hn1].
  assert (Hen : enumerates out (simple_from (gE g) s)).
  { destruct (C42_simple_paths g s Hb) as [_ (o2 & H2 & H3 & _)]. assert (out = o2) by (apply (settles_fun _ _ _ _ (ex_intro _ n1 Hn1) H2)). now subst o2. }
  assert (Hc : forall e, In e (edges g) -> (cap e <= u64_max)%N) by (intros e _; specialize (Hcap e); unfold u64_max; lia).
  destruct (flow_rounds g cap s t W Hst Hc) as (n0 & ds & m & H1 & H2 & _).
  destruct (rounds_fill g cap s t W Hst Hc out n1 Hn1 Hen n0 _ ds m H1) as [K1 K2]; [now apply (init_table g cap s t)|].
  destruct (filled_ext cap (ending_at t out) (flow_of (flow_init g cap)) (fun _ => 0%N)) as [F1 F2]; [intro e; now apply (init_flow g cap s t)|].
  assert (Hv : fst result = total ds) by (unfold result; congruence). rewrite Hv. exists m.
  split; [intro e; rewrite flow_in_eq; unfold flowZ; now rewrite K2, F2|].
  split; [|split].
  - intro Hf. exists (n0 + S (length ds))%nat. intros n Hn. unfold max_flow.
    rewrite (rounds_loop g s t _ _ _ _ H1) by (unfold u64_max; lia). rewrite N.add_0_l.
    replace (total ds <=? u64_max)%N with true by (symmetry; apply N.leb_le; unfold u64_max; lia). reflexivity.
  - intro Hf. exists (n0 + S (length ds))%nat. intros n Hn. unfold max_flow.
    rewrite (rounds_loop g s t _ _ _ _ H1) by (unfold u64_max; lia). rewrite N.add_0_l.
    replace (total ds <=? u64_max)%N with false by (symmetry; apply N.leb_gt; unfold u64_max; lia). reflexivity.
  - exists (n0 + S (length ds))%nat. intros n Hn. unfold r_max_flow.
    rewrite (r_rounds_loop g s t _ _ _ _ H1 (low_init g cap W Hc)) by (unfold u64_max; lia). now rewrite N.add_0_l.
Qed.
Print Assumptions C163_paths_filled.
(** Edges with different capacities: 1 -> 2 -> 3 -> 4 comes first and takes 2, leaving 2 -> 5 -> 6 -> 4 one of its three and
    1 -> 7 -> 8 -> 3 -> 4 nothing. *)
Definition fill_cmds : list graph_command :=
  [AddEdge 1 2; AddEdge 2 3; AddEdge 3 4; AddEdge 2 5; AddEdge 5 6; AddEdge 6 4; AddEdge 1 7; AddEdge 7 8; AddEdge 8 3]%N.
Definition fill_cap (e : N * N) : N := if same_step e (1, 2)%N then 3 else if same_step e (3, 4)%N then 2 else 5.
Definition fill_paths : list (list N) :=
  [[1]; [1; 2]; [1; 7]; [1; 2; 3]; [1; 2; 5]; [1; 7; 8]; [1; 2; 3; 4]; [1; 2; 5; 6]; [1; 7; 8; 3]; [1; 2; 5; 6; 4]; [1; 7; 8; 3; 4]]%N.
Example C163_case : let g := apply_commands fill_cmds g_new in
  built_by fill_cmds g /\ (forall e, (fill_cap e < 2 ^ 64)%N) /\ level_order (listed fill_cmds) 1%N fill_paths /\
  ending_at 4 fill_paths = [[1; 2; 3; 4]; [1; 2; 5; 6; 4]; [1; 7; 8; 3; 4]]%N /\
  fst (filled fill_cap (fun _ => 0%N) (ending_at 4 fill_paths)) = 3%N.
Proof.
  intro g. assert (B : built_by fill_cmds g) by apply built_by_apply. split; [exact B|]. split.
  { intro e. unfold fill_cap. destruct (same_step e (1, 2)%N); [reflexivity|]. now destruct (same_step e (3, 4)%N). }
  split; [|split; vm_compute; reflexivity].
  apply (proj1 (C42_exact fill_cmds g 1%N fill_paths B)). apply (collect_settles _ 20). vm_compute. reflexivity.
Qed.
