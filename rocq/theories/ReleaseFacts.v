(** * Release and checked builds compared *)
From Coq Require Import List NArith ZArith Bool Permutation Lia Arith.
From Verif Require Import Spec Base WalkFacts Graph GraphSpec GraphFacts Path SearchFacts Topo TopoFacts ShortSpec ShortFacts
  MaxFlow FlowSpec FlowFacts Release.
Import ListNotations.
Open Scope Z_scope.

(** The second outcome is the first one unless that is a panic. *)
Definition agree {A} (o o' : outcome A) : Prop := o <> Panic -> o' = o.
Lemma agree_refl A (o : outcome A) : agree o o.
Proof. now intros _. Qed.
Lemma agree_bind A B (x x' : outcome A) (f f' : A -> outcome B) : agree x x' ->
  (forall a, x = Done a -> agree (f a) (f' a)) -> agree (obind x f) (obind x' f').
Proof.
  intros H Hf Hn. destruct x as [a| |]; cbn [obind] in *.
  - rewrite H by discriminate. cbn [obind]. now apply Hf.
  - congruence.
  - now rewrite H by discriminate.
Qed.
Lemma agree_ofold A S (f f' : S -> A -> outcome S) l : (forall s a, agree (f s a) (f' s a)) ->
  forall s, agree (ofold f l s) (ofold f' l s).
Proof.
  intro H. induction l as [|a l IH]; intro s; cbn [ofold]; [apply agree_refl|].
  apply agree_bind; [apply H|]. intros s' _. apply IH.
Qed.
Lemma wrap_id z : i64_min <= z <= i64_max -> wrap z = z.
Proof. unfold i64_min, i64_max, wrap. intro H. rewrite Z.mod_small; lia. Qed.
Lemma wrap_wrap a b : wrap (wrap a + b) = wrap (a + b).
Proof.
  unfold wrap. f_equal. replace ((a + 2 ^ 63) mod 2 ^ 64 - 2 ^ 63 + b + 2 ^ 63) with ((a + 2 ^ 63) mod 2 ^ 64 + b) by ring.
  rewrite Zplus_mod_idemp_l. f_equal. ring.
Qed.
Lemma wrap_wrap_r a b : wrap (a + wrap b) = wrap (a + b).
Proof. rewrite Z.add_comm, wrap_wrap. f_equal. ring. Qed.
Lemma wrap_neg a : wrap (- wrap a) = wrap (- a).
Proof.
  unfold wrap. f_equal.
  replace (- ((a + 2 ^ 63) mod 2 ^ 64 - 2 ^ 63) + 2 ^ 63) with (2 ^ 64 - (a + 2 ^ 63) mod 2 ^ 64) by (change (2 ^ 64) with (2 ^ 63 + 2 ^ 63); ring).
  rewrite Zminus_mod_idemp_r. f_equal. change (2 ^ 64) with (2 ^ 63 + 2 ^ 63). ring.
Qed.
(** The only value in range that is congruent. *)
Lemma wrap_range z : i64_min <= wrap z <= i64_max.
Proof. unfold i64_min, i64_max, wrap. pose proof (Z.mod_pos_bound (z + 2 ^ 63) (2 ^ 64) ltac:(lia)). lia. Qed.
Lemma wrap_congruent z : exists k, wrap z = z + k * 2 ^ 64.
Proof.
  unfold wrap. exists (- ((z + 2 ^ 63) / 2 ^ 64)). pose proof (Z.div_mod (z + 2 ^ 63) (2 ^ 64) ltac:(lia)). lia.
Qed.
Lemma i64_wrap z : agree (i64 z) (Done (wrap z)).
Proof.
  intro H. destruct (i64 z) as [a| |] eqn:E; [|congruence|].
  - apply i64_inv in E as [-> Hz]. now rewrite wrap_id.
  - unfold i64 in E. destruct (i64_ok z); discriminate.
Qed.

(** ** Shortest and longest paths *)
Lemma agree_total A B (x : outcome A) a (f : A -> outcome B) o :
  agree x (Done a) -> agree (f a) o -> agree (obind x f) o.
Proof.
  intros H Hf Hn. destruct x as [a'| |]; cbn [obind] in *; [|congruence|].
  - specialize (H ltac:(discriminate)). injection H as <-. now apply Hf.
  - discriminate (H ltac:(discriminate)).
Qed.
Lemma agree_dag_relax w v m e : agree (dag_relax w v m e) (r_dag_relax w v m e).
Proof.
  unfold dag_relax, r_dag_relax. destruct (sc_get v m) as [sp|]; [|apply agree_refl]. cbv zeta.
  eapply agree_total; [apply i64_wrap|]. eapply agree_total; [apply i64_wrap|]. apply agree_refl.
Qed.
Lemma agree_dag g w s n : agree (dag_shortest_paths g w s n) (r_dag_shortest_paths g w s n).
Proof.
  unfold dag_shortest_paths, r_dag_shortest_paths. apply agree_bind; [apply agree_refl|].
  intros [order|] _; [|apply agree_refl]. unfold dag_visit, r_dag_visit. apply agree_ofold. intros m v.
  apply agree_ofold. intros m' e. apply agree_dag_relax.
Qed.
Lemma agree_negate m : agree (negate_scores m) (Done (r_negate_scores m)).
Proof.
  induction m as [|[v sp] m IH]; cbn [negate_scores r_negate_scores map]; [apply agree_refl|].
  eapply agree_total; [apply i64_wrap|]. eapply agree_total; [apply IH|]. apply agree_refl.
Qed.
Lemma agree_longest g w s n : agree (dag_longest_paths g w s n) (r_dag_longest_paths g w s n).
Proof.
  unfold dag_longest_paths, r_dag_longest_paths. apply agree_bind; [apply agree_dag|]. intros m _. apply agree_negate.
Qed.
Lemma agree_relax w m e : agree (relax w m e) (Done (r_relax w m e)).
Proof.
  unfold relax, r_relax. destruct (sc_get (fst e) m) as [sp|]; [|apply agree_refl].
  eapply agree_total; [apply i64_wrap|]. cbv zeta. destruct (_ <? _); apply agree_refl.
Qed.
Lemma agree_pass g w m : agree (bf_pass g w m) (Done (r_bf_pass g w m)).
Proof.
  unfold bf_pass, r_bf_pass. revert m. induction (edges g) as [|e l IH]; intro m; cbn [ofold fold_left]; [apply agree_refl|].
  eapply agree_total; [|apply IH]. eapply agree_total; [apply agree_relax|apply agree_refl].
Qed.
Lemma agree_passes g w n : forall m, agree (bf_passes g w n m) (Done (r_bf_passes g w n m)).
Proof.
  induction n as [|n IH]; intro m; cbn [bf_passes r_bf_passes]; [apply agree_refl|].
  eapply agree_total; [apply agree_pass|apply IH].
Qed.
Lemma agree_check w es m : agree (bf_check w es m) (Done (r_bf_check w es m)).
Proof.
  unfold r_bf_check. induction es as [|e es IH]; cbn [bf_check existsb]; [apply agree_refl|].
  eapply agree_total; [apply agree_relax|]. destruct (snd (r_relax w m e)); [apply agree_refl|exact IH].
Qed.
Lemma agree_bellman g w s : agree (bellman_ford g w s) (Done (r_bellman_ford g w s)).
Proof.
  unfold bellman_ford, r_bellman_ford. cbv zeta. eapply agree_total; [apply agree_passes|].
  eapply agree_total; [apply agree_check|]. apply agree_refl.
Qed.
Lemma agree_spfa_edges w l : forall s, agree (ofold (spfa_edge w) l s) (Done (fold_left (r_spfa_edge w) l s)).
Proof.
  induction l as [|e l IH]; intro s; cbn [ofold fold_left]; [apply agree_refl|].
  eapply agree_total; [|apply IH]. unfold spfa_edge, r_spfa_edge. cbv zeta. eapply agree_total; [apply agree_relax|].
  destruct (snd (r_relax w (fst s) e)); apply agree_refl.
Qed.
Lemma agree_spfa g w s n : agree (spfa g w s n) (r_spfa g w s n).
Proof.
  unfold spfa, r_spfa. generalize (sc_put s (scored_path_of_one s 0) [], [s]).
  induction n as [|n IH]; intro x; cbn [spfa_loop r_spfa_loop]; [apply agree_refl|].
  destruct (snd x) as [|v q]; [apply agree_refl|]. eapply agree_total; [apply agree_spfa_edges|apply IH].
Qed.

(** ** Scores in a release build: right modulo 2^64 *)
Section Wrapped.
  Variables (g : graph) (w : edge -> Z) (s : N).
  Hypothesis W : wf g.
  Definition wrapped (m : scores) : Prop := forall x sp, sc_get x m = Some sp ->
    walk_from_to (gE g) s x (sp_path sp) /\ sp_score sp = wrap (weight (fun a b => w (a, b)) (sp_path sp)).

  Lemma wrapped_init : wrapped (sc_put s (scored_path_of_one s 0) []).
  Proof.
    intros x sp H. rewrite sc_get_put in H. destruct (N.eqb_spec x s) as [->|]; [|discriminate].
    injection H as <-. cbn. split; [|reflexivity]. split; [now exists []|]. split; [now exists []|].
    intros a b Hab. now apply adjacent_one in Hab.
  Qed.
  Lemma wrapped_put m u x su : wrapped m -> gE g u x -> sc_get u m = Some su ->
    wrapped (sc_put x (scored_path_of (path_append (sp_path su) x) (wrap (sp_score su + w (u, x)))) m).
  Proof.
    intros Hm He Hu y sp Hy. rewrite sc_get_put in Hy. destruct (N.eqb_spec y x) as [->|]; [|now apply Hm].
    injection Hy as <-. cbn. unfold path_append. destruct (Hm u su Hu) as [H1 H2]. split; [now apply walk_snoc with u|].
    rewrite (weight_snoc _ x (proj1 (proj2 H1))), H2, wrap_wrap. reflexivity.
  Qed.
  Lemma wrapped_relax m e : In e (edges g) -> wrapped m -> wrapped (fst (r_relax w m e)).
  Proof.
    intros He Hm. unfold r_relax. destruct e as [u x]. cbn [fst snd]. destruct (sc_get u m) as [su|] eqn:Eu; [|assumption].
    cbv zeta. destruct (_ <? _); [|assumption]. cbn [fst]. apply wrapped_put; [assumption| |assumption]. apply contains_edge_hasE, edges_In; assumption.
  Qed.
  Lemma wrapped_pass m : wrapped m -> wrapped (r_bf_pass g w m).
  Proof.
    unfold r_bf_pass. assert (Hi : forall e, In e (edges g) -> In e (edges g)) by auto. revert m Hi.
    generalize (edges g) at 1 3. induction l as [|e l IHl]; intros m Hi Hm; cbn [fold_left]; [assumption|].
    apply IHl; [intros y Hy; apply Hi; now right|]. apply wrapped_relax; [apply Hi; now left|assumption].
  Qed.
  Lemma wrapped_bellman m : r_bellman_ford g w s = Some m -> wrapped m.
  Proof.
    assert (H : forall n m, wrapped m -> wrapped (r_bf_passes g w n m)).
    { induction n as [|n IH]; intros m' Hm; cbn [r_bf_passes]; [assumption|]. apply IH. now apply wrapped_pass. }
    unfold r_bellman_ford. cbv zeta. destruct (r_bf_check _ _ _); [discriminate|]. intros [= <-].
    apply H, wrapped_init.
  Qed.
  Lemma wrapped_edges es : (forall e, In e es -> In e (edges g)) -> forall m q, wrapped m ->
    wrapped (fst (fold_left (r_spfa_edge w) es (m, q))).
  Proof.
    induction es as [|e l IHl]; intros Hi m q Hm; cbn [fold_left]; [assumption|].
    pose proof (wrapped_relax m e (Hi e (or_introl eq_refl)) Hm) as Hr. unfold r_spfa_edge at 2. cbv zeta. cbn [fst snd].
    destruct (snd (r_relax w m e)); (apply IHl; [intros y Hy; apply Hi; now right|assumption]).
  Qed.
  Lemma wrapped_spfa n m : r_spfa g w s n = Done m -> wrapped m.
  Proof.
    assert (H : forall n x, wrapped (fst x) -> r_spfa_loop g w n x = Done m -> wrapped m).
    { clear n. induction n as [|n IH]; intros [m0 q] Hm H; cbn [r_spfa_loop] in H; [discriminate|]. cbn [snd fst] in *.
      destruct q as [|v q]; [injection H as <-; assumption|]. apply (IH _ ) in H; [assumption|].
      apply wrapped_edges; [|assumption]. intros [a b] Hab. apply outbound_In in Hab as [-> Hab]. now apply edges_In. }
    unfold r_spfa. apply H. apply wrapped_init.
  Qed.
End Wrapped.
Lemma wrapped_dag g w s n m : wf g -> r_dag_shortest_paths g w s n = Done m -> wrapped g w s m.
Proof.
  intros W H. unfold r_dag_shortest_paths in H. apply obind_done in H as ([order|] & _ & H); [|discriminate].
  assert (Hall : forall l m0, wrapped g w s m0 -> r_dag_visit g w l m0 = Done m -> wrapped g w s m); [|now apply Hall in H; [|apply wrapped_init]].
  clear order H. unfold r_dag_visit. induction l as [|v l IH]; intros m0 Hm H; cbn [ofold] in H; [injection H as <-; assumption|].
  apply obind_done in H as (m1 & H1 & H2). apply (IH m1); [|assumption]. clear IH H2.
  assert (Hi : forall e, In e (outbound_edges g v) -> exists x, e = (v, x) /\ gE g v x).
  { intros [a b] Hab. apply outbound_In in Hab as [-> Hab]. exists b. split; [reflexivity|]. now apply contains_edge_hasE. }
  revert m0 Hm H1. induction (outbound_edges g v) as [|e es IHl]; intros m0 Hm H1; cbn [ofold] in H1; [injection H1 as <-; assumption|].
  apply obind_done in H1 as (m2 & H1 & H2). apply (IHl (fun y Hy => Hi y (or_intror Hy)) m2); [|assumption].
  destruct (Hi e (or_introl eq_refl)) as (x & -> & He). unfold r_dag_relax in H1. cbn [snd] in H1.
  destruct (sc_get v m0) as [sp|] eqn:Ev; [|discriminate]. cbv zeta in H1. rewrite wrap_wrap_r in H1.
  destruct (sc_get x m0) as [c|]; injection H1 as <-; [destruct (_ <? _); [|assumption]|]; now apply wrapped_put.
Qed.

(** ** Maximum flow *)
Lemma wrap_add_ok a b : agree (u64_add a b) (Done (wrap_add a b)).
Proof.
  unfold u64_add, wrap_add. destruct (N.leb_spec (a + b) u64_max) as [H|H]; intro Hn; [|congruence].
  rewrite N.mod_small; [reflexivity|]. unfold u64_max in H. lia.
Qed.
Lemma wrap_sub_ok a b : (a <= u64_max)%N -> agree (u64_sub a b) (Done (wrap_sub a b)).
Proof.
  intro Ha. unfold u64_sub, wrap_sub. destruct (N.leb_spec b a) as [H|H]; intro Hn; [|congruence]. f_equal.
  replace (a + 2 ^ 64 - b)%N with ((a - b) + 1 * 2 ^ 64)%N by lia. rewrite N.mod_add by discriminate.
  rewrite N.mod_small; [reflexivity|]. unfold u64_max in Ha. lia.
Qed.
(** All numbers in the table are u64. *)
Definition low (m : flows) : Prop := forall e f c, fl_get e m = Some (f, c) -> (f <= u64_max /\ c <= u64_max)%N.
Lemma r_residual_agree l m : low m -> agree (min_residual l m) (r_min_residual l m).
Proof.
  intro Hl. induction l as [|[e d] l IH]; cbn [min_residual r_min_residual]; [apply agree_refl|].
  apply agree_bind; [|intros r _; apply agree_bind; [exact IH|intros o _; apply agree_refl]].
  unfold edge_residual_capacity, r_edge_residual_capacity. destruct d; [|apply agree_refl].
  destruct (fl_get e m) as [[f c]|] eqn:E; [|apply agree_refl]. apply Hl in E. now apply wrap_sub_ok.
Qed.
Lemma r_aug_agree g m t : low m -> forall n q, agree (aug_next g m t n q) (r_aug_next g m t n q).
Proof.
  intro Hl. induction n as [|n IH]; intro q; cbn [aug_next r_aug_next]; [apply agree_refl|].
  destruct q as [|p q]; [apply agree_refl|]. destruct (aug_last p) as [[v d]|]; [|apply agree_refl]. cbv zeta.
  destruct (N.eqb v t); [|apply IH]. apply agree_bind.
  - unfold residual_capacity, r_residual_capacity. apply agree_bind; [now apply r_residual_agree|]. intros o _. apply agree_refl.
  - intros r _. destruct (0 <? r)%N; [apply agree_refl|apply IH].
Qed.
Lemma r_modify_agree f f' e m m' : low m -> (forall v, (v <= u64_max)%N -> agree (f v) (Done (f' v))) ->
  (forall v x, (v <= u64_max)%N -> f v = Done x -> (x <= u64_max)%N) ->
  modify f e m = Done m' -> r_modify f' e m = m' /\ low m'.
Proof.
  intros Hl Hf Hb H. unfold modify in H. unfold r_modify. destruct (fl_get e m) as [[v c]|] eqn:E.
  - destruct (Hl _ _ _ E) as [Hv Hc]. apply obind_done in H as (x & Hx & H). injection H as <-. pose proof (Hf v Hv) as Ha.
    rewrite Hx in Ha. specialize (Ha ltac:(discriminate)). injection Ha as ->. split; [reflexivity|].
    intros e' v' c' H'. unfold fl_get in H'. rewrite (hm_get_insert _ edge_eqb_spec) in H'.
    destruct (edge_eqb e' e); [injection H' as <- <-; split; [now apply (Hb v)|assumption]|]. now apply (Hl e').
  - injection H as <-. split; [reflexivity|assumption].
Qed.
Lemma r_update_agree m p d m' : low m -> update_flow m p d = Done m' -> r_update_flow m p d = m' /\ low m'.
Proof.
  unfold update_flow, r_update_flow. revert m. induction (aug_edges p) as [|[e k] es IH]; intros m Hl H; cbn [ofold fold_left fst snd] in *.
  - injection H as <-. now split.
  - apply obind_done in H as (m1 & H1 & H2).
    assert (Hm : match k with Forward => r_modify (fun v => wrap_add v d) e m
        | Backward => r_modify (fun v => wrap_sub v d) (edge_reverse e) m end = m1 /\ low m1).
    { destruct k; (eapply r_modify_agree; [assumption| | |exact H1]).
      - intros v _. apply wrap_add_ok.
      - intros v x _ Hx. unfold u64_add in Hx. destruct (N.leb_spec (v + d) u64_max); [injection Hx as <-; assumption|discriminate].
      - intros v Hv. now apply wrap_sub_ok.
      - intros v x Hv Hx. unfold u64_sub in Hx. destruct (N.leb_spec d v); [injection Hx as <-; lia|discriminate]. }
    destruct Hm as [-> Hm]. now apply IH.
Qed.
Lemma agree_flow_loop g s t n k : forall value m, low m ->
  agree (flow_loop g s t n k value m) (r_flow_loop g s t n k value m).
Proof.
  induction k as [|k IH]; intros value m Hl; cbn [flow_loop r_flow_loop]; [apply agree_refl|].
  apply agree_bind; [now apply r_aug_agree|]. intros [[p d]|] _; [|apply agree_refl]. intro Hn.
  destruct (update_flow m p d) as [m1| |] eqn:Eu; cbn [obind] in *; [|congruence|].
  2:{ exfalso. revert Eu. unfold update_flow. clear. revert m. induction (aug_edges p) as [|[e k] es IH]; intro m; cbn [ofold]; [discriminate|].
      cbn [fst snd]. destruct k; unfold modify; (destruct (fl_get _ m) as [[v c]|]; [|cbn [obind]; apply IH]);
        unfold u64_add, u64_sub; (destruct (_ <=? _)%N; cbn [obind]; [apply IH|discriminate]). }
  destruct (r_update_agree m p d m1 Hl Eu) as [Hu Hl1]. rewrite Hu. revert Hn. change (agree (obind (u64_add value d) (fun v => flow_loop g s t n k v m1)) (r_flow_loop g s t n k (wrap_add value d) m1)).
  eapply agree_total; [apply wrap_add_ok|]. now apply IH.
Qed.
Lemma low_init g cap : wf g -> (forall e, In e (edges g) -> (cap e <= u64_max)%N) -> low (flow_init g cap).
Proof.
  intros W Hc e f c H. pose proof (init_table g cap 0%N 1%N ltac:(discriminate) e) as Hi. cbn beta in Hi.
  destruct (in_dec edge_dec e (edges g)) as [He|He]; [|congruence].
  destruct Hi as (f' & Hf & Hle). rewrite H in Hf. injection Hf as <- ->. specialize (Hc e He). lia.
Qed.
Lemma agree_max_flow g cap s t n : wf g -> (forall e, In e (edges g) -> (cap e <= u64_max)%N) ->
  agree (max_flow g cap s t n) (r_max_flow g cap s t n).
Proof. intros W Hc. apply agree_flow_loop. now apply low_init. Qed.

(** Without overflow checks the loop always ends, with the total modulo 2^64. *)
Lemma r_rounds_loop g s t n0 m ds m' : rounds g s t n0 m ds m' -> low m -> forall n k value, (n0 <= n)%nat -> (length ds < k)%nat ->
  (value <= u64_max)%N -> r_flow_loop g s t n k value m = Done (((value + total ds) mod 2 ^ 64)%N, m').
Proof.
  induction 1 as [m H|m p d m1 ds m' H Hu Hr IH]; intros Hl n k value Hn Hk Hv; (destruct k as [|k]; [cbn in Hk; lia|]);
    cbn [r_flow_loop]; specialize (H n Hn); unfold find_augmenting_path in H;
    pose proof (r_aug_agree g m t Hl n [aug_new s]) as Ha; rewrite H in Ha; rewrite (Ha ltac:(discriminate)); cbn [obind].
  - cbn [total fold_right]. rewrite N.add_0_r, N.mod_small; [reflexivity|]. unfold u64_max in Hv. lia.
  - destruct (r_update_agree m p d m1 Hl Hu) as [-> Hl1]. cbn [length] in Hk. rewrite IH; try assumption; try lia.
    + f_equal. f_equal. unfold wrap_add. rewrite N.add_mod_idemp_l by discriminate. cbn [total fold_right]. now rewrite N.add_assoc.
    + unfold wrap_add. pose proof (N.mod_upper_bound (value + d) (2 ^ 64) ltac:(discriminate)). unfold u64_max. lia.
Qed.
