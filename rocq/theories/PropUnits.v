(** * Property C186: the unit of the weights *)
From Coq Require Import List NArith ZArith Bool Arith Lia.
From Verif Require Import Spec Base Graph Path Queue Topo MaxFlow Iter Heap Release Score RenameFacts.
Import ListNotations.
Open Scope N_scope.

(** ** What it means *)
(** The score of a vertex in another unit: the same path, and [k] times the score. *)
Definition in_unit (k : Z) (o o' : option scored) : Prop :=
  match o, o' with
  | None, None => True
  | Some a, Some b => sp_path b = sp_path a /\ sp_score b = (k * sp_score a)%Z
  | _, _ => False
  end.

(** ** Two runs, side by side *)
(** The second run panics, or does what the first one does. *)
Definition follows {A B} (f : A -> B) (o : outcome A) (o' : outcome B) : Prop :=
  o' = Panic \/ o' = match o with Done a => Done (f a) | Panic => Panic | OutOfFuel => OutOfFuel end.
Lemma follows_bind {A B C D} (f : A -> B) (h : C -> D) o o' n n' :
  follows f o o' -> (forall a, o = Done a -> follows h (n a) (n' (f a))) -> follows h (obind o n) (obind o' n').
Proof.
  intros [->| ->] H; [now left|]. destruct o as [a| |]; cbn; [apply H; reflexivity|now left|now right].
Qed.
Lemma follows_done {A B} (f : A -> B) a b : b = f a -> follows f (Done a) (Done b).
Proof. intros ->. now right. Qed.
Lemma follows_ofold {A S T} (h : S -> T) (f : S -> A -> outcome S) (f' : T -> A -> outcome T) l :
  (forall s a, follows h (f s a) (f' (h s) a)) -> forall s, follows h (ofold f l s) (ofold f' l (h s)).
Proof.
  intro H. induction l as [|a l IH]; intro s; cbn [ofold]; [now apply follows_done|].
  apply (follows_bind h); [apply H|]. intros s' _. apply IH.
Qed.
Section Mapped.
  Context {K V W : Type} (eqb : K -> K -> bool) (f : V -> W).
  Definition on_snd (x : K * V) : K * W := (fst x, f (snd x)).
  Lemma mapped_get a m : hm_get eqb a (map on_snd m) = option_map f (hm_get eqb a m).
  Proof. induction m as [|[b v] m IH]; cbn; [reflexivity|]. destruct (eqb a b); [reflexivity|exact IH]. Qed.
  Lemma mapped_insert a v m : hm_insert eqb a (f v) (map on_snd m) = map on_snd (hm_insert eqb a v m).
  Proof. induction m as [|[b u] m IH]; cbn; [reflexivity|]. destruct (eqb a b); cbn; [reflexivity|]. now rewrite IH. Qed.
End Mapped.

Section Units.
  Variables (k : Z) (w w' : edge -> Z).
  Hypothesis k_pos : (0 < k)%Z.
  Hypothesis ws : forall e, w' e = (k * w e)%Z.
  Definition in_k (sp : scored) : scored := {| sp_path := sp_path sp; sp_score := (k * sp_score sp)%Z |}.
  Definition all_in_k (m : scores) : scores := map (on_snd in_k) m.
  Lemma get_k v m : sc_get v (all_in_k m) = option_map in_k (sc_get v m).
  Proof. apply mapped_get. Qed.
  Lemma put_k v p s s' m : s' = (k * s)%Z -> sc_put v (scored_path_of p s') (all_in_k m) = all_in_k (sc_put v (scored_path_of p s) m).
  Proof. intros ->. apply (mapped_insert N.eqb in_k v (scored_path_of p s)). Qed.
  Lemma i64_k z z' : z' = (k * z)%Z -> follows (fun x => (k * x)%Z) (i64 z) (i64 z').
  Proof.
    intros ->. unfold i64. destruct (i64_ok (k * z)%Z) eqn:E; [|now left]. right.
    assert (O : i64_ok z = true).
    { unfold i64_ok, i64_min, i64_max in *. apply andb_true_iff in E. destruct E as [E1 E2].
      apply Z.leb_le in E1, E2. apply andb_true_iff. split; apply Z.leb_le; nia. }
    now rewrite O.
  Qed.
  Lemma i64_done z x : i64 z = Done x -> x = z /\ (z <= i64_max)%Z.
  Proof.
    unfold i64. destruct (i64_ok z) eqn:E; [|discriminate]. intro H. injection H as <-. split; [reflexivity|].
    apply andb_true_iff in E. now apply Z.leb_le.
  Qed.
  Lemma ltb_k a b : (k * a <? k * b)%Z = (a <? b)%Z.
  Proof. destruct (Z.ltb_spec a b), (Z.ltb_spec (k * a) (k * b)); try reflexivity; nia. Qed.

  Lemma dag_relax_k v m e : follows all_in_k (dag_relax w v m e) (dag_relax w' v (all_in_k m) e).
  Proof.
    unfold dag_relax. rewrite get_k. destruct (sc_get v m) as [sp|]; cbn [option_map]; [|now left].
    apply (follows_bind (fun x => (k * x)%Z)); [now apply i64_k|]. intros x _.
    apply (follows_bind (fun x => (k * x)%Z)); [apply i64_k; cbn [in_k sp_score]; lia|]. intros y _.
    rewrite get_k. destruct (sc_get (snd e) m) as [cur|]; cbn [option_map]; apply follows_done; cbn [in_k sp_score sp_path].
    - rewrite ltb_k. destruct (y <? sp_score cur)%Z; [now apply put_k|reflexivity].
    - now apply put_k.
  Qed.
  Lemma start_k v : sc_put v (scored_path_of_one v 0) [] = all_in_k (sc_put v (scored_path_of_one v 0) []).
  Proof. unfold all_in_k, on_snd, in_k. cbn. now rewrite Z.mul_0_r. Qed.
  Lemma dag_k g s fuel : follows all_in_k (dag_shortest_paths g w s fuel) (dag_shortest_paths g w' s fuel).
  Proof.
    unfold dag_shortest_paths. destruct (topological_sort g fuel) as [[order|]| |]; cbn [obind]; [|now left|now left|now right].
    rewrite start_k at 2. unfold dag_visit. apply follows_ofold. intros m v. apply follows_ofold. intros m' e. apply dag_relax_k.
  Qed.
  Lemma negate_k m : follows all_in_k (negate_scores m) (negate_scores (all_in_k m)).
  Proof.
    induction m as [|[v sp] m IH]; [now apply follows_done|]. cbn [negate_scores all_in_k map on_snd fst snd].
    apply (follows_bind (fun x => (k * x)%Z)); [apply i64_k; cbn [in_k sp_score]; lia|]. intros x _.
    apply (follows_bind all_in_k); [exact IH|]. intros t _. now apply follows_done.
  Qed.

  Hypothesis k_max : ~ (k | i64_max)%Z.
  Lemma relax_k m e : follows (fun r => (all_in_k (fst r), snd r)) (relax w m e) (relax w' (all_in_k m) e).
  Proof.
    unfold relax. rewrite get_k. destruct (sc_get (fst e) m) as [sp|]; cbn [option_map]; [|now apply follows_done].
    destruct (i64 (sp_score (in_k sp) + w' e)) as [z| |] eqn:E'; [|now left|].
    2: { unfold i64 in E'. destruct (i64_ok _); discriminate. }
    rewrite <- E'. apply (follows_bind (fun x => (k * x)%Z)); [apply i64_k; rewrite ws; cbn [in_k sp_score]; lia|]. intros x E.
    apply follows_done. apply i64_done in E. destruct E as [-> L]. apply i64_done in E'. destruct E' as [_ L']. rewrite ws in L'. cbn [in_k sp_score] in L'.
    assert (C : (k * (sp_score sp + w e) <? current_score_of_vertex (all_in_k m) (snd e))%Z =
                (sp_score sp + w e <? current_score_of_vertex m (snd e))%Z).
    { unfold current_score_of_vertex. rewrite get_k. destruct (sc_get (snd e) m) as [cur|]; cbn [option_map]; [apply ltb_k|].
      assert (k * (sp_score sp + w e) <> i64_max)%Z by (intro H; apply k_max; exists (sp_score sp + w e)%Z; lia).
      assert (sp_score sp + w e <> i64_max)%Z.
      { intro H1. rewrite H1 in H. unfold i64_max in *. assert (k = 1 \/ 2 <= k)%Z as [->|?] by lia; nia. }
      rewrite (proj2 (Z.ltb_lt _ _)) by lia. symmetry. apply Z.ltb_lt. lia. }
    rewrite C. destruct (sp_score sp + w e <? _)%Z; [|reflexivity]. cbn [fst snd in_k sp_path]. f_equal. now apply put_k.
  Qed.
  Lemma spfa_loop_k g fuel : forall s, follows all_in_k (spfa_loop g w fuel s) (spfa_loop g w' fuel (all_in_k (fst s), snd s)).
  Proof.
    induction fuel as [|n IH]; intro s; cbn [spfa_loop]; [now right|]. cbn [fst snd]. destruct (snd s) as [|v q]; [now apply follows_done|].
    apply (follows_bind (fun s : scores * list N => (all_in_k (fst s), snd s))); [|intros s' _; apply IH].
    apply (follows_ofold (fun s : scores * list N => (all_in_k (fst s), snd s)) _ _ _) with (s := (fst s, q)).
    intros t e. unfold spfa_edge. cbn [fst snd].
    apply (follows_bind (fun r : scores * bool => (all_in_k (fst r), snd r))); [apply relax_k|]. intros r _.
    apply follows_done. cbn [fst snd]. destruct (snd r); reflexivity.
  Qed.
  Lemma spfa_k g s fuel : follows all_in_k (spfa g w s fuel) (spfa g w' s fuel).
  Proof. unfold spfa. rewrite start_k at 2. apply (spfa_loop_k g fuel (_, _)). Qed.
  Lemma bf_check_k es m : follows (fun b => b) (bf_check w es m) (bf_check w' es (all_in_k m)).
  Proof.
    induction es as [|e es IH]; cbn [bf_check]; [now apply follows_done|].
    apply (follows_bind (fun r : scores * bool => (all_in_k (fst r), snd r))); [apply relax_k|]. intros r _. cbn [snd].
    destruct (snd r); [now apply follows_done|exact IH].
  Qed.
  Lemma bf_passes_k g n : forall m, follows all_in_k (bf_passes g w n m) (bf_passes g w' n (all_in_k m)).
  Proof.
    induction n as [|n IH]; intro m; cbn [bf_passes]; [now apply follows_done|].
    apply (follows_bind all_in_k); [|intros m' _; apply IH]. unfold bf_pass. apply follows_ofold. intros t e.
    apply (follows_bind (fun r : scores * bool => (all_in_k (fst r), snd r))); [apply relax_k|]. intros r _. now apply follows_done.
  Qed.
  Lemma bf_k g s : follows (option_map all_in_k) (bellman_ford g w s) (bellman_ford g w' s).
  Proof.
    unfold bellman_ford. rewrite start_k at 2. apply (follows_bind all_in_k); [apply bf_passes_k|]. intros m _.
    apply (follows_bind (fun b => b)); [apply bf_check_k|]. intros b _. apply follows_done. now destruct b.
  Qed.
End Units.

Lemma in_unit_k k m v : in_unit k (sc_get v m) (sc_get v (all_in_k k m)).
Proof. rewrite get_k. destruct (sc_get v m); cbn; [now split|exact I]. Qed.
Lemma follows_scores k o o' : follows (all_in_k k) o o' -> o' <> Panic ->
  match o, o' with
  | Done m, Done m' => forall v, in_unit k (sc_get v m) (sc_get v m')
  | OutOfFuel, OutOfFuel => True
  | _, _ => False
  end.
Proof. intros [->| ->] H; [now elim H|]. destruct o as [m| |]; [intro; apply in_unit_k|now elim H|exact I]. Qed.

(** ** The searches *)
(** [k] times the weights: the search panics (the larger numbers may leave the range of an i64), or it ends exactly when the
    search with the weights themselves ends, with the same paths and [k] times the scores. *)
Theorem C186_dag : forall k g w w' s fuel, (0 < k)%Z -> (forall e, w' e = k * w e)%Z ->
  (dag_shortest_paths g w' s fuel <> Panic ->
   match dag_shortest_paths g w s fuel, dag_shortest_paths g w' s fuel with
   | Done m, Done m' => forall v, in_unit k (sc_get v m) (sc_get v m')
   | OutOfFuel, OutOfFuel => True
   | _, _ => False
   end) /\
  (dag_longest_paths g w' s fuel <> Panic ->
   match dag_longest_paths g w s fuel, dag_longest_paths g w' s fuel with
   | Done m, Done m' => forall v, in_unit k (sc_get v m) (sc_get v m')
   | OutOfFuel, OutOfFuel => True
   | _, _ => False
   end).
Proof.
  intros k g w w' s fuel K W. split; intro P; apply follows_scores; try exact P; [now apply dag_k|].
  unfold dag_longest_paths. apply (follows_bind (all_in_k k)); [|intros m _; now apply negate_k].
  apply dag_k; [exact K|]. intro e. cbn beta. rewrite W. lia.
Qed.
Print Assumptions C186_dag.

Theorem C186_any_graph : forall k g w w' s fuel, (0 < k)%Z -> ~ (k | i64_max)%Z -> (forall e, w' e = k * w e)%Z ->
  (spfa g w' s fuel <> Panic ->
   match spfa g w s fuel, spfa g w' s fuel with
   | Done m, Done m' => forall v, in_unit k (sc_get v m) (sc_get v m')
   | OutOfFuel, OutOfFuel => True
   | _, _ => False
   end) /\
  (bellman_ford g w' s <> Panic ->
   match bellman_ford g w s, bellman_ford g w' s with
   | Done (Some m), Done (Some m') => forall v, in_unit k (sc_get v m) (sc_get v m')
   | Done None, Done None => True
   | OutOfFuel, OutOfFuel => True
   | _, _ => False
   end).
Proof.
  intros k g w w' s fuel K X W. split; intro P.
  - apply follows_scores; [|exact P]. now apply spfa_k.
  - destruct (bf_k k w w' K W X g s) as [E|E]; [now elim P|]. rewrite E. rewrite E in P.
    destruct (bellman_ford g w s) as [[m|]| |]; cbn [option_map]; [intro; apply in_unit_k|exact I|now elim P|exact I].
Qed.
Print Assumptions C186_any_graph.

(** An even factor never divides the largest i64, which is odd: 10, 60, 100, 1000 and so on are all fine. *)
Theorem C186_even : forall k, Z.even k = true -> ~ (k | i64_max)%Z.
Proof.
  intros k E [q H]. assert (O : Z.even i64_max = false) by reflexivity. rewrite H, Z.even_mul, E, orb_true_r in O. discriminate.
Qed.
Print Assumptions C186_even.
(** A factor that does divide it: a vertex whose only score is the largest i64 is lost, in every graph with such an edge
    and nothing else at its ends. *)
Theorem C186_largest_refuted : forall k, (0 < k)%Z -> (k | i64_max)%Z -> (1 < k)%Z -> forall fuel, (3 <= fuel)%nat ->
  exists g (w w' : edge -> Z), (forall e, w' e = k * w e)%Z /\
    (exists m, spfa g w 1 fuel = Done m /\ sc_get 2 m <> None) /\
    (exists m', spfa g w' 1 fuel = Done m' /\ sc_get 2 m' = None).
Proof.
  intros k K [q Q] K1 fuel F. destruct fuel as [|[|[|fuel]]]; try lia.
  exists (apply_commands [AddEdge 1 2] g_new), (fun _ => q), (fun _ => (k * q)%Z). split; [reflexivity|].
  assert (q <? i64_max = true)%Z as L by (apply Z.ltb_lt; unfold i64_max in *; nia).
  assert (i64_ok q = true)%Z as O by (unfold i64_ok, i64_min, i64_max in *; apply andb_true_iff; split; apply Z.leb_le; nia).
  split; eexists; split.
  - unfold spfa. cbn [spfa_loop snd]. replace (outbound_edges (apply_commands [AddEdge 1 2] g_new) 1) with [(1,2)] by reflexivity.
    cbn [ofold]. unfold spfa_edge, relax. cbn [fst snd sc_get sc_put hm_get hm_insert N.eqb Pos.eqb scored_path_of_one sp_score sp_path].
    rewrite Z.add_0_l. unfold i64. rewrite O. cbn [obind current_score_of_vertex sc_get hm_get N.eqb Pos.eqb]. rewrite L.
    cbn [fst snd obind spfa_loop app]. replace (outbound_edges (apply_commands [AddEdge 1 2] g_new) 2) with (@nil edge) by reflexivity.
    cbn [ofold obind]. destruct fuel; reflexivity.
  - cbn. discriminate.
  - unfold spfa. cbn [spfa_loop snd]. replace (outbound_edges (apply_commands [AddEdge 1 2] g_new) 1) with [(1,2)] by reflexivity.
    cbn [ofold]. unfold spfa_edge, relax. cbn [fst snd sc_get sc_put hm_get hm_insert N.eqb Pos.eqb scored_path_of_one sp_score sp_path].
    rewrite Z.add_0_l, (Z.mul_comm k q), <- Q. replace (i64 i64_max) with (Done i64_max) by reflexivity.
    cbn [obind current_score_of_vertex sc_get hm_get N.eqb Pos.eqb]. rewrite Z.ltb_irrefl.
    cbn [fst snd obind]. reflexivity.
  - reflexivity.
Qed.
Print Assumptions C186_largest_refuted.

(** ** Flows *)
Section Capacities.
  Variable k : N.
  Hypothesis k_pos : 0 < k.
  Definition fl_k (m : flows) : flows := map (on_snd (fun fc : N * N => (k * fst fc, k * snd fc))) m.
  Lemma fl_get_k e m : fl_get e (fl_k m) = option_map (fun fc : N * N => (k * fst fc, k * snd fc)) (fl_get e m).
  Proof. apply mapped_get. Qed.
  Lemma add_k a b : follows (N.mul k) (u64_add a b) (u64_add (k * a) (k * b)).
  Proof.
    unfold u64_add. rewrite <- N.mul_add_distr_l. destruct (N.leb_spec (k * (a + b)) u64_max) as [L|L]; [|now left].
    right. destruct (N.leb_spec (a + b) u64_max); [reflexivity|nia].
  Qed.
  Lemma sub_k a b : follows (N.mul k) (u64_sub a b) (u64_sub (k * a) (k * b)).
  Proof.
    unfold u64_sub. destruct (N.leb_spec (k * b) (k * a)) as [L|L]; [|now left]. right.
    destruct (N.leb_spec b a); [|nia]. now rewrite N.mul_sub_distr_l.
  Qed.
  Lemma edge_res_k e d m : follows (N.mul k) (edge_residual_capacity e d m) (edge_residual_capacity e d (fl_k m)).
  Proof.
    unfold edge_residual_capacity. destruct d; rewrite fl_get_k.
    - destruct (fl_get e m) as [[f c]|]; cbn; [apply sub_k|now left].
    - destruct (fl_get (edge_reverse e) m) as [[f c]|]; cbn; [now apply follows_done|now left].
  Qed.
  Lemma min_res_k l m : follows (option_map (N.mul k)) (min_residual l m) (min_residual l (fl_k m)).
  Proof.
    induction l as [|[e d] l IH]; cbn [min_residual]; [now apply follows_done|].
    apply (follows_bind (N.mul k)); [apply edge_res_k|]. intros r _.
    apply (follows_bind (option_map (N.mul k))); [exact IH|]. intros o _. apply follows_done.
    destruct o as [x|]; cbn; [|reflexivity]. f_equal. apply N.mul_min_distr_l.
  Qed.
  Lemma res_k p m : follows (N.mul k) (residual_capacity p m) (residual_capacity p (fl_k m)).
  Proof.
    unfold residual_capacity. apply (follows_bind (option_map (N.mul k))); [apply min_res_k|]. intros [r|] _; cbn; [now apply follows_done|now left].
  Qed.
  Lemma modify_k f f' e m : (forall x, follows (N.mul k) (f x) (f' (k * x))) -> follows fl_k (modify f e m) (modify f' e (fl_k m)).
  Proof.
    intro H. unfold modify. rewrite fl_get_k. destruct (fl_get e m) as [[x c]|]; cbn [option_map fst snd]; [|now apply follows_done].
    apply (follows_bind (N.mul k)); [apply H|]. intros v _. apply follows_done.
    apply (mapped_insert edge_eqb (fun fc : N * N => (k * fst fc, k * snd fc)) e (v, c)).
  Qed.
  Lemma update_k m p d : follows fl_k (update_flow m p d) (update_flow (fl_k m) p (k * d)).
  Proof.
    unfold update_flow. apply follows_ofold. intros t x. destruct (snd x); apply modify_k; intro v; [apply add_k|apply sub_k].
  Qed.
  Definition found_k (o : option (aug_path * N)) : option (aug_path * N) := option_map (fun x => (fst x, k * snd x)) o.
  Lemma next_k g m t fuel : forall q, follows found_k (aug_next g m t fuel q) (aug_next g (fl_k m) t fuel q).
  Proof.
    induction fuel as [|n IH]; intro q; cbn [aug_next]; [now right|]. destruct q as [|p q]; [now apply follows_done|].
    destruct (aug_last p) as [[v d]|]; [|now left]. destruct (v =? t); [|apply IH].
    apply (follows_bind (N.mul k)); [apply res_k|]. intros r _.
    destruct (N.ltb_spec 0 r), (N.ltb_spec 0 (k * r)); try nia; [now apply follows_done|apply IH].
  Qed.
  Lemma loop_k g s t n fuel : forall x m,
    follows (fun r => (k * fst r, fl_k (snd r))) (flow_loop g s t n fuel x m) (flow_loop g s t n fuel (k * x) (fl_k m)).
  Proof.
    induction fuel as [|f IH]; intros x m; cbn [flow_loop]; [now right|].
    apply (follows_bind found_k); [apply next_k|]. intros [[p d]|] _; cbn [found_k option_map fst snd]; [|now apply follows_done].
    apply (follows_bind fl_k); [apply update_k|]. intros m' _. apply (follows_bind (N.mul k)); [apply add_k|]. intros y _. apply IH.
  Qed.
  Lemma init_k g cap cap' : (forall e, cap' e = k * cap e) -> flow_init g cap' = fl_k (flow_init g cap).
  Proof.
    intro C. unfold flow_init. change (@nil (edge * (N * N))) with (fl_k []) at 1. generalize (@nil (edge * (N * N))).
    induction (edges g) as [|e es IH]; intro m; cbn [fold_left]; [reflexivity|]. rewrite <- IH. f_equal.
    rewrite C. replace (0, k * cap e) with (k * fst (0, cap e), k * snd (0, cap e)) by (cbn [fst snd]; now rewrite N.mul_0_r).
    apply (mapped_insert edge_eqb (fun fc : N * N => (k * fst fc, k * snd fc)) e (0, cap e)).
  Qed.
End Capacities.

(** [k] times the capacities: [k] times the value, and [k] times the flow and the capacity of every edge, unless the larger
    numbers leave the range of a u64. *)
Theorem C186_flow : forall k g cap cap' s t fuel, 0 < k -> (forall e, cap' e = k * cap e) ->
  max_flow g cap' s t fuel <> Panic ->
  match max_flow g cap s t fuel, max_flow g cap' s t fuel with
  | Done (x, m), Done (x', m') => x' = k * x /\
      forall e, match fl_get e m, fl_get e m' with
                | Some (f, c), Some (f', c') => f' = k * f /\ c' = k * c
                | None, None => True
                | _, _ => False
                end
  | OutOfFuel, OutOfFuel => True
  | _, _ => False
  end.
Proof.
  intros k g cap cap' s t fuel K C P. unfold max_flow in *. rewrite (init_k k g cap cap' C) in *.
  pose proof (loop_k k K g s t fuel fuel 0 (flow_init g cap)) as H. rewrite N.mul_0_r in H. destruct H as [H|H]; [now elim P|].
  rewrite H. rewrite H in P. destruct (flow_loop g s t fuel fuel 0 (flow_init g cap)) as [[x m]| |]; [|now elim P|exact I].
  cbn [fst snd]. split; [reflexivity|]. intro e. rewrite fl_get_k. destruct (fl_get e m) as [[f c]|]; cbn; [now split|exact I].
Qed.
Print Assumptions C186_flow.

(** ** Best-first searches: only the order of the scores counts *)
(** The constraints with their bounds on the score replaced. *)
Fixpoint rebound (phi : Z -> Z) (c : constraint) : constraint :=
  match c with
  | MinScore s => MinScore (phi s) | MaxScore s => MaxScore (phi s)
  | COr a b => COr (rebound phi a) (rebound phi b) | CXor a b => CXor (rebound phi a) (rebound phi b)
  | CAnd a b => CAnd (rebound phi a) (rebound phi b) | CNot a => CNot (rebound phi a)
  | c => c
  end.
Section Order.
  Variable phi : Z -> Z.
  Hypothesis mono : forall a b, (phi a <=? phi b)%Z = (a <=? b)%Z.
  Definition by_phi (sp : scored) : scored := {| sp_path := sp_path sp; sp_score := phi (sp_score sp) |}.
  Variables (g : graph) (f f' : path -> option Z).
  Hypothesis ff : forall p, f' p = None \/ exists z, f p = Some z /\ f' p = Some (phi z).
  Local Notation Q := (MinPriorityQueue sp_score).
  Definition q_phi (q : q_car Q) : q_car Q := map by_phi q.
  Lemma push_phi q a : q_push Q (q_phi q) (by_phi a) = q_phi (q_push Q q a).
  Proof. cbn. apply heap_push_ren. intros x y. unfold key_ge. cbn [by_phi sp_score]. apply mono. Qed.
  Lemma pop_phi q : q_pop Q (q_phi q) = match q_pop Q q with None => None | Some (a, q') => Some (by_phi a, q_phi q') end.
  Proof. cbn. apply (heap_pop_ren _ _ by_phi). intros x y. unfold key_ge. cbn [by_phi sp_score]. apply mono. Qed.
  Definition pfollows {A B} (h : A -> B) (o : option A) (o' : option B) : Prop := o' = None \/ exists a, o = Some a /\ o' = Some (h a).
  Lemma opt_fold_phi {A S T} (h : S -> T) (b : S -> A -> option S) (b' : T -> A -> option T) l :
    (forall s a, pfollows h (b s a) (b' (h s) a)) -> forall s, pfollows h (opt_fold b l s) (opt_fold b' l (h s)).
  Proof.
    intro H. induction l as [|a l IH]; intro s; cbn [opt_fold]; [right; now exists s|].
    destruct (H s a) as [->|(s' & -> & ->)]; [now left|apply IH].
  Qed.
  Lemma child_phi a v : pfollows by_phi (p_child f a v) (p_child f' (by_phi a) v).
  Proof.
    unfold p_child. cbn [by_phi sp_path]. destruct (ff (path_append (sp_path a) v)) as [->|(z & -> & ->)]; [now left|].
    right. eexists. split; reflexivity.
  Qed.
  Definition sfollows {S T} (hs : S -> T) (r : step scored S) (r' : step scored T) : Prop :=
    r' = Crash \/ r' = map_step _ _ _ _ by_phi hs r.
  Lemma find_phi {S T} (hs : S -> T) next next' pred pred' n :
    (forall s, sfollows hs (next s) (next' (hs s))) -> (forall a, pred' (by_phi a) = pred a) ->
    forall s, follows (option_map by_phi) (iter_find pred next n s) (iter_find pred' next' n (hs s)).
  Proof.
    intros H P. induction n as [|n IH]; intro s; cbn [iter_find]; [now right|].
    destruct (H s) as [->| ->]; [now left|]. destruct (next s) as [a s'| |]; cbn [map_step]; [|now apply follows_done|now left].
    rewrite P. destruct (pred a); [now apply follows_done|apply IH].
  Qed.
  Definition v_phi (st : vstate scored Q) : vstate scored Q := (fst st, q_phi (snd st)).
  Lemma best_next_phi st : sfollows v_phi (p_best_next Q g f st) (p_best_next Q g f' (v_phi st)).
  Proof.
    destruct st as [vis q]. unfold p_best_next, v_phi at 2. cbn [fst snd]. rewrite pop_phi.
    destruct (q_pop Q q) as [[a q']|]; [|now right]. cbn [by_phi sp_path]. destruct (path_last (sp_path a)) as [v|]; [|now left].
    change (vis, q_phi q') with (v_phi (vis, q')).
    destruct (opt_fold_phi v_phi (p_visit_edge Q f a) (p_visit_edge Q f' (by_phi a)) (outbound_edges g v)) with (s := (vis, q') : vstate scored Q)
      as [E|(st & E1 & E2)].
    - intros [vi qi] e. unfold p_visit_edge, v_phi at 2. cbn [fst snd]. destruct (negb (memN (snd e) vi)); [|right; now exists (vi, qi)].
      destruct (child_phi a (snd e)) as [->|(c & -> & ->)]; [now left|]. right. eexists. split; [reflexivity|].
      unfold v_phi. cbn [fst snd]. now rewrite push_phi.
    - rewrite E. now left.
    - rewrite E1, E2. now right.
  Qed.
  Lemma last_is_phi t a : last_is t (by_phi a) = last_is t a.
  Proof. reflexivity. Qed.
  Lemma p_a_star_phi s t n : follows (option_map by_phi) (p_a_star Q g f s t n) (p_a_star Q g f' s t n).
  Proof.
    unfold p_a_star, p_best_iter_from. destruct (ff (path_append path_empty s)) as [->|(z & -> & ->)]; [now left|].
    match goal with |- follows _ (iter_find _ _ _ ?st) (iter_find _ _ _ ?st') => replace st' with (v_phi st) end.
    - apply find_phi; [exact best_next_phi|]. intro a. apply last_is_phi.
    - reflexivity.
  Qed.

  Variable cs : list constraint.
  Lemma partial_phi a : forall c, check_partial (rebound phi c) (by_phi a) = check_partial c a.
  Proof.
    fix IH 1. intros [v|e|vs| |n|n|z|z|c1 c2|c1 c2|c1 c2|c]; cbn [rebound check_partial by_phi sp_path sp_score]; try reflexivity; try apply mono.
    - f_equal; apply IH.
    - f_equal; apply IH.
    - f_equal; apply IH.
    - destruct c; reflexivity.
  Qed.
  Lemma complete_phi a : forall c, check_complete (rebound phi c) (by_phi a) = check_complete c a.
  Proof.
    fix IH 1. intros [v|e|vs| |n|n|z|z|c1 c2|c1 c2|c1 c2|c]; cbn [rebound check_complete by_phi sp_path sp_score]; try reflexivity; try apply mono; now rewrite !IH.
  Qed.
  Lemma constrained_next_phi q : sfollows q_phi (p_constrained_next Q g f cs q) (p_constrained_next Q g f' (map (rebound phi) cs) (q_phi q)).
  Proof.
    unfold p_constrained_next. rewrite pop_phi. destruct (q_pop Q q) as [[a q']|]; [|now right]. cbn [by_phi sp_path].
    destruct (path_last (sp_path a)) as [v|]; [|now left].
    destruct (opt_fold_phi q_phi (p_constrained_edge Q f cs a) (p_constrained_edge Q f' (map (rebound phi) cs) (by_phi a)) (outbound_edges g v)) with (s := q')
      as [E|(st & E1 & E2)].
    - intros qi e. unfold p_constrained_edge. destruct (child_phi a (snd e)) as [->|(c & -> & ->)]; [now left|]. right. eexists. split; [reflexivity|].
      assert (C : check_all_partial (map (rebound phi) cs) (by_phi c) = check_all_partial cs c).
      { unfold check_all_partial. induction cs as [|x l IH]; cbn [map forallb]; [reflexivity|]. now rewrite partial_phi, IH. }
      rewrite C. destruct (check_all_partial cs c); [now rewrite push_phi|reflexivity].
    - rewrite E. now left.
    - rewrite E1, E2. now right.
  Qed.
  Lemma p_constrained_phi s t n :
    follows (option_map by_phi) (p_constrained_shortest_path Q g f s t cs n) (p_constrained_shortest_path Q g f' s t (map (rebound phi) cs) n).
  Proof.
    unfold p_constrained_shortest_path, p_constrained_iter_from. destruct (ff (path_append path_empty s)) as [->|(z & -> & ->)]; [now left|].
    match goal with |- follows _ (iter_find _ _ _ ?st) (iter_find _ _ _ ?st') => replace st' with (q_phi st) end.
    - apply find_phi; [exact constrained_next_phi|]. intro a. rewrite last_is_phi. f_equal.
      induction cs as [|x l IH]; cbn [map forallb]; [reflexivity|]. now rewrite complete_phi, IH.
    - reflexivity.
  Qed.
End Order.

(** The costs and the estimates, and the bounds on the score, in another unit. *)
Theorem C186_a_star : forall k g cost heur cost' heur' s t cs fuel, (0 < k)%Z ->
  (forall p, cost' p = k * cost p)%Z -> (forall p, heur' p = k * heur p)%Z ->
  let Q := MinPriorityQueue sp_score in
  (a_star_checked Q g cost' heur' s t fuel <> Panic ->
   match a_star_checked Q g cost heur s t fuel, a_star_checked Q g cost' heur' s t fuel with
   | Done r, Done r' => in_unit k r r'
   | OutOfFuel, OutOfFuel => True
   | _, _ => False
   end) /\
  (constrained_checked Q g cost' heur' s t (map (rebound (Z.mul k)) cs) fuel <> Panic ->
   match constrained_checked Q g cost heur s t cs fuel, constrained_checked Q g cost' heur' s t (map (rebound (Z.mul k)) cs) fuel with
   | Done r, Done r' => in_unit k r r'
   | OutOfFuel, OutOfFuel => True
   | _, _ => False
   end).
Proof.
  intros k g cost heur cost' heur' s t cs fuel K C H Q.
  assert (M : forall a b, (k * a <=? k * b)%Z = (a <=? b)%Z).
  { intros a b. destruct (Z.leb_spec a b), (Z.leb_spec (k * a) (k * b)); try reflexivity; nia. }
  assert (F : forall p, checked_score cost' heur' p = None \/
    exists z, checked_score cost heur p = Some z /\ checked_score cost' heur' p = Some (k * z)%Z).
  { intro p. unfold checked_score. rewrite C, H, <- Z.mul_add_distr_l. pose proof (i64_k k K (cost p + heur p) _ eq_refl) as X. unfold i64 in X.
    destruct (i64_ok (k * (cost p + heur p))); [|now left]. destruct X as [X|X]; [discriminate|].
    destruct (i64_ok (cost p + heur p)); [|discriminate]. right. eexists. split; reflexivity. }
  assert (R : forall o o', follows (option_map (by_phi (Z.mul k))) o o' -> o' <> Panic ->
    match o, o' with Done r, Done r' => in_unit k r r' | OutOfFuel, OutOfFuel => True | _, _ => False end).
  { intros o o' [->| ->] P; [now elim P|]. destruct o as [[r|]| |]; [cbn; now split|exact I|now elim P|exact I]. }
  split; apply R; [now apply p_a_star_phi|now apply p_constrained_phi].
Qed.
Print Assumptions C186_a_star.
(** More than units: two score functions that order the paths alike give the same path. *)
Theorem C186_order_only : forall phi g (f f' : path -> option Z) s t cs fuel, (forall a b, (a < b)%Z <-> (phi a < phi b)%Z) ->
  (forall p, f' p = option_map phi (f p)) ->
  let Q := MinPriorityQueue sp_score in
  let answer := fun o : outcome (option scored) => match o with Done r => Some (option_map sp_path r) | _ => None end in
  (p_a_star Q g f' s t fuel <> Panic -> answer (p_a_star Q g f' s t fuel) = answer (p_a_star Q g f s t fuel)) /\
  (p_constrained_shortest_path Q g f' s t (map (rebound phi) cs) fuel <> Panic ->
   answer (p_constrained_shortest_path Q g f' s t (map (rebound phi) cs) fuel) = answer (p_constrained_shortest_path Q g f s t cs fuel)).
Proof.
  intros phi g f f' s t cs fuel M F Q answer.
  assert (L : forall a b, (phi a <=? phi b)%Z = (a <=? b)%Z).
  { intros a b. destruct (Z.leb_spec a b) as [H|H], (Z.leb_spec (phi a) (phi b)) as [H'|H']; try reflexivity; exfalso.
    - apply M in H'. lia.
    - apply M in H. lia. }
  assert (G : forall p, f' p = None \/ exists z, f p = Some z /\ f' p = Some (phi z)).
  { intro p. rewrite F. destruct (f p) as [z|]; [right; now exists z|now left]. }
  assert (R : forall o o', follows (option_map (by_phi phi)) o o' -> o' <> Panic -> answer o' = answer o).
  { intros o o' [->| ->] P; [now elim P|]. destruct o as [[r|]| |]; reflexivity. }
  split; apply R; [now apply p_a_star_phi|now apply p_constrained_phi].
Qed.
Print Assumptions C186_order_only.
(** ** A case: minutes instead of hours, and 7, which divides the largest i64 *)
Definition unit_graph : graph := apply_commands [AddEdge 1 2; AddEdge 2 3; AddEdge 1 3; AddEdge 3 4] g_new.
Definition unit_w (e : edge) : Z := match e with (1, 2) => 2%Z | (2, 3) => (-1)%Z | (1, 3) => 5%Z | _ => 3%Z end.
Example C186_case :
  ~ (60 | i64_max)%Z /\ (7 | i64_max)%Z /\
  (exists m, spfa unit_graph (fun e => 60 * unit_w e)%Z 1 20 = Done m /\
     option_map sp_score (sc_get 4 m) = Some 240%Z /\ option_map sp_score (sc_get 3 m) = Some 60%Z) /\
  (exists m, dag_longest_paths unit_graph (fun e => 60 * unit_w e)%Z 1 50 = Done m /\ option_map sp_score (sc_get 4 m) = Some 480%Z) /\
  (exists m, max_flow unit_graph (fun e => 1000 * Z.to_N (3 + unit_w e))%N 1 4 50 = Done (6000, m)).
Proof.
  split; [now apply C186_even|]. split; [now exists 1317624576693539401%Z|].
  split; [eexists; vm_compute; split; [reflexivity|split; reflexivity]|].
  split; [eexists; vm_compute; split; reflexivity|]. eexists. vm_compute. reflexivity.
Qed.
Example C186_a_star_case :
  let Q := MinPriorityQueue sp_score in
  let cost k (p : path) := (k * fold_right (fun e z => Z.abs (unit_w e) + z) 0 (to_edge_list p))%Z in
  (exists r, a_star_checked Q unit_graph (cost 60%Z) (fun _ => 0%Z) 1 4 20 = Done (Some r) /\ sp_score r = 480%Z) /\
  (exists r, constrained_checked Q unit_graph (cost 60%Z) (fun _ => 0%Z) 1 4 [MinScore 300] 20 = Done (Some r) /\ sp_score r = 360%Z) /\
  [MinScore 300] = map (rebound (Z.mul 60)) [MinScore 5].
Proof. cbv zeta. split; [eexists; vm_compute; split; reflexivity|]. split; [eexists; vm_compute; split; reflexivity|reflexivity]. Qed.
