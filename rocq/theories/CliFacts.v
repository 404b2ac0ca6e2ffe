(** * Facts about Cli.v *)
From Coq Require Import String.
From Coq Require Import List NArith Bool Arith Lia Permutation.
From Verif Require Import Spec Base Graph GraphSpec GraphFacts Text Format FormatSpec TextFacts FormatFacts
  Store StoreSpec StoreFacts Cli CliSpec.
Import ListNotations.
Open Scope N_scope.

(** ** Arguments *)
Lemma parse_id_spec s n : parse_u64 s = Some n <-> id_argument s n.
Proof.
  rewrite parse_u64_spec. unfold id_argument. split.
  - intros (d & [->| ->] & H); [now left|right; now exists d].
  - intros [H|(d & -> & H)]; [exists s; tauto|exists d; tauto].
Qed.
Lemma parse_list_spec vs : forall ns, parse_vertex_id_list vs = Some ns <-> id_arguments vs ns.
Proof.
  induction vs as [|v vs IH]; intro ns; cbn [parse_vertex_id_list].
  - split; [intros [= <-]; constructor|now inversion 1].
  - unfold parse_vertex_id. destruct (parse_u64 v) as [n|] eqn:E.
    + destruct (parse_vertex_id_list vs) as [r|] eqn:Er; cbn [option_map].
      * split.
        -- intros [= <-]. constructor; [now apply parse_id_spec|now apply IH].
        -- inversion 1 as [|? m ? r' H1 H2]; subst. apply parse_id_spec in H1. apply IH in H2. congruence.
      * split; [discriminate|]. inversion 1 as [|? m ? r' H1 H2]; subst. apply IH in H2. discriminate.
    + split; [discriminate|]. inversion 1 as [|? m ? r' H1 H2]; subst. apply parse_id_spec in H1. congruence.
Qed.
Lemma parse_all_list vs : parse_all vs = match parse_vertex_id_list vs with Some ns => Done ns | None => Panic end.
Proof.
  induction vs as [|v vs IH]; [reflexivity|]. cbn [parse_all parse_vertex_id_list]. unfold parse_vertex_id.
  destruct (parse_u64 v); [|reflexivity]. cbn [expect obind]. rewrite IH. now destruct (parse_vertex_id_list vs).
Qed.
Lemma parse_all_done vs ns : parse_all vs = Done ns <-> id_arguments vs ns.
Proof.
  rewrite parse_all_list, <- parse_list_spec. destruct (parse_vertex_id_list vs); split; congruence.
Qed.
Lemma parse_all_or vs : (exists ns, parse_all vs = Done ns) \/ parse_all vs = Panic.
Proof. rewrite parse_all_list. destruct (parse_vertex_id_list vs); eauto. Qed.
Lemma id_argument_u64 s n : id_argument s n -> u64 n.
Proof. now intros [(_ & _ & H)|(d & _ & _ & _ & H)]. Qed.
Lemma id_arguments_u64 vs ns : id_arguments vs ns -> Forall u64 ns.
Proof. induction 1; constructor; [eapply id_argument_u64; eassumption|assumption]. Qed.

(** ** The edge builders *)
Lemma index_app p x t : index (p ++ x :: t) (length p) = Done x.
Proof. unfold index. rewrite nth_error_app2, Nat.sub_diag by lia. reflexivity. Qed.
Lemma index_app1 p x y t : index (p ++ x :: y :: t) (length p + 1) = Done y.
Proof.
  unfold index. rewrite nth_error_app2 by lia. replace (length p + 1 - length p)%nat with 1%nat by lia. reflexivity.
Qed.
Lemma chain_loop t : forall p x,
  for_push (fun i => pair_at (p ++ x :: t) i (i + 1)) (seq (length p) (length t)) = Done (combine (x :: t) t).
Proof.
  induction t as [|y t IH]; intros p x; [reflexivity|].
  cbn [length seq for_push combine]. unfold pair_at at 1. rewrite index_app. cbn [obind].
  rewrite index_app1. cbn [obind].
  specialize (IH (p ++ [x]) y). rewrite app_length, <- app_assoc in IH. cbn [length app] in IH.
  replace (length p + 1)%nat with (S (length p)) in IH by lia. rewrite IH. reflexivity.
Qed.
Lemma chain_done x t : chain_from_vertices (x :: t) = Done (combine (x :: t) t).
Proof. unfold chain_from_vertices. cbn [length]. rewrite Nat.sub_succ, Nat.sub_0_r. apply (chain_loop t [] x). Qed.
Lemma adjacent_cons {A} (a b x : A) t : adjacent a b (x :: t) <-> (a = x /\ exists q, t = b :: q) \/ adjacent a b t.
Proof.
  split.
  - intros ([|y p] & q & E); injection E as -> E; [left; eauto|right; exists p, q; exact E].
  - intros [[-> [q ->]]|(p & q & ->)]; [exists [], q|exists (x :: p), q]; reflexivity.
Qed.
Lemma combine_adjacent t : forall x (a b : N), In (a, b) (combine (x :: t) t) <-> adjacent a b (x :: t).
Proof.
  induction t as [|y t IH]; intros x a b.
  - cbn. split; [intros []|]. intros ([|z p] & q & E); [discriminate|]. destruct p; discriminate.
  - change (combine (x :: y :: t) (y :: t)) with ((x, y) :: combine (y :: t) t). cbn [In]. rewrite IH, (adjacent_cons a b x). split.
    + intros [[= <- <-]|H]; [left; eauto|now right].
    + intros [[-> [q [= -> _]]]|H]; [now left|now right].
Qed.
Lemma cycle_done x t : cycle_from_vertices (x :: t) = Done (Some (combine (x :: t ++ [x]) (t ++ [x]))).
Proof. unfold cycle_from_vertices. cbn [app]. now rewrite chain_done. Qed.
Lemma cycle_adjacent x t (a b : N) : adjacent a b (x :: t ++ [x]) <-> cycle_rel (x :: t) a b.
Proof.
  unfold cycle_rel. change (x :: t ++ [x]) with ((x :: t) ++ [x]). generalize (x :: t) at 1 2 3. intro l.
  split.
  - intros (p & q & E). destruct (exists_last (l := a :: b :: q)) as (w & z & Hw); [discriminate|].
    rewrite Hw, app_assoc in E. apply app_inj_tail in E. destruct E as [-> ->].
    destruct w as [|w1 [|w2 w]].
    + cbn in Hw. destruct q; discriminate.
    + cbn in Hw. injection Hw as -> -> _. right. split; [now exists p|now exists t].
    + cbn in Hw. injection Hw as -> -> _. left. now exists p, w.
  - intros [(p & q & ->)|[[p ->] [u [= -> _]]]].
    + exists p, (q ++ [x]). rewrite <- app_assoc. reflexivity.
    + exists p, []. rewrite <- app_assoc. reflexivity.
Qed.
Lemma star_loop c r : forall p, for_push (fun i => pair_at (c :: p ++ r) 0 i) (seq (S (length p)) (length r)) = Done (map (pair c) r).
Proof.
  induction r as [|y r IH]; intro p; [reflexivity|]. cbn [length seq for_push map].
  unfold pair_at at 1. cbn [index nth_error obind].
  assert (E : index (c :: p ++ y :: r) (S (length p)) = Done y) by apply (index_app p y r).
  rewrite E. cbn [obind]. specialize (IH (p ++ [y])). rewrite app_length, <- app_assoc in IH. cbn [length app] in IH.
  replace (length p + 1)%nat with (S (length p)) in IH by lia. now rewrite IH.
Qed.
Lemma star_done c r : star_from_vertices (c :: r) = Done (map (pair c) r).
Proof. unfold star_from_vertices. cbn [length]. rewrite Nat.sub_succ, Nat.sub_0_r. apply (star_loop c r []). Qed.
Lemma star_nil : star_from_vertices [] = Done [].
Proof. reflexivity. Qed.
Lemma clique_loop l is : Forall (fun ij => fst ij < length l /\ snd ij < length l)%nat is ->
  for_push2 (pair_at l) is = Done (map (fun ij => (nth (fst ij) l 0, nth (snd ij) l 0)) is).
Proof.
  induction 1 as [|[i j] is [Hi Hj] H IH]; [reflexivity|]. cbn [for_push2 map fst snd] in *.
  unfold pair_at at 1, index. rewrite (nth_error_nth' l 0 Hi). cbn [obind]. rewrite (nth_error_nth' l 0 Hj). cbn [obind].
  now rewrite IH.
Qed.
Definition clique_edges (l : list N) : list edge :=
  map (fun ij => (nth (fst ij) l 0, nth (snd ij) l 0))
    (filter (fun ij => negb (Nat.eqb (fst ij) (snd ij))) (list_prod (seq 0 (length l)) (seq 0 (length l)))).
Lemma clique_done l : clique_from_vertices l = Done (clique_edges l).
Proof.
  unfold clique_from_vertices. apply clique_loop. rewrite Forall_forall. intros [i j] H. apply filter_In in H.
  destruct H as [H _]. apply in_prod_iff in H. rewrite !in_seq in H. cbn. lia.
Qed.
Lemma nth_before (l : list N) i j : (i < j < length l)%nat -> before (nth i l 0) (nth j l 0) l.
Proof.
  revert i j. induction l as [|x l IH]; intros i j [H1 H2]; cbn [length] in H2; [lia|].
  destruct j as [|j]; [lia|]. destruct i as [|i]; cbn [nth].
  - destruct (nth_split l 0 (n := j)) as (p & q & E & _); [lia|]. exists [], p, q. cbn [app]. now rewrite <- E.
  - destruct (IH i j) as (p & q & r & E); [lia|]. exists (x :: p), q, r. cbn [app]. now rewrite <- E.
Qed.
Lemma before_nth (l : list N) a b : before a b l -> exists i j, (i < j < length l)%nat /\ nth i l 0 = a /\ nth j l 0 = b.
Proof.
  intros (p & q & r & ->). exists (length p), (length (p ++ a :: q)). split; [|split].
  - repeat (rewrite app_length; cbn [length]). lia.
  - apply nth_middle.
  - replace (p ++ a :: q ++ b :: r) with ((p ++ a :: q) ++ b :: r) by (rewrite <- app_assoc; reflexivity). apply nth_middle.
Qed.
Lemma clique_In l a b : In (a, b) (clique_edges l) <-> clique_rel l a b.
Proof.
  unfold clique_edges, clique_rel. rewrite in_map_iff. split.
  - intros ([i j] & E & H). apply filter_In in H. destruct H as [H Hn]. apply in_prod_iff in H. rewrite !in_seq in H.
    cbn [fst snd] in *. injection E as <- <-. rewrite negb_true_iff, Nat.eqb_neq in Hn.
    destruct (Nat.lt_ge_cases i j); [left|right]; apply nth_before; lia.
  - intros [H|H]; apply before_nth in H; destruct H as (i & j & Hij & Hi & Hj); [exists (i, j)|exists (j, i)];
      (split; [cbn; congruence|]); apply filter_In; (split; [apply in_prod_iff; rewrite !in_seq; lia|]);
      cbn [fst snd]; rewrite negb_true_iff, Nat.eqb_neq; lia.
Qed.

Lemma tuple_loop es : forall p, Nat.even (length p) = true ->
  for_push (fun i => pair_at (p ++ flat es) i (i + 1)) (filter Nat.even (seq (length p) (length (flat es)))) = Done es.
Proof.
  induction es as [|[a b] es IH]; intros p Hp; [reflexivity|].
  cbn [flat flat_map fst snd app]. change (flat_map (fun e : N * N => [fst e; snd e]) es) with (flat es).
  cbn [length seq filter]. rewrite Hp, Nat.even_succ, <- Nat.negb_even, Hp. cbn [negb for_push].
  unfold pair_at at 1. rewrite index_app. cbn [obind]. rewrite index_app1. cbn [obind].
  specialize (IH (p ++ [a; b])). rewrite app_length, <- app_assoc in IH. cbn [length app] in IH.
  replace (length p + 2)%nat with (S (S (length p))) in IH by lia. rewrite IH; [reflexivity|exact Hp].
Qed.
Lemma flat_length es : length (flat es) = (2 * length es)%nat.
Proof. induction es as [|e es IH]; [reflexivity|]. cbn [flat flat_map app length]. unfold flat in IH. rewrite IH. lia. Qed.
Lemma even_flat n : forall l, (length l < n)%nat -> Nat.even (length l) = true -> exists es, l = flat es.
Proof.
  induction n as [|n IH]; intros l Hn He; [lia|]. destruct l as [|a [|b l]]; [now exists []|discriminate|].
  cbn [length] in *. destruct (IH l) as [es ->]; [lia|exact He|]. now exists ((a, b) :: es).
Qed.
Lemma flat_inj es : forall es', flat es = flat es' -> es = es'.
Proof.
  induction es as [|[a b] es IH]; intros [|[a' b'] es'] H; try discriminate; [reflexivity|].
  cbn in H. injection H as -> -> H. f_equal. now apply IH.
Qed.
Lemma tuple_even es : as_vertex_tuple (flat es) = Done (Some es).
Proof.
  unfold as_vertex_tuple. replace (Nat.even (length (flat es))) with true by (rewrite flat_length, Nat.even_mul; reflexivity).
  pose proof (tuple_loop es [] eq_refl) as H. cbn [app length] in H. now rewrite H.
Qed.
Lemma tuple_odd l : Nat.even (length l) = false -> as_vertex_tuple l = Done None.
Proof. intro H. unfold as_vertex_tuple. now rewrite H. Qed.
Lemma flat_app p q : flat (p ++ q) = flat p ++ flat q.
Proof. apply flat_map_app. Qed.
Lemma flat_In es a b : In (a, b) es <-> pairs_rel (flat es) a b.
Proof.
  unfold pairs_rel. split.
  - intro H. apply in_split in H. destruct H as (p & q & ->). exists p, (flat q). now rewrite flat_app.
  - intros (p & q & E). revert p E. induction es as [|[x y] es IH]; intros p E.
    + destruct p as [|[? ?] p]; discriminate.
    + destruct p as [|[u v] p]; cbn in E; injection E as -> -> E; [now left|right; now apply (IH p)].
Qed.

Lemma reverse_In r es a b : In (a, b) (reverse_if_needed r es) <-> (if r then In (b, a) es else In (a, b) es).
Proof.
  destruct r; cbn [reverse_if_needed]; [|tauto]. rewrite in_map_iff. split.
  - intros ([x y] & [= <- <-] & H). exact H.
  - intro H. now exists (b, a).
Qed.

(** ** Running the options *)
Lemma run_option A values f (call : A -> prog (io unit)) next s :
  run_prog (option_call values f call next) s =
  match values with
  | None => run_prog next s
  | Some vs => match f vs with Done a => run_prog next (fst (run_prog (call a) s)) | _ => (s, Failure) end
  end.
Proof. destruct values as [vs|]; [|reflexivity]. cbn. destruct (f vs); [|reflexivity..]. apply run_bind. Qed.

(** Abstract effect of adding lists. *)
Lemma fold_add_vertices vs : forall s, a_same (fold_left (fun s v => a_add_vertex v s) vs s) (a_union s (fun x => In x vs) (fun _ _ => False)).
Proof.
  induction vs as [|v vs IH]; intro s; cbn [fold_left].
  - split; cbn; firstorder.
  - destruct (IH (a_add_vertex v s)) as [H1 H2]. split.
    + intro x. rewrite H1. cbn. firstorder.
    + intros x y. rewrite H2. cbn. tauto.
Qed.
Lemma fold_add_edges es : forall s, a_same (fold_left (fun s e => a_add_edge (fst e) (snd e) s) es s) (a_union s (fun _ => False) (fun a b => In (a, b) es)).
Proof.
  induction es as [|[a b] es IH]; intro s; cbn [fold_left].
  - split; cbn; firstorder.
  - destruct (IH (a_add_edge a b s)) as [H1 H2]. split.
    + intro x. rewrite H1. cbn. split.
      * intros [[H|[->| ->]]|[[]|[y [H|H]]]]; [now left|right; right; exists b; tauto|right; right; exists a; tauto|right; right; exists y; tauto..].
      * intros [H|[[]|[y [[[= <- <-]|H]|[[= <- <-]|H]]]]]; [tauto..|right; right; exists y; tauto|tauto|right; right; exists y; tauto].
    + intros x y. rewrite H2. cbn. split; [intros [[H|[-> ->]]|H]|intros [H|[[= <- <-]|H]]]; tauto.
Qed.
Lemma fold_remove_vertices vs : forall s, a_same (fold_left (fun s v => a_remove_vertex v s) vs s) (a_minus s (fun x => In x vs) (fun _ _ => False)).
Proof.
  induction vs as [|v vs IH]; intro s; cbn [fold_left].
  - split; cbn; firstorder.
  - destruct (IH (a_remove_vertex v s)) as [H1 H2]. split.
    + intro x. rewrite H1. cbn. intuition congruence.
    + intros x y. rewrite H2. cbn. intuition congruence.
Qed.
Lemma fold_remove_edges es : forall s, a_same (fold_left (fun s e => a_remove_edge (fst e) (snd e) s) es s) (a_minus s (fun _ => False) (fun a b => In (a, b) es)).
Proof.
  induction es as [|[a b] es IH]; intro s; cbn [fold_left].
  - split; cbn; firstorder.
  - destruct (IH (a_remove_edge a b s)) as [H1 H2]. split.
    + intro x. rewrite H1. cbn. tauto.
    + intros x y. rewrite H2. cbn. split.
      * intros ((H & Hn) & _ & _ & H3). repeat split; try tauto. intros [[= <- <-]|Hi]; tauto.
      * intros (H & _ & _ & H3). repeat split; try tauto. intros [-> ->]; tauto.
Qed.
Lemma holds_same nd s a b : holds nd s a -> a_same a b -> holds nd s b.
Proof.
  intros (Hl & c & cs & E & Hc & Hr & Ha) H. split; [exact Hl|]. exists c, cs.
  split; [exact E|]. split; [exact Hc|]. split; [exact Hr|]. exact (a_same_trans Ha H).
Qed.
Lemma holds_add_vertices nd chunks vs s a : digit_table nd -> buffering chunks -> Forall u64 vs -> holds nd s a ->
  holds nd (fst (run_prog (add_vertices chunks vs) s)) (a_union a (fun x => In x vs) (fun _ _ => False)).
Proof.
  intros T B U H.
  pose proof (holds_apply nd chunks (invocation_commands (AddVertices vs)) s a T B (invocation_commands_u64 (AddVertices vs) U) H) as [_ H'].
  rewrite invocation_commands_spec in H'. eapply holds_same; [exact H'|apply fold_add_vertices].
Qed.
Lemma holds_add_edges nd chunks es s a : digit_table nd -> buffering chunks -> Forall u64_pair es -> holds nd s a ->
  holds nd (fst (run_prog (add_edges chunks es) s)) (a_union a (fun _ => False) (fun x y => In (x, y) es)).
Proof.
  intros T B U H.
  pose proof (holds_apply nd chunks (invocation_commands (AddEdges es)) s a T B (invocation_commands_u64 (AddEdges es) U) H) as [_ H'].
  rewrite invocation_commands_spec in H'. eapply holds_same; [exact H'|apply fold_add_edges].
Qed.
Lemma holds_remove_vertices nd chunks vs s a : digit_table nd -> buffering chunks -> Forall u64 vs -> holds nd s a ->
  holds nd (fst (run_prog (remove_vertices chunks vs) s)) (a_minus a (fun x => In x vs) (fun _ _ => False)).
Proof.
  intros T B U H.
  pose proof (holds_apply nd chunks (invocation_commands (RemoveVertices vs)) s a T B (invocation_commands_u64 (RemoveVertices vs) U) H) as [_ H'].
  rewrite invocation_commands_spec in H'. eapply holds_same; [exact H'|apply fold_remove_vertices].
Qed.
Lemma holds_remove_edges nd chunks es s a : digit_table nd -> buffering chunks -> Forall u64_pair es -> holds nd s a ->
  holds nd (fst (run_prog (remove_edges chunks es) s)) (a_minus a (fun _ => False) (fun x y => In (x, y) es)).
Proof.
  intros T B U H.
  pose proof (holds_apply nd chunks (invocation_commands (RemoveEdges es)) s a T B (invocation_commands_u64 (RemoveEdges es) U) H) as [_ H'].
  rewrite invocation_commands_spec in H'. eapply holds_same; [exact H'|apply fold_remove_edges].
Qed.
