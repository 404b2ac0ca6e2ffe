(** * Property C156: the same constraints written differently *)
From Coq Require Import String.
From Coq Require Import List NArith ZArith Bool Arith Lia Permutation.
From Verif Require Import Spec Base WalkFacts Graph GraphSpec GraphFacts Path ConstraintSpec PathFacts
  Queue Heap Iter IterFacts Score TreeFacts SearchFacts BestFacts ConstrainedFacts PropSearch
  Cycle CycleSpec CycleFacts PropCycle
  Text Format FormatSpec TextFacts FormatFacts Store StoreSpec StoreFacts CrashFacts PropFormat PropStore
  Cli CliSpec CliFacts Query QuerySpec QueryFacts EverySpec PropQuery PropEvery PropLocal.
Import ListNotations.

(** ** Rewriting *)
(** Boolean algebra above the level of [Not]. *)
Inductive same_constraint : constraint -> constraint -> Prop :=
| same_refl c : same_constraint c c
| same_sym a b : same_constraint a b -> same_constraint b a
| same_trans a b c : same_constraint a b -> same_constraint b c -> same_constraint a c
| same_or a a' b b' : same_constraint a a' -> same_constraint b b' -> same_constraint (COr a b) (COr a' b')
| same_and a a' b b' : same_constraint a a' -> same_constraint b b' -> same_constraint (CAnd a b) (CAnd a' b')
| same_xor a a' b b' : same_constraint a a' -> same_constraint b b' -> same_constraint (CXor a b) (CXor a' b')
| or_comm a b : same_constraint (COr a b) (COr b a)
| and_comm a b : same_constraint (CAnd a b) (CAnd b a)
| xor_comm a b : same_constraint (CXor a b) (CXor b a)
| or_assoc a b c : same_constraint (COr a (COr b c)) (COr (COr a b) c)
| and_assoc a b c : same_constraint (CAnd a (CAnd b c)) (CAnd (CAnd a b) c)
| xor_assoc a b c : same_constraint (CXor a (CXor b c)) (CXor (CXor a b) c)
| or_twice a : same_constraint (COr a a) a
| and_twice a : same_constraint (CAnd a a) a
| or_absorbs a b : same_constraint (COr a (CAnd a b)) a
| and_absorbs a b : same_constraint (CAnd a (COr a b)) a
| and_over_or a b c : same_constraint (CAnd a (COr b c)) (COr (CAnd a b) (CAnd a c))
| or_over_and a b c : same_constraint (COr a (CAnd b c)) (CAnd (COr a b) (COr a c))
| and_over_xor a b c : same_constraint (CAnd a (CXor b c)) (CXor (CAnd a b) (CAnd a c)).
(** Lists: any order, repetitions, [And] for two entries. *)
Inductive same_list : list constraint -> list constraint -> Prop :=
| list_each l l' : Forall2 same_constraint l l' -> same_list l l'
| list_set l l' : (forall c, In c l <-> In c l') -> same_list l l'
| list_and a b l : same_list (CAnd a b :: l) (a :: b :: l)
| list_sym l l' : same_list l l' -> same_list l' l
| list_trans l l' l'' : same_list l l' -> same_list l' l'' -> same_list l l''.

Lemma same_checks a b : same_constraint a b -> forall sp, check_partial a sp = check_partial b sp /\ check_complete a sp = check_complete b sp.
Proof.
  induction 1 as [c|a b H IH|a b c H1 IH1 H2 IH2|a a' b b' H1 IH1 H2 IH2|a a' b b' H1 IH1 H2 IH2|a a' b b' H1 IH1 H2 IH2|
    | | | | | | | | | | | | ]; intro sp; cbn [check_partial check_complete].
  1: now split.
  1: { destruct (IH sp); now split. }
  1: { destruct (IH1 sp), (IH2 sp); split; congruence. }
  1: { destruct (IH1 sp) as [-> ->], (IH2 sp) as [-> ->]; now split. }
  1: { destruct (IH1 sp) as [-> ->], (IH2 sp) as [-> ->]; now split. }
  1: { destruct (IH1 sp) as [-> ->], (IH2 sp) as [-> ->]; now split. }
  all: repeat match goal with |- context [check_partial ?c ?x] => destruct (check_partial c x) end;
       repeat match goal with |- context [check_complete ?c ?x] => destruct (check_complete c x) end; split; reflexivity.
Qed.
Lemma forallb_same {A} (f : A -> bool) l l' : (forall c, In c l <-> In c l') -> forallb f l = forallb f l'.
Proof.
  intro H. apply Bool.eq_true_iff_eq. rewrite !forallb_forall. split; intros K x Hx; apply K; now apply H.
Qed.
Lemma lists_check l l' : same_list l l' -> forall sp,
  forallb (fun c => check_partial c sp) l = forallb (fun c => check_partial c sp) l' /\
  forallb (fun c => check_complete c sp) l = forallb (fun c => check_complete c sp) l'.
Proof.
  induction 1 as [l l' H|l l' H|a b l|l l' H IH|l l' l'' H1 IH1 H2 IH2]; intro sp.
  - induction H as [|a b l l' Hab H [IH1 IH2]]; [now split|]. destruct (same_checks a b Hab sp) as [E1 E2].
    cbn [forallb]. now rewrite E1, E2, IH1, IH2.
  - split; now apply forallb_same.
  - cbn [forallb check_partial check_complete]. now rewrite <- !andb_assoc.
  - destruct (IH sp). now split.
  - destruct (IH1 sp), (IH2 sp). split; congruence.
Qed.

(** ** Lists with the same checks *)
Section Same.
  Variables cs cs' : list constraint.
  Hypothesis HP : forall sp, forallb (fun c => check_partial c sp) cs = forallb (fun c => check_partial c sp) cs'.
  Hypothesis HC : forall sp, forallb (fun c => check_complete c sp) cs = forallb (fun c => check_complete c sp) cs'.

  Lemma next_same Q g f q : constrained_next Q g f cs q = constrained_next Q g f cs' q.
  Proof.
    unfold constrained_next, tree_next. destruct (q_pop Q q) as [[a q']|]; [|reflexivity].
    unfold constrained_kids. destruct (path_last (sp_path a)) as [v|]; [|reflexivity].
    now rewrite (filter_ext _ _ HP).
  Qed.
  Lemma p_next_same Q g f q : p_constrained_next Q g f cs q = p_constrained_next Q g f cs' q.
  Proof.
    unfold p_constrained_next. destruct (q_pop Q q) as [[a q']|]; [|reflexivity].
    destruct (path_last (sp_path a)) as [v|]; [|reflexivity].
    assert (E : forall l q, opt_fold (p_constrained_edge Q f cs a) l q = opt_fold (p_constrained_edge Q f cs' a) l q).
    { induction l as [|e l IH]; intro q0; [reflexivity|]. cbn [opt_fold]. unfold p_constrained_edge at 1 3.
      destruct (p_child f a (snd e)) as [c|]; [|reflexivity]. unfold check_all_partial. rewrite HP. apply IH. }
    now rewrite E.
  Qed.
  Lemma find_same {S} (n1 n2 : S -> step scored S) t : (forall s, n1 s = n2 s) -> forall fuel s,
    iter_find (fun sp => last_is t sp && forallb (fun c => check_complete c sp) cs) n1 fuel s =
    iter_find (fun sp => last_is t sp && forallb (fun c => check_complete c sp) cs') n2 fuel s.
  Proof.
    intros H. induction fuel as [|k IH]; intro s; [reflexivity|]. cbn [iter_find]. rewrite <- H.
    destruct (n1 s) as [a s'| |]; [|reflexivity|reflexivity]. rewrite HC. destruct (_ && _); [reflexivity|apply IH].
  Qed.
  Lemma cycle_check_same c : cycle_check c cs = cycle_check c cs'.
  Proof. unfold cycle_check. apply HC. Qed.
  Lemma accepted_next_same g n st : accepted_next g cs n st = accepted_next g cs' n st.
  Proof.
    unfold accepted_next.
    assert (E : forall k st, filter_next (cycle_next g) (fun c => cycle_check c cs) n k st = filter_next (cycle_next g) (fun c => cycle_check c cs') n k st).
    { induction k as [|k IH]; intro st0; [reflexivity|]. cbn [filter_next]. destruct (cycle_next g n st0) as [[[a s']|]| |]; try reflexivity.
      cbn [obind]. rewrite cycle_check_same. destruct (cycle_check a cs'); [reflexivity|apply IH]. }
    apply E.
  Qed.
End Same.

Theorem C156_rewriting : forall cs cs', same_list cs cs' ->
  (forall Q g f s fuel, collect (constrained_next Q g f cs) fuel (constrained_iter_from Q f s) =
                        collect (constrained_next Q g f cs') fuel (constrained_iter_from Q f s)) /\
  (forall Q g cost heur s t fuel, constrained_shortest_path Q g cost heur s t cs fuel = constrained_shortest_path Q g cost heur s t cs' fuel) /\
  (forall Q g cost heur s t fuel, constrained_checked Q g cost heur s t cs fuel = constrained_checked Q g cost heur s t cs' fuel) /\
  (forall Q g cost heur s t fuel, constrained_release Q g cost heur s t cs fuel = constrained_release Q g cost heur s t cs' fuel) /\
  (forall c, cycle_check c cs = cycle_check c cs').
Proof.
  intros cs cs' H. assert (HP := fun sp => proj1 (lists_check _ _ H sp)). assert (HC := fun sp => proj2 (lists_check _ _ H sp)).
  split; [|split; [|split; [|split]]].
  - intros Q g f s fuel. apply (collect_local _ _ (fun _ => True)); auto. intros q _. now apply next_same.
  - intros Q g cost heur s t fuel. unfold constrained_shortest_path. apply find_same; [assumption|]. intro q. now apply next_same.
  - intros Q g cost heur s t fuel. unfold constrained_checked, p_constrained_shortest_path.
    destruct (p_constrained_iter_from _ _ _) as [q|]; [|reflexivity]. apply find_same; [assumption|]. intro q0. now apply p_next_same.
  - intros Q g cost heur s t fuel. unfold constrained_release, p_constrained_shortest_path.
    destruct (p_constrained_iter_from _ _ _) as [q|]; [|reflexivity]. apply find_same; [assumption|]. intro q0. now apply p_next_same.
  - intro c. now apply cycle_check_same.
Qed.
Print Assumptions C156_rewriting.

(** ** Lists with the same meaning *)
Theorem C156_meaning : forall g cost heur cs cs' s t Q Q', built g -> pops_least Q sp_score -> pops_least Q' sp_score ->
  let f := fun p => (cost p + heur p)%Z in
  (forall p z, (forall c, In c cs -> ConstraintSpec.holds c p z) <-> (forall c, In c cs' -> ConstraintSpec.holds c p z)) ->
  (* both searches end: the same cost, or no path twice *)
  (never_decreases g s f -> forall fuel fuel' r r',
     constrained_shortest_path Q g cost heur s t cs fuel = Done r -> constrained_shortest_path Q' g cost heur s t cs' fuel' = Done r' ->
     option_map sp_score r = option_map sp_score r') /\
  (* and a path is found for one if it is for the other *)
  (each_edge_costs g s f -> (exists sp, settles (constrained_shortest_path Q g cost heur s t cs) (Some sp)) <->
     (exists sp, settles (constrained_shortest_path Q' g cost heur s t cs') (Some sp))).
Proof.
  assert (None_no : forall (Q : squeue scored) g cost heur cs s t fuel, built g ->
    let f := fun p => (cost p + heur p)%Z in never_decreases g s f ->
    constrained_shortest_path Q g cost heur s t cs fuel = Done None ->
    forall p, walk_from_to (gE g) s t p -> (forall c, In c cs -> ConstraintSpec.holds c p (f p)) -> False).
  { intros Q g cost heur cs s t fuel Hb f Hn H p Hw Hs. unfold constrained_shortest_path in H.
    apply (constrained_partial Q g f cs s t (built_wf Hb)) in H. exact (found_nothing Q g f cs s t (built_wf Hb) H Hn p Hw Hs). }
  intros g cost heur cs cs' s t Q Q' Hb HQ HQ' f HM. split.
  - intros Hn fuel fuel' r r' H H'. destruct r as [sp|], r' as [sp'|]; cbn [option_map]; [| | |reflexivity].
    + destruct (C47_constrained_optimal Q g cost heur cs s t fuel sp Hb H) as (W & E & S1 & O).
      destruct (C47_constrained_optimal Q' g cost heur cs' s t fuel' sp' Hb H') as (W' & E' & S1' & O').
      fold f in E, E', S1, S1', O, O'. f_equal. apply Z.le_antisymm.
      * rewrite E'. apply (O HQ Hn); [assumption|]. now apply HM.
      * rewrite E. apply (O' HQ' Hn); [assumption|]. now apply HM.
    + destruct (C47_constrained_optimal Q g cost heur cs s t fuel sp Hb H) as (W & E & S1 & O).
      exfalso. apply (None_no Q' g cost heur cs' s t fuel' Hb Hn H' (sp_path sp) W). now apply HM.
    + destruct (C47_constrained_optimal Q' g cost heur cs' s t fuel' sp' Hb H') as (W & E & S1 & O).
      exfalso. apply (None_no Q g cost heur cs s t fuel Hb Hn H (sp_path sp') W). now apply HM.
  - intro He. split; intros (sp & n & H).
    + destruct (C47_constrained_optimal Q g cost heur cs s t n sp Hb (H n (le_n n))) as (W & _ & S1 & _).
      apply (C48_constrained_complete Q' g cost heur cs' s t (sp_path sp) Hb HQ' He W). now apply HM.
    + destruct (C47_constrained_optimal Q' g cost heur cs' s t n sp Hb (H n (le_n n))) as (W & _ & S1 & _).
      apply (C48_constrained_complete Q g cost heur cs s t (sp_path sp) Hb HQ He W). now apply HM.
Qed.
Print Assumptions C156_meaning.

(** Whether the search ends when there is no path does depend on the writing: MaxLength(1) and Not(MinLength(2)) accept the
    same paths, and the search ends with the first only. *)
Lemma not_min_kids f n k : constrained_kids loop_graph f [CNot (MinLength n)] (node f (repeat 1%N (S k))) =
  Some [node f (repeat 1%N (S (S k)))].
Proof.
  unfold constrained_kids, node, sp_path. rewrite loop_last_vertex.
  replace (outbound_edges loop_graph 1) with [(1%N, 1%N)] by (vm_compute; reflexivity).
  cbn [map filter snd check_all_partial forallb check_partial]. unfold scored_child, path_append, sp_path.
  replace (repeat 1%N (S k) ++ [1%N]) with (repeat 1%N (S (S k))); [reflexivity|].
  change [1%N] with (repeat 1%N 1). rewrite <- repeat_app. f_equal. lia.
Qed.
Theorem C156_ending_refuted : exists g s t cs cs', built g /\
  (forall p z, (forall c, In c cs -> ConstraintSpec.holds c p z) <-> (forall c, In c cs' -> ConstraintSpec.holds c p z)) /\
  forall Q, settles (constrained_shortest_path Q g one_weighted_edge zero_heuristic s t cs) None /\
            diverges (constrained_shortest_path Q g one_weighted_edge zero_heuristic s t cs').
Proof.
  exists loop_graph, 1%N, 2%N, [MaxLength 1], [CNot (MinLength 2)].
  assert (Hb : built loop_graph) by (eexists; apply built_by_apply). split; [exact Hb|]. split.
  { intros p z. split; intros H c [<-|[]].
    - specialize (H _ (or_introl eq_refl)). cbn in *. lia.
    - specialize (H _ (or_introl eq_refl)). cbn in *. lia. }
  intro Q. set (f := fun p => (one_weighted_edge p + zero_heuristic p)%Z).
  assert (Hn : never_decreases loop_graph 1 f).
  { intros p v _ _. unfold f, one_weighted_edge, zero_heuristic, path_size. rewrite app_length. cbn [length]. lia. }
  split.
  - destruct (C50_bounded_terminates Q loop_graph one_weighted_edge zero_heuristic [MaxLength 1] 1%N 2%N Hb) as (r & H & K).
    { right. exists 1%nat. now left. }
    specialize (K Hn). assert (r = None) as ->; [|exact H]. apply K. intros (p & Hw & Hs). specialize (Hs _ (or_introl eq_refl)). cbn in Hs.
    destruct Hw as ([q ->] & [q' E] & _). cbn [length] in Hs. destruct q; [|cbn in Hs; lia].
    destruct q' as [|? q']; [discriminate|]. injection E as _ E. destruct q'; discriminate.
  - intro n. unfold constrained_shortest_path.
    assert (H : forall q k, q_valid Q q -> Permutation (q_content Q q) [node f (repeat 1%N (S k))] ->
      iter_find (fun sp => last_is 2 sp && forallb (fun c => check_complete c sp) [CNot (MinLength 2)])
        (constrained_next Q loop_graph f [CNot (MinLength 2)]) n q = OutOfFuel).
    { induction n as [|n IH]; intros q k Hv Hq; [reflexivity|].
      cbn [iter_find]. unfold constrained_next at 1, tree_next at 1.
      destruct (q_pop Q q) as [[a q']|] eqn:E.
      2:{ apply (q_pop_none _ Q q Hv) in E. rewrite E in Hq. apply Permutation_nil in Hq. discriminate. }
      pose proof (q_pop_content _ Q q a q' Hv E) as Hc. pose proof (q_pop_valid _ Q q a q' Hv E) as Hv'.
      rewrite Hc in Hq. apply Permutation_length_1_inv in Hq || (symmetry in Hq; apply Permutation_length_1_inv in Hq).
      injection Hq as -> Hq.
      change (1%N :: repeat 1%N k) with (repeat 1%N (S k)). rewrite not_min_kids. rewrite loop_last. cbn [andb].
      apply (IH _ (S k)).
      - now apply push_all_valid.
      - rewrite push_all_content by assumption. rewrite Hq. reflexivity. }
    apply (H _ 0%nat).
    + apply q_push_valid, q_empty_valid.
    + unfold constrained_iter_from. rewrite q_push_content by apply q_empty_valid.
      now rewrite q_empty_content.
Qed.
Print Assumptions C156_ending_refuted.

(** ** [validate] does not see the order *)
Lemma flat_map_perm {A B} (f : A -> list B) l l' : Permutation l l' -> Permutation (flat_map f l) (flat_map f l').
Proof.
  induction 1 as [|x l l' H IH|x y l|l l' l'' H1 IH1 H2 IH2]; cbn [flat_map]; [constructor|now apply Permutation_app_head| |now transitivity (flat_map f l')].
  rewrite !app_assoc. apply Permutation_app_tail, Permutation_app_comm.
Qed.
Lemma filter_nil_set {A} (f f' : A -> bool) l l' : (forall x, In x l <-> In x l') -> (forall x, f x = f' x) -> filter f l = [] -> filter f' l' = [].
Proof.
  intros H F E. destruct (filter f' l') as [|x t] eqn:E'; [reflexivity|]. assert (Hx : In x (filter f' l')) by (rewrite E'; now left).
  apply filter_In in Hx. destruct Hx as [H1 H2]. apply H in H1. rewrite <- F in H2.
  assert (Hx : In x (filter f l)) by now apply filter_In. now rewrite E in Hx.
Qed.
Lemma empty_match {A} (f f' : A -> bool) (l l' : list A) (r r' : vresult) : (forall x, In x l <-> In x l') -> (forall x, f x = f' x) ->
  match filter f l with [] => r | _ => r' end = match filter f' l' with [] => r | _ => r' end.
Proof.
  intros H F. destruct (filter f l) eqn:E.
  - now rewrite (filter_nil_set f f' l l' H F E).
  - destruct (filter f' l') eqn:E'; [|reflexivity].
    rewrite (filter_nil_set f' f l' l) in E; [discriminate| |now intro x|assumption]. intro x. symmetry. apply H.
Qed.
Lemma mem_set {A} (eqb : A -> A -> bool) l l' : (forall x, In x l <-> In x l') -> forall x, existsb (eqb x) l = existsb (eqb x) l'.
Proof.
  intros H x. apply Bool.eq_true_iff_eq. rewrite !existsb_exists. split; intros (y & H1 & H2); exists y; (split; [now apply H|assumption]).
Qed.
Lemma perm_In {A} (l l' : list A) : Permutation l l' -> forall x, In x l <-> In x l'.
Proof. intros H x. split; intro Hx; [now apply (Permutation_in x H)|apply (Permutation_in x (Permutation_sym H) Hx)]. Qed.
Lemma min_max_perm {A} gtb (mins mins' maxs maxs' : list A) e1 e2 e3 : Permutation mins mins' -> Permutation maxs maxs' ->
  check_min_max gtb mins maxs e1 e2 e3 = check_min_max gtb mins' maxs' e1 e2 e3.
Proof.
  intros H1 H2. unfold check_min_max. rewrite <- (Permutation_length H1), <- (Permutation_length H2).
  destruct (Nat.ltb 1 (length mins)) eqn:L1; [reflexivity|]. destruct (Nat.ltb 1 (length maxs)) eqn:L2; [reflexivity|].
  apply Nat.ltb_ge in L1, L2.
  assert (K : forall l l' : list A, Permutation l l' -> (length l <= 1)%nat -> l' = l).
  { intros [|x [|y l]] l' H L; [now apply Permutation_nil in H|now apply Permutation_length_1_inv in H|cbn in L; lia]. }
  now rewrite (K _ _ H1 L1), (K _ _ H2 L2).
Qed.
Theorem C156_validate : forall cs cs', Permutation cs cs' -> validate cs = validate cs'.
Proof.
  intros cs cs' H. unfold validate.
  assert (I1 := perm_In _ _ (flat_map_perm (fun c => match c with ContainsVertex v => [v] | ContainsEdge (a, b) => [a; b] | _ => [] end) _ _ H)).
  f_equal; [|f_equal; [|f_equal; f_equal; [|f_equal]]].
  - unfold check_vertex_incl_excl. apply empty_match; [exact I1|]. intro x. apply mem_set. apply perm_In. now apply flat_map_perm.
  - unfold check_edge_incl_excl. apply empty_match; [apply perm_In; now apply flat_map_perm|]. intro x. apply mem_set. apply perm_In. now apply flat_map_perm.
  - unfold check_cycle_incl_excl.
    assert (K : forall f : constraint -> bool, existsb f cs = existsb f cs').
    { intro f. apply Bool.eq_true_iff_eq. rewrite !existsb_exists.
      split; intros (y & Y1 & Y2); exists y; (split; [now apply (perm_In _ _ H)|assumption]). }
    now rewrite !K.
  - unfold check_min_max_length. apply min_max_perm; now apply flat_map_perm.
  - unfold check_min_max_score. apply min_max_perm; now apply flat_map_perm.
Qed.
Print Assumptions C156_validate.

(** ** Command lines *)
Open Scope N_scope.
(** Both options give the same elements, in any order and number. *)
Definition same_elements {A} (o o' : option (list A)) : Prop :=
  forall x, (exists l, o = Some l /\ In x l) <-> (exists l, o' = Some l /\ In x l).
(** Lengths: --exact-length n is --min-length n with --max-length n. *)
Definition same_bounds (b b' : bounds) : Prop :=
  (forall n, r_min_length b = Some n \/ r_exact_length b = Some n <-> r_min_length b' = Some n \/ r_exact_length b' = Some n) /\
  (forall n, r_max_length b = Some n \/ r_exact_length b = Some n <-> r_max_length b' = Some n \/ r_exact_length b' = Some n) /\
  r_min_score b = r_min_score b' /\ r_max_score b = r_max_score b' /\ r_exact_score b = r_exact_score b'.
Definition same_request (r r' : csp_request) : Prop :=
  same_elements (r_include r) (r_include r') /\ same_elements (r_exclude r) (r_exclude r') /\ r_ordered r = r_ordered r' /\
  r_include_cycle r = r_include_cycle r' /\ r_no_cycle r = r_no_cycle r' /\ same_bounds (r_bounds r) (r_bounds r').
Definition same_cycle_request (r r' : cycle_request) : Prop :=
  same_elements (k_include r) (k_include r') /\ same_elements (k_exclude r) (k_exclude r') /\
  same_elements (k_include_edges r) (k_include_edges r') /\ same_elements (k_exclude_edges r) (k_exclude_edges r') /\
  same_bounds (k_bounds r) (k_bounds r').

Lemma when_map {A B} (f : A -> B) o c : In c (when o (map f)) <-> exists x, (exists l, o = Some l /\ In x l) /\ f x = c.
Proof.
  destruct o as [l|]; cbn [when]; [rewrite in_map_iff|].
  - split; [intros (x & E & Hx); exists x; eauto|intros (x & (l' & [= <-] & Hx) & E); eauto].
  - split; [intros []|intros (x & (l' & [=] & _) & _)].
Qed.
Lemma when_map_same {A B} (f : A -> B) o o' : same_elements o o' -> forall c, In c (when o (map f)) <-> In c (when o' (map f)).
Proof. intros H c. rewrite !when_map. split; intros (x & Hx & E); exists x; (split; [now apply H|assumption]). Qed.
Definition lengths_of (b : bounds) : list constraint :=
  when (r_min_length b) (fun n => [MinLength (N.to_nat n)]) ++ when (r_max_length b) (fun n => [MaxLength (N.to_nat n)]) ++
  when (r_exact_length b) (fun n => [MinLength (N.to_nat n); MaxLength (N.to_nat n)]).
Lemma lengths_In b c : In c (lengths_of b) <->
  (exists n, (r_min_length b = Some n \/ r_exact_length b = Some n) /\ c = MinLength (N.to_nat n)) \/
  (exists n, (r_max_length b = Some n \/ r_exact_length b = Some n) /\ c = MaxLength (N.to_nat n)).
Proof.
  unfold lengths_of. rewrite !in_app_iff. destruct b as [mn mx ex a1 a2 a3]. cbn [r_min_length r_max_length r_exact_length]. split.
  - intros [H|[H|H]].
    + destruct mn as [n|]; [|destruct H]. destruct H as [<-|[]]. left. exists n. auto.
    + destruct mx as [n|]; [|destruct H]. destruct H as [<-|[]]. right. exists n. auto.
    + destruct ex as [n|]; [|destruct H]. destruct H as [<-|[<-|[]]]; [left|right]; exists n; auto.
  - intros [(n & [E|E] & ->)|(n & [E|E] & ->)]; subst; cbn [when In]; tauto.
Qed.
Lemma lengths_same b b' : same_bounds b b' -> forall c, In c (lengths_of b) <-> In c (lengths_of b').
Proof.
  intros (H1 & H2 & _) c. rewrite !lengths_In.
  split; (intros [(n & Hn & E)|(n & Hn & E)]; [left|right]; exists n; (split; [|assumption]); [now apply H1|now apply H2]).
Qed.
Lemma applied_same r r' : same_request r r' -> forall c, In c (applied r) <-> In c (applied r').
Proof.
  intros (H1 & H2 & E3 & E4 & E5 & HB) c. pose proof (lengths_same _ _ HB c) as HL. destruct HB as (_ & _ & B1 & B2 & B3).
  pose proof (when_map_same ContainsVertex _ _ H1 c) as M1. pose proof (when_map_same (fun v => CNot (ContainsVertex v)) _ _ H2 c) as M2.
  unfold applied. unfold lengths_of in HL. rewrite E3, E4, E5, B1, B2, B3. rewrite !in_app_iff in *. tauto.
Qed.

Theorem C156_csp : forall a a' r r', csp_understood a r -> csp_understood a' r' -> same_request r r' ->
  exists header header', forall nd order Q s x y fuel,
    let run := run_prog (gc_csp nd order Q x y a fuel) s in let run' := run_prog (gc_csp nd order Q x y a' fuel) s in
    fst run = fst run' /\
    ((exists answer, snd run = Done (header ++ answer) /\ snd run' = Done (header' ++ answer)) \/
     (snd run = snd run' /\ forall out, snd run <> Done out)).
Proof.
  intros a a' r r' G G' HS.
  assert (L : same_list (csp_constraints a) (csp_constraints a')).
  { rewrite (csp_constraints_understood a r G), (csp_constraints_understood a' r' G'). apply list_set. now apply applied_same. }
  destruct (C156_rewriting _ _ L) as (_ & K & _).
  exists (txt "Constraint that will be applied to search are: " :: map debug_constraint (csp_constraints a)),
         (txt "Constraint that will be applied to search are: " :: map debug_constraint (csp_constraints a')).
  intros nd order Q s x y fuel. unfold gc_csp, with_ids.
  destruct (parse_vertex_id x) as [u|]; [|split; [reflexivity|right; split; [reflexivity|discriminate]]].
  destruct (parse_vertex_id y) as [v|]; [|split; [reflexivity|right; split; [reflexivity|discriminate]]].
  rewrite !run_with_graph. cbv zeta. cbn [fst snd]. split; [reflexivity|].
  destruct (snd (run_prog (load_graph nd) s)) as [[g|e]| |]; try (right; split; [reflexivity|discriminate]).
  rewrite K. destruct (constrained_shortest_path _ _ _ _ _ _ _ _) as [res| |]; cbn [omap];
    try (right; split; [reflexivity|discriminate]).
  left. eexists. split; reflexivity.
Qed.
Print Assumptions C156_csp.

Definition cycle_applied (r : cycle_request) : list constraint :=
  when (k_include r) (map ContainsVertex) ++ when (k_exclude r) (map (fun v => CNot (ContainsVertex v))) ++
  when (k_include_edges r) (map ContainsEdge) ++ when (k_exclude_edges r) (map (fun e => CNot (ContainsEdge e))) ++
  lengths_of (k_bounds r) ++
  when (r_min_score (k_bounds r)) (fun z => [MinScore z]) ++ when (r_max_score (k_bounds r)) (fun z => [MinScore z]) ++ when (r_exact_score (k_bounds r)) (fun z => [MinScore z; MaxScore z]).
Lemma cycle_constraints_applied a r : cycle_given a r -> cycle_constraints a = cycle_applied r.
Proof.
  intros (G1 & G2 & G3 & G4 & (B1 & B2 & B3 & B4 & B5 & B6)).
  assert (Hi : forall t z, int_argument t z -> parse_i64 t = Some z) by (intros t z H; now apply parse_i64_spec).
  unfold cycle_constraints, cycle_applied, lengths_of, bound_constraints, opt_one.
  rewrite (opt_list_given _ _ _ _ id_arguments (fun l => l) _ _ _ parse_list_given G1).
  rewrite (opt_list_given _ _ _ _ id_arguments (fun l => l) _ _ _ parse_list_given G2).
  rewrite (opt_list_given _ _ _ _ edge_arguments (fun l => l) _ _ _ edge_list_given G3).
  rewrite (opt_list_given _ _ _ _ edge_arguments (fun l => l) _ _ _ edge_list_given G4).
  rewrite (opt_list_given _ _ _ _ id_argument N.to_nat _ _ _ parse_usize_given B1).
  rewrite (opt_list_given _ _ _ _ id_argument N.to_nat _ _ _ parse_usize_given B2).
  rewrite (opt_list_given _ _ _ _ id_argument N.to_nat _ _ _ parse_usize_given B3).
  rewrite (opt_list_given _ _ _ _ int_argument (fun z => z) _ _ _ Hi B4).
  rewrite (opt_list_given _ _ _ _ int_argument (fun z => z) _ _ _ Hi B5).
  rewrite (opt_list_given _ _ _ _ int_argument (fun z => z) _ _ _ Hi B6).
  rewrite <- !app_assoc. reflexivity.
Qed.
Lemma cycle_constraints_understood a r : cycle_understood a r -> cycle_constraints a = cycle_applied r.
Proof.
  intro H. destruct (cycle_understood_given a r H) as (a' & (_ & _ & H1 & H2 & H3 & H4 & H5) & G & _).
  rewrite <- (cycle_constraints_applied a' r G). unfold cycle_constraints. rewrite (bounds_dropped_same _ _ H5).
  assert (Hi : forall a z, parse_vertex_id_list a = Some z -> id_arguments a z) by (intros; now apply parse_list_spec).
  now rewrite (opt_dropped _ _ _ _ _ Hi H1), (opt_dropped _ _ _ _ _ Hi H2),
      (opt_dropped _ _ _ _ _ edge_list_denotes H3), (opt_dropped _ _ _ _ _ edge_list_denotes H4).
Qed.
Lemma cycle_applied_same r r' : same_cycle_request r r' -> forall c, In c (cycle_applied r) <-> In c (cycle_applied r').
Proof.
  intros (H1 & H2 & H3 & H4 & HB) c. pose proof (lengths_same _ _ HB c) as HL. destruct HB as (_ & _ & B1 & B2 & B3).
  pose proof (when_map_same ContainsVertex _ _ H1 c) as M1. pose proof (when_map_same (fun v => CNot (ContainsVertex v)) _ _ H2 c) as M2.
  pose proof (when_map_same ContainsEdge _ _ H3 c) as M3. pose proof (when_map_same (fun e => CNot (ContainsEdge e)) _ _ H4 c) as M4.
  unfold cycle_applied. rewrite B1, B2, B3. rewrite !in_app_iff in *. tauto.
Qed.
Theorem C156_cycle : forall a a' r r' x, cycle_understood a r -> cycle_understood a' r' ->
  same_cycle_request r r' -> asks a x -> asks a' x ->
  forall nd order s fuel, run_prog (gc_cycle nd order a fuel) s = run_prog (gc_cycle nd order a' fuel) s.
Proof.
  intros a a' r r' x G G' HS A A' nd order s fuel.
  assert (L : same_list (cycle_constraints a) (cycle_constraints a')).
  { rewrite (cycle_constraints_understood a r G), (cycle_constraints_understood a' r' G'). apply list_set. now apply cycle_applied_same. }
  assert (HC := fun sp => proj2 (lists_check _ _ L sp)).
  unfold gc_cycle. rewrite !run_with_graph. f_equal. destruct (snd (run_prog (load_graph nd) s)) as [[g|e]| |]; try reflexivity.
  unfold asks in A, A'. rewrite <- A in A'. injection A' as E1 E2 E3 E4 E5 E6 E7 E8. cbv zeta. unfold take_count. rewrite E1, E2, E3, E4, E5, E6, E7, E8.
  assert (N1 := accepted_next_same _ _ HC (order g)).
  assert (C1 : accepted (order g) (cycle_constraints a) fuel = accepted (order g) (cycle_constraints a') fuel).
  { unfold accepted. generalize (cycle_iter (order g)) as st. generalize fuel at 2 4 as k.
    induction k as [|k IH]; intro st; [reflexivity|]. cbn [fcollect]. rewrite N1.
    destruct (accepted_next _ _ _ _) as [[[c st']|]| |]; try reflexivity. cbn [obind]. now rewrite IH. }
  assert (C2 : forall n, ftake _ _ (accepted_next (order g) (cycle_constraints a)) fuel n (cycle_iter (order g)) =
                         ftake _ _ (accepted_next (order g) (cycle_constraints a')) fuel n (cycle_iter (order g))).
  { intro n. generalize (cycle_iter (order g)) as st.
    induction n as [|n IH]; intro st; [reflexivity|]. cbn [ftake]. rewrite N1.
    destruct (accepted_next _ _ _ _) as [[[c st']|]| |]; try reflexivity. cbn [obind]. now rewrite IH. }
  rewrite C1. destruct (c_girth a), (c_hamiltonian a), (c_count a), (c_shortest a), (c_longest a); try reflexivity.
  destruct (if c_head a then _ else _); [|reflexivity]. now rewrite C2.
Qed.
Print Assumptions C156_cycle.

(** And(Or(a, b), c), c and c, Or(b, a); --include-all 3 4 --exact-length 5 and --include-all 4 3 3 --min-length 5 --max-length 5. *)
Definition exact5 : csp_args := {| q_include := Some [txt "3"; txt "4"]; q_exclude := None; q_ordered := None; q_include_cycle := false; q_no_cycle := false;
  q_bounds := {| b_min_length := None; b_max_length := None; b_exact_length := Some (txt "5"); b_min_score := None; b_max_score := None; b_exact_score := None |} |}.
Definition min5max5 : csp_args := {| q_include := Some [txt "4"; txt "3"; txt "3"]; q_exclude := None; q_ordered := None; q_include_cycle := false; q_no_cycle := false;
  q_bounds := {| b_min_length := Some (txt "5"); b_max_length := Some (txt "5"); b_exact_length := None; b_min_score := None; b_max_score := None; b_exact_score := None |} |}.
Example C156_case :
  (forall a b c, same_list [CAnd (COr a b) c; c] [c; COr b a]) /\
  exists r r', csp_understood exact5 r /\ csp_understood min5max5 r' /\ same_request r r' /\
  snd (run_prog (gc_csp table id_order (MinPriorityQueue sp_score) (txt "1") (txt "2") exact5 100) (with_file csp_file)) =
  Done [txt "Constraint that will be applied to search are: "; txt "ContainsVertex(VertexId(3))"; txt "ContainsVertex(VertexId(4))";
        txt "MinLength(5)"; txt "MaxLength(5)";
        txt "Constrained shortest path from vertex 1 to vertex 2 with total cost of 4."; txt "1"; txt "4"; txt "2"; txt "3"; txt "2"].
Proof.
  split.
  { intros a b c. apply (list_trans _ (COr a b :: c :: [c])); [apply list_and|].
    apply (list_trans _ [c; COr a b]); [apply list_set; cbn [In]; tauto|]. apply list_each.
    constructor; [apply same_refl|]. constructor; [apply or_comm|constructor]. }
  exists {| r_include := Some [3; 4]; r_exclude := None; r_ordered := None; r_include_cycle := false; r_no_cycle := false;
    r_bounds := {| r_min_length := None; r_max_length := None; r_exact_length := Some 5; r_min_score := None; r_max_score := None; r_exact_score := None |} |},
   {| r_include := Some [4; 3; 3]; r_exclude := None; r_ordered := None; r_include_cycle := false; r_no_cycle := false;
    r_bounds := {| r_min_length := Some 5; r_max_length := Some 5; r_exact_length := None; r_min_score := None; r_max_score := None; r_exact_score := None |} |}.
  split; [apply csp_given_understood; refine (conj _ (conj I (conj I (conj eq_refl (conj eq_refl (conj I (conj I (conj _ (conj I (conj I I))))))))));
          [apply parse_list_spec; reflexivity|apply parse_id_spec; reflexivity]|].
  split; [apply csp_given_understood; refine (conj _ (conj I (conj I (conj eq_refl (conj eq_refl (conj _ (conj _ (conj I (conj I (conj I I))))))))));
          [apply parse_list_spec; reflexivity|apply parse_id_spec; reflexivity|apply parse_id_spec; reflexivity]|].
  split; [|vm_compute; reflexivity].
  split; [|split; [|split; [reflexivity|split; [reflexivity|split; [reflexivity|]]]]].
  - intro x. split; intros (l & [= <-] & H); [exists [4; 3; 3]|exists [3; 4]]; (split; [reflexivity|]); cbn [In] in *; tauto.
  - intro x. split; intros (l & [=] & _).
  - split; [|split; [|split; [reflexivity|split; reflexivity]]]; intro n; cbn; split; intros [H|H]; try discriminate; auto.
Qed.
