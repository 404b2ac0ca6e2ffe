(** * C164: in which order the cycles are listed *)
From Coq Require Import String.
From Coq Require Import List NArith ZArith Bool Arith Lia Permutation.
From Verif Require Import Spec Base WalkFacts Graph GraphSpec GraphFacts OrderFacts Path PathFacts Queue Iter IterFacts TreeFacts
  CycleSpec Cycle CycleFacts PropGraph PropCycle PropSearch
  Text Format FormatSpec TextFacts FormatFacts Store StoreSpec StoreFacts PropFormat PropStore
  Cli CliSpec CliFacts Query QuerySpec QueryFacts PropQuery PropLocal VisitSpec VisitFacts PropVisit RingSpec.
Import ListNotations.
Open Scope nat_scope.

Section Order.
  Variables (g : graph) (nb : N -> list N).
  Hypothesis W : wf g.
  Hypothesis Hnb : forall v, nb v = map snd (outbound_edges g v).
  Let kidsc := kidsl path (cycle_kids g).
  Let treec := tree path (cycle_kids g) (crank g).

  Lemma comes_back_snoc r (v : N) : comes_back (r ++ [v]) <-> In v r.
  Proof.
    split.
    - intros (a & x & b & H). assert (H' : r ++ [v] = (a ++ x :: b) ++ [x]) by (rewrite <- app_assoc; exact H).
      apply app_inj_tail in H' as [-> ->]. rewrite in_app_iff. right. now left.
    - intro H. apply in_split in H as (a & b & ->). exists a, v, b. now rewrite <- app_assoc.
  Qed.
  Lemma closings_split l1 : forall l2 ls, closings_all nb (l1 ++ l2) ls -> exists a b, ls = a ++ b /\ closings_all nb l1 a /\ closings_all nb l2 b.
  Proof.
    induction l1 as [|p l1 IH]; intros l2 ls H; cbn in H.
    - exists [], ls. split; [reflexivity|]. split; [constructor|assumption].
    - inversion H as [|p' ps l ls' H1 H2]; subst. destruct (IH _ _ H2) as (a & b & -> & Ha & Hb). exists (l ++ a), b.
      split; [now rewrite app_assoc|]. split; [now constructor|assumption].
  Qed.
  Lemma onwards_kids r (v : N) : onwards nb (r ++ [v]) = map (fun e => path_append (r ++ [v]) (snd e)) (outbound_edges g v).
  Proof. unfold onwards. rewrite rev_app_distr. cbn [rev app]. rewrite Hnb, map_map. reflexivity. Qed.

  Lemma ordered_run n : forall stack returned, (forall p, In p stack -> good g p) -> length (flat_map treec stack) <= n ->
    exists walks rings, closings_all nb (rev stack) walks /\ Forall (fun p => NoDup (removelast p)) walks /\ Forall2 ring walks rings /\
      runs (cycle_next g) (stack, returned) (fresh returned rings).
  Proof.
    induction n as [|n IH]; intros stack returned Hg Hn.
    { destruct stack as [|p stack].
      + exists [], []. split; [constructor|]. split; [constructor|]. split; [constructor|]. apply runs_nil. exists 1. intros [|m] Hm; [lia|reflexivity].
      + cbn [flat_map] in Hn. unfold treec in Hn. rewrite (tree_unfold_c g W) in Hn by (apply Hg; now left). cbn in Hn. lia. }
    destruct stack as [|p st _] using rev_ind.
    { exists [], []. split; [constructor|]. split; [constructor|]. split; [constructor|]. apply runs_nil. exists 1. intros [|m] Hm; [lia|reflexivity]. }
    assert (Hp : good g p) by (apply Hg; apply in_app_iff; right; now left).
    assert (Hst : forall q, In q st -> good g q) by (intros; apply Hg; apply in_app_iff; now left).
    rewrite flat_map_app, app_length in Hn. cbn [flat_map] in Hn. rewrite app_nil_r in Hn. unfold treec at 2 in Hn.
    rewrite (tree_unfold_c g W) in Hn by assumption. cbn [length] in Hn.
    assert (Hpop : pop_back (st ++ [p]) = Some (p, st)) by now apply pop_back_some.
    rewrite rev_app_distr. cbn [rev app].
    destruct (good_inv g p Hp) as (r & v & ->). pose proof Hp as Hp'. apply (good_snoc g) in Hp' as (Hnd & _ & _).
    destruct (in_dec N.eq_dec v r) as [Hv|Hv].
    - pose proof Hv as Hv'. apply in_split in Hv' as (a & b & ->).
      assert (Hb : ~ In v b) by (apply NoDup_app_iff in Hnd as (_ & Hnd & _); now inversion Hnd).
      destruct (extract_some a b v Hb) as (c & Hc & Hx).
      assert (Hring : ring ((a ++ v :: b) ++ [v]) c).
      { exists a, v, b. split; [now rewrite <- app_assoc|]. split; [assumption|]. apply canonical_spec; [|assumption].
        apply NoDup_app_iff in Hnd as (_ & Hnd & _). exact Hnd. }
      assert (Hk : flat_map treec (kidsc ((a ++ v :: b) ++ [v])) = []).
      { unfold kidsc, kidsl, cycle_kids. now rewrite Hx. }
      assert (Hcl : closings nb ((a ++ v :: b) ++ [v]) [(a ++ v :: b) ++ [v]]) by (apply closing_here; now apply comes_back_snoc).
      destruct (in_dec (list_eq_dec N.eq_dec) c returned) as [Hm|Hm].
      + destruct (IH st returned Hst) as (walks & rings & H1 & Hw & H2 & H3); [lia|].
        exists ([(a ++ v :: b) ++ [v]] ++ walks), (c :: rings). split; [now constructor|]. split; [constructor; [now rewrite removelast_last|assumption]|]. split; [now constructor|].
        cbn [fresh]. destruct (in_dec (list_eq_dec N.eq_dec) c returned); [|contradiction]. eapply runs_step; [|exact H3].
        intro k. cbn [cycle_next Stack q_pop]. apply memC_In in Hm. now rewrite Hpop, Hx, Hm.
      + destruct (IH st (c :: returned) Hst) as (walks & rings & H1 & Hw & H2 & H3); [lia|].
        exists ([(a ++ v :: b) ++ [v]] ++ walks), (c :: rings). split; [now constructor|]. split; [constructor; [now rewrite removelast_last|assumption]|]. split; [now constructor|].
        cbn [fresh]. destruct (in_dec (list_eq_dec N.eq_dec) c returned); [contradiction|]. eapply runs_cons; [|exact H3].
        exists 1. intros [|k] Hle; [lia|]. cbn [cycle_next Stack q_pop]. rewrite Hpop, Hx.
        destruct (memC c returned) eqn:Em; [apply memC_In in Em; contradiction|reflexivity].
    - assert (Hx := extract_none r v Hv). assert (Hk : cycle_kids g (r ++ [v]) = Some (onwards nb (r ++ [v]))).
      { unfold cycle_kids. now rewrite Hx, CycleFacts.last_snoc, onwards_kids. }
      pose proof (kids_good g W (r ++ [v])) as Hkg. unfold kidsl in Hkg, Hn. rewrite Hk in Hkg, Hn.
      destruct (IH (st ++ onwards nb (r ++ [v])) returned) as (walks & rings & H1 & Hw & H2 & H3).
      { intros q Hq. apply in_app_iff in Hq as [Hq|Hq]; [auto|]. now apply Hkg. }
      { rewrite flat_map_app, app_length. unfold treec in *. lia. }
      rewrite rev_app_distr in H1. apply closings_split in H1 as (l1 & l2 & -> & K1 & K2).
      exists (l1 ++ l2), rings. split; [constructor; [|assumption]; apply closing_later; [now rewrite comes_back_snoc|assumption]|].
      split; [assumption|]. split; [assumption|]. eapply runs_step; [|exact H3]. intro k. cbn [cycle_next Stack q_pop].
      rewrite Hpop, Hx, CycleFacts.last_snoc, push_all_stack, onwards_kids. reflexivity.
  Qed.
End Order.

Scheme closings_mut := Induction for closings Sort Prop with closings_all_mut := Induction for closings_all Sort Prop.
Lemma closings_one nb ps ls : closings_all nb ps ls -> forall ls', closings_all nb ps ls' -> ls = ls'.
Proof.
  apply (closings_all_mut nb (fun p l _ => forall l', closings nb p l' -> l = l') (fun ps ls _ => forall ls', closings_all nb ps ls' -> ls = ls')).
  - intros p Hc l' H. inversion H; subst; [reflexivity|contradiction].
  - intros p l Hc _ IH l' H. inversion H; subst; [contradiction|now apply IH].
  - intros ls' H. now inversion H.
  - intros p l l0 ls0 _ IH1 _ IH2 ls' H. inversion H; subst. f_equal; [now apply IH1|now apply IH2].
Qed.
Lemma ring_one p c c' : ring p c -> ring p c' -> NoDup (removelast p) -> c = c'.
Proof.
  intros (a & v & b & -> & Hb & Hr & Hl) (a' & v' & b' & He & Hb' & Hr' & Hl') Hnd.
  assert (H : (a ++ v :: b) ++ [v] = (a' ++ v' :: b') ++ [v']) by (rewrite <- !app_assoc; exact He).
  apply app_inj_tail in H as [H ->].
  assert (Hn : NoDup (a ++ v' :: b)).
  { replace (a ++ v' :: b ++ [v']) with ((a ++ v' :: b) ++ [v']) in Hnd by now rewrite <- app_assoc. now rewrite removelast_last in Hnd. }
  destruct (NoDup_mid _ _ _ _ _ _ Hn H) as [-> ->]. apply NoDup_app_iff in Hn as (_ & Hn & _).
  assert (E1 : canonical (v' :: b') = Some c) by (apply canonical_spec; auto).
  assert (E2 : canonical (v' :: b') = Some c') by (apply canonical_spec; auto). congruence.
Qed.

Lemma starts_beginnings cs g : built_by cs g -> find_starting_edges g = beginnings (vertices g) (insertion_order cs).
Proof.
  intro B. unfold find_starting_edges, beginnings.
  assert (H : filter (fun v => Nat.eqb (length (inbound_edges g v)) 0) (vertices g) =
    filter (fun v => negb (existsb (fun e => N.eqb (snd e) v) (insertion_order cs))) (vertices g)).
  { apply filter_ext. intro v. destruct (C93_edges_in_order cs g v B) as (_ & -> & _).
    induction (insertion_order cs) as [|e l IH]; [reflexivity|]. cbn [filter existsb]. destruct (N.eqb (snd e) v); [reflexivity|exact IH]. }
  cbv zeta. rewrite H. destruct (filter (fun v => negb (existsb (fun e => N.eqb (snd e) v) (insertion_order cs))) (vertices g)); [|reflexivity].
  unfold head_option. now destruct (vertices g).
Qed.
Lemma ordered_cycles cs g : built_by cs g -> exists walks rings,
  closings_all (listed cs) (map (fun v => [v]) (rev (beginnings (vertices g) (insertion_order cs)))) walks /\
  Forall (fun p => NoDup (removelast p)) walks /\ Forall2 ring walks rings /\ runs (cycle_next g) (cycle_iter g) (fresh [] rings).
Proof.
  intro B. assert (W : wf g) by (apply built_wf; now exists cs). unfold cycle_iter. rewrite push_all_stack. cbn [app].
  rewrite map_rev, <- (starts_beginnings cs g B).
  eapply (ordered_run g (listed cs) W (listed_out cs g B)).
  - intros p Hp. apply in_map_iff in Hp as (s & <- & Hs). apply (good_snoc g []). split; [constructor|]. split; [apply chain_one|].
    intros x [<-|[]]. now apply (starts_spec g W).
  - apply le_n.
Qed.
Lemma rings_one walks rings : Forall2 ring walks rings -> Forall (fun p => NoDup (removelast p)) walks ->
  forall rings', Forall2 ring walks rings' -> rings = rings'.
Proof.
  induction 1 as [|p c walks rings H _ IH]; intros Hn rings' H'; inversion H'; subst; [reflexivity|]. inversion Hn; subst.
  f_equal; [now apply (ring_one p)|now apply IH].
Qed.

(** The whole list: from the last vertex without entering edges to the first, and at each vertex from the edge added last to
    the one added first, the walks that come back to a vertex of theirs; of each its cycle, the first time it is met. *)
Theorem C164_cycles_in_order : forall cs g out, built_by cs g ->
  (settles (cycle_take_all g) out <->
   exists walks rings,
     closings_all (listed cs) (map (fun v => [v]) (rev (beginnings (vertices g) (insertion_order cs)))) walks /\
     Forall2 ring walks rings /\ out = fresh [] rings).
Proof.
  intros cs g out B. destruct (ordered_cycles cs g B) as (walks & rings & H1 & Hn & H2 & H3). apply runs_collect in H3. split.
  - intro H. exists walks, rings. split; [assumption|]. split; [assumption|]. exact (settles_fun _ _ _ _ H H3).
  - intros (walks' & rings' & K1 & K2 & ->). rewrite (closings_one _ _ _ K1 _ H1) in K2. now rewrite (rings_one _ _ K2 Hn _ H2).
Qed.
Print Assumptions C164_cycles_in_order.

(** ** gc-cycle
    The answers of C87 are about the cycles in this order, where the vertices come in the order [vs] in which this process goes
    through its hash map. *)
Theorem C164_program : forall nd order s cs, hash_order order -> file_says nd s cs ->
  exists vs, NoDup vs /\ (forall v, In v vs <-> aV (a_run cs) v) /\
  forall walks rings, closings_all (listed cs) (map (fun v => [v]) (rev (beginnings vs (insertion_order cs)))) walks ->
  Forall2 ring walks rings ->
  forall a r, cycle_given a r -> r_max_score (k_bounds r) = None ->
  exists kept, NoDup kept /\ (forall c, In c kept <-> In c (fresh [] rings) /\ cycle_meets r c) /\
    (forall c d, before c d kept -> before c d (fresh [] rings)) /\
    forall x, asks a x -> exists lines, prints (gc_cycle nd order a) s lines /\
      cycle_output (apply_commands cs g_new) x (fresh [] rings) kept lines.
Proof.
  intros nd order s cs O H. destruct (says_loads _ _ _ H) as [HL B].
  assert (Bo : built_by cs (order (apply_commands cs g_new))) by (eapply built_rehash; [exact B|apply O]).
  exists (vertices (order (apply_commands cs g_new))).
  split; [apply (wf_keys (built_wf (ex_intro _ cs Bo)))|].
  split; [intro v; rewrite <- (proj1 (refines Bo)); apply vertices_In|].
  intros walks rings H1 H2. destruct (cycle_answers nd order s _ O HL) as (seen & Hs & _ & Ha).
  assert (seen = fresh [] rings).
  { apply (settles_fun _ _ _ _ Hs). apply (C164_cycles_in_order cs _ _ Bo). now exists walks, rings. }
  now subst seen.
Qed.
Print Assumptions C164_program.

(** *** The same answer each time
    When a single vertex has no edge into it, every process prints the same text. *)
Section Same.
  Variables g h : graph.
  Hypothesis Hout : forall v, outbound_edges g v = outbound_edges h v.
  Hypothesis Hstart : find_starting_edges g = find_starting_edges h.
  Hypothesis Hcount : vertex_count g = vertex_count h.
  Lemma next_same n : forall st, cycle_next g n st = cycle_next h n st.
  Proof.
    induction n as [|n IH]; intros [stack returned]; [reflexivity|]. cbn [cycle_next]. destruct (q_pop (Stack path) stack) as [[p stack']|]; [|reflexivity].
    destruct (extract_canonical_cycle_from_last p) as [[c|]|]; [|destruct (path_last p) as [v|]; [|reflexivity]|reflexivity].
    - destruct (negb (memC c returned)); [reflexivity|apply IH].
    - rewrite Hout. apply IH.
  Qed.
  Lemma iter_same : cycle_iter g = cycle_iter h.
  Proof. unfold cycle_iter. now rewrite Hstart. Qed.
  Lemma fcollect_ext {A S} (n1 n2 : nat -> S -> outcome (option (A * S))) n : (forall s, n1 n s = n2 n s) ->
    forall k s, fcollect A S n1 n k s = fcollect A S n2 n k s.
  Proof.
    intros H k. induction k as [|k IH]; intro s; [reflexivity|]. cbn [fcollect]. rewrite H. destruct (n2 n s) as [[[a s']|]| |]; try reflexivity.
    cbn [obind]. now rewrite IH.
  Qed.
  Lemma ftake_ext {A S} (n1 n2 : nat -> S -> outcome (option (A * S))) n : (forall s, n1 n s = n2 n s) ->
    forall k s, ftake A S n1 n k s = ftake A S n2 n k s.
  Proof.
    intros H k. induction k as [|k IH]; intro s; [reflexivity|]. cbn [ftake]. rewrite H. destruct (n2 n s) as [[[a s']|]| |]; try reflexivity.
    cbn [obind]. now rewrite IH.
  Qed.
  Lemma ffind_ext {A S} (n1 n2 : nat -> S -> outcome (option (A * S))) pred n : (forall s, n1 n s = n2 n s) ->
    forall k s, ffind A S n1 pred n k s = ffind A S n2 pred n k s.
  Proof.
    intros H k. induction k as [|k IH]; intro s; [reflexivity|]. cbn [ffind]. rewrite H. destruct (n2 n s) as [[[a s']|]| |]; try reflexivity.
    cbn [obind]. destruct (pred a); [reflexivity|apply IH].
  Qed.
  Lemma accepted_same cs n st : accepted_next g cs n st = accepted_next h cs n st.
  Proof.
    unfold accepted_next. generalize n at 2 4. intro k. revert st. induction k as [|k IH]; intro st; [reflexivity|]. cbn [filter_next].
    rewrite next_same. destruct (cycle_next h n st) as [[[a s']|]| |]; try reflexivity. cbn [obind]. destruct (cycle_check a cs); [reflexivity|apply IH].
  Qed.
  Lemma all_same n : cycle_take_all g n = cycle_take_all h n.
  Proof. unfold cycle_take_all. rewrite iter_same. apply fcollect_ext. apply next_same. Qed.
  Lemma accepted_all_same cs n : accepted g cs n = accepted h cs n.
  Proof. unfold accepted. rewrite iter_same. apply fcollect_ext. apply accepted_same. Qed.
  Lemma hamiltonian_same n : hamiltonian g n = hamiltonian h n.
  Proof. unfold hamiltonian. rewrite iter_same, Hcount. apply ffind_ext. apply next_same. Qed.
End Same.

Theorem C164_repeatable : forall nd order order' s cs a fuel u, hash_order order -> hash_order order' -> file_says nd s cs ->
  aV (a_run cs) u -> source (aE (a_run cs)) u -> (forall v, aV (a_run cs) v -> source (aE (a_run cs)) v -> v = u) ->
  run_prog (gc_cycle nd order a fuel) s = run_prog (gc_cycle nd order' a fuel) s.
Proof.
  intros nd order order' s cs a fuel u O O' H Vu Su Hu. destruct (says_loads _ _ _ H) as [HL B].
  set (g0 := apply_commands cs g_new) in *.
  assert (W0 : wf g0) by (apply built_wf; now exists cs).
  assert (Bo : built_by cs (order g0)) by (eapply built_rehash; [exact B|apply O]).
  assert (Bo' : built_by cs (order' g0)) by (eapply built_rehash; [exact B|apply O']).
  assert (Hs : forall g, built_by cs g -> find_starting_edges g = [u]).
  { intros g Bg. assert (W : wf g) by (apply built_wf; now exists cs). destruct (starts_spec g W) as (_ & Hnd & Hst).
    assert (Hin : forall v, In v (find_starting_edges g) <-> v = u).
    { assert (Hsrc : forall v, source (gE g) v <-> source (aE (a_run cs)) v).
      { intro v. unfold source. split; intros K x Hx; apply (K x); now apply (proj2 (refines Bg)). }
      assert (HV : forall v, In v (vertices g) <-> aV (a_run cs) v) by (intro v; rewrite <- (proj1 (refines Bg)); apply vertices_In).
      intro v. rewrite Hst, HV. split.
      - intros [Hv [Hsv|[Hno _]]]; [apply Hu; [assumption|now apply Hsrc]|]. exfalso. apply (Hno u); [now apply HV|now apply Hsrc].
      - intros ->. split; [assumption|]. left. now apply Hsrc. }
    destruct (find_starting_edges g) as [|x l]; [exfalso; now apply (proj2 (Hin u))|].
    assert (x = u) by (apply Hin; now left). subst x. f_equal. destruct l as [|y l]; [reflexivity|]. exfalso.
    assert (y = u) by (apply Hin; right; now left). subst y. inversion Hnd as [|? ? Hni _]. apply Hni. now left. }
  assert (Hout : forall v, outbound_edges (order g0) v = outbound_edges (order' g0) v)
    by (intro v; rewrite (outbound_order _ _ v Bo), (outbound_order _ _ v Bo'); reflexivity).
  assert (Hst : find_starting_edges (order g0) = find_starting_edges (order' g0)) by now rewrite !Hs.
  assert (Hc : vertex_count (order g0) = vertex_count (order' g0)).
  { unfold vertex_count. now rewrite <- (Permutation_length (O g0)), <- (Permutation_length (O' g0)). }
  unfold gc_cycle. rewrite !(run_graph nd _ _ s g0 HL). f_equal. unfold girth.
  rewrite (all_same _ _ Hout Hst), (hamiltonian_same _ _ Hout Hst Hc), !(accepted_all_same _ _ Hout Hst). 
  destruct (c_girth a), (c_hamiltonian a), (c_count a), (c_shortest a), (c_longest a); try reflexivity.
  destruct (take_count a) as [k|]; [|reflexivity]. rewrite (iter_same _ _ Hst). f_equal. apply ftake_ext. intro st. now apply accepted_same.
Qed.
Print Assumptions C164_repeatable.

(** 9 -> 1 -> 2 -> 3 -> 1 with 2 -> 1 and 3 -> 3: the edges added last are followed first. *)
Definition ring_cmds : list graph_command := [AddEdge 9 1; AddEdge 1 2; AddEdge 2 3; AddEdge 3 1; AddEdge 2 1; AddEdge 3 3]%N.
Lemma back_yes r (v : N) : existsb (N.eqb v) r = true -> comes_back (r ++ [v]).
Proof. intro H. apply comes_back_snoc. apply existsb_exists in H as (x & Hx & Ex). apply N.eqb_eq in Ex. now subst x. Qed.
Lemma back_no r (v : N) : existsb (N.eqb v) r = false -> ~ comes_back (r ++ [v]).
Proof.
  intros H K. apply comes_back_snoc in K. assert (existsb (N.eqb v) r = true); [|congruence]. apply existsb_exists. exists v. split; [assumption|apply N.eqb_refl].
Qed.
Example C164_case : let g := apply_commands ring_cmds g_new in
  built_by ring_cmds g /\ beginnings (vertices g) (insertion_order ring_cmds) = [9%N] /\
  closings_all (listed ring_cmds) (map (fun v => [v]) (rev [9%N])) [[9; 1; 2; 1]; [9; 1; 2; 3; 3]; [9; 1; 2; 3; 1]]%N /\
  Forall2 ring [[9; 1; 2; 1]; [9; 1; 2; 3; 3]; [9; 1; 2; 3; 1]]%N [[1; 2]; [3]; [1; 2; 3]]%N /\
  fresh [] [[1; 2]; [3]; [1; 2; 3]]%N = [[1; 2]; [3]; [1; 2; 3]]%N /\
  cycle_take_all g 50 = Done [[1; 2]; [3]; [1; 2; 3]]%N /\
  file_says table (with_file (commands_text ring_cmds)) ring_cmds /\
  aV (a_run ring_cmds) 9%N /\ source (aE (a_run ring_cmds)) 9%N /\
  (forall v, aV (a_run ring_cmds) v -> source (aE (a_run ring_cmds)) v -> v = 9%N).
Proof.
  intro g. split; [apply built_by_apply|]. split; [vm_compute; reflexivity|]. split; [|split; [|split; [|split; [|split; [|split; [|split]]]]]].
  - apply (closing_more (listed ring_cmds) [9%N] [] [[9; 1; 2; 1]; [9; 1; 2; 3; 3]; [9; 1; 2; 3; 1]]%N []); [|constructor].
    apply closing_later; [apply (back_no []); reflexivity|].
    apply (closing_more (listed ring_cmds) [9; 1]%N [] [[9; 1; 2; 1]; [9; 1; 2; 3; 3]; [9; 1; 2; 3; 1]]%N []); [|constructor].
    apply closing_later; [apply (back_no [9%N]); reflexivity|].
    apply (closing_more (listed ring_cmds) [9; 1; 2]%N [] [[9; 1; 2; 1]; [9; 1; 2; 3; 3]; [9; 1; 2; 3; 1]]%N []); [|constructor].
    apply closing_later; [apply (back_no [9; 1]%N); reflexivity|].
    apply (closing_more (listed ring_cmds) [9; 1; 2; 1]%N [[9; 1; 2; 3]]%N [[9; 1; 2; 1]]%N [[9; 1; 2; 3; 3]; [9; 1; 2; 3; 1]]%N).
    + apply closing_here. apply (back_yes [9; 1; 2]%N). reflexivity.
    + apply (closing_more (listed ring_cmds) [9; 1; 2; 3]%N [] [[9; 1; 2; 3; 3]; [9; 1; 2; 3; 1]]%N []); [|constructor].
      apply closing_later; [apply (back_no [9; 1; 2]%N); reflexivity|].
      apply (closing_more (listed ring_cmds) [9; 1; 2; 3; 3]%N [[9; 1; 2; 3; 1]]%N [[9; 1; 2; 3; 3]]%N [[9; 1; 2; 3; 1]]%N).
      * apply closing_here. apply (back_yes [9; 1; 2; 3]%N). reflexivity.
      * apply (closing_more (listed ring_cmds) [9; 1; 2; 3; 1]%N [] [[9; 1; 2; 3; 1]]%N []); [|constructor].
        apply closing_here. apply (back_yes [9; 1; 2; 3]%N). reflexivity.
  - assert (R : forall p a v b, p = a ++ v :: b ++ [v] -> ~ In v b -> (forall y, In y (v :: b) -> (v <= y)%N) -> ring p (v :: b)).
    { intros p a v b Hp Hb Hl. exists a, v, b. split; [assumption|]. split; [assumption|]. split; [apply rotation_refl|]. exists v. split; [now exists b|assumption]. }
    constructor; [|constructor; [|constructor; [|constructor]]].
    + apply (R _ [9%N] 1%N [2%N]); [reflexivity|intros [K|[]]; discriminate|intros y [<-|[<-|[]]]; lia].
    + apply (R _ [9; 1; 2]%N 3%N []); [reflexivity|intros []|intros y [<-|[]]; lia].
    + apply (R _ [9%N] 1%N [2; 3]%N); [reflexivity|intros [K|[K|[]]]; discriminate|intros y [<-|[<-|[<-|[]]]]; lia].
  - reflexivity.
  - vm_compute. reflexivity.
  - exists (commands_text ring_cmds). split; [reflexivity|]. apply read_commands_text; [apply table_ok|]. repeat constructor.
  - cbn. tauto.
  - intros u Hu. cbn in Hu. lia.
  - intros v Hv Hs. cbn in Hv. assert (K : forall u, aE (a_run ring_cmds) u v -> False) by exact Hs. cbn in K.
    destruct (N.eq_dec v 9); [assumption|]. exfalso. pose proof (K 9%N). pose proof (K 1%N). pose proof (K 2%N). lia.
Qed.

(** ** C63: the list of Hamiltonian paths
    Vertex by vertex the paths that begin there, in depth-first order (C42), as far as they have as many vertices as the graph. *)
Lemma depth_each cs g : built_by cs g -> forall vs, exists lists,
  Forall2 (fun v l => depth_order (listed cs) [v] l) vs lists /\
  settles (fun n => ham_paths g n vs) (filter (fun p => Nat.eqb (length p) (vertex_count g)) (concat lists)).
Proof.
  intros B vs. assert (Hb : built g) by now exists cs. induction vs as [|v vs (lists & H1 & n1 & H2)].
  - exists []. split; [constructor|]. exists 0. reflexivity.
  - destruct (C42_simple_paths g v Hb) as [(l & Hl & _) _]. exists (l :: lists).
    split; [constructor; [apply (proj1 (proj2 (C42_exact cs g v l B))); exact Hl|assumption]|]. destruct Hl as [n0 Hl]. exists (n0 + n1). intros n Hn.
    cbn [ham_paths concat]. rewrite filter_app, Hl by lia. cbn [obind]. rewrite H2 by lia. reflexivity.
Qed.
Theorem C63_exact : forall cs g out, built_by cs g ->
  (settles (iter_hamiltonian_paths g) out <->
   exists lists, Forall2 (fun v l => depth_order (listed cs) [v] l) (vertices g) lists /\
     out = filter (fun p => Nat.eqb (length p) (length (vertices g))) (concat lists)).
Proof.
  intros cs g out B. rewrite <- vertex_count_len. destruct (depth_each cs g B (vertices g)) as (lists & H1 & H2). split.
  - intro H. exists lists. split; [assumption|]. exact (settles_fun _ _ _ _ H H2).
  - intros (lists' & K1 & ->). assert (lists' = lists); [|subst lists'; exact H2]. clear H2.
    revert lists' K1. induction H1 as [|v l vs ls Hv _ IH]; intros lists' K1; inversion K1; subst; [reflexivity|].
    f_equal; [now apply (depth_one (listed cs) [v])|now apply IH].
Qed.
Print Assumptions C63_exact.
Example C63_exact_case : let cs := [AddEdge 1 2; AddEdge 2 3; AddEdge 3 1; AddEdge 1 3; AddEdge 3 2]%N in let g := apply_commands cs g_new in
  built_by cs g /\ iter_hamiltonian_paths g 50 = Done [[1; 3; 2]; [1; 2; 3]; [2; 3; 1]; [3; 1; 2]]%N.
Proof. cbv zeta. split; [apply built_by_apply|]. vm_compute. reflexivity. Qed.
