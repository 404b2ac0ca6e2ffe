(** * Property C172: query programs whose output is not read to the end *)
From Coq Require Import String.
From Coq Require Import List NArith ZArith Bool Arith Lia.
From Verif Require Import Base Graph GraphFacts Path Queue Iter Topo Cycle CycleFacts Text Format Store StoreSpec StoreFacts CrashFacts
  PropFormat Heap SearchFacts Cli CliSpec CliFacts Query QuerySpec QueryFacts PropStore PropCycle PropQuery Stream.
Import ListNotations.

(** ** What a reader gets of an answer
    [out i] says whether line [i] could be written. *)
Definition reader_gets (out : nat -> bool) (answer seen : list text) (e : ending) : Prop :=
  exists rest, answer = seen ++ rest /\ (forall i, (i < length seen)%nat -> out i = true) /\
    match rest with
    | [] => e = Finished
    | _ => e = Stopped /\ out (length seen) = false
    end.

(** The query tools line by line; [PropQuery.program] are the same tools with a complete answer. *)
Definition stream out nd order Q (q : query) : nat -> prog shown_so_far :=
  match q with
  | QShortPath a b => gc_short_path_out out nd order Q a b
  | QCsp a b opts => gc_csp_out out nd order Q a b opts
  | QTopoSort => gc_topo_sort_out out nd order
  | QCycle a => gc_cycle_out out nd order a
  end.

Lemma tell_end_gets out lines : forall past, exists k,
  (k <= length lines)%nat /\ (forall i, (i < k)%nat -> out (length past + i)%nat = true) /\
  tell_end out past lines = (past ++ firstn k lines, if (k =? length lines)%nat then Finished else Stopped) /\
  ((k < length lines)%nat -> out (length past + k)%nat = false).
Proof.
  unfold tell_end. induction lines as [|l t IH]; intro past; cbn [tell].
  - exists 0%nat. cbn. rewrite app_nil_r. split; [lia|]. split; [lia|]. split; [reflexivity|]. lia.
  - destruct (out (length past)) eqn:E.
    + destruct (IH (past ++ [l])) as (k & H1 & H2 & H3 & H4). exists (S k). cbn [length]. split; [lia|].
      rewrite app_length in H2, H4. cbn [length] in H2, H4. split; [|split].
      * intros [|i] Hi; [now rewrite Nat.add_0_r|]. rewrite <- (H2 i) by lia. f_equal. lia.
      * rewrite H3, <- app_assoc. reflexivity.
      * intro Hk. rewrite <- H4 by lia. f_equal. lia.
    + exists 0%nat. cbn. rewrite app_nil_r, Nat.add_0_r. split; [lia|]. split; [lia|]. split; [reflexivity|]. auto.
Qed.
Lemma tell_end_reader out lines : exists seen e, tell_end out [] lines = (seen, e) /\ reader_gets out lines seen e.
Proof.
  destruct (tell_end_gets out lines []) as (k & H1 & H2 & H3 & H4). cbn [length app Nat.add] in *.
  exists (firstn k lines), (if (k =? length lines)%nat then Finished else Stopped). split; [exact H3|].
  exists (skipn k lines). split; [symmetry; apply firstn_skipn|]. rewrite firstn_length, Nat.min_l by assumption.
  split; [exact H2|]. destruct (Nat.eqb_spec k (length lines)) as [->|Hk].
  - now rewrite skipn_all.
  - destruct (skipn k lines) as [|x r] eqn:E; [|split; [reflexivity|apply H4; lia]].
    exfalso. apply (f_equal (@length _)) in E. rewrite skipn_length in E. cbn in E. lia.
Qed.
Lemma tell_app out rest a : forall past b, tell out past (a ++ b) rest = tell out past a (fun p => tell out p b rest).
Proof.
  induction a as [|x a IH]; intros past b; cbn [tell app]; [reflexivity|]. destruct (out (length past)); [apply IH|reflexivity].
Qed.
Lemma tell_ext out f g a : (forall p, f p = g p) -> forall past, tell out past a f = tell out past a g.
Proof.
  intro H. induction a as [|x a IH]; intro past; cbn [tell]; [apply H|]. destruct (out (length past)); [apply IH|reflexivity].
Qed.

Section Eaches.
  Variables (A S : Type) (next : nat -> S -> outcome (option (A * S))) (fmt : A -> text) (out : nat -> bool).
  Lemma each_collect n k : forall s past l, fcollect A S next n k s = Done l ->
    each out next fmt n k past s = tell_end out past (map fmt l).
  Proof.
    induction k as [|k IH]; intros s past l H; [discriminate|]. cbn [fcollect each] in *.
    destruct (next n s) as [[[a s']|]| |]; cbn [obind] in H; try discriminate.
    - destruct (fcollect A S next n k s') as [t| |] eqn:E; try discriminate. injection H as <-.
      unfold tell_end. cbn [map tell]. destruct (out (length past)); [|reflexivity]. now apply IH.
    - injection H as <-. reflexivity.
  Qed.
  Lemma each_of_take n k : forall s past l, ftake A S next n k s = Done l ->
    each_of out next fmt n k past s = tell_end out past (map fmt l).
  Proof.
    induction k as [|k IH]; intros s past l H; [injection H as <-; reflexivity|]. cbn [ftake each_of] in *.
    destruct (next n s) as [[[a s']|]| |]; cbn [obind] in H; try discriminate.
    - destruct (ftake A S next n k s') as [t| |] eqn:E; try discriminate. injection H as <-.
      unfold tell_end. cbn [map tell]. destruct (out (length past)); [|reflexivity]. now apply IH.
    - injection H as <-. reflexivity.
  Qed.
  (** A writer that fails after the lines it has taken needs no more than one further item. *)
  Lemma each_runs s l : runs next s l -> exists n0, forall n k past, (n0 <= n)%nat -> (length l < k)%nat ->
    each out next fmt n k past s = tell_end out past (map fmt l).
  Proof.
    intro H. induction H as [s [n0 Hn]|s a s' l [n0 Hn] _ [n1 IH]].
    - exists n0. intros n [|k] past Hl Hk; [cbn in Hk; lia|]. cbn [each]. now rewrite Hn.
    - exists (n0 + n1)%nat. intros n [|k] past Hl Hk; [cbn in Hk; lia|]. cbn [each]. rewrite Hn by lia.
      unfold tell_end. cbn [map tell]. destruct (out (length past)); [|reflexivity]. apply IH; [lia|cbn in Hk; lia].
  Qed.
End Eaches.

Lemma result_done {A} out (o : outcome A) f lines : omap f o = Done lines ->
  tell_result out [] o f = tell_end out [] lines.
Proof. destruct o; cbn; try discriminate. now intros [= <-]. Qed.

Lemma run_stream_graph nd order f s : run_prog (stream_graph nd order f) s =
  (s, match snd (run_prog (load_graph nd) s) with Done (Ok g) => f (order g) | _ => ([], Stopped) end).
Proof. unfold stream_graph. rewrite run_bind, run_load. reflexivity. Qed.
Lemma run_with_graph nd order f s : run_prog (with_graph nd order f) s =
  (s, match snd (run_prog (load_graph nd) s) with Done (Ok g) => f (order g) | _ => Panic end).
Proof. unfold with_graph. rewrite run_bind, run_load. reflexivity. Qed.

(** A complete answer, and the same program with a reader. *)
Lemma stream_graph_done out nd order f h s s' lines :
  (forall g l, f g = Done l -> h g = tell_end out [] l) ->
  run_prog (with_graph nd order f) s = (s', Done lines) ->
  s' = s /\ run_prog (stream_graph nd order h) s = (s, tell_end out [] lines).
Proof.
  intros Hf H. rewrite run_with_graph in H. rewrite run_stream_graph.
  destruct (snd (run_prog (load_graph nd) s)) as [[g|]| |]; try discriminate. injection H as <- H.
  split; [reflexivity|]. f_equal. now apply Hf.
Qed.

Lemma stream_done out nd order Q q s s' fuel lines :
  run_prog (program nd order Q q fuel) s = (s', Done lines) ->
  s' = s /\ run_prog (stream out nd order Q q fuel) s = (s, tell_end out [] lines).
Proof.
  destruct q as [a b|a b opts| |a]; cbn [program stream].
  - unfold gc_short_path, gc_short_path_out, with_ids, stream_ids.
    destruct (parse_vertex_id a) as [x|]; [|discriminate]. destruct (parse_vertex_id b) as [y|]; [|discriminate].
    apply stream_graph_done. intros g l. apply result_done.
  - unfold gc_csp, gc_csp_out, with_ids, stream_ids.
    destruct (parse_vertex_id a) as [x|]; [|discriminate]. destruct (parse_vertex_id b) as [y|]; [|discriminate].
    apply stream_graph_done. intros g l H. cbv zeta in *.
    destruct (constrained_shortest_path _ _ _ _ _ _ _ _) as [r| |]; try discriminate. injection H as <-.
    change (csp_lines x y (csp_constraints opts) r) with (csp_before (csp_constraints opts) ++ csp_after x y r).
    unfold tell_end. rewrite tell_app. apply tell_ext. intro p. reflexivity.
  - apply stream_graph_done. intros g l. apply result_done.
  - unfold gc_cycle, gc_cycle_out. apply stream_graph_done. intros g l. cbv zeta.
    destruct (c_girth a); [apply result_done|]. destruct (c_hamiltonian a); [apply result_done|].
    destruct (c_count a); [apply result_done|]. destruct (c_shortest a); [apply result_done|].
    destruct (c_longest a); [apply result_done|]. destruct (take_count a) as [k|].
    + intro H. destruct (ftake _ _ _ _ _ _) as [t| |] eqn:E; try discriminate. injection H as <-.
      now apply each_of_take.
    + destruct (c_all a); [|now intros [= <-]]. unfold accepted. intro H.
      destruct (fcollect _ _ _ _ _ _) as [t| |] eqn:E; try discriminate. injection H as <-. now apply each_collect.
Qed.

(** A reader gets the first lines of the answer, up to the first one that could not be written. *)
Theorem C172_reader : forall out nd order Q q s s' fuel lines,
  run_prog (program nd order Q q fuel) s = (s', Done lines) ->
  exists seen e, run_prog (stream out nd order Q q fuel) s = (s, (seen, e)) /\ reader_gets out lines seen e.
Proof.
  intros out nd order Q q s s' fuel lines H. destruct (stream_done out nd order Q q s s' fuel lines H) as [_ ->].
  destruct (tell_end_reader out lines) as (seen & e & -> & Hr). now exists seen, e.
Qed.
Print Assumptions C172_reader.

Theorem C172_desc : forall out nd order path s s' lines,
  run_prog (gc_desc nd order) s = (s', Some lines) ->
  exists seen e, run_prog (gc_desc_out out nd order path) s = (s, (seen, e)) /\
    reader_gets out ((txt "Path: " ++ path) :: lines) seen e.
Proof.
  intros out nd order path s s' lines H. unfold gc_desc in H. rewrite run_bind, run_load in H.
  unfold gc_desc_out. rewrite run_stream_graph, run_load. cbn [snd fst run_prog] in *.
  destruct (match commands_entry s with File _ => _ | _ => _ end) as [[g|]| |]; try discriminate. injection H as _ <-.
  destruct (tell_end_reader out ((txt "Path: " ++ path) :: desc_lines (order g))) as (seen & e & E & Hr). exists seen, e. now rewrite E.
Qed.
Print Assumptions C172_desc.

(** A query that cannot read its ids or the graph writes nothing and fails. *)
Theorem C172_nothing_first : forall out nd order Q q s fuel,
  ~ well_formed q \/ (forall g, ~ loads nd s g) -> run_prog (stream out nd order Q q fuel) s = (s, ([], Stopped)).
Proof.
  intros out nd order Q q s fuel H.
  assert (HG : forall f, (forall g, ~ loads nd s g) -> run_prog (stream_graph nd order f) s = (s, ([], Stopped))).
  { intros f Hn. rewrite run_stream_graph. destruct (snd (run_prog (load_graph nd) s)) as [[g|]| |] eqn:E; try reflexivity.
    exfalso. apply (Hn g). unfold loads. rewrite run_load in *. cbn [snd] in E. now rewrite E. }
  assert (HI : forall a b f, ~ ((exists x, id_argument a x) /\ exists y, id_argument b y) \/ (forall g, ~ loads nd s g) ->
    run_prog (stream_ids a b (fun x y => stream_graph nd order (f x y))) s = (s, ([], Stopped))).
  { intros a b f Hx. unfold stream_ids, parse_vertex_id. destruct (parse_u64 a) as [x|] eqn:Ea; [|reflexivity].
    destruct (parse_u64 b) as [y|] eqn:Eb; [|reflexivity]. destruct Hx as [Hx|Hx]; [|now apply HG].
    exfalso. apply Hx. split; eexists; apply parse_id_spec; eassumption. }
  destruct q as [a b|a b opts| |a]; cbn [stream well_formed] in *; [now apply HI|now apply HI| |];
    (destruct H as [H|H]; [now destruct H|]); now apply HG.
Qed.
Print Assumptions C172_nothing_first.

(** Whatever the reader does, and however long the search takes, nothing stored is changed. *)
Theorem C172_read_only : forall out nd order Q q s fuel path,
  (fst (run_prog (stream out nd order Q q fuel) s) = s /\ forall s', crash (stream out nd order Q q fuel) s s' -> s' = s) /\
  (fst (run_prog (gc_desc_out out nd order path) s) = s /\ forall s', crash (gc_desc_out out nd order path) s s' -> s' = s).
Proof.
  intros out nd order Q q s fuel path.
  assert (HG : forall f, fst (run_prog (stream_graph nd order f) s) = s /\
    forall s', crash (stream_graph nd order f) s s' -> s' = s).
  { intro f. split; [now rewrite run_stream_graph|]. intros s' H. unfold stream_graph in H.
    apply crash_bind in H. destruct H as [H|H].
    - unfold load_graph in H. apply crash_act in H. destruct H as [->|H]; [reflexivity|]. now apply crash_ret in H.
    - rewrite run_load in H. now apply crash_ret in H. }
  assert (HI : forall a b f, fst (run_prog (stream_ids a b (fun x y => stream_graph nd order (f x y))) s) = s /\
    forall s', crash (stream_ids a b (fun x y => stream_graph nd order (f x y))) s s' -> s' = s).
  { intros a b f. unfold stream_ids. destruct (parse_vertex_id a); [destruct (parse_vertex_id b); [apply HG|]|];
      (split; [reflexivity|]; intros s' H; now apply crash_ret in H). }
  split; [|apply HG]. destruct q; cbn [stream]; [apply HI|apply HI|apply HG|apply HG].
Qed.
Print Assumptions C172_read_only.

(** gc-csp names the constraints before it searches: a search that is not over has shown them, if they could be written. *)
Theorem C172_csp_at_work : forall out nd order Q a b opts s s' fuel,
  run_prog (gc_csp nd order Q a b opts fuel) s = (s', OutOfFuel) ->
  exists seen e, run_prog (gc_csp_out out nd order Q a b opts fuel) s =
      (s, (seen, match e with Finished => Searching | x => x end)) /\
    reader_gets out (txt "Constraint that will be applied to search are: " :: map debug_constraint (csp_constraints opts)) seen e.
Proof.
  intros out nd order Q a b opts s s' fuel H. unfold gc_csp, with_ids in H. unfold gc_csp_out, stream_ids.
  destruct (parse_vertex_id a) as [x|]; [|discriminate]. destruct (parse_vertex_id b) as [y|]; [|discriminate].
  rewrite run_with_graph in H. rewrite run_stream_graph. destruct (snd (run_prog (load_graph nd) s)) as [[g|]| |]; try discriminate.
  injection H as _ H. cbv zeta in *. destruct (constrained_shortest_path _ _ _ _ _ _ _ _) as [r| |]; try discriminate.
  change (txt "Constraint that will be applied to search are: " :: map debug_constraint (csp_constraints opts)) with
    (csp_before (csp_constraints opts)).
  destruct (tell_end_reader out (csp_before (csp_constraints opts))) as (seen & e & E & Hr). exists seen, e.
  split; [|exact Hr]. f_equal. unfold tell_end in E. cbn [tell_result].
  assert (Ht : forall lines past, tell out past lines (fun p => (p, Searching)) =
    let (w, z) := tell out past lines (fun p => (p, Finished)) in (w, match z with Finished => Searching | x => x end)).
  { induction lines as [|l t IH]; intro past; cbn [tell]; [reflexivity|]. destruct (out (length past)); [apply IH|reflexivity]. }
  rewrite Ht, E. reflexivity.
Qed.
Print Assumptions C172_csp_at_work.

(** gc-cycle --all read by someone who stops after [k] lines: the lines are those of --take-n [k], and the program
    ends, with a panic when there is a further cycle. *)
Definition all_of (a : cycle_args) : cycle_args :=
  {| c_girth := false; c_hamiltonian := false; c_count := false; c_shortest := false; c_longest := false;
     c_head := false; c_take_n := None; c_all := true; c_include := c_include a; c_exclude := c_exclude a;
     c_include_edges := c_include_edges a; c_exclude_edges := c_exclude_edges a; c_bounds := c_bounds a |}.
Definition some_of (x : text) (a : cycle_args) : cycle_args :=
  {| c_girth := false; c_hamiltonian := false; c_count := false; c_shortest := false; c_longest := false;
     c_head := false; c_take_n := Some x; c_all := false; c_include := c_include a; c_exclude := c_exclude a;
     c_include_edges := c_include_edges a; c_exclude_edges := c_exclude_edges a; c_bounds := c_bounds a |}.
Theorem C172_first_cycles : forall nd order s g a x k, hash_order order -> loads nd s g -> id_argument x (N.of_nat k) ->
  exists lines all e, prints (gc_cycle nd order (some_of x a)) s lines /\ prints (gc_cycle nd order (all_of a)) s all /\
    (exists n, forall fuel, (n <= fuel)%nat ->
       run_prog (gc_cycle_out (fun i => (i <? k)%nat) nd order (all_of a) fuel) s = (s, (lines, e))) /\
    lines = firstn k all /\ (e = Stopped <-> (k < length all)%nat) /\ (e = Finished <-> (length all <= k)%nat).
Proof.
  intros nd order s g a x k O HL Hx. destruct (loaded nd order s g O HL) as (_ & Bo & _ & _).
  destruct (cycle_out (order g) (built_wf Bo)) as (seen & Hruns & _).
  set (cs := cycle_constraints a). set (kept := filter (fun c => cycle_check c cs) seen).
  assert (Hk : runs (accepted_next (order g) cs) (cycle_iter (order g)) kept) by (apply runs_filter; exact Hruns).
  set (all := map format_cycle kept). set (lines := firstn k all).
  destruct (tell_end_gets (fun i => (i <? k)%nat) all []) as (j & J1 & J2 & J3 & J4). cbn [length app Nat.add] in *.
  assert (Hj : j = Nat.min k (length all)).
  { destruct (Nat.lt_ge_cases j (length all)) as [Hj|Hj].
    - specialize (J4 Hj). apply Nat.ltb_ge in J4. destruct (Nat.eq_dec j k); [lia|].
      assert (Hc : (k < j)%nat) by lia. specialize (J2 k Hc). apply Nat.ltb_lt in J2. lia.
    - destruct (Nat.le_gt_cases j k); [lia|]. assert (Hc : (k < j)%nat) by lia.
      specialize (J2 k Hc). apply Nat.ltb_lt in J2. lia. }
  exists lines, all, (if (j =? length all)%nat then Finished else Stopped).
  split; [|split; [|split; [|split; [reflexivity|]]]].
  - destruct (runs_take _ _ _ k _ _ Hk) as [n0 Hn]. exists n0. intros n Hl. unfold gc_cycle.
    rewrite (run_graph nd order _ s g HL). cbn [snd some_of c_girth c_hamiltonian c_count c_shortest c_longest]. cbv zeta.
    unfold take_count. cbn [some_of c_head c_take_n].
    assert (Hp : parse_usize x = Some k).
    { unfold parse_usize. apply parse_id_spec in Hx. rewrite Hx. cbn [option_map]. now rewrite Nnat.Nat2N.id. }
    rewrite Hp. change (cycle_constraints (some_of x a)) with cs. rewrite (Hn n Hl). cbn [omap obind].
    unfold lines, all. now rewrite firstn_map.
  - destruct (runs_collect _ _ _ _ _ Hk) as [n0 Hn]. exists n0. intros n Hl. unfold gc_cycle.
    rewrite (run_graph nd order _ s g HL). cbn [snd all_of c_girth c_hamiltonian c_count c_shortest c_longest]. cbv zeta.
    unfold take_count. cbn [all_of c_head c_take_n c_all]. change (cycle_constraints (all_of a)) with cs.
    unfold accepted. rewrite (Hn n Hl). reflexivity.
  - destruct (each_runs _ _ _ format_cycle (fun i => (i <? k)%nat) _ _ Hk) as [n0 Hn].
    exists (n0 + S (length kept))%nat. intros n Hl. unfold gc_cycle_out. rewrite run_stream_graph.
    unfold loads in HL. rewrite HL. cbn [snd all_of c_girth c_hamiltonian c_count c_shortest c_longest]. cbv zeta.
    unfold take_count. cbn [all_of c_head c_take_n c_all]. change (cycle_constraints (all_of a)) with cs.
    rewrite Hn by lia. fold all. rewrite J3. unfold lines. f_equal. f_equal.
    rewrite Hj. destruct (Nat.min_spec k (length all)) as [[_ ->]|[Hm ->]]; [reflexivity|].
    now rewrite !firstn_all2 by lia.
  - split; destruct (Nat.eqb_spec j (length all)); split; intro; try discriminate; try reflexivity; lia.
Qed.
Print Assumptions C172_first_cycles.

(** Two cycles, of which the reader takes the first; and the search of C91 that never ends, with its constraints shown. *)
Definition no_action : cycle_args :=
  {| c_girth := false; c_hamiltonian := false; c_count := false; c_shortest := false; c_longest := false;
     c_head := false; c_take_n := None; c_all := false; c_include := None; c_exclude := None;
     c_include_edges := None; c_exclude_edges := None; c_bounds := no_bounds |}.
Example C172_case :
  let s := with_file (txt "AddEdge 1 2" ++ [10%N] ++ txt "AddEdge 2 1" ++ [10%N] ++ txt "AddEdge 2 2") in
  (exists g, loads table s g) /\ id_argument (txt "1") (N.of_nat 1) /\
  run_prog (gc_cycle table id_order (all_of no_action) 50) s = (s, Done [txt "[2]"; txt "[1, 2]"]) /\
  run_prog (gc_cycle_out (fun i => (i <? 1)%nat) table id_order (all_of no_action) 50) s = (s, ([txt "[2]"], Stopped)) /\
  run_prog (gc_cycle_out (fun _ => true) table id_order (all_of no_action) 50) s = (s, ([txt "[2]"; txt "[1, 2]"], Finished)).
Proof.
  cbv zeta. split; [eexists; reflexivity|]. split; [now apply parse_id_spec|].
  split; [vm_compute; reflexivity|]. split; vm_compute; reflexivity.
Qed.
Example C172_case_endless : exists nd order s g, hash_order order /\ loads nd s g /\
  forall Q fuel, pops_least Q sp_score ->
    run_prog (gc_csp_out (fun _ => true) nd order Q (txt "1") (txt "3") contradictory fuel) s =
    (s, ([txt "Constraint that will be applied to search are: "; txt "ContainsVertex(VertexId(2))";
          txt "Not(ContainsVertex(VertexId(2)))"], Searching)).
Proof.
  destruct C91_contradiction_refuted as (nd & order & s & g & O & HL & H). exists nd, order, s, g.
  split; [exact O|]. split; [exact HL|]. intros Q fuel HQ.
  destruct (C172_csp_at_work (fun _ => true) nd order Q (txt "1") (txt "3") contradictory s s fuel (H Q fuel HQ)) as (seen & e & -> & rest & H1 & _ & H3).
  destruct rest; [|destruct H3; discriminate]. rewrite app_nil_r in H1. subst seen e. reflexivity.
Qed.
