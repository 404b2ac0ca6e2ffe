(** * Ids are only names (C142) *)
From Coq Require Import String.
From Coq Require Import List NArith ZArith Bool Arith Lia Permutation.
From Verif Require Import Spec Base WalkFacts Graph GraphSpec GraphFacts OrderFacts PropGraph Path ConstraintSpec PathFacts PropPath
  Queue Heap Iter IterFacts TreeFacts SearchFacts BestFacts ConstrainedFacts PropSearch Topo TopoFacts PropTopo
  Cycle CycleSpec CycleFacts PropCycle
  Text Format FormatSpec TextFacts FormatFacts Store StoreSpec StoreFacts CrashFacts PropFormat PropStore
  Cli CliSpec CliFacts Query QuerySpec QueryFacts EverySpec PropQuery PropEvery PropAgreeQuery RenameSpec RenameFacts.
Import ListNotations.
Open Scope N_scope.

(** ** Graphs *)
(** The same history about renamed ids gives the renamed sets and lists every edge at the same place. *)
Theorem C142_graph : forall f cs g g', injective f -> built_by cs g -> built_by (map (rename_command f) cs) g' ->
  renamed f (shown g) (shown g') /\
  forall v, outbound_edges g' (f v) = map (rename_edge f) (outbound_edges g v) /\
            inbound_edges g' (f v) = map (rename_edge f) (inbound_edges g v) /\
            degree_out g' (f v) = degree_out g v /\ degree_in g' (f v) = degree_in g v.
Proof.
  intros f cs g g' Hf B B'. split.
  - destruct (refines B) as [V1 E1]. destruct (refines B') as [V2 E2]. destruct (run_ren f Hf cs) as [RV RE]. split.
    + intro y. rewrite V2, RV. split; intros (x & Hx & ->); exists x; (split; [now apply V1|reflexivity]).
    + intros y z. rewrite E2, RE. split; intros (u & v & Hu & -> & ->); exists u, v; (split; [now apply E1|now split]).
  - intro v. destruct (C93_edges_in_order cs g v B) as (O1 & I1 & _). destruct (C93_edges_in_order _ g' (f v) B') as (O2 & I2 & _).
    assert (HO : outbound_edges g' (f v) = map (rename_edge f) (outbound_edges g v)).
    { rewrite O1, O2, (insertion_ren f Hf). apply filter_ren. intros [a b]. unfold rename_edge. cbn [fst snd]. now apply eqb_ren. }
    assert (HI : inbound_edges g' (f v) = map (rename_edge f) (inbound_edges g v)).
    { rewrite I1, I2, (insertion_ren f Hf). apply filter_ren. intros [a b]. unfold rename_edge. cbn [fst snd]. now apply eqb_ren. }
    split; [assumption|]. split; [assumption|]. unfold degree_out, degree_in. now rewrite HO, HI, !map_length.
Qed.
Print Assumptions C142_graph.

(** ** Traversals visit the renamed vertices, and walk the renamed paths, in the same order. *)
Theorem C142_traversals : forall f cs g g' s n, injective f -> built_by cs g -> built_by (map (rename_command f) cs) g' ->
  collect (bfs_next g') n (bfs_iter_from (f s)) = obind (collect (bfs_next g) n (bfs_iter_from s)) (fun l => Done (map f l)) /\
  collect (dfs_next g') n (dfs_iter_from (f s)) = obind (collect (dfs_next g) n (dfs_iter_from s)) (fun l => Done (map f l)) /\
  collect (bfs_path_next g') n (bfs_path_iter_from (f s)) =
    obind (collect (bfs_path_next g) n (bfs_path_iter_from s)) (fun l => Done (map (map f) l)) /\
  collect (dfs_path_next g') n (dfs_iter_path_from (f s)) =
    obind (collect (dfs_path_next g) n (dfs_iter_path_from s)) (fun l => Done (map (map f) l)).
Proof.
  intros f cs g g' s n Hf B B'.
  assert (Hout : forall v, outbound_edges g' (f v) = map (rename_edge f) (outbound_edges g v))
    by (intro v; now apply (C142_graph f cs g g' Hf B B')).
  split; [|split; [|split]].
  - change (bfs_iter_from (f s)) with (hv f N (Queue N) (map f) (bfs_iter_from s)).
    apply (collect_ren _ _ _ _ f (hv f N (Queue N) (map f)) (bfs_next g) (bfs_next g')). intro st.
    apply (visit_next_ren f Hf g g' Hout N f (Queue N) (map f)); try reflexivity.
    + apply queue_push.
    + intro q. apply pop_front_ren.
  - change (dfs_iter_from (f s)) with (hv f N (Stack N) (map f) (dfs_iter_from s)).
    apply (collect_ren _ _ _ _ f (hv f N (Stack N) (map f)) (dfs_next g) (dfs_next g')). intro st.
    apply (visit_next_ren f Hf g g' Hout N f (Stack N) (map f)); try reflexivity.
    + apply stack_push.
    + intro q. apply pop_back_ren.
  - change (bfs_path_iter_from (f s)) with (map (map f) (bfs_path_iter_from s)).
    apply (collect_ren _ _ _ _ (map f) (map (map f)) (bfs_path_next g) (bfs_path_next g')). intro q.
    apply (tree_next_ren path (map f) (Queue path) (map (map f))).
    + apply queue_push.
    + intro l. apply pop_front_ren.
    + intro p. now apply path_kids_ren.
  - change (dfs_iter_path_from (f s)) with (map (map f) (dfs_iter_path_from s)).
    apply (collect_ren _ _ _ _ (map f) (map (map f)) (dfs_path_next g) (dfs_path_next g')). intro q.
    apply (tree_next_ren path (map f) (Stack path) (map (map f))).
    + apply stack_push.
    + intro l. apply pop_back_ren.
    + intro p. now apply path_kids_ren.
Qed.
Print Assumptions C142_traversals.

(** ** The searches return the renamed path, with the queue the programs use (no tie is broken by an id). *)
Theorem C142_searches : forall f cs g g' cost cost' heur heur' s t ks n, injective f ->
  built_by cs g -> built_by (map (rename_command f) cs) g' ->
  (forall p, cost' (map f p) = cost p) -> (forall p, heur' (map f p) = heur p) ->
  Iter.a_star (MinPriorityQueue sp_score) g' cost' heur' (f s) (f t) n =
    obind (Iter.a_star (MinPriorityQueue sp_score) g cost heur s t n) (fun r => Done (option_map (rename_scored f) r)) /\
  constrained_shortest_path (MinPriorityQueue sp_score) g' cost' heur' (f s) (f t) (map (rename_constraint f) ks) n =
    obind (constrained_shortest_path (MinPriorityQueue sp_score) g cost heur s t ks n) (fun r => Done (option_map (rename_scored f) r)).
Proof.
  intros f cs g g' cost cost' heur heur' s t ks n Hf B B' Hc Hh.
  assert (Hout : forall v, outbound_edges g' (f v) = map (rename_edge f) (outbound_edges g v))
    by (intro v; now apply (C142_graph f cs g g' Hf B B')).
  assert (HF : forall p, (cost' (map f p) + heur' (map f p))%Z = (cost p + heur p)%Z) by (intro p; now rewrite Hc, Hh).
  split; unfold Iter.a_star, constrained_shortest_path.
  - assert (E : best_iter_from (MinPriorityQueue sp_score) (fun p => (cost' p + heur' p)%Z) (f s) =
      hv f scored (MinPriorityQueue sp_score) (map (rename_scored f)) (best_iter_from (MinPriorityQueue sp_score) (fun p => (cost p + heur p)%Z) s)).
    { unfold best_iter_from, visit_from, hv. cbn [fst snd map]. f_equal. unfold path_append, path_empty. cbn [app].
      rewrite (HF [s] : (cost' [f s] + heur' [f s])%Z = _). apply (heap_push_s f [] {| sp_path := [s]; sp_score := (cost [s] + heur [s])%Z |}). }
    rewrite E. apply find_ren.
    + intro st. apply (visit_next_ren f Hf g g' Hout scored (rename_scored f) (MinPriorityQueue sp_score) (map (rename_scored f))).
      * apply heap_push_s.
      * apply heap_pop_s.
      * intro a. apply last_ren.
      * intros a v. now apply child_ren.
    + intro a. now apply last_is_ren.
  - assert (E : constrained_iter_from (MinPriorityQueue sp_score) (fun p => (cost' p + heur' p)%Z) (f s) =
      map (rename_scored f) (constrained_iter_from (MinPriorityQueue sp_score) (fun p => (cost p + heur p)%Z) s)).
    { unfold constrained_iter_from, path_append, path_empty. cbn [app].
      rewrite (HF [s] : (cost' [f s] + heur' [f s])%Z = _). apply (heap_push_s f [] {| sp_path := [s]; sp_score := (cost [s] + heur [s])%Z |}). }
    rewrite E.
    apply (find_ren _ _ _ _ (rename_scored f) (map (rename_scored f))
      (constrained_next (MinPriorityQueue sp_score) g (fun p => (cost p + heur p)%Z) ks)
      (constrained_next (MinPriorityQueue sp_score) g' (fun p => (cost' p + heur' p)%Z) (map (rename_constraint f) ks))).
    + intro q. apply (tree_next_ren scored (rename_scored f) (MinPriorityQueue sp_score) (map (rename_scored f))).
      * apply heap_push_s.
      * apply heap_pop_s.
      * intro a. now apply constrained_kids_ren.
    + intro a. rewrite last_is_ren by assumption. f_equal. apply forallb_ren. intro c. now apply check_complete_ren.
Qed.
Print Assumptions C142_searches.

(** ** The programs *)
(** Two files with the same commands but for the names. *)
Definition renamed_files (nd : N -> bool) (f : N -> N) (s s' : fs) : Prop :=
  exists c c' cs, commands_entry s = File c /\ commands_entry s' = File c' /\
    gcmd_read_as_commands nd c = Done (Ok cs) /\ gcmd_read_as_commands nd c' = Done (Ok (map (rename_command f) cs)).
Lemma files_load nd f s s' : renamed_files nd f s s' -> exists cs g g', built_by cs g /\ built_by (map (rename_command f) cs) g' /\
  loads nd s g /\ loads nd s' g'.
Proof.
  intros (c & c' & cs & E & E' & R & R'). exists cs, (apply_commands cs g_new), (apply_commands (map (rename_command f) cs) g_new).
  split; [apply built_by_apply|]. split; [apply built_by_apply|].
  split; unfold loads; rewrite run_load; [rewrite E|rewrite E']; f_equal; apply gcmd_read_ok; eauto.
Qed.
Theorem C142_short_path : forall nd f order order' s s' a b a' b' x y, injective f -> hash_order order -> hash_order order' ->
  renamed_files nd f s s' -> id_argument a x -> id_argument b y -> id_argument a' (f x) -> id_argument b' (f y) ->
  exists dx dy dx' dy', canonical_numeral dx x /\ canonical_numeral dy y /\ canonical_numeral dx' (f x) /\ canonical_numeral dy' (f y) /\
  ((prints (gc_short_path nd order (MinPriorityQueue sp_score) a b) s [txt "Vertex " ++ dy ++ txt " is not reachable from vertex " ++ dx ++ txt "."] /\
    prints (gc_short_path nd order' (MinPriorityQueue sp_score) a' b') s' [txt "Vertex " ++ dy' ++ txt " is not reachable from vertex " ++ dx' ++ txt "."]) \/
   (exists p n lines lines', listed p lines /\ listed (map f p) lines' /\
    prints (gc_short_path nd order (MinPriorityQueue sp_score) a b) s
      ((txt "Shortest path from vertex " ++ dx ++ txt " to vertex " ++ dy ++ txt " with total cost of " ++ n) :: lines) /\
    prints (gc_short_path nd order' (MinPriorityQueue sp_score) a' b') s'
      ((txt "Shortest path from vertex " ++ dx' ++ txt " to vertex " ++ dy' ++ txt " with total cost of " ++ n) :: lines'))).
Proof.
  intros nd f order order' s s' a b a' b' x y Hf O O' HR Ha Hb Ha' Hb'.
  destruct (files_load nd f s s' HR) as (cs & g & g' & B & B' & HL & HL').
  assert (Bo : built_by cs (order g)) by (eapply built_rehash; [exact B|apply O]).
  assert (Bo' : built_by (map (rename_command f) cs) (order' g')) by (eapply built_rehash; [exact B'|apply O']).
  assert (Bx : built (order g)) by now exists cs.
  destruct (C44_a_star_iff_reachable (MinPriorityQueue sp_score) (order g) one_weighted_edge zero_heuristic x y Bx) as (r & [n0 Hr] & _).
  assert (Hr' : settles (Iter.a_star (MinPriorityQueue sp_score) (order' g') one_weighted_edge zero_heuristic (f x) (f y))
                  (option_map (rename_scored f) r)).
  { exists n0. intros n Hn.
    destruct (C142_searches f cs (order g) (order' g') one_weighted_edge one_weighted_edge zero_heuristic zero_heuristic x y [] n Hf Bo Bo') as [E _].
    - intro p. unfold one_weighted_edge, path_size. now rewrite map_length.
    - reflexivity.
    - rewrite E, (Hr n Hn). reflexivity. }
  exists (show x), (show y), (show (f x)), (show (f y)). do 4 (split; [apply show_spec|]).
  destruct r as [sp|].
  - right. exists (sp_path sp), (show_i64 (sp_score sp)), (path_lines (sp_path sp)), (path_lines (map f (sp_path sp))).
    split; [apply path_lines_listed|]. split; [apply path_lines_listed|]. split.
    + unfold gc_short_path. eapply (prints_ids nd order (fun n x y g => omap (short_path_lines x y) (Iter.a_star (MinPriorityQueue sp_score) g one_weighted_edge zero_heuristic x y n)));
        [exact HL|exact Ha|exact Hb|apply omap_settles; exists n0; exact Hr|reflexivity].
    + unfold gc_short_path. eapply (prints_ids nd order' (fun n x y g => omap (short_path_lines x y) (Iter.a_star (MinPriorityQueue sp_score) g one_weighted_edge zero_heuristic x y n)));
        [exact HL'|exact Ha'|exact Hb'|apply omap_settles; exact Hr'|reflexivity].
  - left. split.
    + unfold gc_short_path. eapply (prints_ids nd order (fun n x y g => omap (short_path_lines x y) (Iter.a_star (MinPriorityQueue sp_score) g one_weighted_edge zero_heuristic x y n)));
        [exact HL|exact Ha|exact Hb|apply omap_settles; exists n0; exact Hr|reflexivity].
    + unfold gc_short_path. eapply (prints_ids nd order' (fun n x y g => omap (short_path_lines x y) (Iter.a_star (MinPriorityQueue sp_score) g one_weighted_edge zero_heuristic x y n)));
        [exact HL'|exact Ha'|exact Hb'|apply omap_settles; exact Hr'|reflexivity].
Qed.
Print Assumptions C142_short_path.

Theorem C142_topo : forall nd f order order' s s', injective f -> hash_order order -> hash_order order' -> renamed_files nd f s s' ->
  (prints (gc_topo_sort nd order) s [txt "Graph is not a DAG."] /\ prints (gc_topo_sort nd order') s' [txt "Graph is not a DAG."]) \/
  (exists vs vs' t t', spaced vs t /\ spaced vs' t' /\ Permutation vs' (map f vs) /\
     prints (gc_topo_sort nd order) s [txt "Topological order: " ++ t] /\ prints (gc_topo_sort nd order') s' [txt "Topological order: " ++ t']).
Proof.
  intros nd f order order' s s' Hf O O' HR.
  destruct (files_load nd f s s' HR) as (cs & g & g' & B & B' & HL & HL').
  destruct (C142_graph f cs g g' Hf B B') as [[RV RE] _]. change (forall y z, gE g' y z <-> exists u v, gE g u v /\ y = f u /\ z = f v) in RE.
  destruct (topo_run nd order s g O HL) as (r & Hp & Hr & Hvs). destruct (topo_run nd order' s' g' O' HL') as (r' & Hp' & Hr' & Hvs').
  assert (HX : r <> None <-> r' <> None).
  { rewrite Hr, Hr', (acyclic_ren f Hf _ _ RE).
    assert (HT : (exists v, only_a_terminal_loop (gE g) v) <-> exists v, only_a_terminal_loop (gE g') v); [|tauto].
    split; intros [v (H1 & H2 & H3)].
    - exists (f v). split; [now apply (rel_ren f Hf _ _ RE)|]. split.
      + intros z Hz. apply RE in Hz. destruct Hz as (u & w & Hu & Eu & ->). apply Hf in Eu. subst u. now rewrite (H2 w Hu).
      + intros l (z & Hw & Hlen) q Hq. destruct Hw as ([t ->] & Hw2 & Hw3). destruct t as [|b t]; [cbn in Hlen; lia|].
        assert (Hzb : gE g' z b) by (apply Hw3; now exists [], t). apply RE in Hzb. destruct Hzb as (u & w & _ & -> & _).
        assert (Hw : walk_from_to (gE g') (f u) (f u) (f u :: b :: t)) by (split; [now exists (b :: t)|split; assumption]).
        apply (walk_unren f Hf _ _ RE) in Hw. destruct Hw as (m & y & Em & Ey & Hm). apply Hf in Ey. subst y.
        rewrite Em in Hq. apply in_map_iff in Hq. destruct Hq as (k & <- & Hk). f_equal. apply (H3 m); [|assumption].
        exists u. split; [assumption|]. rewrite Em, map_length in Hlen. exact Hlen.
    - pose proof H1 as H1'. apply RE in H1'. destruct H1' as (u & w & Hu & -> & Ew). apply Hf in Ew. subst w. exists u.
      split; [assumption|]. split.
      + intros z Hz. apply Hf, H2. now apply (rel_ren f Hf _ _ RE).
      + intros l (z & Hw & Hlen) q Hq. apply Hf. apply (H3 (map f l)); [|now apply in_map].
        exists (f z). split; [now apply (walk_ren f Hf _ _ RE)|]. now rewrite map_length. }
  destruct r as [vs|].
  - destruct r' as [vs'|]; [|exfalso; apply (proj1 HX); [discriminate|reflexivity]]. right.
    exists vs, vs', (concat (map (fun v => show v ++ txt " ") vs)), (concat (map (fun v => show v ++ txt " ") vs')).
    split; [apply spaced_concat|]. split; [apply spaced_concat|]. split; [|split; [exact Hp|exact Hp']].
    destruct (Hvs vs eq_refl) as [[N1 I1] _]. destruct (Hvs' vs' eq_refl) as [[N2 I2] _].
    apply NoDup_Permutation; [assumption|now apply nodup_ren|]. intro z. rewrite I2, in_map_iff. split.
    + intros [Hz Hl]. apply (proj1 (RV z)) in Hz. destruct Hz as (x & Hx & ->). exists x. split; [reflexivity|]. apply I1. split; [exact Hx|].
      intro H. apply Hl. now apply (rel_ren f Hf _ _ RE).
    + intros (x & <- & Hx). apply I1 in Hx. destruct Hx as [Hx Hl]. split; [apply RV; now exists x|].
      intro H. apply Hl. now apply (rel_ren f Hf _ _ RE) in H.
  - destruct r' as [vs'|]; [exfalso; assert (X : Some vs' <> None) by discriminate; apply (proj2 HX) in X; now apply X|]. left. now split.
Qed.
Print Assumptions C142_topo.

(** *** gc-csp: the run is the same, step by step, up to the names. *)
Definition rename_csp (f : N -> N) (r : csp_request) : csp_request :=
  {| r_include := option_map (map f) (r_include r); r_exclude := option_map (map f) (r_exclude r);
     r_ordered := option_map (map f) (r_ordered r); r_include_cycle := r_include_cycle r; r_no_cycle := r_no_cycle r;
     r_bounds := r_bounds r |}.
Lemma applied_ren f r : applied (rename_csp f r) = map (rename_constraint f) (applied r).
Proof.
  destruct r as [i e o ic nc b]. unfold applied, rename_csp. cbn [r_include r_exclude r_ordered r_include_cycle r_no_cycle r_bounds].
  rewrite !map_app. repeat f_equal.
  - destruct i as [l|]; [|reflexivity]. cbn [option_map when]. now rewrite !map_map.
  - destruct e as [l|]; [|reflexivity]. cbn [option_map when]. now rewrite !map_map.
  - now destruct o.
  - now destruct ic.
  - now destruct nc.
  - now destruct (r_min_length b).
  - now destruct (r_max_length b).
  - now destruct (r_exact_length b).
  - now destruct (r_min_score b).
  - now destruct (r_max_score b).
  - now destruct (r_exact_score b).
Qed.
Theorem C142_csp : forall nd f order order' s s' a b a' b' x y opts opts' r, injective f -> hash_order order -> hash_order order' ->
  renamed_files nd f s s' -> id_argument a x -> id_argument b y -> id_argument a' (f x) -> id_argument b' (f y) ->
  csp_understood opts r -> csp_understood opts' (rename_csp f r) ->
  exists cs ls ls' dx dy dx' dy', Forall2 printed cs ls /\ Forall2 printed (map (rename_constraint f) cs) ls' /\
  canonical_numeral dx x /\ canonical_numeral dy y /\ canonical_numeral dx' (f x) /\ canonical_numeral dy' (f y) /\
  forall fuel, let out := snd (run_prog (gc_csp nd order (MinPriorityQueue sp_score) a b opts fuel) s) in
               let out' := snd (run_prog (gc_csp nd order' (MinPriorityQueue sp_score) a' b' opts' fuel) s') in
  (out = OutOfFuel /\ out' = OutOfFuel) \/
  (out = Done (txt "Constraint that will be applied to search are: " :: ls ++
     [txt "Vertex " ++ dy ++ txt " is not reachable from vertex " ++ dx ++ txt " within the given constraints."]) /\
   out' = Done (txt "Constraint that will be applied to search are: " :: ls' ++
     [txt "Vertex " ++ dy' ++ txt " is not reachable from vertex " ++ dx' ++ txt " within the given constraints."])) \/
  (exists p n lines lines', listed p lines /\ listed (map f p) lines' /\
   out = Done (txt "Constraint that will be applied to search are: " :: ls ++
     (txt "Constrained shortest path from vertex " ++ dx ++ txt " to vertex " ++ dy ++ txt " with total cost of " ++ n ++ txt ".") :: lines) /\
   out' = Done (txt "Constraint that will be applied to search are: " :: ls' ++
     (txt "Constrained shortest path from vertex " ++ dx' ++ txt " to vertex " ++ dy' ++ txt " with total cost of " ++ n ++ txt ".") :: lines')).
Proof.
  intros nd f order order' s s' a b a' b' x y opts opts' r Hf O O' HR Ha Hb Ha' Hb' HG HG'.
  destruct (files_load nd f s s' HR) as (cs & g & g' & B & B' & HL & HL').
  assert (Bo : built_by cs (order g)) by (eapply built_rehash; [exact B|apply O]).
  assert (Bo' : built_by (map (rename_command f) cs) (order' g')) by (eapply built_rehash; [exact B'|apply O']).
  pose proof (csp_constraints_understood opts r HG) as E1. pose proof (csp_constraints_understood opts' _ HG') as E2.
  rewrite applied_ren in E2.
  exists (applied r), (map debug_constraint (applied r)), (map debug_constraint (map (rename_constraint f) (applied r))),
    (show x), (show y), (show (f x)), (show (f y)).
  assert (Hd : forall l, Forall2 printed l (map debug_constraint l)) by (induction l as [|c l IH]; constructor; [apply debug_printed|exact IH]).
  split; [apply Hd|]. split; [apply Hd|]. do 4 (split; [apply show_spec|]). intro fuel. cbv zeta.
  assert (Hrun : snd (run_prog (gc_csp nd order (MinPriorityQueue sp_score) a b opts fuel) s) =
    omap (csp_lines x y (applied r)) (constrained_shortest_path (MinPriorityQueue sp_score) (order g) one_weighted_edge zero_heuristic x y (applied r) fuel)).
  { rewrite <- E1. exact (f_equal snd (run_ids nd order (fun x y g => omap (csp_lines x y (csp_constraints opts))
      (constrained_shortest_path (MinPriorityQueue sp_score) g one_weighted_edge zero_heuristic x y (csp_constraints opts) fuel)) s g a b x y HL Ha Hb)). }
  assert (Hrun' : snd (run_prog (gc_csp nd order' (MinPriorityQueue sp_score) a' b' opts' fuel) s') =
    omap (csp_lines (f x) (f y) (map (rename_constraint f) (applied r)))
      (constrained_shortest_path (MinPriorityQueue sp_score) (order' g') one_weighted_edge zero_heuristic (f x) (f y) (map (rename_constraint f) (applied r)) fuel)).
  { rewrite <- E2. exact (f_equal snd (run_ids nd order' (fun x y g => omap (csp_lines x y (csp_constraints opts'))
      (constrained_shortest_path (MinPriorityQueue sp_score) g one_weighted_edge zero_heuristic x y (csp_constraints opts') fuel)) s' g' a' b' (f x) (f y) HL' Ha' Hb')). }
  rewrite Hrun, Hrun'.
  destruct (C142_searches f cs (order g) (order' g') one_weighted_edge one_weighted_edge zero_heuristic zero_heuristic x y (applied r) fuel Hf Bo Bo') as [_ E].
  { intro p. unfold one_weighted_edge, path_size. now rewrite map_length. }
  { reflexivity. }
  rewrite E. assert (W : wf (order g)) by (apply built_wf; now exists cs).
  pose proof (csp_no_panic (MinPriorityQueue sp_score) (order g) x y (applied r) fuel W) as Hnp.
  destruct (constrained_shortest_path (MinPriorityQueue sp_score) (order g) one_weighted_edge zero_heuristic x y (applied r) fuel) as [[sp|]| |].
  - right. right. exists (sp_path sp), (show_i64 (sp_score sp)), (path_lines (sp_path sp)), (path_lines (map f (sp_path sp))).
    split; [apply path_lines_listed|]. split; [apply path_lines_listed|]. now split.
  - right. left. now split.
  - now elim Hnp.
  - left. now split.
Qed.
Print Assumptions C142_csp.

(** *** gc-cycle *)
Definition rename_request (f : N -> N) (r : cycle_request) : cycle_request :=
  {| k_include := option_map (map f) (k_include r); k_exclude := option_map (map f) (k_exclude r);
     k_include_edges := option_map (map (rename_edge f)) (k_include_edges r);
     k_exclude_edges := option_map (map (rename_edge f)) (k_exclude_edges r); k_bounds := k_bounds r |}.
Definition canon (c : list N) : list N := match canonical c with Some d => d | None => [] end.
Lemma canon_spec c : NoDup c -> c <> [] -> canonical c = Some (canon c) /\ rotation c (canon c) /\ least_first (canon c).
Proof.
  intros Hn Hne. unfold canon. destruct (canonical c) as [d|] eqn:E; [|now apply canonical_nil in E].
  apply canonical_spec in E; [|assumption]. tauto.
Qed.
Lemma simple_cycle_ne E c : simple_cycle E c -> c <> [].
Proof. intros (_ & _ & x & y & [t ->] & _). discriminate. Qed.
Lemma rotation_ren f c d : injective f -> rotation (map f c) (map f d) -> rotation c d.
Proof.
  intros Hf (p & q & H1 & H2). apply map_eq_app in H1. destruct H1 as (p' & q' & -> & <- & <-).
  rewrite <- map_app in H2. exists p', q'. split; [reflexivity|].
  revert H2. generalize (q' ++ p'). clear -Hf. induction d as [|x d IH]; intros [|y l] H; try discriminate; [reflexivity|].
  cbn in H. injection H as H1 H2. apply Hf in H1. subst. f_equal. now apply IH.
Qed.
Lemma rotation_map {A B} (f : A -> B) c d : rotation c d -> rotation (map f c) (map f d).
Proof. intros (p & q & -> & ->). exists (map f p), (map f q). now rewrite !map_app. Qed.
(** The answers to a question about a graph and about the renamed graph; a renamed cycle is listed from its least id on. *)
Definition alike_renamed (f : N -> N) (x : action) (lines lines' : list text) : Prop :=
  match x with
  | Count | Girth => lines = lines'
  | All => exists cs ds ds', Forall2 vec_text cs lines /\ Forall2 vec_text ds lines' /\
             Permutation ds ds' /\ Forall2 (fun c d => rotation (map f c) d) cs ds'
  | Head | Take _ => length lines = length lines'
  | Shortest => (lines = [txt "shortest cycle: N/A"] /\ lines' = lines) \/
      exists c c' t t', length c = length c' /\ vec_text c t /\ vec_text c' t' /\
        lines = [txt "shortest cycle: " ++ t] /\ lines' = [txt "shortest cycle: " ++ t']
  | Longest => (lines = [txt "longest cycle: N/A"] /\ lines' = lines) \/
      exists c c' t t', length c = length c' /\ vec_text c t /\ vec_text c' t' /\
        lines = [txt "longest cycle: " ++ t] /\ lines' = [txt "longest cycle: " ++ t']
  | Hamiltonian => (lines = [txt "hamiltonian: N/A"] /\ lines' = lines) \/
      exists c c' t t', Permutation (map f c) c' /\ vec_text c t /\ vec_text c' t' /\
        lines = [txt "hamiltonian: " ++ t] /\ lines' = [txt "hamiltonian: " ++ t']
  end.
Theorem C142_cycle : forall nd f order order' s s' g, injective f -> hash_order order -> hash_order order' -> renamed_files nd f s s' ->
  loads nd s g ->
  (exists u, gV g u /\ source (gE g) u) \/ (forall u v, gV g u -> gV g v -> reachable (gE g) u v) ->
  forall a a' r, cycle_understood a r -> cycle_understood a' (rename_request f r) ->
  forall what, asks a what -> asks a' what ->
  what = Girth \/ what = Hamiltonian \/ (k_include_edges r = None /\ k_exclude_edges r = None) ->
  exists lines lines', prints (gc_cycle nd order a) s lines /\ prints (gc_cycle nd order' a') s' lines' /\ alike_renamed f what lines lines'.
Proof.
  intros nd f order order' s s' g0 Hf O O' HR HL0 Hall a a' r HG HG' what Q Q' HW.
  destruct (files_load nd f s s' HR) as (cs & g & g' & B & B' & HL & HL').
  assert (g0 = g) by (unfold loads in HL, HL0; congruence). subst g0.
  destruct (C142_graph f cs g g' Hf B B') as [[RV RE] _]. change (forall y z, gE g' y z <-> exists u v, gE g u v /\ y = f u /\ z = f v) in RE.
  change (forall y, gV g' y <-> exists x, gV g x /\ y = f x) in RV.
  destruct (C160_cycle nd order s g O HL) as (seen & [Hnd Hseen] & H). destruct (C160_cycle nd order' s' g' O' HL') as (seen' & [Hnd' Hseen'] & H').
  (* the cycles looked at, in both graphs *)
  assert (HA : exists A A' : list N -> Prop,
    (forall c, In c seen <-> simple_cycle (gE g) c /\ least_first c /\ A c) /\
    (forall c, In c seen' <-> simple_cycle (gE g') c /\ least_first c /\ A' c) /\
    (forall c d, rotation c d -> A c -> A d) /\ (forall c d, rotation (map f c) d -> (A' d <-> A c))).
  { destruct Hall as [(w & Vw & Sw)|Hall].
    - assert (Fs : forall u, source (gE g) u -> source (gE g') (f u)).
      { intros u Hs z Hz. apply RE in Hz. destruct Hz as (p & q & Hpq & _ & Eq). apply Hf in Eq. subst q. now apply (Hs p). }
      assert (Fs' : forall u, source (gE g') (f u) -> source (gE g) u).
      { intros u Hs z Hz. apply (Hs (f z)), RE. now exists z, u. }
      exists (fun c => exists u x, gV g u /\ source (gE g) u /\ In x c /\ reachable (gE g) u x),
             (fun c => exists u x, gV g' u /\ source (gE g') u /\ In x c /\ reachable (gE g') u x).
      split; [|split; [|split]].
      + intro c. rewrite Hseen. unfold cycle_seen. split.
        * intros (H1 & H2 & u & x & Vu & [Su|[Su _]] & Hx & Hr); [|now elim (Su w)]. split; [assumption|]. split; [assumption|]. now exists u, x.
        * intros (H1 & H2 & u & x & Vu & Su & Hx & Hr). split; [assumption|]. split; [assumption|]. exists u, x. split; [assumption|]. split; [now left|now split].
      + intro c. rewrite Hseen'. unfold cycle_seen. split.
        * intros (H1 & H2 & u & x & Vu & [Su|[Su _]] & Hx & Hr).
          -- split; [assumption|]. split; [assumption|]. now exists u, x.
          -- elim (Su (f w)); [apply RV; now exists w|now apply Fs].
        * intros (H1 & H2 & u & x & Vu & Su & Hx & Hr). split; [assumption|]. split; [assumption|]. exists u, x. split; [assumption|]. split; [now left|now split].
      + intros c d R (u & x & Vu & Su & Hx & Hr). exists u, x. rewrite <- (rotation_In _ _ _ _ R). now repeat split.
      + intros c d R. split.
        * intros (u & x & Vu & Su & Hx & Hr). apply RV in Vu. destruct Vu as (u0 & Vu & ->).
          rewrite <- (rotation_In _ _ _ _ R) in Hx. apply in_map_iff in Hx. destruct Hx as (x0 & <- & Hx).
          exists u0, x0. split; [assumption|]. split; [now apply Fs'|]. split; [assumption|]. now apply (reachable_ren f Hf _ _ RE).
        * intros (u & x & Vu & Su & Hx & Hr). exists (f u), (f x). split; [apply RV; now exists u|]. split; [now apply Fs|].
          split; [rewrite <- (rotation_In _ _ _ _ R); now apply in_map|]. now apply (reachable_ren f Hf _ _ RE).
    - assert (Hall' : forall u v, gV g' u -> gV g' v -> reachable (gE g') u v).
      { intros u v Hu Hv. apply RV in Hu, Hv. destruct Hu as (x & Hx & ->), Hv as (y & Hy & ->).
        apply (reachable_ren f Hf _ _ RE). now apply Hall. }
      exists (fun _ => True), (fun _ => True). split; [|split; [|now split]].
      + intro c. rewrite Hseen, (C87_all_seen nd order s g O HL (or_intror Hall)). tauto.
      + intro c. rewrite Hseen', (C87_all_seen nd order' s' g' O' HL' (or_intror Hall')). tauto. }
  destruct HA as (A & A' & S1 & S2 & AR & AA).
  (* the cycle that stands for the renamed one *)
  set (phi := fun c => canon (map f c)).
  assert (P1 : forall c, simple_cycle (gE g) c -> rotation (map f c) (phi c) /\ least_first (phi c) /\ simple_cycle (gE g') (phi c)).
  { intros c Hc. pose proof (proj2 (simple_cycle_ren f Hf _ _ RE c) Hc) as Hc'.
    destruct (canon_spec (map f c) (proj1 Hc') (simple_cycle_ne _ _ Hc')) as (_ & R1 & R2).
    split; [assumption|]. split; [assumption|]. now apply (simple_cycle_rotation _ (map f c)). }
  assert (Pinj : forall c d, In c seen -> In d seen -> phi c = phi d -> c = d).
  { intros c d Hc Hd E. apply S1 in Hc, Hd. destruct Hc as (Hc & Lc & _), Hd as (Hd & Ld & _).
    destruct (P1 c Hc) as (R1 & _). destruct (P1 d Hd) as (R2 & _).
    assert (R : rotation c d).
    { apply (rotation_ren f _ _ Hf). eapply rotation_trans; [exact R1|]. rewrite E. now apply rotation_sym. }
    assert (E1 : canonical c = Some c) by (apply canonical_spec; [apply Hc|]; split; [apply rotation_refl|assumption]).
    assert (E2 : canonical c = Some d) by (apply canonical_spec; [apply Hc|]; now split). congruence. }
  assert (PP : Permutation (map phi seen) seen').
  { apply NoDup_Permutation; [|assumption|].
    - clear -Hnd Pinj. induction Hnd as [|c l Hc Hl IH]; [constructor|]. cbn [map]. constructor.
      + intro Hin. apply in_map_iff in Hin. destruct Hin as (d & E & Hd). apply Pinj in E; [|now right|now left]. now subst.
      + apply IH. intros x y Hx Hy. apply Pinj; now right.
    - intro c'. rewrite in_map_iff. split.
      + intros (c & <- & Hc). apply S1 in Hc. destruct Hc as (Hc & _ & Ac). apply S2. destruct (P1 c Hc) as (R & L & S).
        split; [assumption|]. split; [assumption|]. now apply (AA c).
      + intro Hc'. apply S2 in Hc'. destruct Hc' as (Hc' & L' & Ac'). destruct (simple_cycle_unren f Hf _ _ RE c' Hc') as (d & -> & Hd).
        destruct (canon_spec d (proj1 Hd) (simple_cycle_ne _ _ Hd)) as (_ & Rd & Ld). exists (canon d). split.
        * assert (Sd : simple_cycle (gE g) (canon d)) by now apply (simple_cycle_rotation _ d).
          destruct (P1 _ Sd) as (R1 & L1 & _).
          assert (E1 : canonical (map f d) = Some (phi (canon d))).
          { apply canonical_spec; [apply Hc'|]. split; [|assumption]. eapply rotation_trans; [apply rotation_map; exact Rd|exact R1]. }
          assert (E2 : canonical (map f d) = Some (map f d)) by (apply canonical_spec; [apply Hc'|]; split; [apply rotation_refl|assumption]).
          congruence.
        * apply S1. split; [now apply (simple_cycle_rotation _ d)|]. split; [assumption|]. apply (AR d _ Rd).
          apply (AA d (map f d)); [apply rotation_refl|assumption]. }
  assert (Plen : forall c, In c seen -> length (phi c) = length c).
  { intros c Hc. apply S1 in Hc. destruct (P1 c (proj1 Hc)) as (R & _). apply rotation_length in R. rewrite map_length in R. congruence. }
  destruct (H a r HG) as (kept & N1 & I1 & _ & K). destruct (H' a' _ HG') as (kept' & N2 & I2 & _ & K').
  destruct (K what Q) as (lines & P & KK). destruct (K' what Q') as (lines' & P' & KK'). exists lines, lines'. split; [exact P|]. split; [exact P'|].
  assert (CG : what = Girth -> alike_renamed f what lines lines').
  { intros ->. cbn [cycle_output alike_renamed] in *.
    destruct KK as [[E ->]|(c & d & Hc & Hmin & Hd & ->)].
    + rewrite E in PP. apply Permutation_nil in PP. destruct KK' as [[_ ->]|(c' & _ & Hc' & _)]; [reflexivity|]. rewrite PP in Hc'. destruct Hc'.
    + destruct KK' as [[E' _]|(c' & d' & Hc' & Hmin' & Hd' & ->)].
      { exfalso. rewrite E' in PP. apply Permutation_sym, Permutation_nil in PP. apply map_eq_nil in PP. rewrite PP in Hc. destruct Hc. }
      assert (E : length c = length c').
      { apply Nat.le_antisymm.
        - apply (Permutation_in _ (Permutation_sym PP)), in_map_iff in Hc'. destruct Hc' as (e & <- & He). rewrite (Plen e He). now apply Hmin.
        - rewrite <- (Plen c Hc). apply Hmin'. apply (Permutation_in _ PP). now apply in_map. }
      rewrite E in Hd. now rewrite (canonical_unique _ _ _ Hd Hd'). }
  assert (CH : what = Hamiltonian -> alike_renamed f what lines lines').
  { intros ->. cbn [cycle_output alike_renamed] in *.
    assert (H1 : forall c, hamiltonian_cycle (gV g) (gE g) c -> hamiltonian_cycle (gV g') (gE g') (map f c)).
    { intros c [Hc Hv]. split; [now apply (simple_cycle_ren f Hf _ _ RE)|]. intro v. rewrite in_map_iff, RV. split.
      - intros (w & <- & Hw). exists w. split; [now apply Hv|reflexivity].
      - intros (w & Hw & ->). exists w. split; [reflexivity|now apply Hv]. }
    assert (H2 : forall c', hamiltonian_cycle (gV g') (gE g') c' -> exists c, c' = map f c /\ hamiltonian_cycle (gV g) (gE g) c).
    { intros c' [Hc Hv]. destruct (simple_cycle_unren f Hf _ _ RE c' Hc) as (d & -> & Hd). exists d. split; [reflexivity|]. split; [assumption|].
      intro v. split.
      - intro Hin. assert (X : gV g' (f v)) by (apply Hv; now apply in_map). apply RV in X. destruct X as (w & Hw & E). apply Hf in E. now subst.
      - intro Hin. apply (In_ren f Hf). apply Hv, RV. now exists v. }
    destruct KK as [[Hn ->]|(c & t & Hc & Ht & ->)], KK' as [[Hn' ->]|(c' & t' & Hc' & Ht' & ->)].
    + now left.
    + exfalso. destruct (H2 c' Hc') as (d & _ & Hd). exact (Hn d Hd).
    + exfalso. exact (Hn' _ (H1 c Hc)).
    + right. exists c, c', t, t'. split; [|now repeat split]. destruct (H1 c Hc) as [[M1 _] M2]. destruct Hc' as [[M3 _] M4].
      apply NoDup_Permutation; [assumption|assumption|]. intro v. now rewrite M2, M4. }
  destruct HW as [HW|[HW|[NI NE]]]; [now apply CG|now apply CH|].
  assert (Hmeet : forall c, In c seen -> (cycle_obeys r c <-> cycle_obeys (rename_request f r) (phi c))).
  { intros c Hc. pose proof (Plen c Hc) as El. apply S1 in Hc. destruct (P1 c (proj1 Hc)) as (R & _).
    assert (Hin : forall v, In (f v) (phi c) <-> In v c) by (intro v; rewrite <- (rotation_In _ _ _ _ R); now apply In_ren).
    unfold cycle_obeys, rename_request. cbn [k_include k_exclude k_include_edges k_exclude_edges k_bounds]. rewrite NI, NE. cbn [option_map].
    rewrite El. split; intros (M1 & M2 & _ & _ & M5).
    - split; [|split; [|split; [discriminate|split; [discriminate|exact M5]]]].
      + intros l v El' Hv. destruct (k_include r) as [l0|]; [|discriminate]. injection El' as <-. apply in_map_iff in Hv.
        destruct Hv as (w & <- & Hw). apply Hin. now apply (M1 l0).
      + intros l v El' Hv. destruct (k_exclude r) as [l0|]; [|discriminate]. injection El' as <-. apply in_map_iff in Hv.
        destruct Hv as (w & <- & Hw). rewrite Hin. now apply (M2 l0).
    - split; [|split; [|split; [discriminate|split; [discriminate|exact M5]]]].
      + intros l v El' Hv. rewrite El' in M1. apply Hin. apply (M1 (map f l)); [reflexivity|now apply in_map].
      + intros l v El' Hv. rewrite El' in M2. rewrite <- Hin. apply (M2 (map f l)); [reflexivity|now apply in_map]. }
  assert (PK : Permutation (map phi kept) kept').
  { apply NoDup_Permutation; [|assumption|].
    - assert (Hk : forall c, In c kept -> In c seen) by (intros c Hc; now apply I1 in Hc). clear -N1 Hk Pinj.
      induction N1 as [|c l Hc Hl IH]; [constructor|]. cbn [map]. constructor.
      + intro Hin. apply in_map_iff in Hin. destruct Hin as (e & E & He). apply Pinj in E; [|apply Hk; now right|apply Hk; now left]. now subst.
      + apply IH. intros; apply Hk. now right.
    - intro c'. rewrite I2, in_map_iff. split.
      + intros (c & <- & Hc). apply I1 in Hc. destruct Hc as [Hc1 Hc2]. split; [apply (Permutation_in _ PP); now apply in_map|now apply Hmeet].
      + intros [Hc1 Hc2]. apply (Permutation_in _ (Permutation_sym PP)), in_map_iff in Hc1. destruct Hc1 as (c & <- & Hc).
        exists c. split; [reflexivity|]. apply I1. split; [assumption|]. now apply Hmeet. }
  assert (Klen : forall c, In c kept -> length (phi c) = length c) by (intros c Hc; apply Plen; now apply I1 in Hc).
  assert (Kto : forall c, In c kept -> exists c', In c' kept' /\ length c' = length c).
  { intros c Hc. exists (phi c). split; [apply (Permutation_in _ PK); now apply in_map|now apply Klen]. }
  assert (Kback : forall c', In c' kept' -> exists c, In c kept /\ length c = length c').
  { intros c' Hc'. apply (Permutation_in _ (Permutation_sym PK)), in_map_iff in Hc'. destruct Hc' as (c & <- & Hc).
    exists c. split; [assumption|]. symmetry. now apply Klen. }
  pose proof (Permutation_length PK) as EK. rewrite map_length in EK.
  assert (Knil : kept = [] <-> kept' = []).
  { split; intros E; rewrite E in EK; cbn in EK; now apply length_zero_iff_nil. }
  assert (Kfirst : forall n, length (firstn n kept) = length (firstn n kept')) by (intro n; now rewrite !firstn_length, EK).
  assert (Kvec : forall l t l' t', Forall2 vec_text l t -> Forall2 vec_text l' t' -> length l = length l' -> length t = length t').
  { assert (L : forall l t, Forall2 vec_text l t -> length l = length t) by (induction 1; cbn; congruence).
    intros l t l' t' F1 F2 E. rewrite <- (L _ _ F1), <- (L _ _ F2). exact E. }
  destruct what as [| | | | | |word|]; cbn [cycle_output alike_renamed] in *; [now apply CG|now apply CH| | | | | |].
  - destruct KK as (d & Hd & ->), KK' as (d' & Hd' & ->). rewrite EK in Hd. now rewrite (canonical_unique _ _ _ Hd Hd').
  - destruct KK as [[E ->]|(p & c & q & t & E & M1 & M2 & Ht & ->)], KK' as [[E' ->]|(p' & c' & q' & t' & E' & M1' & M2' & Ht' & ->)].
    + now left.
    + apply Knil in E. rewrite E in E'. destruct p'; discriminate.
    + apply Knil in E'. rewrite E' in E. destruct p; discriminate.
    + right. exists c, c', t, t'. split; [|now repeat split].
      assert (Hc : In c kept) by (rewrite E, in_app_iff; right; now left). assert (Hc' : In c' kept') by (rewrite E', in_app_iff; right; now left).
      assert (L1 : forall d, In d kept -> (length c <= length d)%nat).
      { intros d Hd. rewrite E in Hd. apply in_app_iff in Hd. destruct Hd as [Hd|[<-|Hd]]; [apply Nat.lt_le_incl; now apply M1|constructor|now apply M2]. }
      assert (L2 : forall d, In d kept' -> (length c' <= length d)%nat).
      { intros d Hd. rewrite E' in Hd. apply in_app_iff in Hd. destruct Hd as [Hd|[<-|Hd]]; [apply Nat.lt_le_incl; now apply M1'|constructor|now apply M2']. }
      destruct (Kto c Hc) as (d' & D1 & D2). destruct (Kback c' Hc') as (d & D3 & D4).
      pose proof (L1 d D3). pose proof (L2 d' D1). lia.
  - destruct KK as [[E ->]|(p & c & q & t & E & M1 & M2 & Ht & ->)], KK' as [[E' ->]|(p' & c' & q' & t' & E' & M1' & M2' & Ht' & ->)].
    + now left.
    + apply Knil in E. rewrite E in E'. destruct p'; discriminate.
    + apply Knil in E'. rewrite E' in E. destruct p; discriminate.
    + right. exists c, c', t, t'. split; [|now repeat split].
      assert (Hc : In c kept) by (rewrite E, in_app_iff; right; now left). assert (Hc' : In c' kept') by (rewrite E', in_app_iff; right; now left).
      assert (L1 : forall d, In d kept -> (length d <= length c)%nat).
      { intros d Hd. rewrite E in Hd. apply in_app_iff in Hd. destruct Hd as [Hd|[<-|Hd]]; [now apply M1|constructor|apply Nat.lt_le_incl; now apply M2]. }
      assert (L2 : forall d, In d kept' -> (length d <= length c')%nat).
      { intros d Hd. rewrite E' in Hd. apply in_app_iff in Hd. destruct Hd as [Hd|[<-|Hd]]; [now apply M1'|constructor|apply Nat.lt_le_incl; now apply M2']. }
      destruct (Kto c Hc) as (d' & D1 & D2). destruct (Kback c' Hc') as (d & D3 & D4).
      pose proof (L1 d D3). pose proof (L2 d' D1). lia.
  - exact (Kvec _ _ _ _ KK KK' (Kfirst 1%nat)).
  - destruct KK as [(n & Hn & F)|[Hn ->]], KK' as [(n' & Hn' & F')|[Hn' ->]].
    + assert (E : n' = n) by (apply parse_id_spec in Hn, Hn'; congruence). rewrite E in F'. exact (Kvec _ _ _ _ F F' (Kfirst _)).
    + now elim (Hn' n).
    + now elim (Hn n').
    + reflexivity.
  - exists kept, kept', (map phi kept). split; [exact KK|]. split; [exact KK'|]. split; [now apply Permutation_sym|].
    assert (Hk : forall c, In c kept -> rotation (map f c) (phi c)).
    { intros c Hc. apply I1 in Hc. destruct Hc as [Hc _]. apply S1 in Hc. now apply P1. }
    clear - Hk. induction kept as [|c l IH]; [constructor|]. cbn [map]. constructor; [apply Hk; now left|apply IH; intros; apply Hk; now right].
Qed.


Print Assumptions C142_cycle.

(** With edge options the names do matter: the cycle is listed from its least id on, and the edge from the last
    vertex listed to the first is overlooked (C70). *)
Definition swap12 (x : N) : N := if x =? 1 then 2 else if x =? 2 then 1 else x.
Lemma swap12_injective : injective swap12.
Proof.
  intros x y. unfold swap12. destruct (N.eqb_spec x 1), (N.eqb_spec x 2), (N.eqb_spec y 1), (N.eqb_spec y 2); subst; congruence.
Qed.
Definition no_bounds_given : bound_args := c_bounds ask_girth.
Definition count_with_edge (a b : text) : cycle_args := {|
  c_girth := false; c_hamiltonian := false; c_count := true; c_shortest := false; c_longest := false; c_head := false; c_take_n := None;
  c_all := false; c_include := None; c_exclude := None; c_include_edges := Some [a; b]; c_exclude_edges := None; c_bounds := no_bounds_given |}.
Definition there_and_back := txt "AddEdge 1 2" ++ [10] ++ txt "AddEdge 2 1".
Definition back_and_there := txt "AddEdge 2 1" ++ [10] ++ txt "AddEdge 1 2".
Theorem C142_edge_option_refuted : exists nd f order s s' a a' r fuel, injective f /\ hash_order order /\ renamed_files nd f s s' /\
  cycle_given a r /\ cycle_given a' (rename_request f r) /\ asks a Count /\ asks a' Count /\
  snd (run_prog (gc_cycle nd order a fuel) s) = Done [txt "count: 1"] /\
  snd (run_prog (gc_cycle nd order a' fuel) s') = Done [txt "count: 0"].
Proof.
  exists table, swap12, id_order, (with_file there_and_back), (with_file back_and_there),
    (count_with_edge (txt "1") (txt "2")), (count_with_edge (txt "2") (txt "1")),
    {| k_include := None; k_exclude := None; k_include_edges := Some [(1, 2)]; k_exclude_edges := None;
       k_bounds := {| r_min_length := None; r_max_length := None; r_exact_length := None;
                   r_min_score := None; r_max_score := None; r_exact_score := None |} |}, 100%nat.
  split; [exact swap12_injective|]. split; [apply id_order_ok|].
  split; [exists there_and_back, back_and_there, [AddEdge 1 2; AddEdge 2 1]; now repeat split|].
  split; [|split; [|split; [reflexivity|split; [reflexivity|split; vm_compute; reflexivity]]]].
  - refine (conj I (conj I (conj _ (conj I (conj I (conj I (conj I (conj I (conj I I))))))))). apply edge_list_denotes. reflexivity.
  - refine (conj I (conj I (conj _ (conj I (conj I (conj I (conj I (conj I (conj I I))))))))). apply edge_list_denotes. reflexivity.
Qed.
Print Assumptions C142_edge_option_refuted.
(** Renaming 1 and 2 into each other, on a graph of two cycles and one way in. *)
Definition count_with (v : text) : cycle_args := {|
  c_girth := false; c_hamiltonian := false; c_count := true; c_shortest := false; c_longest := false; c_head := false; c_take_n := None;
  c_all := false; c_include := Some [v]; c_exclude := None; c_include_edges := None; c_exclude_edges := None; c_bounds := no_bounds_given |}.
Definition plain_text := txt "AddEdge 9 1" ++ [10] ++ txt "AddEdge 1 2" ++ [10] ++ txt "AddEdge 2 1" ++ [10] ++ txt "AddEdge 2 2".
Definition swapped_text := txt "AddEdge 9 2" ++ [10] ++ txt "AddEdge 2 1" ++ [10] ++ txt "AddEdge 1 2" ++ [10] ++ txt "AddEdge 1 1".
Example C142_case : renamed_files table swap12 (with_file plain_text) (with_file swapped_text) /\
  (exists g, loads table (with_file plain_text) g /\ built_by [AddEdge 9 1; AddEdge 1 2; AddEdge 2 1; AddEdge 2 2] g /\
     exists u, gV g u /\ source (gE g) u) /\
  (exists r, cycle_understood (count_with (txt "1")) r /\ cycle_understood (count_with (txt "2")) (rename_request swap12 r) /\
     k_include_edges r = None /\ k_exclude_edges r = None) /\
  asks (count_with (txt "1")) Count /\
  snd (run_prog (gc_cycle table id_order (count_with (txt "1")) 100) (with_file plain_text)) = Done [txt "count: 1"] /\
  snd (run_prog (gc_cycle table id_order (count_with (txt "2")) 100) (with_file swapped_text)) = Done [txt "count: 1"].
Proof.
  split; [exists plain_text, swapped_text, [AddEdge 9 1; AddEdge 1 2; AddEdge 2 1; AddEdge 2 2]; now repeat split|].
  split.
  { set (cs := [AddEdge 9 1; AddEdge 1 2; AddEdge 2 1; AddEdge 2 2]). exists (apply_commands cs g_new). split; [reflexivity|].
    split; [apply built_by_apply|]. assert (B : built_by cs (apply_commands cs g_new)) by apply built_by_apply.
    destruct (refines B) as [V E]. change (forall u v, gE (apply_commands cs g_new) u v <-> aE (a_run cs) u v) in E.
    exists 9. split; [reflexivity|]. intros u Hu. apply E in Hu. cbn in Hu. intuition discriminate. }
  split; [|split; [reflexivity|split; vm_compute; reflexivity]].
  exists {| k_include := Some [1]; k_exclude := None; k_include_edges := None; k_exclude_edges := None;
       k_bounds := {| r_min_length := None; r_max_length := None; r_exact_length := None;
                   r_min_score := None; r_max_score := None; r_exact_score := None |} |}.
  split; [|split; [|now repeat split]].
  - apply cycle_given_understood. refine (conj _ (conj I (conj I (conj I (conj I (conj I (conj I (conj I (conj I I))))))))). apply parse_list_spec. reflexivity.
  - apply cycle_given_understood. refine (conj _ (conj I (conj I (conj I (conj I (conj I (conj I (conj I (conj I I))))))))). apply parse_list_spec. reflexivity.
Qed.
