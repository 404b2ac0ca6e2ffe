(** * Deleting what an answer does not use (C169) *)
From Coq Require Import String.
From Coq Require Import List NArith ZArith Bool Arith Lia Permutation.
From Verif Require Import Spec Base WalkFacts Graph GraphSpec GraphFacts Path ConstraintSpec PathFacts PropPath
  Queue Heap Iter IterFacts TreeFacts SearchFacts BestFacts ConstrainedFacts PropSearch Topo TopoFacts PropTopo
  Cycle CycleSpec CycleFacts PropCycle
  Text Format FormatSpec TextFacts FormatFacts Store StoreSpec StoreFacts CrashFacts PropFormat PropStore
  Cli CliSpec CliFacts Query QuerySpec QueryFacts EverySpec PropQuery PropEvery PropAgreeQuery PropGrow
  ShortSpec ShortFacts PropShort BellmanFacts PropBellman.
Import ListNotations.
Open Scope N_scope.

(** Every step of a list of vertices is an edge. *)
Definition still_there (g : graph) (p : list N) : Prop := forall x y, adjacent x y p -> gE g x y.
(** The two answers that name a path. *)
Definition short_answer (x y : N) (p : list N) (answer : list text) : Prop :=
  exists dx dy n lines, canonical_numeral dx x /\ canonical_numeral dy y /\ canonical_numeral n (N.of_nat (hops p)) /\
    listed p lines /\
    answer = (txt "Shortest path from vertex " ++ dx ++ txt " to vertex " ++ dy ++ txt " with total cost of " ++ n) :: lines.
Definition csp_answer (x y : N) (p : list N) (answer : list text) : Prop :=
  exists dx dy n lines, canonical_numeral dx x /\ canonical_numeral dy y /\ canonical_numeral n (N.of_nat (hops p)) /\
    listed p lines /\
    answer = (txt "Constrained shortest path from vertex " ++ dx ++ txt " to vertex " ++ dy ++
              txt " with total cost of " ++ n ++ txt ".") :: lines.

Lemma listed_same p q ls : listed p ls -> listed q ls -> p = q.
Proof.
  intro H. revert q. induction H as [|v l p ls Hv _ IH]; intros q Hq; inversion Hq as [|v' ? q' ? Hv' Hq']; subst; [reflexivity|].
  f_equal; [now apply (canonical_value l)|now apply IH].
Qed.

(** ** gc-short-path *)
Theorem C169_short_path : forall nd order order' Q Q' s s' g g' a b x y p answer, hash_order order -> hash_order order' ->
  pops_least Q sp_score -> pops_least Q' sp_score -> loads nd s g -> loads nd s' g' -> PropGrow.within (shown g') (shown g) ->
  id_argument a x -> id_argument b y ->
  prints (gc_short_path nd order Q a b) s answer -> short_answer x y p answer -> still_there g' p ->
  exists p' answer', hops p' = hops p /\ still_there g p' /\ short_answer x y p' answer' /\
    prints (gc_short_path nd order' Q' a b) s' answer'.
Proof.
  intros nd order order' Q Q' s s' g g' a b x y p answer O O' HQ HQ' HL HL' [_ HW] Ha Hb HP (ex & ey & m & ls & Ex & Ey & Em & El & ->) HS.
  destruct (C84_short_path nd order Q s g a b x y O HQ HL Ha Hb) as (dx & dy & Hx & Hy & [[_ HP1]|(q & n & lines & Hw & _ & Hd & Hn & Hl & HP1)]);
    pose proof (settles_fun _ _ _ _ HP HP1) as E; [discriminate E|].
  injection E as _ E. subst ls. pose proof (listed_same _ _ _ El Hl). subst q.
  assert (Hw' : walk_from_to (gE g') x y p) by (destruct Hw as (H1 & H2 & _); now split).
  destruct (C84_short_path nd order' Q' s' g' a b x y O' HQ' HL' Ha Hb) as (dx' & dy' & Hx' & Hy' & [[Hn' _]|(q & n' & lines' & Hq & _ & [_ Hd'] & Hn' & Hl' & HP')]).
  { exfalso. apply Hn'. now exists p. }
  exists q, ((txt "Shortest path from vertex " ++ dx' ++ txt " to vertex " ++ dy' ++ txt " with total cost of " ++ n') :: lines').
  assert (Hq0 : walk_from_to (gE g) x y q) by (apply (walk_more (gE g')); [intros u v; apply HW|assumption]).
  split; [|split; [exact (proj2 (proj2 Hq0))|split; [|assumption]]].
  - apply Nat.le_antisymm; [now apply Hd'|now apply (proj2 Hd)].
  - exists dx', dy', n', lines'. auto.
Qed.
Print Assumptions C169_short_path.

(** Nothing new can be reached. *)
Theorem C169_still_unreachable : forall nd order order' Q Q' s s' g g' a b x y, hash_order order -> hash_order order' ->
  pops_least Q sp_score -> pops_least Q' sp_score -> loads nd s g -> loads nd s' g' -> PropGrow.within (shown g') (shown g) ->
  id_argument a x -> id_argument b y ->
  none_printed nd order Q s a b x y -> none_printed nd order' Q' s' a b x y.
Proof.
  intros nd order order' Q Q' s s' g g' a b x y O O' HQ HQ' HL HL' [_ HW] Ha Hb (ex & ey & _ & _ & HP).
  destruct (C84_short_path nd order Q s g a b x y O HQ HL Ha Hb) as (dx & dy & Hx & Hy & [[Hn _]|(q & n & lines & _ & _ & _ & _ & _ & HP1)]).
  2:{ pose proof (settles_fun _ _ _ _ HP HP1) as E. discriminate E. }
  destruct (short_path_cases nd order' Q' s' g' a b x y O' HQ' HL' Ha Hb) as [[_ H]|(d & [(l & Hl & _) _] & _)]; [assumption|].
  exfalso. apply Hn. exists l. apply (walk_more (gE g')); [intros u v; apply HW|assumption].
Qed.
Print Assumptions C169_still_unreachable.

(** The path itself may be another one: with the queue of the program, deleting the edge from 1
    to 5 moves the answer from 1-4-6 to 1-2-6. *)
Definition fan_file : text := txt "AddEdge 1 5" ++ [10] ++ txt "AddEdge 1 2" ++ [10] ++ txt "AddEdge 1 4" ++ [10] ++
  txt "AddEdge 4 6" ++ [10] ++ txt "AddEdge 2 6" ++ [10] ++ txt "AddEdge 1 3".
Definition fan_file' : text := fan_file ++ [10] ++ txt "RemoveEdge 1 5".
Definition fan_answer (v : text) : list text :=
  [txt "Shortest path from vertex 1 to vertex 6 with total cost of 2"; txt "1"; v; txt "6"].
Definition fan_graph : graph := apply_commands [AddEdge 1 5; AddEdge 1 2; AddEdge 1 4; AddEdge 4 6; AddEdge 2 6; AddEdge 1 3] g_new.
Definition fan_graph' : graph := apply_to (RemoveEdge 1 5) fan_graph.
Lemma fan_loads : loads table (with_file fan_file) fan_graph /\ loads table (with_file fan_file') fan_graph' /\
  PropGrow.within (shown fan_graph') (shown fan_graph) /\ still_there fan_graph' [1; 4; 6] /\ built fan_graph /\ built fan_graph'.
Proof.
  split; [vm_compute; reflexivity|]. split; [vm_compute; reflexivity|].
  assert (B : built fan_graph) by (eexists; apply built_by_apply). pose proof (built_wf B) as W.
  split; [|split; [|split; [exact B|exact (built_apply_commands [RemoveEdge 1 5] B)]]].
  - destruct (shown_step (RemoveEdge 1 5) W) as [HV HE]. split.
    + intros x Hx. exact (proj1 (HV x) Hx).
    + intros x y Hx. exact (proj1 (proj1 (HE x y) Hx)).
  - intros x y (p & q & H). destruct p as [|u [|v p]]; cbn in H.
    + injection H as <- <- _. vm_compute. reflexivity.
    + injection H as _ <- <- _. vm_compute. reflexivity.
    + apply (f_equal (@length N)) in H. cbn in H. rewrite app_length in H. cbn in H. lia.
Qed.
Theorem C169_same_path_refuted : exists s s' g g', loads table s g /\ loads table s' g' /\ PropGrow.within (shown g') (shown g) /\
  still_there g' [1; 4; 6] /\
  prints (gc_short_path table id_order (MinPriorityQueue sp_score) (txt "1") (txt "6")) s (fan_answer (txt "4")) /\
  prints (gc_short_path table id_order (MinPriorityQueue sp_score) (txt "1") (txt "6")) s' (fan_answer (txt "2")).
Proof.
  exists (with_file fan_file), (with_file fan_file'), fan_graph, fan_graph'.
  destruct fan_loads as (L1 & L2 & L3 & L4 & _). split; [exact L1|]. split; [exact L2|]. split; [exact L3|]. split; [exact L4|]. split.
  - exists 9%nat. intros n Hn. do 9 (destruct n as [|n]; [lia|]). vm_compute. reflexivity.
  - exists 9%nat. intros n Hn. do 9 (destruct n as [|n]; [lia|]). vm_compute. reflexivity.
Qed.
Print Assumptions C169_same_path_refuted.

(** ** gc-csp *)
Theorem C169_csp : forall opts r, csp_given opts r -> usual r -> exists ls, Forall2 printed (requested r) ls /\
  let header := txt "Constraint that will be applied to search are: " :: ls in
  forall nd order order' Q Q' s s' g g' a b x y, hash_order order -> hash_order order' ->
  pops_least Q sp_score -> pops_least Q' sp_score -> loads nd s g -> loads nd s' g' -> PropGrow.within (shown g') (shown g) ->
  id_argument a x -> id_argument b y ->
  (* an answer whose path is still there keeps its cost *)
  (forall fuel p answer, snd (run_prog (gc_csp nd order Q a b opts fuel) s) = Done (header ++ answer) ->
     csp_answer x y p answer -> still_there g' p ->
     exists p' answer', hops p' = hops p /\ still_there g p' /\ csp_answer x y p' answer' /\
       prints (gc_csp nd order' Q' a b opts) s' (header ++ answer')) /\
  (* where there was none, there is none *)
  (forall fuel fuel' answer answer', snd (run_prog (gc_csp nd order Q a b opts fuel) s) = Done (header ++ answer) ->
     csp_none x y answer ->
     snd (run_prog (gc_csp nd order' Q' a b opts fuel') s') = Done (header ++ answer') -> csp_none x y answer').
Proof.
  intros opts r HG HU. destruct (C85_csp opts r HG HU) as (ls & HP & H). exists ls. split; [exact HP|]. cbn zeta in H |- *.
  set (header := txt "Constraint that will be applied to search are: " :: ls) in *.
  intros nd order order' Q Q' s s' g g' a b x y O O' HQ HQ' HL HL' [_ HW] Ha Hb.
  destruct (H nd order Q s g a b x y O HQ HL Ha Hb) as (R & _ & _).
  destruct (H nd order' Q' s' g' a b x y O' HQ' HL' Ha Hb) as (R' & F' & _).
  assert (WG : forall p, wanted g' r x y p -> wanted g r x y p).
  { intros p [Hw Hm]. split; [|assumption]. apply (walk_more (gE g')); [intros u v; apply HW|assumption]. }
  split.
  - intros fuel p answer Hrun (ex & ey & m & ls' & Ex & Ey & Em & El & ->) HS.
    destruct (R _ _ Hrun) as (ans & E & D). apply app_inv_head in E. subst ans.
    destruct D as [(q & dx & dy & n & lines & [Hw Hm] & Hmin & _ & _ & _ & Hl & E)|[_ (dx & dy & _ & _ & E)]]; [|discriminate E].
    injection E as _ E. subst lines. pose proof (listed_same _ _ _ El Hl). subst q.
    assert (Wp : wanted g' r x y p) by (destruct Hw as (H1 & H2 & _); exact (conj (conj H1 (conj H2 HS)) Hm)).
    destruct (F' (ex_intro _ p Wp)) as (answer' & (q & dx' & dy' & n' & lines' & Wq & Hmin' & Hx' & Hy' & Hn' & Hl' & ->) & HP').
    eexists q, _. split; [|split; [|split; [|exact HP']]].
    + apply Nat.le_antisymm; [now apply Hmin'|now apply Hmin, WG].
    + exact (proj2 (proj2 (proj1 (WG _ Wq)))).
    + exists dx', dy', n', lines'. auto.
  - intros fuel fuel' answer answer' Hrun (ex & ey & _ & _ & ->) Hrun'.
    destruct (R _ _ Hrun) as (ans & E & D). apply app_inv_head in E. subst ans.
    destruct D as [(q & dx & dy & n & lines & _ & _ & _ & _ & _ & _ & E)|[Hno _]]; [discriminate E|].
    destruct (R' _ _ Hrun') as (ans & E & D). apply app_inv_head in E. subst ans.
    destruct D as [(q & dx & dy & n & lines & Wq & _)|[_ D]]; [|assumption].
    exfalso. now apply (Hno q), WG.
Qed.
Print Assumptions C169_csp.

(** ** Bellman-Ford *)
Local Open Scope Z_scope.
Lemma fewer_edges g g' : built g -> built g' -> PropGrow.within (shown g') (shown g) ->
  (length (edges g') <= length (edges g))%nat /\ (vertex_count g' <= vertex_count g)%nat.
Proof.
  intros B B' [HV HE]. apply built_wf in B. apply built_wf in B'. rewrite !vertex_count_len. split; apply NoDup_incl_length.
  - now apply NoDup_edges.
  - intros [a b] H. apply edges_In in H; [|assumption]. apply edges_In; [assumption|].
    apply contains_edge_hasE; [assumption|]. apply HE. cbn. now apply contains_edge_hasE.
  - now apply vertices_spec.
  - intros v H. apply vertices_In. apply HV. cbn. now apply vertices_In.
Qed.
Theorem C169_bellman_ford : forall g g' w s B m, built g -> built g' -> PropGrow.within (shown g') (shown g) ->
  0 <= B -> (forall a b, gE g a b -> Z.abs (w (a, b)) <= B) ->
  B * Z.of_nat (vertex_count g * length (edges g) + 1) < i64_max ->
  bellman_ford g w s = Done (Some m) ->
  exists m', bellman_ford g' w s = Done (Some m') /\
    (forall v p k, entry m v = Some (p, k) -> still_there g' p -> exists p', entry m' v = Some (p', k)) /\
    (forall v, entry m v = None -> entry m' v = None).
Proof.
  intros g g' w s B m Bg Bg' HW HB0 HB Hmax Hrun.
  destruct (fewer_edges _ _ Bg Bg' HW) as [Le Lv]. destruct HW as [_ HW].
  assert (HB' : forall a b, gE g' a b -> Z.abs (w (a, b)) <= B) by (intros a b H; apply HB, HW, H).
  assert (Hmax' : B * Z.of_nat (vertex_count g' * length (edges g') + 1) < i64_max).
  { eapply Z.le_lt_trans; [|exact Hmax]. apply Z.mul_le_mono_nonneg_l; [assumption|]. apply inj_le.
    apply Nat.add_le_mono_r. now apply Nat.mul_le_mono. }
  destruct (C56_bellman_ford g w s B Bg HB0 HB Hmax) as (r & Hr & Hneg & Hans).
  rewrite Hrun in Hr. injection Hr as <-. specialize (Hans m eq_refl).
  destruct (C56_bellman_ford g' w s B Bg' HB0 HB' Hmax') as (r' & Hr' & Hneg' & Hans').
  assert (Up : forall x y l, walk_from_to (gE g') x y l -> walk_from_to (gE g) x y l).
  { intros x y l. apply walk_more. intros u v. apply HW. }
  destruct r' as [m'|].
  2:{ exfalso. destruct (proj1 Hneg' eq_refl) as (x & l & [q Hq] & Hl & Hlt).
      assert (N0 : @None scores = None) by reflexivity.
      assert (Some m = None); [|discriminate]. apply Hneg. exists x, l. split; [exists q; now apply Up|]. split; [now apply Up|assumption]. }
  exists m'. split; [assumption|]. specialize (Hans' m' eq_refl). split.
  - intros v p k He HS. specialize (Hans v). specialize (Hans' v). rewrite He in Hans. destruct Hans as ((S1 & S2 & _) & Hk & Hmin).
    assert (Hp : walk_from_to (gE g') s v p) by now split.
    destruct (entry m' v) as [[p' k']|]; [|exfalso; apply Hans'; now exists p].
    destruct Hans' as (Hp' & Hk' & Hmin'). exists p'. do 2 f_equal.
    apply Z.le_antisymm; [|]; [rewrite <- Hk; now apply Hmin'|rewrite <- Hk'; now apply Hmin, Up].
  - intros v He. specialize (Hans v). specialize (Hans' v). rewrite He in Hans.
    destruct (entry m' v) as [[p' k']|]; [|reflexivity]. exfalso. apply Hans. exists p'. now apply Up.
Qed.
Print Assumptions C169_bellman_ford.
Example C169_case : loads table (with_file fan_file) fan_graph /\ loads table (with_file fan_file') fan_graph' /\
  PropGrow.within (shown fan_graph') (shown fan_graph) /\ still_there fan_graph' [1; 4; 6]%N /\
  short_answer 1 6 [1; 4; 6]%N (fan_answer (txt "4")) /\
  exists m, bellman_ford fan_graph (fun _ => 1) 1 = Done (Some m) /\ entry m 6 = Some ([1; 2; 6]%N, 2).
Proof.
  destruct fan_loads as (L1 & L2 & L3 & L4 & _). split; [exact L1|]. split; [exact L2|]. split; [exact L3|]. split; [exact L4|]. split.
  - exists (txt "1"), (txt "6"), (txt "2"), [txt "1"; txt "4"; txt "6"].
    split; [exact (show_spec 1)|]. split; [exact (show_spec 6)|]. split; [exact (show_spec 2)|]. split; [|reflexivity].
    constructor; [exact (show_spec 1)|]. constructor; [exact (show_spec 4)|]. constructor; [exact (show_spec 6)|]. constructor.
  - eexists. split; [vm_compute; reflexivity|]. vm_compute. reflexivity.
Qed.
