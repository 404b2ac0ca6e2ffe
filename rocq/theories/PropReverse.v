(** * Reversing every edge (C153) *)
From Coq Require Import String.
From Coq Require Import List NArith ZArith Bool Arith Lia Permutation.
From Verif Require Import Spec Base WalkFacts Graph GraphSpec GraphFacts OrderFacts PropGraph Path ConstraintSpec PathFacts PropPath
  Queue Heap Iter IterFacts TreeFacts SearchFacts BestFacts ConstrainedFacts PropSearch Topo TopoFacts PropTopo
  Cycle CycleSpec CycleFacts PropCycle
  Text Format FormatSpec TextFacts FormatFacts Store StoreSpec StoreFacts CrashFacts PropFormat PropStore
  Cli CliSpec CliFacts PropCli Query QuerySpec QueryFacts EverySpec PropQuery PropEvery.
Import ListNotations.
Open Scope N_scope.

(** ** Reversed histories and graphs *)
Definition turned (e : N * N) : N * N := (snd e, fst e).
Definition reverse_command (c : graph_command) : graph_command :=
  match c with
  | AddVertex v => AddVertex v
  | RemoveVertex v => RemoveVertex v
  | AddEdge a b => AddEdge b a
  | RemoveEdge a b => RemoveEdge b a
  end.
(** The same vertices, and every edge the other way round. *)
Definition reversed (s s' : aset) : Prop :=
  (forall v, aV s' v <-> aV s v) /\ (forall a b, aE s' a b <-> aE s b a).
Lemma reversed_sym s s' : reversed s s' -> reversed s' s.
Proof. intros [H1 H2]. split; intros; [now rewrite H1|now rewrite H2]. Qed.

Lemma turned_turned e : turned (turned e) = e.
Proof. now destruct e. Qed.
Lemma in_turned a b l : In (a, b) (map turned l) <-> In (b, a) l.
Proof.
  rewrite in_map_iff. split.
  - intros ((x & y) & E & H). now injection E as -> ->.
  - intro H. now exists (b, a).
Qed.
Lemma o_step_turned l c : o_step (map turned l) (reverse_command c) = map turned (o_step l c).
Proof.
  destruct c as [v|v|a b|a b]; cbn [reverse_command o_step]; [reflexivity| | |].
  - induction l as [|[x y] l IH]; [reflexivity|]. cbn [map filter turned fst snd]. rewrite (andb_comm (negb (y =? v))), IH.
    now destruct (negb (x =? v) && negb (y =? v)).
  - destruct (in_dec pair_dec (b, a) (map turned l)) as [H|H], (in_dec pair_dec (a, b) l) as [H'|H'];
      rewrite in_turned in H; try contradiction; [reflexivity|]. now rewrite map_app.
  - induction l as [|[x y] l IH]; [reflexivity|]. cbn [map remove]. change (turned (x, y)) with (y, x).
    destruct (pair_dec (b, a) (y, x)), (pair_dec (a, b) (x, y)); try congruence; cbn [map]; now rewrite IH.
Qed.
Lemma insertion_turned cs : insertion_order (map reverse_command cs) = map turned (insertion_order cs).
Proof.
  induction cs as [|c cs IH] using rev_ind; [reflexivity|]. rewrite map_app. cbn [map]. now rewrite !insertion_snoc, IH, o_step_turned.
Qed.
Lemma run_reversed cs : reversed (a_run cs) (a_run (map reverse_command cs)).
Proof.
  split.
  - induction cs as [|c cs IH] using rev_ind; [reflexivity|]. intro v. rewrite map_app. cbn [map]. rewrite !run_snoc.
    destruct c as [w|w|a b|a b]; cbn [reverse_command a_step a_add_vertex a_remove_vertex a_add_edge a_remove_edge aV]; rewrite IH; tauto.
  - intros a b. now rewrite <- !insertion_In, insertion_turned, in_turned.
Qed.

(** *** The reversed history stores the reversed graph; incoming and outgoing edges change places and keep their order. *)
Theorem C153_graph : forall cs g h, built_by cs g -> built_by (map reverse_command cs) h ->
  reversed (shown g) (shown h) /\
  forall v, outbound_edges h v = map turned (inbound_edges g v) /\ inbound_edges h v = map turned (outbound_edges g v).
Proof.
  intros cs g h B B'. split.
  - destruct (refines B) as [R1 R2], (refines B') as [R1' R2'], (run_reversed cs) as [H1 H2].
    split; intros; [now rewrite R1', R1|now rewrite R2', R2].
  - intro v. rewrite (outbound_order _ _ v B'), (inbound_order _ _ v B'), (outbound_order _ _ v B), (inbound_order _ _ v B), insertion_turned.
    assert (K : forall f f' l, (forall e, f (turned e) = f' e) -> filter f (map turned l) = map turned (filter f' l)).
    { intros f f' l H. induction l as [|e l IH]; [reflexivity|]. cbn [map filter]. rewrite H, IH. now destruct (f' e). }
    split; apply K; intros [x y]; reflexivity.
Qed.
Print Assumptions C153_graph.

(** *** gc-add --reverse: the value of the flag decides between a graph and its reversal. *)
Definition other_way (a : add_args) : add_args :=
  {| a_vertex := a_vertex a; a_reverse := negb (a_reverse a); a_edge := a_edge a; a_chain := a_chain a;
     a_cycle := a_cycle a; a_star := a_star a; a_clique := a_clique a |}.
Theorem C153_reverse_flag : forall nd chunks args lv le lc ly ls lq s s' a a', digit_table nd -> buffering chunks ->
  denotes args lv le lc ly ls lq -> holds nd s a -> holds nd s' a' -> reversed a a' ->
  exists s1 s1' g g', run_prog (gc_add chunks args) s = (s1, Success) /\ run_prog (gc_add chunks (other_way args)) s' = (s1', Success) /\
    loads nd s1 g /\ loads nd s1' g' /\ reversed (shown g) (shown g').
Proof.
  intros nd chunks args lv le lc ly ls lq s s' a a' T B D H H' [HR1 HR2].
  assert (D' : denotes (other_way args) lv le lc ly ls lq) by (destruct D; constructor; assumption).
  destruct (C80_gc_add nd chunks args lv le lc ly ls lq s a T B D H) as (s1 & g & R & L & _ & [S1 S2] & _).
  destruct (C80_gc_add nd chunks (other_way args) lv le lc ly ls lq s' a' T B D' H') as (s1' & g' & R' & L' & _ & [S1' S2'] & _).
  exists s1, s1', g, g'. do 4 (split; [assumption|]).
  assert (K : forall x y, added (a_reverse (other_way args)) le lc ly ls lq x y <-> added (a_reverse args) le lc ly ls lq y x).
  { intros x y. unfold added, flip, clique_rel, other_way. cbn [a_reverse]. destruct (a_reverse args); cbn [negb]; tauto. }
  split.
  - intro v. rewrite S1', S1. cbn [a_union aV]. rewrite HR1.
    assert (X : (exists y, added (a_reverse (other_way args)) le lc ly ls lq v y \/ added (a_reverse (other_way args)) le lc ly ls lq y v) <->
                (exists y, added (a_reverse args) le lc ly ls lq v y \/ added (a_reverse args) le lc ly ls lq y v)).
    { split; intros [y Hy]; exists y; rewrite !K in *; tauto. }
    rewrite X. tauto.
  - intros x y. rewrite S2', S2. cbn [a_union aE]. now rewrite HR2, K.
Qed.
Print Assumptions C153_reverse_flag.

(** ** Walks *)
Section Walks.
  Variables E F : rel.
  Hypothesis HF : forall a b, F a b <-> E b a.
  Lemma walk_rev x y p : walk_from_to E x y p -> walk_from_to F y x (rev p).
  Proof.
    intros (H1 & H2 & H3). split; [|split].
    - apply ends_with_rev. now rewrite rev_involutive.
    - now apply ends_with_rev.
    - intros a b H. apply (proj1 (adjacent_rev _ _ _)) in H. apply HF. now apply H3.
  Qed.
  Lemma hops_rev (p : list N) : hops (rev p) = hops p.
  Proof. unfold hops. now rewrite rev_length. Qed.
  Lemma reach_rev x y : reachable E x y -> reachable F y x.
  Proof. intros [p H]. exists (rev p). now apply walk_rev. Qed.
  Lemma acyclic_rev : acyclic F -> acyclic E.
  Proof.
    intros H l (z & Hw & Hl). apply (H (rev l)). exists z. split; [now apply walk_rev|]. now rewrite rev_length.
  Qed.
End Walks.
Lemma before_rev {A} (x y : A) l : before x y l -> before y x (rev l).
Proof.
  intros (p & q & r & ->). exists (rev r), (rev q), (rev p).
  rewrite rev_app_distr. cbn [rev]. rewrite rev_app_distr. cbn [rev]. now rewrite <- !app_assoc.
Qed.

(** *** gc-short-path from x to y, and from y to x on the reversed graph: the same cost, or both not reachable. *)
Theorem C153_short_path : forall nd order order' Q Q' s s' g h a b x y, hash_order order -> hash_order order' ->
  pops_least Q sp_score -> pops_least Q' sp_score -> loads nd s g -> loads nd s' h -> reversed (shown g) (shown h) ->
  id_argument a x -> id_argument b y ->
  exists dx dy, canonical_numeral dx x /\ canonical_numeral dy y /\
  ((prints (gc_short_path nd order Q a b) s [txt "Vertex " ++ dy ++ txt " is not reachable from vertex " ++ dx ++ txt "."] /\
    prints (gc_short_path nd order' Q' b a) s' [txt "Vertex " ++ dx ++ txt " is not reachable from vertex " ++ dy ++ txt "."]) \/
   (exists n lines lines', length lines = length lines' /\
    prints (gc_short_path nd order Q a b) s
      ((txt "Shortest path from vertex " ++ dx ++ txt " to vertex " ++ dy ++ txt " with total cost of " ++ n) :: lines) /\
    prints (gc_short_path nd order' Q' b a) s'
      ((txt "Shortest path from vertex " ++ dy ++ txt " to vertex " ++ dx ++ txt " with total cost of " ++ n) :: lines'))).
Proof.
  intros nd order order' Q Q' s s' g h a b x y O O' HQ HQ' HL HL' HR Ha Hb.
  destruct HR as [_ HE]. change (forall u v, gE h u v <-> gE g v u) in HE.
  assert (HE' : forall u v, gE g u v <-> gE h v u) by (intros; now rewrite HE).
  destruct (C84_short_path nd order Q s g a b x y O HQ HL Ha Hb) as (dx & dy & Dx & Dy & K).
  destruct (C84_short_path nd order' Q' s' h b a y x O' HQ' HL' Hb Ha) as (dy' & dx' & Dy' & Dx' & K').
  rewrite (canonical_unique _ _ _ Dx' Dx), (canonical_unique _ _ _ Dy' Dy) in K'.
  exists dx, dy. split; [assumption|]. split; [assumption|].
  destruct K as [[N1 P]|(p & n & lines & W & _ & [_ Dm] & Cn & Li & P)], K' as [[N1' P']|(p' & n' & lines' & W' & _ & [_ Dm'] & Cn' & Li' & P')].
  - left. now split.
  - exfalso. apply N1, (reach_rev _ _ HE'). now exists p'.
  - exfalso. apply N1', (reach_rev _ _ HE). now exists p.
  - right. assert (El : hops p = hops p').
    { apply Nat.le_antisymm; [rewrite <- (hops_rev p'); apply Dm; now apply (walk_rev _ _ HE')|
                              rewrite <- (hops_rev p); apply Dm'; now apply (walk_rev _ _ HE)]. }
    exists n, lines, lines'. split; [|split; [exact P|]].
    + transitivity (hops p + 1)%nat; [apply (listed_hops _ _ Li); destruct W as ([t ->] & _); discriminate|].
      rewrite El. symmetry. apply (listed_hops _ _ Li'). destruct W' as ([t' ->] & _). discriminate.
    + rewrite <- El in Cn'. now rewrite (canonical_unique _ _ _ Cn Cn').
Qed.
Print Assumptions C153_short_path.

(** *** gc-csp: the vertices given in order are asked for in the opposite order, each of them once. *)
Definition reverse_csp (r : csp_request) : csp_request :=
  {| r_include := r_include r; r_exclude := r_exclude r; r_ordered := option_map (fun l => rev (nodup N.eq_dec l)) (r_ordered r);
     r_include_cycle := r_include_cycle r; r_no_cycle := r_no_cycle r; r_bounds := r_bounds r |}.
(** Two requests the paths of which are the same paths run through backwards. *)
Definition opposite (r r' : csp_request) : Prop := forall p, obeys r p <-> obeys r' (rev p).

Lemma last_before l x y : x <> y -> ((exists i j, last_position l x i /\ last_position l y j /\ (i < j)%nat) <-> before x y (nodup N.eq_dec l)).
Proof.
  intro Hxy. induction l as [|a l IH]; cbn [nodup].
  - split; [intros (i & j & [H _] & _); destruct i; discriminate|intro H; now apply before_nil in H].
  - assert (Step : (exists i j, last_position (a :: l) x i /\ last_position (a :: l) y j /\ (i < j)%nat) <->
      (x = a /\ ~ In a l /\ In y l) \/ (exists i j, last_position l x i /\ last_position l y j /\ (i < j)%nat)).
    { split.
      - intros (i & j & Hi & Hj & Hij). rewrite last_position_cons in Hi, Hj. destruct j as [|j]; [lia|]. destruct i as [|i].
        + left. destruct Hi as [-> Hi]. split; [reflexivity|]. split; [assumption|]. apply last_position_In. now exists j.
        + right. exists i, j. split; [assumption|]. split; [assumption|lia].
      - intros [(-> & Hn & Hy)|(i & j & Hi & Hj & Hij)].
        + apply last_position_In in Hy. destruct Hy as [j Hj]. exists 0%nat, (S j). rewrite !last_position_cons. split; [now split|]. split; [assumption|lia].
        + exists (S i), (S j). rewrite !last_position_cons. split; [assumption|]. split; [assumption|lia]. }
    rewrite Step, IH. destruct (in_dec N.eq_dec a l) as [Ha|Ha].
    + split; [intros [(_ & H & _)|H]; [contradiction|assumption]|now right].
    + rewrite before_cons, nodup_In. tauto.
Qed.
Lemma in_order_before l p : in_order l p <-> forall x y, x <> y -> before x y (nodup N.eq_dec l) -> ~ before y x p.
Proof.
  split.
  - intros H x y Hxy Hb. apply (proj2 (last_before l x y Hxy)) in Hb. destruct Hb as (i & j & Hi & Hj & Hij). now apply (H x y i j).
  - intros H x y i j Hi Hj Hij. apply H; [|apply last_before; [|now exists i, j]];
      intros ->; rewrite (last_position_fun Hi Hj) in Hij; lia.
Qed.
Lemma in_order_rev l p : in_order l p <-> in_order (rev (nodup N.eq_dec l)) (rev p).
Proof.
  assert (E : nodup N.eq_dec (rev (nodup N.eq_dec l)) = rev (nodup N.eq_dec l)) by (apply nodup_fixed_point, NoDup_rev, NoDup_nodup).
  rewrite !in_order_before, E. split; intros H x y Hxy Hb Hp.
  - apply before_rev in Hb, Hp. rewrite rev_involutive in Hb, Hp. now apply (H y x (not_eq_sym Hxy)).
  - apply before_rev in Hb, Hp. now apply (H y x (not_eq_sym Hxy)).
Qed.
Theorem C153_request : forall r, opposite r (reverse_csp r).
Proof.
  intros r p. unfold obeys, reverse_csp. cbn [r_include r_exclude r_ordered r_include_cycle r_no_cycle r_bounds]. rewrite rev_length, hops_rev.
  assert (I : forall v, In v (rev p) <-> In v p) by (intro v; symmetry; apply in_rev).
  assert (D : NoDup (rev p) <-> NoDup p).
  { split; intro H; apply NoDup_rev in H; [now rewrite rev_involutive in H|exact H]. }
  assert (O : (forall l, option_map (fun l => rev (nodup N.eq_dec l)) (r_ordered r) = Some l -> in_order l (rev p)) <->
              (forall l, r_ordered r = Some l -> in_order l p)).
  { split; intros H l E.
    - rewrite in_order_rev. apply H. now rewrite E.
    - destruct (r_ordered r) as [l0|]; [|discriminate]. injection E as <-. apply (proj1 (in_order_rev l0 p)). now apply H. }
  rewrite O, D. split; intros (M1 & M2 & M); (split; [|split; [|exact M]]).
  - intros l v El Hv. apply I. now apply (M1 l).
  - intros l v El Hv. rewrite I. now apply (M2 l).
  - intros l v El Hv. apply I. now apply (M1 l).
  - intros l v El Hv. rewrite <- I. now apply (M2 l).
Qed.
Print Assumptions C153_request.

Theorem C153_csp : forall nd order order' Q Q' s s' g h a b x y opts opts' r r', hash_order order -> hash_order order' ->
  pops_least Q sp_score -> pops_least Q' sp_score -> loads nd s g -> loads nd s' h -> reversed (shown g) (shown h) ->
  id_argument a x -> id_argument b y -> csp_understood opts r -> csp_understood opts' r' -> opposite r r' ->
  exists header header' dx dy, canonical_numeral dx x /\ canonical_numeral dy y /\
  (* if there is a path as asked for, both programs print one, and the costs are the same *)
  ((exists p, asked g r x y p) -> exists n lines lines', length lines = length lines' /\
    prints (gc_csp nd order Q a b opts) s (header ++ (txt "Constrained shortest path from vertex " ++ dx ++ txt " to vertex " ++ dy ++
              txt " with total cost of " ++ n ++ txt ".") :: lines) /\
    prints (gc_csp nd order' Q' b a opts') s' (header' ++ (txt "Constrained shortest path from vertex " ++ dy ++ txt " to vertex " ++ dx ++
              txt " with total cost of " ++ n ++ txt ".") :: lines')) /\
  (* if not, none of them prints anything else than that *)
  ((forall p, ~ asked g r x y p) ->
    (forall fuel out, snd (run_prog (gc_csp nd order Q a b opts fuel) s) = Done out ->
       out = header ++ [txt "Vertex " ++ dy ++ txt " is not reachable from vertex " ++ dx ++ txt " within the given constraints."]) /\
    (forall fuel out, snd (run_prog (gc_csp nd order' Q' b a opts' fuel) s') = Done out ->
       out = header' ++ [txt "Vertex " ++ dx ++ txt " is not reachable from vertex " ++ dy ++ txt " within the given constraints."])) /\
  (* and both end when the length is bounded *)
  (bounded_request r /\ bounded_request r' \/ acyclic (gE g) -> exists out out',
     prints (gc_csp nd order Q a b opts) s out /\ prints (gc_csp nd order' Q' b a opts') s' out').
Proof.
  intros nd order order' Q Q' s s' g h a b x y opts opts' r r' O O' HQ HQ' HL HL' HR Ha Hb HG HG' HU.
  destruct HR as [_ HE]. change (forall u v, gE h u v <-> gE g v u) in HE.
  assert (HE' : forall u v, gE g u v <-> gE h v u) by (intros; now rewrite HE).
  destruct (C160_csp opts r HG) as (ls & _ & H). destruct (C160_csp opts' r' HG') as (ls' & _ & H').
  specialize (H nd order Q s g a b x y O HQ HL Ha Hb). specialize (H' nd order' Q' s' h b a y x O' HQ' HL' Hb Ha).
  set (header := txt "Constraint that will be applied to search are: " :: ls) in *.
  set (header' := txt "Constraint that will be applied to search are: " :: ls') in *.
  destruct H as (A1 & A2 & A3), H' as (B1 & B2 & B3).
  assert (W1 : forall p, asked g r x y p -> asked h r' y x (rev p)).
  { intros p [W M]. split; [now apply (walk_rev _ _ HE)|now apply (proj1 (HU p))]. }
  assert (W2 : forall p, asked h r' y x p -> asked g r x y (rev p)).
  { intros p [W M]. split; [now apply (walk_rev _ _ HE')|]. apply HU. now rewrite rev_involutive. }
  exists header, header', (show x), (show y). split; [apply show_spec|]. split; [apply show_spec|].
  assert (Ux : forall d, canonical_numeral d x -> d = show x) by (intros d Hd; apply (canonical_unique _ _ _ Hd), show_spec).
  assert (Uy : forall d, canonical_numeral d y -> d = show y) by (intros d Hd; apply (canonical_unique _ _ _ Hd), show_spec).
  split; [|split].
  - intros [p0 Hp0]. destruct A2 as (ans & (p & dx & dy & n & lines & Wp & Mp & Dx & Dy & Dn & Li & ->) & P); [now exists p0|].
    destruct B2 as (ans' & (p' & dy' & dx' & n' & lines' & Wp' & Mp' & Dy' & Dx' & Dn' & Li' & ->) & P'); [exists (rev p0); now apply W1|].
    apply Ux in Dx, Dx'. apply Uy in Dy, Dy'. subst.
    assert (El : hops p = hops p').
    { apply Nat.le_antisymm; [rewrite <- (hops_rev p'); apply Mp; now apply W2|rewrite <- (hops_rev p); apply Mp'; now apply W1]. }
    exists n, lines, lines'. split; [|split; [exact P|]].
    + transitivity (hops p + 1)%nat; [apply (listed_hops _ _ Li); destruct Wp as (([t ->] & _) & _); discriminate|].
      rewrite El. symmetry. apply (listed_hops _ _ Li'). destruct Wp' as (([t' ->] & _) & _). discriminate.
    + rewrite <- El in Dn'. now rewrite (canonical_unique _ _ _ Dn Dn').
  - intros Hno. split; intros fuel out E.
    + destruct (A1 _ _ E) as (ans & -> & [(p & _ & _ & _ & _ & Hp & _)|[_ (dx & dy & Dx & Dy & ->)]]); [now elim (Hno p)|].
      now rewrite (Ux _ Dx), (Uy _ Dy).
    + destruct (B1 _ _ E) as (ans & -> & [(p & _ & _ & _ & _ & Hp & _)|[_ (dy & dx & Dy & Dx & ->)]]); [now elim (Hno (rev p)); apply W2|].
      now rewrite (Ux _ Dx), (Uy _ Dy).
  - intros Hb'. destruct A3 as (ans & P); [tauto|]. destruct B3 as (ans' & P').
    + destruct Hb' as [[_ Hb']|Hb']; [left; exact Hb'|right; now apply (acyclic_rev _ _ HE')].
    + exists (header ++ ans), (header' ++ ans'). now split.
Qed.
Print Assumptions C153_csp.

(** *** gc-topo-sort *)
Theorem C153_topo : forall nd order order' s s' g h, hash_order order -> hash_order order' -> loads nd s g -> loads nd s' h ->
  reversed (shown g) (shown h) -> (forall v, ~ gE g v v) ->
  (prints (gc_topo_sort nd order) s [txt "Graph is not a DAG."] /\ prints (gc_topo_sort nd order') s' [txt "Graph is not a DAG."]) \/
  (exists vs ws t t', spaced vs t /\ spaced ws t' /\ Permutation vs ws /\
     prints (gc_topo_sort nd order) s [txt "Topological order: " ++ t] /\
     prints (gc_topo_sort nd order') s' [txt "Topological order: " ++ t'] /\
     (* each order, backwards, is an order of the other graph *)
     (forall u v, gE h u v -> before u v (rev vs)) /\ (forall u v, gE g u v -> before u v (rev ws))).
Proof.
  intros nd order order' s s' g h O O' HL HL' [HV HE] Hno. change (forall u v, gE h u v <-> gE g v u) in HE.
  assert (HE' : forall u v, gE g u v <-> gE h v u) by (intros; now rewrite HE).
  assert (Hno' : forall v, ~ gE h v v) by (intros v Hv; apply HE in Hv; now apply (Hno v)).
  destruct (topo_run nd order s g O HL) as ([vs|] & P & R & V).
  - destruct (proj1 R) as [Hac|(v & Hv & _)]; [discriminate| |now elim (Hno v)].
    destruct (C88_topo_sort nd order s g O HL Hno) as [K _]. destruct (K Hac) as (us & t & [N1 E1] & F1 & S1 & P1).
    destruct (C88_topo_sort nd order' s' h O' HL' Hno') as [K' _]. destruct K' as (ws & t' & [N2 E2] & F2 & S2 & P2).
    { now apply (acyclic_rev _ _ HE'). }
    right. exists us, ws, t, t'. split; [assumption|]. split; [assumption|]. split.
    { apply NoDup_Permutation; try assumption. intro v. rewrite E1, E2. symmetry. apply HV. }
    do 2 (split; [assumption|]). split; intros u v Huv; apply before_rev; [apply F1; now apply HE|apply F2; now apply HE'].
  - left. assert (Hna : ~ acyclic (gE g)) by (intro Ha; now apply (proj2 R (or_introl Ha))).
    split; [now apply (C88_topo_sort nd order s g O HL Hno)|].
    apply (C88_topo_sort nd order' s' h O' HL' Hno'). intro Ha. apply Hna. now apply (acyclic_rev _ _ HE).
Qed.
Print Assumptions C153_topo.
(** With self-loops, exactly: both graphs are ordered iff there is no cycle besides, possibly, one self-loop on a vertex
    without other edges; then each order, backwards, is one of the other graph. *)
Theorem C153_topo_exact : forall nd order order' s s' g h, hash_order order -> hash_order order' -> loads nd s g -> loads nd s' h ->
  reversed (shown g) (shown h) ->
  ((exists vs ws t t', spaced vs t /\ spaced ws t' /\ Permutation vs ws /\
     prints (gc_topo_sort nd order) s [txt "Topological order: " ++ t] /\
     prints (gc_topo_sort nd order') s' [txt "Topological order: " ++ t'] /\
     (forall u v, u <> v -> gE h u v -> before u v (rev vs)) /\ (forall u v, u <> v -> gE g u v -> before u v (rev ws))) <->
   acyclic (gE g) \/ exists v, only_a_terminal_loop (gE g) v /\ forall x, gE g x v -> x = v) /\
  (* otherwise at least one is refused *)
  (~ (acyclic (gE g) \/ exists v, only_a_terminal_loop (gE g) v /\ forall x, gE g x v -> x = v) ->
     prints (gc_topo_sort nd order) s [txt "Graph is not a DAG."] \/ prints (gc_topo_sort nd order') s' [txt "Graph is not a DAG."]).
Proof.
  intros nd order order' s s' g h O O' HL HL' [HV HE]. change (forall u v, gE h u v <-> gE g v u) in HE.
  assert (HE' : forall u v, gE g u v <-> gE h v u) by (intros; now rewrite HE).
  assert (CR : forall E F : rel, (forall u v, F u v <-> E v u) -> forall l, closed_walk E l -> closed_walk F (rev l)).
  { intros E F HF l (z & Hw & Hl). exists z. split; [now apply (walk_rev E F)|now rewrite rev_length]. }
  assert (T : forall v, only_a_terminal_loop (gE g) v -> (forall x, gE g x v -> x = v) -> only_a_terminal_loop (gE h) v).
  { intros v (V1 & V2 & V3) V4. split; [now apply HE|]. split; [intros x Hx; now apply V4, HE|].
    intros l Hl x Hx. apply (V3 (rev l)); [now apply (CR (gE h) (gE g))|now apply -> in_rev]. }
  assert (self : forall v, gE g v v -> closed_walk (gE g) [v; v]).
  { intros v Hv. exists v. split; [|cbn; lia]. split; [now exists [v]|]. split; [now exists [v]|].
    intros a b H. apply WalkFacts.adjacent_cons in H. destruct H as [[-> [q Hq]]|H]; [|now apply adjacent_one in H].
    injection Hq as <- _. exact Hv. }
  destruct (topo_run nd order s g O HL) as (r & P & R & _). destruct (topo_run nd order' s' h O' HL') as (r' & P' & R' & _).
  assert (K : r <> None /\ r' <> None <-> acyclic (gE g) \/ exists v, only_a_terminal_loop (gE g) v /\ forall x, gE g x v -> x = v).
  { rewrite R, R'. split.
    - intros [[Ha|(v & Hv)] H']; [now left|]. destruct H' as [Ha'|(w & W1 & W2 & W3)].
      + left. now apply (acyclic_rev _ _ HE).
      + right. exists v. split; [assumption|]. assert (w = v).
        { destruct Hv as (_ & _ & V3). apply (V3 [w; w]); [|now left]. apply self. now apply HE. }
        subst w. intros x Hx. apply W2. now apply HE.
    - intros [Ha|(v & Hv & Hx)].
      + split; left; [assumption|now apply (acyclic_rev _ _ HE')].
      + split; right; exists v; [assumption|now apply T]. }
  split.
  - rewrite <- K. split.
    + intros (vs & ws & t & t' & _ & _ & _ & Q & Q' & _). split; intros ->.
      * pose proof (settles_fun _ _ _ _ P Q) as E. discriminate.
      * pose proof (settles_fun _ _ _ _ P' Q') as E. discriminate.
    + intros HR. pose proof (proj1 K HR) as HX. destruct HR as [R1 R2]. apply R in R1. apply R' in R2.
      destruct (C88_exact nd order s g O HL) as [A _]. destruct (A R1) as (vs & t & [N1 E1] & F1 & S1 & Q1).
      destruct (C88_exact nd order' s' h O' HL') as [B _]. destruct (B R2) as (ws & t' & [N2 E2] & F2 & S2 & Q2).
      exists vs, ws, t, t'. split; [assumption|]. split; [assumption|]. split.
      { apply NoDup_Permutation; try assumption. intro v. rewrite E1, E2. pose proof (HE v v) as Hvv. pose proof (HV v) as Hv.
        change (gV h v <-> gV g v) in Hv. tauto. }
      do 2 (split; [assumption|]).
      assert (loopless : forall u v, u <> v -> gE g u v -> ~ gE g v v /\ ~ gE g u u).
      { intros u v Hne Huv. destruct HX as [Ha|(w & (W1 & W2 & W3) & W4)].
        - split; intro Hl; exact (Ha _ (self _ Hl)).
        - split; intro Hl.
          + assert (v = w) by (apply (W3 _ (self _ Hl)); now left). subst v. exact (Hne (W4 u Huv)).
          + assert (u = w) by (apply (W3 _ (self _ Hl)); now left). subst u. exact (Hne (eq_sym (W2 v Huv))). }
      split; intros u v Hne Huv; apply before_rev.
      * apply HE in Huv. apply F1; [assumption|]. now apply (loopless v u (not_eq_sym Hne)).
      * apply F2; [now apply HE'|]. intro Hl. apply HE in Hl. now apply (loopless u v Hne Huv).
  - intro HX. destruct r as [vs|]; [|left; exact P]. destruct r' as [ws|]; [|right; exact P'].
    exfalso. apply HX, K. split; discriminate.
Qed.
Print Assumptions C153_topo_exact.

(** *** gc-cycle *)
Lemma starts_with_cons {A} (x : A) l : starts_with x l -> exists t, l = x :: t.
Proof. intros [t ->]. now exists t. Qed.
(** The same cycle run through backwards from the same vertex. *)
Definition backwards (c : list N) : list N := match c with [] => [] | x :: t => x :: rev t end.
Lemma backwards_twice c : backwards (backwards c) = c.
Proof. destruct c as [|x t]; [reflexivity|]. cbn. now rewrite rev_involutive. Qed.
Lemma backwards_length c : length (backwards c) = length c.
Proof. destruct c as [|x t]; [reflexivity|]. cbn. now rewrite rev_length. Qed.
Lemma backwards_In c v : In v (backwards c) <-> In v c.
Proof. destruct c as [|x t]; [reflexivity|]. cbn. now rewrite <- in_rev. Qed.
Lemma backwards_least c : least_first c -> least_first (backwards c).
Proof.
  intros (m & [t ->] & H). exists m. split; [now exists (rev t)|]. intros y Hy. apply H. now apply (proj1 (backwards_In _ _)) in Hy.
Qed.
Lemma backwards_cycle (E F : rel) c : (forall a b, F a b <-> E b a) -> simple_cycle E c -> simple_cycle F (backwards c).
Proof.
  intros HF (Hn & Hc & x & y & [t ->] & Hy & He). cbn [backwards]. split; [|split].
  - inversion Hn as [|? ? H1 H2]; subst. constructor; [now rewrite <- in_rev|now apply NoDup_rev].
  - intros a b H. apply HF. apply WalkFacts.adjacent_cons in H. destruct H as [[-> [q Hq]]|H].
    + apply (f_equal (@rev N)) in Hq. rewrite rev_involutive in Hq. cbn [rev] in Hq. subst t.
      destruct Hy as [p Hp]. change (x :: rev q ++ [b]) with ((x :: rev q) ++ [b]) in Hp. apply app_inj_tail in Hp.
      destruct Hp as [_ ->]. exact He.
    + apply (proj1 (adjacent_rev _ _ _)) in H. apply Hc. apply WalkFacts.adjacent_cons. now right.
  - destruct t as [|z t].
    + destruct Hy as [p Hp]. destruct p as [|u p]; [|destruct p; discriminate]. injection Hp as <-.
      exists x, x. split; [now exists []|]. split; [now exists []|]. now apply HF.
    + exists x, z. split; [now eexists|]. split; [exists (x :: rev t); reflexivity|]. apply HF. apply Hc. now exists [], t.
Qed.
Lemma backwards_seen (seen seen' : list (list N)) (P P' : list N -> Prop) :
  NoDup seen -> NoDup seen' -> (forall c, In c seen <-> P c) -> (forall c, In c seen' <-> P' c) ->
  (forall c, P c -> P' (backwards c)) -> (forall c, P' c -> P (backwards c)) -> Permutation (map backwards seen) seen'.
Proof.
  intros N1 N2 S1 S2 H1 H2. apply NoDup_Permutation; [|assumption|].
  - clear -N1. induction N1 as [|c l Hc Hl IH]; [constructor|]. cbn [map]. constructor; [|assumption].
    intro Hin. apply in_map_iff in Hin. destruct Hin as (d & E & Hd). apply (f_equal backwards) in E. rewrite !backwards_twice in E. now subst.
  - intro c. rewrite in_map_iff, S2. split.
    + intros (d & <- & Hd). apply H1. now apply S1.
    + intro Hc. exists (backwards c). split; [apply backwards_twice|]. apply S1. now apply H2.
Qed.
Lemma cycle_obeys_backwards r c : k_include_edges r = None -> k_exclude_edges r = None ->
  cycle_obeys r c -> cycle_obeys r (backwards c).
Proof.
  intros NI NE (M1 & M2 & _ & _ & M5). unfold cycle_obeys. rewrite NI, NE, backwards_length.
  split; [|split; [|split; [discriminate|split; [discriminate|exact M5]]]].
  - intros l v El Hv. apply backwards_In. now apply (M1 l).
  - intros l v El Hv H. apply (M2 l v El Hv). now apply (proj1 (backwards_In _ _)) in H.
Qed.
(** The answers to a question about a graph and about the reversed graph. *)
Definition alike_turned (x : action) (lines lines' : list text) : Prop :=
  match x with
  | Count | Girth => lines = lines'
  | All => exists cs ds, Forall2 vec_text cs lines /\ Forall2 vec_text ds lines' /\ Permutation (map backwards cs) ds
  | Head | Take _ => length lines = length lines'
  | Shortest => (lines = [txt "shortest cycle: N/A"] /\ lines' = lines) \/
      exists c c' t t', length c = length c' /\ vec_text c t /\ vec_text c' t' /\
        lines = [txt "shortest cycle: " ++ t] /\ lines' = [txt "shortest cycle: " ++ t']
  | Longest => (lines = [txt "longest cycle: N/A"] /\ lines' = lines) \/
      exists c c' t t', length c = length c' /\ vec_text c t /\ vec_text c' t' /\
        lines = [txt "longest cycle: " ++ t] /\ lines' = [txt "longest cycle: " ++ t']
  | Hamiltonian => (lines = [txt "hamiltonian: N/A"] /\ lines' = lines) \/
      exists c c' t t', Permutation c c' /\ vec_text c t /\ vec_text c' t' /\
        lines = [txt "hamiltonian: " ++ t] /\ lines' = [txt "hamiltonian: " ++ t']
  end.
Lemma outputs_turned g h x seen seen' kept kept' lines lines' : x <> Hamiltonian -> Permutation (map backwards seen) seen' ->
  (x = Girth \/ Permutation (map backwards kept) kept') ->
  cycle_output g x seen kept lines -> cycle_output h x seen' kept' lines' -> alike_turned x lines lines'.
Proof.
  intros Hne PP HK KK KK'.
  assert (CG : x = Girth -> alike_turned x lines lines').
  { intros ->. cbn [cycle_output alike_turned] in *.
    destruct KK as [[E ->]|(c & d & Hc & Hmin & Hd & ->)].
    - rewrite E in PP. apply Permutation_nil in PP. destruct KK' as [[_ ->]|(c' & _ & Hc' & _)]; [reflexivity|]. rewrite PP in Hc'. destruct Hc'.
    - destruct KK' as [[E' _]|(c' & d' & Hc' & Hmin' & Hd' & ->)].
      { exfalso. rewrite E' in PP. apply Permutation_sym, Permutation_nil in PP. apply map_eq_nil in PP. rewrite PP in Hc. destruct Hc. }
      assert (E : length c = length c').
      { apply Nat.le_antisymm.
        - apply (Permutation_in _ (Permutation_sym PP)), in_map_iff in Hc'. destruct Hc' as (e & <- & He). rewrite backwards_length. now apply Hmin.
        - rewrite <- (backwards_length c). apply Hmin'. apply (Permutation_in _ PP). now apply in_map. }
      rewrite E in Hd. now rewrite (canonical_unique _ _ _ Hd Hd'). }
  destruct HK as [HK|PK]; [now apply CG|].
  assert (Kto : forall c, In c kept -> exists c', In c' kept' /\ length c' = length c).
  { intros c Hc. exists (backwards c). split; [apply (Permutation_in _ PK); now apply in_map|apply backwards_length]. }
  assert (Kback : forall c', In c' kept' -> exists c, In c kept /\ length c = length c').
  { intros c' Hc'. apply (Permutation_in _ (Permutation_sym PK)), in_map_iff in Hc'. destruct Hc' as (c & <- & Hc).
    exists c. split; [assumption|]. symmetry. apply backwards_length. }
  pose proof (Permutation_length PK) as EK. rewrite map_length in EK.
  assert (Knil : kept = [] <-> kept' = []).
  { split; intros E; rewrite E in EK; cbn in EK; now apply length_zero_iff_nil. }
  assert (Kfirst : forall n, length (firstn n kept) = length (firstn n kept')) by (intro n; now rewrite !firstn_length, EK).
  assert (Kvec : forall l t l' t', Forall2 vec_text l t -> Forall2 vec_text l' t' -> length l = length l' -> length t = length t').
  { assert (L : forall l t, Forall2 vec_text l t -> length l = length t) by (induction 1; cbn; congruence).
    intros l t l' t' F1 F2 E. rewrite <- (L _ _ F1), <- (L _ _ F2). exact E. }
  destruct x as [| | | | | |word|]; cbn [cycle_output alike_turned] in *; [now apply CG|congruence| | | | | |].
  - destruct KK as (d & Hd & ->), KK' as (d' & Hd' & ->). rewrite EK in Hd. now rewrite (canonical_unique _ _ _ Hd Hd').
  - destruct KK as [[E ->]|(p & c & q & t & E & M1 & M2 & Ht & ->)], KK' as [[E' ->]|(p' & c' & q' & t' & E' & M1' & M2' & Ht' & ->)].
    + now left.
    + apply Knil in E. rewrite E in E'. destruct p'; discriminate.
    + apply Knil in E'. rewrite E' in E. destruct p; discriminate.
    + right. exists c, c', t, t'. split; [|now repeat split].
      assert (Hc : In c kept) by (rewrite E, in_app_iff; right; now left). assert (Hc' : In c' kept') by (rewrite E', in_app_iff; right; now left).
      assert (L1 : forall d, In d kept -> (length c <= length d)%nat).
      { intros d Hd. rewrite E in Hd. apply in_app_iff in Hd. destruct Hd as [Hd|[<-|Hd]]; [apply Nat.lt_le_incl; now apply M1|constructor|now apply M2]. }
      assert (L2 : forall d, In d kept' -> (length c' <= length d)%nat).
      { intros d Hd. rewrite E' in Hd. apply in_app_iff in Hd. destruct Hd as [Hd|[<-|Hd]]; [apply Nat.lt_le_incl; now apply M1'|constructor|now apply M2']. }
      destruct (Kto c Hc) as (d' & D1 & D2). destruct (Kback c' Hc') as (d & D3 & D4).
      pose proof (L1 d D3). pose proof (L2 d' D1). lia.
  - destruct KK as [[E ->]|(p & c & q & t & E & M1 & M2 & Ht & ->)], KK' as [[E' ->]|(p' & c' & q' & t' & E' & M1' & M2' & Ht' & ->)].
    + now left.
    + apply Knil in E. rewrite E in E'. destruct p'; discriminate.
    + apply Knil in E'. rewrite E' in E. destruct p; discriminate.
    + right. exists c, c', t, t'. split; [|now repeat split].
      assert (Hc : In c kept) by (rewrite E, in_app_iff; right; now left). assert (Hc' : In c' kept') by (rewrite E', in_app_iff; right; now left).
      assert (L1 : forall d, In d kept -> (length d <= length c)%nat).
      { intros d Hd. rewrite E in Hd. apply in_app_iff in Hd. destruct Hd as [Hd|[<-|Hd]]; [now apply M1|constructor|apply Nat.lt_le_incl; now apply M2]. }
      assert (L2 : forall d, In d kept' -> (length d <= length c')%nat).
      { intros d Hd. rewrite E' in Hd. apply in_app_iff in Hd. destruct Hd as [Hd|[<-|Hd]]; [now apply M1'|constructor|apply Nat.lt_le_incl; now apply M2']. }
      destruct (Kto c Hc) as (d' & D1 & D2). destruct (Kback c' Hc') as (d & D3 & D4).
      pose proof (L1 d D3). pose proof (L2 d' D1). lia.
  - exact (Kvec _ _ _ _ KK KK' (Kfirst 1%nat)).
  - destruct KK as [(n & Hn & F)|[Hn ->]], KK' as [(n' & Hn' & F')|[Hn' ->]].
    + assert (E : n' = n) by (apply parse_id_spec in Hn, Hn'; congruence). rewrite E in F'. exact (Kvec _ _ _ _ F F' (Kfirst _)).
    + now elim (Hn' n).
    + now elim (Hn n').
    + reflexivity.
  - exists kept, kept'. now split.
Qed.
Theorem C153_cycle : forall nd order order' s s' g h, hash_order order -> hash_order order' -> loads nd s g -> loads nd s' h ->
  reversed (shown g) (shown h) ->
  forall a r, cycle_understood a r ->
  (* where each vertex reaches every other one, or each vertex comes after one without entering edges and before one
     without leaving edges *)
  (strongly_connected (gV g) (gE g) \/
   ((forall v, gV g v -> exists u, gV g u /\ source (gE g) u /\ reachable (gE g) u v) /\
    (forall v, gV g v -> exists u, gV g u /\ (forall z, ~ gE g u z) /\ reachable (gE g) v u)) ->
   forall x, asks a x -> x = Girth \/ (k_include_edges r = None /\ k_exclude_edges r = None) ->
   exists lines lines', prints (gc_cycle nd order a) s lines /\ prints (gc_cycle nd order' a) s' lines' /\ alike_turned x lines lines') /\
  (* on every graph *)
  (asks a Hamiltonian ->
   (prints (gc_cycle nd order a) s [txt "hamiltonian: N/A"] /\ prints (gc_cycle nd order' a) s' [txt "hamiltonian: N/A"]) \/
   (exists c c' t t', vec_text c t /\ vec_text c' t' /\ hamiltonian_cycle (gV g) (gE g) c /\ hamiltonian_cycle (gV h) (gE h) c' /\
      prints (gc_cycle nd order a) s [txt "hamiltonian: " ++ t] /\ prints (gc_cycle nd order' a) s' [txt "hamiltonian: " ++ t'])).
Proof.
  intros nd order order' s s' g h O O' HL HL' [HV HE] a r HG. change (forall u v, gE h u v <-> gE g v u) in HE.
  change (forall v, gV h v <-> gV g v) in HV.
  assert (HE' : forall u v, gE g u v <-> gE h v u) by (intros; now rewrite HE).
  destruct (C160_cycle nd order s g O HL) as (seen & [Hnd Hseen] & H). destruct (C160_cycle nd order' s' h O' HL') as (seen' & [Hnd' Hseen'] & H').
  destruct (H a r HG) as (kept & N1 & I1 & _ & K). destruct (H' a r HG) as (kept' & N2 & I2 & _ & K').
  assert (HH : asks a Hamiltonian ->
   (prints (gc_cycle nd order a) s [txt "hamiltonian: N/A"] /\ prints (gc_cycle nd order' a) s' [txt "hamiltonian: N/A"]) \/
   (exists c c' t t', vec_text c t /\ vec_text c' t' /\ hamiltonian_cycle (gV g) (gE g) c /\ hamiltonian_cycle (gV h) (gE h) c' /\
      prints (gc_cycle nd order a) s [txt "hamiltonian: " ++ t] /\ prints (gc_cycle nd order' a) s' [txt "hamiltonian: " ++ t'])).
  { intros A. destruct (K Hamiltonian A) as (lines & P & KK). destruct (K' Hamiltonian A) as (lines' & P' & KK').
    destruct KK as [[Hn ->]|(c & t & Hc & Ht & ->)], KK' as [[Hn' ->]|(c' & t' & Hc' & Ht' & ->)].
    + left. now split.
    + exfalso. apply (Hn (backwards c')). destruct Hc' as [C1 C2]. split; [now apply (backwards_cycle _ _ _ HE')|].
      intro v. now rewrite backwards_In, C2, HV.
    + exfalso. apply (Hn' (backwards c)). destruct Hc as [C1 C2]. split; [now apply (backwards_cycle _ _ _ HE)|].
      intro v. now rewrite backwards_In, C2, HV.
    + right. now exists c, c', t, t'. }
  split; [|exact HH]. intros Hsc x A HN.
  assert (Hg : (forall v, gV g v -> exists u, gV g u /\ source (gE g) u /\ reachable (gE g) u v) \/
               (forall u v, gV g u -> gV g v -> reachable (gE g) u v)) by (destruct Hsc as [Hsc|[Hsc _]]; [now right|now left]).
  assert (Hh : (forall v, gV h v -> exists u, gV h u /\ source (gE h) u /\ reachable (gE h) u v) \/
               (forall u v, gV h u -> gV h v -> reachable (gE h) u v)).
  { destruct Hsc as [Hsc|[_ Hsc]]; [right|left].
    - intros u v Hu Hv. apply (reach_rev _ _ HE). apply Hsc; now apply HV.
    - intros v Hv. destruct (Hsc v (proj1 (HV v) Hv)) as (u & Hu & Su & Ru). exists u. split; [now apply HV|]. split.
      + intros z Hz. apply (Su z). now apply HE.
      + now apply (reach_rev _ _ HE). }
  assert (S1 : forall c, In c seen <-> simple_cycle (gE g) c /\ least_first c)
    by (intro c; rewrite Hseen; now apply (C87_all_seen nd order s g O HL)).
  assert (S2 : forall c, In c seen' <-> simple_cycle (gE h) c /\ least_first c)
    by (intro c; rewrite Hseen'; now apply (C87_all_seen nd order' s' h O' HL')).
  assert (PP : Permutation (map backwards seen) seen').
  { apply (backwards_seen _ _ _ _ Hnd Hnd' S1 S2); intros c [Hc Lc];
      (split; [|now apply backwards_least]); [now apply (backwards_cycle _ _ _ HE)|now apply (backwards_cycle _ _ _ HE')]. }
  assert (PK : x = Girth \/ Permutation (map backwards kept) kept').
  { destruct HN as [HN|[NI NE]]; [now left|right].
    assert (J1 : forall c, In c kept <-> (simple_cycle (gE g) c /\ least_first c) /\ cycle_obeys r c) by (intro c; now rewrite I1, S1).
    assert (J2 : forall c, In c kept' <-> (simple_cycle (gE h) c /\ least_first c) /\ cycle_obeys r c) by (intro c; now rewrite I2, S2).
    apply (backwards_seen _ _ _ _ N1 N2 J1 J2); intros c [[Hc Lc] Mc];
      (split; [split; [|now apply backwards_least]|now apply cycle_obeys_backwards]);
      [now apply (backwards_cycle _ _ _ HE)|now apply (backwards_cycle _ _ _ HE')]. }
  destruct (K x A) as (lines & P & KK). destruct (K' x A) as (lines' & P' & KK').
  assert (Dec : x = Hamiltonian \/ x <> Hamiltonian) by (destruct x; (now left) || (right; discriminate)).
  destruct Dec as [->|Dec].
  - destruct (HH A) as [[Q Q']|(c & c' & t & t' & Ht & Ht' & [[C1 _] C2] & [[C1' _] C2'] & Q & Q')].
    + do 2 eexists. split; [exact Q|]. split; [exact Q'|]. now left.
    + do 2 eexists. split; [exact Q|]. split; [exact Q'|]. right. exists c, c', t, t'. split; [|now repeat split].
      apply NoDup_Permutation; [assumption|assumption|]. intro v. now rewrite C2, C2', HV.
  - exists lines, lines'. split; [exact P|]. split; [exact P'|].
    exact (outputs_turned g h x seen seen' kept kept' lines lines' Dec PP PK KK KK').
Qed.
Print Assumptions C153_cycle.

(** ** What reversal changes *)
Lemma run_edges cs a b : gE (apply_commands cs g_new) a b <-> In (a, b) (insertion_order cs).
Proof. rewrite insertion_In. apply (refines (built_by_apply cs)). Qed.
Lemma run_vertices cs v : gV (apply_commands cs g_new) v <-> aV (a_run cs) v.
Proof. apply (refines (built_by_apply cs)). Qed.
Lemma reversed_runs cs : reversed (shown (apply_commands cs g_new)) (shown (apply_commands (map reverse_command cs) g_new)).
Proof. exact (proj1 (C153_graph cs _ _ (built_by_apply _) (built_by_apply _))). Qed.
Lemma has_predecessor {A} (x : A) t y : In y t -> exists z, adjacent z y (x :: t).
Proof.
  intro H. apply in_split in H. destruct H as (p & q & ->). destruct p as [|u p _] using rev_ind.
  - exists x. now exists [], q.
  - exists u. exists (x :: p), q. cbn [app]. now rewrite <- app_assoc.
Qed.
Lemma closed_entered (E : rel) l y : closed_walk E l -> In y l -> exists z, E z y.
Proof.
  intros (s & ([t ->] & [p Hp] & Hc) & Hl) Hy. destruct t as [|u t]; [cbn in Hl; lia|].
  assert (K : In y (u :: t)).
  { destruct Hy as [<-|Hy]; [|assumption]. destruct p as [|v p]; [discriminate|]. injection Hp as _ Hp. rewrite Hp. apply in_or_app. right. now left. }
  destruct (has_predecessor s _ _ K) as [z Hz]. exists z. now apply Hc.
Qed.

(** A self-loop is overlooked at the end of a graph but not at its start (C88). *)
Theorem C153_topo_refuted : exists nd s s' g h t, loads nd s g /\ loads nd s' h /\ reversed (shown g) (shown h) /\
  forall order, hash_order order ->
    prints (gc_topo_sort nd order) s [txt "Topological order: " ++ t] /\ prints (gc_topo_sort nd order) s' [txt "Graph is not a DAG."].
Proof.
  exists table, (with_file (txt "AddEdge 1 2" ++ [10] ++ txt "AddEdge 2 2")), (with_file (txt "AddEdge 2 1" ++ [10] ++ txt "AddEdge 2 2")).
  exists (apply_commands [AddEdge 1 2; AddEdge 2 2] g_new), (apply_commands [AddEdge 2 1; AddEdge 2 2] g_new), (txt "1 ").
  assert (HL : loads table (with_file (txt "AddEdge 1 2" ++ [10] ++ txt "AddEdge 2 2")) (apply_commands [AddEdge 1 2; AddEdge 2 2] g_new)) by reflexivity.
  assert (HL' : loads table (with_file (txt "AddEdge 2 1" ++ [10] ++ txt "AddEdge 2 2")) (apply_commands [AddEdge 2 1; AddEdge 2 2] g_new)) by reflexivity.
  split; [exact HL|]. split; [exact HL'|]. split; [apply (reversed_runs [AddEdge 1 2; AddEdge 2 2])|]. intros order O.
  assert (E1 : forall a b, gE (apply_commands [AddEdge 1 2; AddEdge 2 2] g_new) a b <-> (1, 2) = (a, b) \/ (2, 2) = (a, b)).
  { intros a b. rewrite run_edges. vm_compute. tauto. }
  assert (E2 : forall a b, gE (apply_commands [AddEdge 2 1; AddEdge 2 2] g_new) a b <-> (2, 1) = (a, b) \/ (2, 2) = (a, b)).
  { intros a b. rewrite run_edges. vm_compute. tauto. }
  split.
  - destruct (C88_exact table order _ _ O HL) as [H _]. destruct H as (vs & t & [Hn Hin] & Hb & Hs & P).
    + right. exists 2. split; [apply E1; now right|]. split.
      * intros x Hx. apply E1 in Hx. destruct Hx as [Hx|Hx]; [discriminate|]. now injection Hx as <-.
      * intros l Hl x Hx. destruct (closed_entered _ _ _ Hl Hx) as [z Hz]. apply E1 in Hz. destruct Hz as [Hz|Hz]; now injection Hz as _ <-.
    + assert (Hv : forall v, In v vs <-> v = 1).
      { intro v. rewrite Hin, E1. split.
        - intros [H1 H2]. apply vertices_In in H1. change (In v [1; 2]) in H1. destruct H1 as [<-|[<-|[]]]; [reflexivity|]. elim H2. now right.
        - intros ->. split; [reflexivity|]. intros [H|H]; discriminate. }
      destruct vs as [|v [|w vs]].
      * exfalso. apply (proj2 (Hv 1)). reflexivity.
      * assert (v = 1) by (apply Hv; now left). subst v. inversion Hs as [|? d ? t0 Hd Ht]; subst. inversion Ht; subst.
        rewrite (canonical_unique _ _ _ Hd (show_spec 1)) in P. exact P.
      * exfalso. assert (v = 1) by (apply Hv; now left). assert (w = 1) by (apply Hv; right; now left). subst. inversion Hn as [|? ? H1 _]. apply H1. now left.
  - apply (C88_exact table order _ _ O HL'). intros [Hac|(v & Hv & Hno & _)].
    + apply (Hac [2; 2]). exists 2. split; [|cbn; lia]. split; [now exists [2]|]. split; [now exists [2]|].
      intros a b H. apply E2. apply WalkFacts.adjacent_cons in H. destruct H as [[-> [q Hq]]|H]; [|now apply adjacent_one in H].
      injection Hq as <- _. now right.
    + apply E2 in Hv. destruct Hv as [Hv|Hv]; [injection Hv; intros; lia|]. injection Hv as <-.
      assert (1 = 2) as X; [apply Hno; apply E2; now left|discriminate].
Qed.
Print Assumptions C153_topo_refuted.

(** gc-cycle starts at the vertices without incoming edges (C87); a cycle that leads to one of them is not found. *)
Theorem C153_cycle_refuted : exists nd s s' g h, loads nd s g /\ loads nd s' h /\ reversed (shown g) (shown h) /\
  forall order, hash_order order ->
    prints (gc_cycle nd order ask_girth) s [txt "girth: 2"] /\ prints (gc_cycle nd order ask_girth) s' [txt "girth: Infinity"].
Proof.
  set (cs := [AddVertex 9; AddEdge 1 2; AddEdge 2 3; AddEdge 3 2]).
  set (file := txt "AddVertex 9" ++ [10] ++ txt "AddEdge 1 2" ++ [10] ++ txt "AddEdge 2 3" ++ [10] ++ txt "AddEdge 3 2").
  set (file' := txt "AddVertex 9" ++ [10] ++ txt "AddEdge 2 1" ++ [10] ++ txt "AddEdge 3 2" ++ [10] ++ txt "AddEdge 2 3").
  exists table, (with_file file), (with_file file'), (apply_commands cs g_new), (apply_commands (map reverse_command cs) g_new).
  assert (HL : loads table (with_file file) (apply_commands cs g_new)) by reflexivity.
  assert (HL' : loads table (with_file file') (apply_commands (map reverse_command cs) g_new)) by reflexivity.
  split; [exact HL|]. split; [exact HL'|]. split; [apply reversed_runs|]. intros order O.
  assert (E1 : forall a b, gE (apply_commands cs g_new) a b <-> (1, 2) = (a, b) \/ (2, 3) = (a, b) \/ (3, 2) = (a, b)).
  { intros a b. unfold cs. rewrite run_edges. vm_compute. tauto. }
  assert (E2 : forall a b, gE (apply_commands (map reverse_command cs) g_new) a b <-> (2, 1) = (a, b) \/ (3, 2) = (a, b) \/ (2, 3) = (a, b)).
  { intros a b. unfold cs. rewrite run_edges. vm_compute. tauto. }
  assert (V2 : forall v, gV (apply_commands (map reverse_command cs) g_new) v -> v = 1 \/ v = 2 \/ v = 3 \/ v = 9).
  { intros v Hv. apply vertices_In in Hv. vm_compute in Hv. intuition congruence. }
  assert (V1 : gV (apply_commands cs g_new) 1) by reflexivity.
  assert (V9 : gV (apply_commands (map reverse_command cs) g_new) 9) by reflexivity.
  assert (L1 : forall c, simple_cycle (gE (apply_commands cs g_new)) c -> (2 <= length c)%nat).
  { intros [|x [|y c]] Hc; [destruct Hc as (_ & _ & u & v & [t Hu] & _); discriminate|exfalso|cbn; lia].
    destruct Hc as (_ & _ & u & v & [t Hu] & [p Hv] & He). injection Hu as <- <-. destruct p as [|? p]; [|destruct p; discriminate].
    injection Hv as <-. apply E1 in He. destruct He as [He|[He|He]]; injection He; intros; lia. }
  set (req := {| k_include := None; k_exclude := None; k_include_edges := None; k_exclude_edges := None;
    k_bounds := {| r_min_length := None; r_max_length := None; r_exact_length := None;
                   r_min_score := None; r_max_score := None; r_exact_score := None |} |}).
  assert (HG : cycle_given ask_girth req).
  { refine (conj I (conj I (conj I (conj I (conj I (conj I (conj I (conj I (conj I I))))))))). }
  revert HL HL' E1 E2 V1 V2 V9 L1. generalize (apply_commands cs g_new) (apply_commands (map reverse_command cs) g_new). clearbody file file'.
  intros g h HL HL' E1 E2 V1 V2 V9 L1. split.
  - destruct (C87_cycle table order _ g O HL) as (seen & [_ Hseen] & H). destruct (H ask_girth req HG eq_refl) as (kept & _ & _ & _ & K).
    assert (H23 : In [2; 3] seen).
    { apply Hseen. split; [|split].
      - split; [repeat constructor; cbn; intuition discriminate|]. split.
        + intros a b Hab. apply E1. apply WalkFacts.adjacent_cons in Hab. destruct Hab as [[-> [q Hq]]|Hab]; [|now apply adjacent_one in Hab].
          injection Hq as <- _. tauto.
        + exists 2, 3. split; [now exists [3]|]. split; [now exists [2]|]. apply E1. tauto.
      - exists 2. split; [now exists [3]|]. intros y [<-|[<-|[]]]; lia.
      - exists 1, 2. split; [assumption|]. split; [|split; [now left|]].
        + left. intros u Hu. apply E1 in Hu. destruct Hu as [Hu|[Hu|Hu]]; discriminate.
        + exists [1; 2]. split; [now exists [2]|]. split; [now exists [1]|]. intros a b Hab. apply E1.
          apply WalkFacts.adjacent_cons in Hab. destruct Hab as [[-> [q Hq]]|Hab]; [|now apply adjacent_one in Hab]. injection Hq as <- _. tauto. }
    destruct (K Girth eq_refl) as (ls & P & [[E _]|(c & d & Hc & Hmin & Hd & ->)]); [now rewrite E in H23|].
    specialize (Hmin _ H23). assert (L := L1 c). apply Hseen in Hc. specialize (L (proj1 Hc)). cbn [length] in Hmin.
    assert (E : length c = 2%nat) by lia. rewrite E in Hd. rewrite (canonical_unique _ _ _ Hd (show_spec 2)) in P. exact P.
  - destruct (C87_cycle table order _ h O HL') as (seen & [_ Hseen] & H). destruct (H ask_girth req HG eq_refl) as (kept & _ & _ & _ & K).
    destruct (K Girth eq_refl) as (ls & P & [[_ ->]|(c & d & Hc & _)]); [exact P|]. exfalso.
    assert (S9 : source (gE h) 9) by (intros u Hu; apply E2 in Hu; destruct Hu as [Hu|[Hu|Hu]]; discriminate).
    apply Hseen in Hc. destruct Hc as ((Hd1 & Hd2 & a & b & Ha & Hb & Hab) & _ & u & x & Vu & Hu & Hx & Hr).
    assert (u = 9).
    { destruct Hu as [Hu|[Hu _]]; [|now elim (Hu 9)]. destruct (V2 u Vu) as [E|[E|[E|E]]]; subst u; [| | |reflexivity]; exfalso.
      - apply (Hu 2). apply E2. tauto.
      - apply (Hu 3). apply E2. tauto.
      - apply (Hu 2). apply E2. tauto. }
    subst u. assert (Hno : forall v, ~ gE h 9 v) by (intros v Hv; apply E2 in Hv; destruct Hv as [Hv|[Hv|Hv]]; discriminate).
    assert (x = 9).
    { destruct Hr as (l & (t & ->) & (t' & Hl) & Hch). destruct t as [|z t].
      - destruct t' as [|z t']; [now injection Hl|]. injection Hl as _ Hl. now destruct t'.
      - exfalso. apply (Hno z), (Hch 9 z). now exists [], t. }
    subst x. apply in_split in Hx. destruct Hx as (p & q & ->). destruct q as [|z q].
    + destruct Hb as [p' Hb]. apply app_inj_tail in Hb. destruct Hb as [_ <-]. exact (Hno a Hab).
    + apply (Hno z), (Hd2 9 z). now exists p, q.
Qed.
Print Assumptions C153_cycle_refuted.

Example C153_case :
  let cs := [AddEdge 1 2; AddEdge 2 3; AddVertex 5; AddEdge 3 1; RemoveEdge 3 1; AddEdge 1 3] in
  let file := concat (map (fun c => command_into_line c ++ [10]) cs) in
  let file' := concat (map (fun c => command_into_line c ++ [10]) (map reverse_command cs)) in
  let r := {| r_include := None; r_exclude := None; r_ordered := Some [3; 1; 2; 3]; r_include_cycle := false; r_no_cycle := true;
              r_bounds := {| r_min_length := Some 3; r_max_length := None; r_exact_length := None; r_min_score := None; r_max_score := Some 2%Z; r_exact_score := None |} |} in
  exists g h, loads table (with_file file) g /\ loads table (with_file file') h /\ reversed (shown g) (shown h) /\
    asked g r 1 3 [1; 2; 3] /\ asked h (reverse_csp r) 3 1 [3; 2; 1] /\ r_ordered (reverse_csp r) = Some [3; 2; 1] /\
    outbound_edges h 3 = [(3, 2); (3, 1)] /\ inbound_edges g 3 = [(2, 3); (1, 3)] /\
    snd (run_prog (gc_short_path table id_order (MinPriorityQueue sp_score) (txt "3") (txt "1") 20) (with_file file')) =
    Done [txt "Shortest path from vertex 3 to vertex 1 with total cost of 1"; txt "3"; txt "1"].
Proof.
  intros cs file file' r. exists (apply_commands cs g_new), (apply_commands (map reverse_command cs) g_new).
  split; [reflexivity|]. split; [reflexivity|]. split; [apply reversed_runs|].
  assert (M : asked (apply_commands cs g_new) r 1 3 [1; 2; 3]).
  { split.
    - split; [now exists [2; 3]|]. split; [now exists [1; 2]|]. intros a b H.
      apply WalkFacts.adjacent_cons in H. destruct H as [[-> [q Hq]]|H]; [injection Hq as <- _; reflexivity|].
      apply WalkFacts.adjacent_cons in H. destruct H as [[-> [q Hq]]|H]; [injection Hq as <- _; reflexivity|now apply adjacent_one in H].
    - assert (ND : NoDup [1; 2; 3]) by (repeat constructor; cbn; intuition discriminate).
      split; [discriminate|]. split; [discriminate|]. split; [|split; [discriminate|split; [intros _; exact ND|]]].
      + intros l [= <-]. apply in_order_before. intros x y _ H1 H2. cbn in H1. assert (K : forall u v, before u v [1; 2; 3] -> u < v).
        { intros u v H. rewrite !before_cons in H. cbn [In] in H.
          destruct H as [[-> H]|[[-> H]|[[-> []]|H]]]; [lia|lia|now apply before_nil in H]. }
        apply K in H1, H2. lia.
      + repeat split; discriminate || (cbn; intros ? [= <-]; lia). }
  split; [exact M|]. split; [|split; [reflexivity|split; [reflexivity|split; [reflexivity|vm_compute; reflexivity]]]].
  destruct M as [M1 M2]. split.
  - apply (walk_rev (gE (apply_commands cs g_new)) _ (proj2 (reversed_runs cs)) 1 3 [1; 2; 3]). exact M1.
  - exact (proj1 (C153_request r [1; 2; 3]) M2).
Qed.

(** A graph with a cycle between a source and a vertex without leaving edges meets the second hypothesis of [C153_cycle]. *)
Example C153_cycle_case :
  let cs := [AddEdge 1 2; AddEdge 2 3; AddEdge 3 2; AddEdge 3 4] in
  let file := concat (map (fun c => command_into_line c ++ [10]) cs) in
  exists g, loads table (with_file file) g /\
   (forall v, gV g v -> exists u, gV g u /\ source (gE g) u /\ reachable (gE g) u v) /\
   (forall v, gV g v -> exists u, gV g u /\ (forall z, ~ gE g u z) /\ reachable (gE g) v u) /\
   ~ strongly_connected (gV g) (gE g) /\
   snd (run_prog (gc_cycle table id_order ask_girth 50) (with_file file)) = Done [txt "girth: 2"].
Proof.
  intros cs file. exists (apply_commands cs g_new).
  assert (HE : forall u v, gE (apply_commands cs g_new) u v -> (u = 1 /\ v = 2) \/ (u = 2 /\ v = 3) \/ (u = 3 /\ v = 2) \/ (u = 3 /\ v = 4)).
  { intros u v H. apply (refines (built_by_apply cs)) in H. cbn in H. tauto. }
  assert (HV : forall v, gV (apply_commands cs g_new) v -> v = 1 \/ v = 2 \/ v = 3 \/ v = 4).
  { intros v H. apply (refines (built_by_apply cs)) in H. cbn in H. tauto. }
  assert (S1 : source (gE (apply_commands cs g_new)) 1).
  { intros z Hz. apply HE in Hz. destruct Hz as [[_ Hz]|[[_ Hz]|[[_ Hz]|[_ Hz]]]]; discriminate. }
  assert (R : forall a b c, reachable (gE (apply_commands cs g_new)) a b -> gE (apply_commands cs g_new) b c -> reachable (gE (apply_commands cs g_new)) a c).
  { intros a b c H1 H2. eapply reachable_step; [exact H1|assumption]. }
  assert (R0 : forall a, reachable (gE (apply_commands cs g_new)) a a) by (intro; apply reachable_refl).
  split; [reflexivity|]. split; [|split; [|split; [|vm_compute; reflexivity]]].
  - intros v Hv. exists 1. split; [reflexivity|]. split; [exact S1|].
    pose proof (R 1 1 2 (R0 1) eq_refl) as R2. pose proof (R 1 2 3 R2 eq_refl) as R3. pose proof (R 1 3 4 R3 eq_refl) as R4.
    apply HV in Hv. destruct Hv as [-> |[-> |[-> | ->]]]; [apply R0|exact R2|exact R3|exact R4].
  - intros v Hv. exists 4. split; [reflexivity|].
    split; [intros z Hz; apply HE in Hz; destruct Hz as [[Hz _]|[[Hz _]|[[Hz _]|[Hz _]]]]; discriminate|].
    pose proof (R 3 3 4 (R0 3) eq_refl) as R3. pose proof (R 2 3 4 (R 2 2 3 (R0 2) eq_refl) eq_refl) as R2.
    pose proof (R 1 3 4 (R 1 2 3 (R 1 1 2 (R0 1) eq_refl) eq_refl) eq_refl) as R1.
    apply HV in Hv. destruct Hv as [-> |[-> |[-> | ->]]]; [exact R1|exact R2|exact R3|apply R0].
  - intro Hs. pose proof (Hs 2 1 eq_refl eq_refl) as Hr.
    assert (X : 1 <> 1); [|now apply X]. revert Hr. apply (reachable_ind' (E := gE (apply_commands cs g_new)) (s := 2) (fun v => v <> 1)).
    + discriminate.
    + intros u v _ _ Hz ->. now apply (S1 u).
Qed.
