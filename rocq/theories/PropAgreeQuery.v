(** * The query tools compared with each other (C133-C135) *)
From Coq Require Import String.
From Coq Require Import List NArith ZArith Bool Arith Lia Permutation.
From Verif Require Import Spec Base WalkFacts Graph GraphSpec GraphFacts Path ConstraintSpec PathFacts PropPath
  Queue Heap Iter IterFacts TreeFacts SearchFacts BestFacts ConstrainedFacts PropSearch Topo TopoFacts PropTopo
  Cycle CycleSpec CycleFacts PropCycle
  Text Format FormatSpec TextFacts FormatFacts Store StoreSpec StoreFacts CrashFacts PropFormat PropStore
  Cli CliSpec CliFacts Query QuerySpec QueryFacts EverySpec PropQuery PropEvery.
From Verif Require DagFacts.
Import ListNotations.
Open Scope N_scope.

(** ** C133: gc-csp without options and gc-short-path *)
Definition no_options : csp_args := {| q_include := None; q_exclude := None; q_ordered := None;
  q_include_cycle := false; q_no_cycle := false; q_bounds := no_bounds |}.
Definition no_request : csp_request := {| r_include := None; r_exclude := None; r_ordered := None;
  r_include_cycle := false; r_no_cycle := false;
  r_bounds := {| r_min_length := None; r_max_length := None; r_exact_length := None;
                 r_min_score := None; r_max_score := None; r_exact_score := None |} |}.
Lemma no_options_given : csp_given no_options no_request.
Proof. refine (conj I (conj I (conj I (conj eq_refl (conj eq_refl (conj I (conj I (conj I (conj I (conj I I)))))))))). Qed.
Lemma no_request_usual : usual no_request.
Proof. split; [reflexivity|discriminate]. Qed.
Lemma meets_anything p : meets no_request p.
Proof.
  split; [discriminate|]. split; [discriminate|]. split; [discriminate|]. split; [discriminate|]. split; [discriminate|].
  split; [discriminate|]. split; [discriminate|]. split; [discriminate|]. split; [discriminate|]. split; discriminate.
Qed.
Lemma wanted_anything g x y p : wanted g no_request x y p <-> walk_from_to (gE g) x y p.
Proof. unfold wanted. pose proof (meets_anything p). tauto. Qed.

(** A cycle that can be reached from [x]. *)
Definition cycle_ahead (E : rel) (x : N) : Prop := exists v l, reachable E x v /\ walk_from_to E v v l /\ (2 <= length l)%nat.

(** Both programs report the same cost, each with a path of that many edges. *)
Theorem C133_same_cost : forall nd order order' Q Q' s g a b x y, hash_order order -> hash_order order' ->
  pops_least Q sp_score -> pops_least Q' sp_score ->
  loads nd s g -> id_argument a x -> id_argument b y -> reachable (gE g) x y ->
  exists dx dy n p q lp lq, canonical_numeral dx x /\ canonical_numeral dy y /\
    walk_from_to (gE g) x y p /\ walk_from_to (gE g) x y q /\ listed p lp /\ listed q lq /\
    canonical_numeral n (N.of_nat (hops p)) /\ hops q = hops p /\
    prints (gc_short_path nd order Q a b) s
      ((txt "Shortest path from vertex " ++ dx ++ txt " to vertex " ++ dy ++ txt " with total cost of " ++ n) :: lp) /\
    prints (gc_csp nd order' Q' a b no_options) s
      (txt "Constraint that will be applied to search are: " ::
       (txt "Constrained shortest path from vertex " ++ dx ++ txt " to vertex " ++ dy ++ txt " with total cost of " ++ n ++ txt ".") :: lq).
Proof.
  intros nd order order' Q Q' s g a b x y O O' HQ HQ' HL Ha Hb Hr.
  destruct (C84_short_path nd order Q s g a b x y O HQ HL Ha Hb) as (dx & dy & Hx & Hy & [[Hn _]|(p & n & lp & H1 & _ & H3 & H4 & H5 & H6)]);
    [contradiction|].
  destruct (C85_csp no_options no_request no_options_given no_request_usual) as (ls & Hls & HC). inversion Hls; subst ls.
  destruct (HC nd order' Q' s g a b x y O' HQ' HL Ha Hb) as (_ & HF & _).
  destruct HF as (answer & (q & dx' & dy' & n' & lq & K1 & K2 & K3 & K4 & K5 & K6 & ->) & HP).
  { destruct Hr as [l Hl]. exists l. now apply wanted_anything. }
  apply wanted_anything in K1.
  assert (Hh : hops q = hops p).
  { apply Nat.le_antisymm; [apply K2; now apply wanted_anything|now apply H3]. }
  rewrite Hh in K5. rewrite (canonical_unique _ _ _ K3 Hx), (canonical_unique _ _ _ K4 Hy), (canonical_unique _ _ _ K5 H4) in HP.
  exists dx, dy, n, p, q, lp, lq. repeat (split; [assumption|]). exact HP.
Qed.
Print Assumptions C133_same_cost.

Lemma ahead_long E x : cycle_ahead E x -> forall n, exists p, walk_from E x p /\ (n <= length p)%nat.
Proof.
  intros (v & l & [l0 H0] & Hl & Hn) n.
  assert (K : exists p, walk_from_to E x v p /\ (n <= length p)%nat).
  { induction n as [|n (p & Hp & Hnp)]; [exists l0; split; [assumption|lia]|].
    destruct l as [|z [|z' l]]; cbn in Hn; try lia.
    assert (z = v) by (destruct Hl as [[t Ht] _]; now injection Ht). subst z.
    exists (p ++ z' :: l). split; [|rewrite app_length; cbn; lia]. exact (walk_app Hp Hl). }
  destruct K as (p & Hp & Hnp). exists p. split; [now apply walk_from_to_from with v|assumption].
Qed.
Lemma not_ahead_simple E x p : ~ cycle_ahead E x -> walk_from E x p -> NoDup p.
Proof.
  intros Hn Hp. set (F := fun u v => E u v /\ reachable E x u).
  apply (acyclic_chain_NoDup F).
  - intros l (z & Hl & Hlen). apply Hn. exists z, l. split; [|split; [|assumption]].
    + destruct l as [|u [|w l]]; cbn in Hlen; try lia. destruct Hl as ([t Ht] & _ & Hadj). injection Ht as -> _.
      apply (Hadj z w). now exists [], l.
    + eapply walk_impl; [|exact Hl]. intros u w [H _]. exact H.
  - intros u w Huw. split; [now apply Hp|]. apply (@walk_In_reachable E x p u Hp). now apply adjacent_In in Huw.
Qed.

(** When no path exists gc-short-path says so; gc-csp ends, and then says so too, exactly
    when no cycle can be reached from the start. *)
Theorem C133_no_path : forall nd order order' Q Q' s g a b x y, hash_order order -> hash_order order' ->
  pops_least Q sp_score -> pops_least Q' sp_score ->
  loads nd s g -> id_argument a x -> id_argument b y -> ~ reachable (gE g) x y ->
  exists dx dy, canonical_numeral dx x /\ canonical_numeral dy y /\
    prints (gc_short_path nd order Q a b) s [txt "Vertex " ++ dy ++ txt " is not reachable from vertex " ++ dx ++ txt "."] /\
    ((exists out, prints (gc_csp nd order' Q' a b no_options) s out) <-> ~ cycle_ahead (gE g) x) /\
    (~ cycle_ahead (gE g) x -> prints (gc_csp nd order' Q' a b no_options) s
       [txt "Constraint that will be applied to search are: ";
        txt "Vertex " ++ dy ++ txt " is not reachable from vertex " ++ dx ++ txt " within the given constraints."]).
Proof.
  intros nd order order' Q Q' s g a b x y O O' HQ HQ' HL Ha Hb Hr.
  destruct (C84_short_path nd order Q s g a b x y O HQ HL Ha Hb) as (dx & dy & Hx & Hy & [[_ HP]|(p & n & lp & H1 & _)]).
  2:{ exfalso. apply Hr. now exists p. }
  exists dx, dy. split; [assumption|]. split; [assumption|]. split; [exact HP|].
  pose proof (C91_halts_iff nd order' Q' s g no_options no_request a b x y O' HQ' HL no_options_given no_request_usual Ha Hb) as Hiff.
  assert (Hend : (exists out, prints (gc_csp nd order' Q' a b no_options) s out) <-> ~ cycle_ahead (gE g) x).
  { rewrite Hiff. split.
    - intros [(p & Hp)|[L HLl]] Hc.
      + apply Hr. exists p. now apply wanted_anything in Hp.
      + destruct (ahead_long _ _ Hc (S L)) as (p & Hp & Hlen). specialize (HLl p). assert (length p <= L)%nat; [|lia].
        apply HLl. split; [assumption|]. intros _. split; [discriminate|]. split; [discriminate|]. split; [discriminate|].
        split; [intros n [H|H]; discriminate|discriminate].
    - intro Hc. right. exists (length (vertices g) + 1)%nat. intros p [Hp _].
      apply (simple_length g (built_wf (proj1 (loaded nd order s g O HL))) x). split; [assumption|].
      now apply (not_ahead_simple (gE g) x). }
  split; [exact Hend|]. intro Hc. destruct (proj2 Hend Hc) as [out Hout].
  destruct (C85_csp no_options no_request no_options_given no_request_usual) as (ls & Hls & HC). inversion Hls; subst ls.
  destruct (HC nd order' Q' s g a b x y O' HQ' HL Ha Hb) as (HS & _).
  pose proof Hout as [n0 Hn]. destruct (HS n0 out (Hn n0 (le_n n0))) as (answer & -> & [(q & dx' & dy' & n' & lq & K1 & _)|[_ HN]]).
  - exfalso. apply Hr. exists q. now apply wanted_anything in K1.
  - destruct HN as (dx' & dy' & K1 & K2 & ->). rewrite (canonical_unique _ _ _ K1 Hx), (canonical_unique _ _ _ K2 Hy) in Hout. exact Hout.
Qed.
Print Assumptions C133_no_path.

(** So the two programs do not always agree: one answers, the other runs for ever. *)
Theorem C133_agree_refuted : exists nd order s g, hash_order order /\ loads nd s g /\
  forall Q, pops_least Q sp_score ->
    prints (gc_short_path nd order Q (txt "1") (txt "9")) s [txt "Vertex 9 is not reachable from vertex 1."] /\
    forall out, ~ prints (gc_csp nd order Q (txt "1") (txt "9") no_options) s out.
Proof.
  set (file := txt "AddEdge 1 2" ++ [10] ++ txt "AddEdge 2 1" ++ [10] ++ txt "AddVertex 9").
  assert (HX : exists g, loads table (with_file file) g /\ gE g 1 2 /\ gE g 2 1 /\ forall u v, gE g u v -> v <> 9).
  { exists (apply_commands [AddEdge 1 2; AddEdge 2 1; AddVertex 9] g_new). split; [reflexivity|].
    split; [vm_compute; reflexivity|]. split; [vm_compute; reflexivity|].
    intros u v H. apply (refines (built_by_apply [AddEdge 1 2; AddEdge 2 1; AddVertex 9])) in H. cbn in H.
    intros ->. intuition discriminate. }
  destruct HX as (g & HL & H12 & H21 & H9).
  assert (Hr : ~ reachable (gE g) 1 9).
  { intros [l Hl]. apply walk_inv in Hl. destruct Hl as [[_ Hl]|(l' & u & _ & _ & Hl)]; [discriminate|]. exact (H9 _ _ Hl eq_refl). }
  exists table, id_order, (with_file file), g. split; [exact id_order_ok|]. split; [exact HL|]. intros Q HQ.
  assert (I1 : id_argument (txt "1") 1) by now apply parse_id_spec.
  assert (I9 : id_argument (txt "9") 9) by now apply parse_id_spec.
  destruct (C133_no_path table id_order id_order Q Q (with_file file) g (txt "1") (txt "9") 1 9 id_order_ok id_order_ok HQ HQ HL I1 I9 Hr)
    as (dx & dy & Hx & Hy & HP & Hend & _).
  split.
  - rewrite (canonical_unique _ _ _ Hx (show_spec 1)), (canonical_unique _ _ _ Hy (show_spec 9)) in HP. exact HP.
  - intros out Ho. apply (proj1 Hend (ex_intro _ out Ho)). exists 1, [1; 2; 1]. split; [apply reachable_refl|]. split; [|cbn; lia].
    apply walk_cons with 2; [assumption|]. apply walk_cons with 1; [assumption|]. apply walk_one.
Qed.
Print Assumptions C133_agree_refuted.

(** More demands never make the answer cheaper. *)
Theorem C133_more_demands : forall nd order order' Q Q' s g opts opts' r r' a b x y out out',
  hash_order order -> hash_order order' -> pops_least Q sp_score -> pops_least Q' sp_score ->
  loads nd s g -> csp_understood opts r -> csp_understood opts' r' ->
  id_argument a x -> id_argument b y ->
  (forall p, obeys r' p -> obeys r p) ->
  prints (gc_csp nd order Q a b opts) s out -> prints (gc_csp nd order' Q' a b opts') s out' ->
  exists h h' answer answer', out = h ++ answer /\ out' = h' ++ answer' /\
    ((exists p p', asked g r x y p /\ asked g r' x y p' /\ (hops p <= hops p')%nat /\
        (exists dx dy n lines, canonical_numeral dx x /\ canonical_numeral dy y /\ canonical_numeral n (N.of_nat (hops p)) /\ listed p lines /\
           answer = (txt "Constrained shortest path from vertex " ++ dx ++ txt " to vertex " ++ dy ++ txt " with total cost of " ++ n ++ txt ".") :: lines) /\
        (exists dx dy n lines, canonical_numeral dx x /\ canonical_numeral dy y /\ canonical_numeral n (N.of_nat (hops p')) /\ listed p' lines /\
           answer' = (txt "Constrained shortest path from vertex " ++ dx ++ txt " to vertex " ++ dy ++ txt " with total cost of " ++ n ++ txt ".") :: lines)) \/
     csp_none x y answer').
Proof.
  intros nd order order' Q Q' s g opts opts' r r' a b x y out out' O O' HQ HQ' HL HG HG' Ha Hb Hm [n0 Hn] [n1 Hn'].
  destruct (C160_csp opts r HG) as (ls & _ & HC). destruct (HC nd order Q s g a b x y O HQ HL Ha Hb) as (HS & _).
  destruct (C160_csp opts' r' HG') as (ls' & _ & HC'). destruct (HC' nd order' Q' s g a b x y O' HQ' HL Ha Hb) as (HS' & _).
  destruct (HS n0 out (Hn n0 (le_n n0))) as (answer & Hout & HA). destruct (HS' n1 out' (Hn' n1 (le_n n1))) as (answer' & Hout' & HA').
  do 2 eexists. exists answer, answer'. split; [exact Hout|]. split; [exact Hout'|].
  destruct HA' as [(p' & dx' & dy' & n' & lp' & K1 & K2 & K3 & K4 & K5 & K6 & K7)|[_ HN]]; [left|right; exact HN].
  assert (Hw : asked g r x y p') by (split; [apply K1|apply Hm, K1]).
  destruct HA as [(p & dx & dy & n & lp & J1 & J2 & J3 & J4 & J5 & J6 & J7)|[HN _]]; [|exfalso; exact (HN p' Hw)].
  exists p, p'. split; [assumption|]. split; [assumption|]. split; [now apply J2|]. split.
  - exists dx, dy, n, lp. repeat (split; [assumption|]). exact J7.
  - exists dx', dy', n', lp'. repeat (split; [assumption|]). exact K7.
Qed.
Print Assumptions C133_more_demands.
Example C133_case : exists g, loads table (with_file csp_file) g /\ reachable (gE g) 1 2 /\ ~ reachable (gE g) 2 1 /\
  (forall p, obeys csp_example_request p -> obeys no_request p) /\
  snd (run_prog (gc_short_path table id_order (MinPriorityQueue sp_score) (txt "1") (txt "2") 100) (with_file csp_file)) =
  Done [txt "Shortest path from vertex 1 to vertex 2 with total cost of 1"; txt "1"; txt "2"] /\
  snd (run_prog (gc_csp table id_order (MinPriorityQueue sp_score) (txt "1") (txt "2") no_options 100) (with_file csp_file)) =
  Done [txt "Constraint that will be applied to search are: ";
        txt "Constrained shortest path from vertex 1 to vertex 2 with total cost of 1."; txt "1"; txt "2"].
Proof.
  exists (apply_commands [AddEdge 1 2; AddEdge 1 4; AddEdge 4 2; AddEdge 2 3; AddEdge 3 2] g_new). split; [reflexivity|].
  assert (HE : forall u v, gE (apply_commands [AddEdge 1 2; AddEdge 1 4; AddEdge 4 2; AddEdge 2 3; AddEdge 3 2] g_new) u v ->
    v <> 1).
  { intros u v H. apply (refines (built_by_apply [AddEdge 1 2; AddEdge 1 4; AddEdge 4 2; AddEdge 2 3; AddEdge 3 2])) in H. cbn in H.
    intros ->. intuition discriminate. }
  split; [exists [1; 2]; apply walk_cons with 2; [vm_compute; reflexivity|apply walk_one]|].
  split.
  { intros [l Hl]. apply walk_inv in Hl. destruct Hl as [[_ Hl]|(l' & u & _ & _ & Hl)]; [discriminate|]. exact (HE _ _ Hl eq_refl). }
  split; [intros; apply (proj1 (C160_usual _ no_request_usual)), meets_anything|]. split; vm_compute; reflexivity.
Qed.

(** ** C134: gc-cycle and gc-topo-sort *)
Lemma cycle_not_acyclic (E : rel) c : simple_cycle E c -> ~ acyclic E.
Proof.
  intros (_ & Hadj & x & y & [t Hx] & Hy & He) Ha. apply (Ha (c ++ [x])). exists x. split.
  - split; [exists (t ++ [x]); now rewrite Hx|]. split; [now exists c|].
    intros u v Huv. apply adjacent_snoc in Huv. destruct Huv as [Huv|[Hu ->]]; [now apply Hadj|].
    now rewrite (ends_with_fun Hu Hy).
  - rewrite app_length, Hx. cbn. lia.
Qed.
Lemma closed_simple_cycle (E : rel) l : closed_walk E l -> exists c, simple_cycle E c.
Proof.
  intros (x & Hl & Hn). apply walk_inv_cons in Hl. destruct Hl as [[-> _]|(l' & u & -> & He & Hw)]; [cbn in Hn; lia|].
  destruct (reachable_simple (ex_intro _ l' Hw)) as (c & (Hs & Hen & Hadj) & Hnd).
  exists c. split; [assumption|]. split; [assumption|]. now exists u, x.
Qed.
Lemma least_rotation (c : list N) : c <> [] -> exists d, rotation c d /\ least_first d.
Proof.
  intro H. assert (K : exists m, In m c /\ forall y, In y c -> m <= y).
  { induction c as [|a [|b c] IH]; [congruence| |].
    - exists a. split; [now left|]. intros y [<-|[]]. lia.
    - destruct IH as (m & H1 & H2); [discriminate|]. destruct (N.le_gt_cases a m) as [L|L].
      + exists a. split; [now left|]. intros y [<-|Hy]; [lia|]. specialize (H2 y Hy). lia.
      + exists m. split; [now right|]. intros y [<-|Hy]; [lia|]. now apply H2. }
  destruct K as (m & H1 & H2). apply in_split in H1. destruct H1 as (p & q & ->).
  exists ((m :: q) ++ p). split; [now exists p, (m :: q)|]. exists m. split; [now exists (q ++ p)|].
  intros y Hy. apply H2. rewrite in_app_iff in *. cbn in *. tauto.
Qed.
Lemma not_acyclic_cycle g : built g -> (forall v, ~ gE g v v) -> ~ acyclic (gE g) -> exists c, simple_cycle (gE g) c /\ least_first c.
Proof.
  intros Hb Hno Hc. destruct (C51_topological_sort g Hb) as (r & _ & _ & _ & Hr).
  { intro v. specialize (Hno v). unfold gE in Hno. destruct (contains_edge g (v, v)); congruence. }
  destruct r as [vs|]; [exfalso; apply Hc, Hr|]. destruct Hr as [l Hl]. apply closed_simple_cycle in Hl. destruct Hl as [c Hl].
  destruct (least_rotation c (simple_cycle_ne _ _ Hl)) as (d & Hd & Hf). exists d.
  split; [now apply (simple_cycle_rotation _ c)|assumption].
Qed.
Definition plain_cycle_request : cycle_request :=
  {| k_include := None; k_exclude := None; k_include_edges := None; k_exclude_edges := None;
    k_bounds := {| r_min_length := None; r_max_length := None; r_exact_length := None;
                   r_min_score := None; r_max_score := None; r_exact_score := None |} |}.
Lemma ask_girth_given : cycle_given ask_girth plain_cycle_request.
Proof. refine (conj I (conj I (conj I (conj I (conj I (conj I (conj I (conj I (conj I I))))))))). Qed.
Lemma girth_output nd order s g : hash_order order -> loads nd s g ->
  (prints (gc_cycle nd order ask_girth) s [txt "girth: Infinity"] /\ forall c, ~ cycle_seen g (head_option (order g)) c) \/
  (exists d n c, prints (gc_cycle nd order ask_girth) s [txt "girth: " ++ d] /\ canonical_numeral d n /\ cycle_seen g (head_option (order g)) c).
Proof.
  intros O HL. destruct (C87_cycle nd order s g O HL) as (seen & [_ Hseen] & H).
  destruct (H ask_girth _ ask_girth_given eq_refl) as (kept & _ & _ & _ & K).
  destruct (K Girth eq_refl) as (lines & P & [[-> ->]|(c & d & Hc & _ & Hd & ->)]).
  - left. split; [exact P|]. intros c Hc. now apply Hseen in Hc.
  - right. exists d, (N.of_nat (length c)), c. split; [exact P|]. split; [exact Hd|]. now apply Hseen.
Qed.

(** On graphs without self-loops: a reported cycle means there is no order, and the two agree
    when gc-cycle looks everywhere (C87). *)
Theorem C134_agree : forall nd order order' s g, hash_order order -> hash_order order' -> loads nd s g -> (forall v, ~ gE g v v) ->
  ((exists lines, prints (gc_cycle nd order ask_girth) s lines /\ lines <> [txt "girth: Infinity"]) ->
     prints (gc_topo_sort nd order') s [txt "Graph is not a DAG."]) /\
  ((forall v, gV g v -> exists u, gV g u /\ source (gE g) u /\ reachable (gE g) u v) \/
   (forall u v, gV g u -> gV g v -> reachable (gE g) u v) ->
     prints (gc_topo_sort nd order') s [txt "Graph is not a DAG."] ->
     exists d n, canonical_numeral d n /\ prints (gc_cycle nd order ask_girth) s [txt "girth: " ++ d]).
Proof.
  intros nd order order' s g O O' HL Hno. destruct (C88_topo_sort nd order' s g O' HL Hno) as [T1 T2].
  destruct (loaded nd order s g O HL) as (Bg & _).
  pose proof (girth_output nd order s g O HL) as HG. split.
  - intros (lines & HP & Hne). apply T2. destruct HG as [[P _]|(d & n & c & _ & _ & Hc)].
    + exfalso. apply Hne. exact (settles_fun _ _ _ _ HP P).
    + apply (cycle_not_acyclic (gE g) c), Hc.
  - intros Hall HP. destruct HG as [[_ Hn]|(d & n & c & P & Hd & _)]; [exfalso|now exists d, n].
    assert (Ha : ~ acyclic (gE g)).
    { intro Ha. destruct (T1 Ha) as (vs & t & _ & _ & _ & P). pose proof (settles_fun _ _ _ _ HP P) as E. discriminate. }
    apply (not_acyclic_cycle g Bg Hno) in Ha. destruct Ha as (c & Hc). apply (Hn c).
    now apply (C87_all_seen nd order s g O HL Hall).
Qed.
Print Assumptions C134_agree.

(** Neither implication holds on all graphs. *)
Theorem C134_agree_refuted :
  (exists nd s g, loads nd s g /\ forall order, hash_order order ->
     prints (gc_cycle nd order ask_girth) s [txt "girth: Infinity"] /\ prints (gc_topo_sort nd order) s [txt "Graph is not a DAG."]) /\
  (exists nd s g, loads nd s g /\ prints (gc_cycle nd id_order ask_girth) s [txt "girth: 1"] /\
     prints (gc_topo_sort nd id_order) s [txt "Topological order: 1 "]).
Proof.
  split.
  - set (cs := [AddVertex 9; AddEdge 1 2; AddEdge 2 1]).
    set (file := txt "AddVertex 9" ++ [10] ++ txt "AddEdge 1 2" ++ [10] ++ txt "AddEdge 2 1").
    assert (HL : loads table (with_file file) (apply_commands cs g_new)) by reflexivity.
    assert (HE : forall u v, gE (apply_commands cs g_new) u v -> (u = 1 /\ v = 2) \/ (u = 2 /\ v = 1)).
    { intros u v H. apply (refines (built_by_apply cs)) in H. cbn in H. tauto. }
    exists table, (with_file file), (apply_commands cs g_new). split; [exact HL|]. intros order O. split.
    + destruct (girth_output table order (with_file file) _ O HL) as [[P _]|(d & n & c & _ & _ & Hc)]; [exact P|exfalso].
      destruct Hc as ((_ & Hd2 & a & b & Ha & Hb & Hab) & _ & u & x & Vu & Hu & Hx & Hr).
      assert (S9 : source (gE (apply_commands cs g_new)) 9) by (intros z Hz; apply HE in Hz; destruct Hz as [[_ Hz]|[_ Hz]]; discriminate).
      assert (u = 9).
      { destruct Hu as [Hu|[Hu _]]; [|exfalso; now apply (Hu 9)].
        apply (refines (built_by_apply cs)) in Vu. cbn in Vu.
        assert (K : u = 9 \/ u = 1 \/ u = 2) by tauto. destruct K as [K|[-> | ->]]; [assumption| |].
        - exfalso. apply (Hu 2). reflexivity.
        - exfalso. apply (Hu 1). reflexivity. }
      subst u. destruct Hr as (l & Hl). apply walk_inv_cons in Hl. destruct Hl as [[_ <-]|(l' & z & _ & Hz & _)].
      2:{ apply HE in Hz. destruct Hz as [[Hz _]|[Hz _]]; discriminate. }
      apply in_split in Hx. destruct Hx as (p & q & ->). destruct q as [|z q].
      * assert (b = 9) by (apply (ends_with_fun Hb); now exists p). subst b. apply HE in Hab.
        destruct Hab as [[Hz _]|[Hz _]]; discriminate.
      * assert (Hz : gE (apply_commands cs g_new) 9 z) by (apply Hd2; now exists p, q). apply HE in Hz.
        destruct Hz as [[Hz _]|[Hz _]]; discriminate.
    + apply (C88_topo_sort table order (with_file file) _ O HL).
      * intros v Hv. apply HE in Hv. destruct Hv as [[-> Hv]|[-> Hv]]; discriminate.
      * intro Ha. apply (Ha [1; 2; 1]). exists 1. split; [|cbn; lia].
        apply walk_cons with 2; [reflexivity|]. apply walk_cons with 1; [reflexivity|]. apply walk_one.
  - set (cs := [AddEdge 1 2; AddEdge 2 2]).
    set (file := txt "AddEdge 1 2" ++ [10] ++ txt "AddEdge 2 2").
    assert (HL : loads table (with_file file) (apply_commands cs g_new)) by reflexivity.
    exists table, (with_file file), (apply_commands cs g_new). split; [exact HL|]. split.
    + pose proof (girth_output table id_order (with_file file) _ id_order_ok HL) as HG.
      assert (E : snd (run_prog (gc_cycle table id_order ask_girth 50) (with_file file)) = Done [txt "girth: 1"]) by (vm_compute; reflexivity).
      destruct HG as [[[n0 P] _]|(d & n & c & [n0 P] & _)].
      * specialize (P (n0 + 50)%nat ltac:(lia)). exfalso.
        assert (E' : forall k, snd (run_prog (gc_cycle table id_order ask_girth (50 + k)) (with_file file)) = Done [txt "girth: 1"])
          by (intro k; vm_compute; reflexivity).
        rewrite Nat.add_comm, E' in P. discriminate.
      * exists 50%nat. intros k Hk. replace k with (50 + (k - 50))%nat by lia. generalize (k - 50)%nat. intro j. vm_compute. reflexivity.
    + destruct (topo_settles (apply_commands cs g_new) [1] [(1, 2)]) as [[n0 Hn] _].
      { intros n Hn. vm_compute in Hn. destruct n as [|[|[|n]]]; [lia|lia|lia|]. reflexivity. }
      exists n0. intros n Hl. unfold gc_topo_sort. rewrite (run_graph _ _ _ _ _ HL). cbn [snd]. unfold id_order.
      rewrite (Hn n Hl). reflexivity.
Qed.
Print Assumptions C134_agree_refuted.

Lemma from_a_source g vs : built g -> enumerates vs (fun v => gV g v /\ ~ gE g v v) ->
  (forall u v, gE g u v -> ~ gE g v v -> before u v vs) ->
  forall w, gV g w -> ~ gE g w w -> exists u, gV g u /\ source (gE g) u /\ reachable (gE g) u w.
Proof.
  intros Hb [Hn Hin] Hbef.
  assert (K : forall p q, vs = p ++ q -> forall w, In w p -> exists u, gV g u /\ source (gE g) u /\ reachable (gE g) u w).
  { induction p as [|a p IH] using rev_ind; intros q E w Hw; [contradiction|].
    rewrite <- app_assoc in E. cbn in E.
    apply in_app_iff in Hw. destruct Hw as [Hw|[<-|[]]]; [exact (IH _ E w Hw)|].
    assert (Ha : gV g a /\ ~ gE g a a) by (apply Hin; rewrite E, in_app_iff; right; now left).
    destruct (inbound_edges g a) as [|[u a'] l] eqn:El.
    - exists a. split; [apply Ha|]. split; [|apply reachable_refl]. intros u Hu.
      apply (gE_inbound g (built_wf Hb)) in Hu. rewrite El in Hu. contradiction.
    - assert (a' = a).
      { assert (K : In (u, a') (inbound_edges g a)) by (rewrite El; now left).
        apply (inbound_In _ _ _ (built_wf Hb)) in K. destruct K as [K _]. exact K. }
      subst a'. assert (He : gE g u a) by (apply (gE_inbound g (built_wf Hb)); rewrite El; now left).
      pose proof (Hbef u a He (proj2 Ha)) as B. rewrite E in B, Hn. apply DagFacts.before_split in B; [|exact Hn].
      destruct (IH _ E u B) as (z & Z1 & Z2 & Z3). exists z. split; [assumption|]. split; [assumption|].
      eapply reachable_step; [exact Z3|assumption]. }
  intros w Vw Hw. apply (K vs [] (eq_sym (app_nil_r vs))). now apply Hin.
Qed.
Lemma no_numeral_infinity n : ~ canonical_numeral (txt "Infinity") n.
Proof. intros ([_ H] & _). apply Forall_inv in H. cbn in H. intuition discriminate. Qed.
(** Exactly what the two tools say together, on every graph. *)
Theorem C134_exact : forall nd order order' s g, hash_order order -> hash_order order' -> loads nd s g ->
  let finite := exists d n, canonical_numeral d n /\ prints (gc_cycle nd order ask_girth) s [txt "girth: " ++ d] in
  let infinite := prints (gc_cycle nd order ask_girth) s [txt "girth: Infinity"] in
  let ordered := exists t, prints (gc_topo_sort nd order') s [txt "Topological order: " ++ t] in
  let unordered := prints (gc_topo_sort nd order') s [txt "Graph is not a DAG."] in
  (finite /\ ~ infinite \/ infinite /\ ~ finite) /\ (ordered /\ ~ unordered \/ unordered /\ ~ ordered) /\
  (* a cycle is reported and an order printed *)
  (finite /\ ordered <-> exists v, only_a_terminal_loop (gE g) v /\
     ((exists u, u <> v /\ gE g u v) \/ forall w, gV g w -> w = v)) /\
  (* no cycle is reported and an order printed *)
  (infinite /\ ordered <-> acyclic (gE g) \/ exists v, only_a_terminal_loop (gE g) v /\
     (forall u, gE g u v -> u = v) /\ exists w, gV g w /\ w <> v) /\
  (* no cycle is reported and no order printed *)
  (infinite /\ unordered <-> ~ acyclic (gE g) /\ (forall v, ~ only_a_terminal_loop (gE g) v) /\
     forall c, ~ cycle_seen g (head_option (order g)) c).
Proof.
  intros nd order order' s g O O' HL finite infinite ordered unordered.
  destruct (loaded nd order s g O HL) as (Bg & Bo & HV & HE).
  pose proof (girth_output nd order s g O HL) as HG.
  destruct (topo_run nd order' s g O' HL) as (r & HP & Hr & Hvs).
  assert (D1 : finite /\ ~ infinite /\ (exists c, cycle_seen g (head_option (order g)) c) \/
               infinite /\ ~ finite /\ forall c, ~ cycle_seen g (head_option (order g)) c).
  { assert (X : finite -> infinite -> False).
    { intros (d & n & Hd & P) Q. pose proof (settles_fun _ _ _ _ P Q) as E. injection E as E. change (d = txt "Infinity") in E.
      subst d. now apply no_numeral_infinity in Hd. }
    destruct HG as [[P Hn]|(d & n & c & P & Hd & Hc)].
    - right. split; [exact P|]. split; [|exact Hn]. intro F. exact (X F P).
    - left. assert (F : finite) by now exists d, n. split; [exact F|]. split; [exact (X F)|]. now exists c. }
  assert (D2 : ordered /\ ~ unordered /\ r <> None \/ unordered /\ ~ ordered /\ r = None).
  { destruct r as [vs|]; cbn [topo_lines] in HP.
    - left. split; [eexists; exact HP|]. split; [|discriminate]. intro Q. pose proof (settles_fun _ _ _ _ HP Q) as E. discriminate.
    - right. split; [exact HP|]. split; [|reflexivity]. intros (t & Q). pose proof (settles_fun _ _ _ _ HP Q) as E. discriminate. }
  assert (D3 : acyclic (gE g) -> forall c, ~ cycle_seen g (head_option (order g)) c).
  { intros Ha c (Hc & _). exact (cycle_not_acyclic _ _ Hc Ha). }
  assert (D4 : forall v, only_a_terminal_loop (gE g) v ->
    ((exists c, cycle_seen g (head_option (order g)) c) <-> (exists u, u <> v /\ gE g u v) \/ forall w, gV g w -> w = v)).
  { intros v (V1 & V2 & V3).
    destruct (gE_vertices g (built_wf Bg) v v V1) as [Vv _]. apply vertices_In in Vv.
    assert (Hr' : r <> None) by (apply Hr; right; exists v; now split).
    destruct r as [vs|]; [|congruence]. destruct (Hvs vs eq_refl) as [Hen Hbef].
    assert (Hself : forall x, gE g x x -> x = v).
    { intros x Hx. apply (V3 [x; x]); [|now left]. exists x. split; [|cbn; lia]. split; [now exists [x]|]. split; [now exists [x]|].
      intros a b (p & q & E). destruct p as [|y [|z p]]; [|discriminate|].
      - injection E as -> ->. exact Hx.
      - destruct p; discriminate. }
    split.
    - intros (c & Hc & _ & u & x & Vu & Hu & Hx & Hux).
      assert (x = v).
      { destruct Hc as (_ & Hadj & a & b & [ta Ha] & [tb Hb'] & Hba). apply (V3 (c ++ [a])).
        - exists a. split; [|rewrite app_length, Ha; cbn; lia].
          split; [exists (ta ++ [a]); now rewrite Ha|]. split; [now exists c|].
          intros y z Hyz. apply adjacent_snoc in Hyz. destruct Hyz as [Hyz|[Hy ->]]; [now apply Hadj|].
          assert (Hbe : ends_with b c) by now exists tb. now rewrite (ends_with_fun Hy Hbe).
        - rewrite in_app_iff. now left. }
      subst x. destruct (N.eq_dec u v) as [->|Huv].
      + destruct Hu as [Hu|[Hu Hh]]; [exfalso; exact (Hu v V1)|]. right. intros w Vw.
        destruct (N.eq_dec w v) as [|Hne]; [assumption|exfalso].
        destruct (from_a_source g vs Bg Hen Hbef w Vw) as (z & Z1 & Z2 & _); [|exact (Hu z Z1 Z2)].
        intro Hw. exact (Hne (Hself w Hw)).
      + left. destruct Hux as [l Hl].
        clear - Hl Huv. revert u Huv Hl. induction l as [|a l IH]; intros u Huv Hl; [destruct Hl as ([t Ht] & _); discriminate|].
        assert (a = u) by (destruct Hl as ([t Ht] & _); now injection Ht). subst a.
        apply walk_inv_cons in Hl. destruct Hl as [[_ E]|(l' & z & E & Hz & Hw)]; [now destruct Huv|].
        injection E as <-. destruct (N.eq_dec z v) as [->|Hzv]; [now exists u|]. exact (IH z Hzv Hw).
    - assert (Hc1 : simple_cycle (gE g) [v] /\ least_first [v]).
      { split.
        - split; [constructor; [intros []|constructor]|]. split.
          + intros a b (p & q & E). destruct p as [|y [|z p]]; discriminate.
          + exists v, v. split; [now exists []|]. split; [now exists []|exact V1].
        - exists v. split; [now exists []|]. intros y [<-|[]]. lia. }
      intros [(u & Hne & Hu)|Hall].
      + assert (Vu : gV g u) by (apply vertices_In; exact (proj1 (gE_vertices g (built_wf Bg) u v Hu))).
        destruct (from_a_source g vs Bg Hen Hbef u Vu) as (z & Z1 & Z2 & Z3); [intro Hw; exact (Hne (Hself u Hw))|].
        exists [v]. split; [apply Hc1|]. split; [apply Hc1|]. exists z, v. split; [assumption|]. split; [now left|]. split; [now left|].
        eapply reachable_step; [exact Z3|assumption].
      + exists [v]. split; [apply Hc1|]. split; [apply Hc1|]. exists v, v. split; [assumption|]. split; [|split; [now left|apply reachable_refl]].
        right. split; [intros w Vw Hs; rewrite (Hall w Vw) in Hs; exact (Hs v V1)|].
        pose proof (proj2 (HV v) Vv) as Vo. apply vertices_In in Vo. unfold head_option.
        destruct (vertices (order g)) as [|h l] eqn:Ev; [contradiction|]. cbn [hd_error]. f_equal. apply Hall, HV, vertices_In. rewrite Ev. now left. }
  assert (D5 : forall v, only_a_terminal_loop (gE g) v -> ((exists u, u <> v /\ gE g u v) \/ forall w, gV g w -> w = v) ->
    (forall u, gE g u v -> u = v) -> (exists w, gV g w /\ w <> v) -> False).
  { intros v _ [(u & Hne & Hu)|Hall] H1 (w & Vw & Hw); [exact (Hne (H1 u Hu))|exact (Hw (Hall w Vw))]. }
  assert (D6 : forall v, ((exists u, u <> v /\ gE g u v) \/ forall w, gV g w -> w = v) \/
     ((forall u, gE g u v -> u = v) /\ exists w, gV g w /\ w <> v)).
  { intro v.
    assert (X : forall (l : list N), (exists u, In u l /\ u <> v) \/ forall u, In u l -> u = v).
    { induction l as [|a l IH]; [right; contradiction|]. destruct (N.eq_dec a v) as [->|Ha]; [|left; exists a; split; [now left|assumption]].
      destruct IH as [(u & Hu & Hne)|IH]; [left; exists u; split; [now right|assumption]|right]. intros u [<-|Hu]; [reflexivity|now apply IH]. }
    destruct (X (map fst (inbound_edges g v))) as [(u & Hu & Hne)|Hin].
    - left. left. exists u. split; [assumption|]. apply in_map_iff in Hu. destruct Hu as ([a b] & <- & Hab).
      pose proof Hab as Hab'. apply (inbound_In _ _ _ (built_wf Bg)) in Hab'. destruct Hab' as [Hb' _]. cbn in Hb'. subst b.
      now apply (gE_inbound g (built_wf Bg)).
    - destruct (X (vertices g)) as [(w & Hw & Hne)|Hall].
      + right. split; [|exists w; split; [now apply vertices_In|assumption]]. intros u Hu. apply Hin.
        apply (gE_inbound g (built_wf Bg)) in Hu. now apply (in_map fst) in Hu.
      + left. right. intros w Vw. apply Hall. now apply vertices_In. }
  split; [tauto|]. split; [tauto|]. split; [|split].
  - split.
    + intros [F R]. destruct D1 as [(_ & _ & c & Hc)|(_ & X & _)]; [|tauto].
      assert (Rn : r <> None) by tauto. apply Hr in Rn. destruct Rn as [Ha|(v & Hv)]; [exfalso; exact (D3 Ha c Hc)|].
      exists v. split; [assumption|]. apply (D4 v Hv). now exists c.
    + intros (v & Hv & Hx). split.
      * apply (D4 v Hv) in Hx. destruct Hx as [c Hc]. destruct D1 as [D1|(_ & _ & X)]; [tauto|exfalso; exact (X c Hc)].
      * assert (Rn : r <> None) by (apply Hr; right; now exists v). tauto.
  - split.
    + intros [F R]. assert (Rn : r <> None) by tauto. apply Hr in Rn. destruct Rn as [Ha|(v & Hv)]; [now left|right].
      exists v. split; [assumption|]. destruct (D6 v) as [X|X]; [|exact X]. exfalso. apply (D4 v Hv) in X. destruct X as [c Hc].
      destruct D1 as [(_ & X & _)|(_ & _ & X)]; [tauto|exact (X c Hc)].
    + intros H. assert (Rn : r <> None).
      { apply Hr. destruct H as [Ha|(v & Hv & _)]; [now left|right; now exists v]. }
      split; [|tauto]. destruct D1 as [(_ & _ & c & Hc)|D1]; [exfalso|tauto].
      destruct H as [Ha|(v & Hv & H1 & H2)]; [exact (D3 Ha c Hc)|].
      apply (D5 v Hv); [|assumption|assumption]. apply (D4 v Hv). now exists c.
  - split.
    + intros [F R]. assert (Rn : r = None) by tauto. split; [|split].
      * intro Ha. apply (proj2 Hr); [now left|assumption].
      * intros v Hv. apply (proj2 Hr); [right; now exists v|assumption].
      * destruct D1 as [(_ & X & _)|(_ & _ & X)]; [tauto|exact X].
    + intros (H1 & H2 & H3). split.
      * destruct D1 as [(_ & _ & c & Hc)|D1]; [exfalso; exact (H3 c Hc)|tauto].
      * assert (Rn : ~ r <> None) by (intro Rn; apply Hr in Rn; destruct Rn as [Ha|(v & Hv)]; [exact (H1 Ha)|exact (H2 v Hv)]). tauto.
Qed.
Print Assumptions C134_exact.
(** The unexpected combinations occur. *)
Example C134_exact_case :
  (exists g, loads table (with_file (txt "AddEdge 1 2" ++ [10] ++ txt "AddEdge 2 2")) g /\ only_a_terminal_loop (gE g) 2 /\ gE g 1 2) /\
  (exists g, loads table (with_file (txt "AddVertex 1" ++ [10] ++ txt "AddEdge 2 2")) g /\ only_a_terminal_loop (gE g) 2 /\ gV g 1 /\
     forall u, gE g u 2 -> u = 2).
Proof.
  split.
  - exists (apply_commands [AddEdge 1 2; AddEdge 2 2] g_new). split; [reflexivity|].
    assert (HE : forall u v, gE (apply_commands [AddEdge 1 2; AddEdge 2 2] g_new) u v -> v = 2 /\ (u = 1 \/ u = 2)).
    { intros u v H. apply (refines (built_by_apply [AddEdge 1 2; AddEdge 2 2])) in H. cbn in H. tauto. }
    split; [|vm_compute; reflexivity]. split; [vm_compute; reflexivity|]. split; [intros x H; apply HE in H; tauto|].
    intros l (a & Hl & Hlen).
    assert (K : a = 2).
    { apply walk_inv in Hl. destruct Hl as [[-> _]|(l' & u & _ & _ & H)]; [cbn in Hlen; lia|]. apply HE in H. tauto. }
    subst a. clear Hlen. revert Hl.
    assert (X : forall l b, walk_from_to (gE (apply_commands [AddEdge 1 2; AddEdge 2 2] g_new)) 2 b l -> forall x, In x l -> x = 2).
    { clear l. induction l as [|y l IH]; intros b Hl x Hx; [contradiction|].
      assert (y = 2) by (destruct Hl as ([t Ht] & _); now injection Ht). subst y.
      apply walk_inv_cons in Hl. destruct Hl as [[E _]|(l' & z & E & Hz & Hw)].
      - injection E as ->. destruct Hx as [<-|[]]. reflexivity.
      - injection E as <-. destruct Hx as [<-|Hx]; [reflexivity|]. apply HE in Hz. destruct Hz as [-> _]. exact (IH b Hw x Hx). }
    intro Hl. exact (X l 2 Hl).
  - exists (apply_commands [AddVertex 1; AddEdge 2 2] g_new). split; [reflexivity|].
    assert (HE : forall u v, gE (apply_commands [AddVertex 1; AddEdge 2 2] g_new) u v -> v = 2 /\ u = 2).
    { intros u v H. apply (refines (built_by_apply [AddVertex 1; AddEdge 2 2])) in H. cbn in H. tauto. }
    split; [|split; [vm_compute; reflexivity|intros u H; apply HE in H; tauto]].
    split; [vm_compute; reflexivity|]. split; [intros x H; apply HE in H; tauto|].
    intros l (a & Hl & Hlen). destruct Hl as (Hs & He & Hadj). intros x Hx.
    apply in_split in Hx. destruct Hx as (p & q & ->). destruct q as [|y q].
    + destruct p as [|z p] using rev_ind; [cbn in Hlen; lia|]. assert (H : gE (apply_commands [AddVertex 1; AddEdge 2 2] g_new) z x).
      { apply Hadj. exists p, []. now rewrite <- app_assoc. }
      apply HE in H. tauto.
    + assert (H : gE (apply_commands [AddVertex 1; AddEdge 2 2] g_new) x y) by (apply Hadj; now exists p, q).
      apply HE in H. tauto.
Qed.
Example C134_case : exists g, loads table (with_file (txt "AddEdge 9 1" ++ [10] ++ txt "AddEdge 1 2" ++ [10] ++ txt "AddEdge 2 1")) g /\
  (forall v, ~ gE g v v) /\
  (forall v, gV g v -> exists u, gV g u /\ source (gE g) u /\ reachable (gE g) u v) /\
  snd (run_prog (gc_cycle table id_order ask_girth 50) (with_file (txt "AddEdge 9 1" ++ [10] ++ txt "AddEdge 1 2" ++ [10] ++ txt "AddEdge 2 1"))) =
    Done [txt "girth: 2"] /\
  snd (run_prog (gc_topo_sort table id_order 50) (with_file (txt "AddEdge 9 1" ++ [10] ++ txt "AddEdge 1 2" ++ [10] ++ txt "AddEdge 2 1"))) =
    Done [txt "Graph is not a DAG."].
Proof.
  set (cs := [AddEdge 9 1; AddEdge 1 2; AddEdge 2 1]).
  assert (HE : forall u v, gE (apply_commands cs g_new) u v -> (u = 9 /\ v = 1) \/ (u = 1 /\ v = 2) \/ (u = 2 /\ v = 1)).
  { intros u v H. apply (refines (built_by_apply cs)) in H. cbn in H. tauto. }
  exists (apply_commands cs g_new). split; [reflexivity|]. split.
  { intros v Hv. apply HE in Hv. destruct Hv as [[-> Hv]|[[-> Hv]|[-> Hv]]]; discriminate. }
  split; [|split; vm_compute; reflexivity].
  intros v Hv. exists 9. split; [reflexivity|].
  split; [intros z Hz; apply HE in Hz; destruct Hz as [[_ Hz]|[[_ Hz]|[_ Hz]]]; discriminate|].
  apply (refines (built_by_apply cs)) in Hv. cbn in Hv.
  assert (R1 : reachable (gE (apply_commands cs g_new)) 9 1) by (eapply reachable_step; [apply reachable_refl|reflexivity]).
  assert (K : v = 9 \/ v = 1 \/ v = 2) by tauto. destruct K as [-> | [-> | ->]]; [apply reachable_refl|exact R1|].
  eapply reachable_step; [exact R1|reflexivity].
Qed.

(** ** C135: Hamiltonian cycles and Hamiltonian paths *)
Theorem C135_agree : forall g, built g -> exists out r, settles (iter_hamiltonian_paths g) out /\ settles (hamiltonian g) r /\
  (r <> None <-> exists p a b, In p out /\ starts_with a p /\ ends_with b p /\ gE g b a) /\
  (forall c d, r = Some c -> rotation c d -> In d out) /\
  (r <> None -> settles (is_hamiltonian g) true).
Proof.
  intros g Hb. destruct (C63_hamiltonian_paths g Hb) as (out & H1 & [_ H2] & _ & b & H3 & H4).
  destruct (C68_hamiltonian_cycle g Hb) as (r & K1 & K2 & K3).
  assert (Hrot : forall c d, r = Some c -> rotation c d -> In d out).
  { intros c d -> Hr. apply H2. destruct (K2 c eq_refl) as [Hc Hv]. apply (simple_cycle_rotation _ _ _ Hc) in Hr as Hd.
    pose proof Hd as (Hn & Hadj & _). split; [split; [exact (simple_cycle_ne _ _ Hd)|assumption]|]. split; [assumption|].
    intro v. rewrite <- Hv. apply rotation_perm in Hr. split; apply Permutation_in; [now apply Permutation_sym|assumption]. }
  exists out, r. split; [assumption|]. split; [assumption|]. split; [|split; [exact Hrot|]].
  - split.
    + destruct r as [c|]; [intros _|congruence]. destruct (K2 c eq_refl) as [(_ & _ & x & y & Hx & Hy & He) _].
      exists c, x, y. split; [apply (Hrot c c eq_refl), rotation_refl|]. split; [assumption|]. now split.
    + intros (p & x & y & Hp & Hx & Hy & He) ->. apply (K3 eq_refl p). apply H2 in Hp. destruct Hp as ([_ Hadj] & Hn & Hv).
      split; [|exact Hv]. split; [assumption|]. split; [assumption|]. now exists x, y.
  - destruct r as [c|]; [intros _|congruence]. assert (b = true); [|subst; assumption]. apply H4. right. exists c. apply H2.
    apply (Hrot c c eq_refl), rotation_refl.
Qed.
Print Assumptions C135_agree.
Example C135_case : built (apply_commands [AddEdge 1 2; AddEdge 2 3; AddEdge 3 1; AddEdge 2 1] g_new) /\
  hamiltonian (apply_commands [AddEdge 1 2; AddEdge 2 3; AddEdge 3 1; AddEdge 2 1] g_new) 50 = Done (Some [1; 2; 3]).
Proof. split; [eexists; apply built_by_apply|vm_compute; reflexivity]. Qed.
