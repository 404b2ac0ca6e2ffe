(** * gc-random honours its options (C121) *)
From Coq Require Import String.
From Coq Require Import List NArith Bool Arith Lia Permutation.
From Verif Require Import Spec Base Graph GraphSpec GraphFacts Text Format FormatSpec TextFacts FormatFacts
  Store StoreSpec StoreFacts CrashFacts PropFormat PropStore Cli CliSpec CliFacts RandomFacts PropCli PropDraws Query QueryFacts RandomMain.
Import ListNotations.
Open Scope N_scope.

(** ** What is expected *)
(** The number of edges asked for, with [n] vertices: the number given, if it is one, and otherwise three times
    as many edges as vertices. *)
Definition wanted (a : random_args) (n m : N) : Prop :=
  (exists x, r_edges a = Some x /\ id_argument x m) \/
  ((forall x k, r_edges a = Some x -> ~ id_argument x k) /\ m = (3 * n) mod 2 ^ 64).
(** Any two vertices are joined by edges, in whatever direction: no part of the vertices is cut off. *)
Definition weakly_connected (V : N -> Prop) (E : rel) : Prop :=
  forall P : N -> Prop, (forall x y, E x y -> (P x <-> P y)) -> forall x y, V x -> V y -> P x -> P y.

Lemma usize_arg s : match parse_usize s with Some n => id_argument s (N.of_nat n) | None => forall n, ~ id_argument s n end.
Proof.
  unfold parse_usize. destruct (parse_u64 s) as [n|] eqn:E; cbn [option_map].
  - rewrite N2Nat.id. now apply parse_id_spec.
  - intros n H. apply parse_id_spec in H. congruence.
Qed.
Lemma id_argument_fun s n m : id_argument s n -> id_argument s m -> n = m.
Proof. intros H1 H2. apply parse_id_spec in H1, H2. congruence. Qed.

Lemma counts_spec checked a : match random_counts checked a with
  | Done (vc, ec) => exists n m, id_argument (r_vertices a) n /\ (checked = false \/ 3 * n < 2 ^ 64) /\ wanted a n m /\
                       vc = N.to_nat n /\ ec = N.to_nat m
  | _ => (forall n, ~ id_argument (r_vertices a) n) \/
         exists n, id_argument (r_vertices a) n /\ checked = true /\ 2 ^ 64 <= 3 * n
  end.
Proof.
  unfold random_counts. pose proof (usize_arg (r_vertices a)) as Hv. destruct (parse_usize (r_vertices a)) as [vc|]; [|now left].
  unfold triple. unfold u64_limit. cbn zeta.
  assert (Hw : forall d, N.of_nat d = (3 * N.of_nat vc) mod 2 ^ 64 -> exists m, wanted a (N.of_nat vc) m /\
    match r_edges a with Some x => match parse_usize x with Some ec => ec | None => d end | None => d end = N.to_nat m).
  { intros d Hd. unfold wanted. destruct (r_edges a) as [x|].
    - pose proof (usize_arg x) as Hx. destruct (parse_usize x) as [ec|].
      + exists (N.of_nat ec). split; [left; eauto|now rewrite Nat2N.id].
      + exists (N.of_nat d). split; [|now rewrite Nat2N.id]. right. split; [|assumption]. intros x' k [= <-]. apply Hx.
    - exists (N.of_nat d). split; [|now rewrite Nat2N.id]. right. split; [discriminate|assumption]. }
  destruct (N.ltb_spec (N.of_nat vc * 3) (2 ^ 64)) as [Hlt|Hge].
  - cbn [obind]. destruct (Hw (N.to_nat (N.of_nat vc * 3))) as (m & Hm & ->).
    { rewrite N2Nat.id, N.mod_small by lia. lia. }
    exists (N.of_nat vc), m. rewrite Nat2N.id. repeat split; try assumption. right. lia.
  - destruct checked; cbn [obind].
    + right. exists (N.of_nat vc). split; [assumption|]. split; [reflexivity|lia].
    + destruct (Hw (N.to_nat ((N.of_nat vc * 3) mod 2 ^ 64))) as (m & Hm & ->).
      { rewrite N2Nat.id, N.mul_comm. reflexivity. }
      exists (N.of_nat vc), m. rewrite Nat2N.id. repeat split; try assumption. now left.
Qed.
Lemma wanted_fun a n m m' : wanted a n m -> wanted a n m' -> m = m'.
Proof.
  intros [(x & E & H)|[H E]] [(x' & E' & H')|[H' E']].
  - rewrite E in E'. injection E' as <-. exact (id_argument_fun _ _ _ H H').
  - exfalso. exact (H' _ _ E H).
  - exfalso. exact (H _ _ E' H').
  - congruence.
Qed.

Lemma few_vertices vc ec rng fuel g : (vc <= 1)%nat -> creates_random_dag fuel vc ec rng = Done g -> g = g_new /\ ec = O.
Proof.
  intros Hv H. destruct ec as [|ec].
  - destruct fuel; cbn in H; injection H as <-; auto.
  - rewrite (C74_never_returns_refuted rng vc (S ec) Hv) in H by lia. discriminate.
Qed.

(** The whole program.  The random numbers are any stream of u64. *)
Theorem C121_random_program : forall nd checked chunks order rng a answer fuel s s' r,
  digit_table nd -> buffering chunks -> hash_order order -> (forall k, rng k < 2 ^ 64) -> openable (fs_lock s) = true ->
  run_prog (gc_random_main checked chunks order rng a answer fuel) s = (s', r) ->
  (* the number of vertices has to be a number *)
  ((forall n, ~ id_argument (r_vertices a) n) -> s' = s /\ r = Done Failure) /\
  (forall n, id_argument (r_vertices a) n ->
     (* and not too large, in a build with overflow checks, whatever the number of edges *)
     (checked = true -> 2 ^ 64 <= 3 * n -> s' = s /\ r = Done Failure) /\
     (checked = false \/ 3 * n < 2 ^ 64 -> forall m, wanted a n m ->
        let vc := N.to_nat n in let ec := N.to_nat m in
        (r = OutOfFuel -> s' = s) /\
        (r <> OutOfFuel -> r_force a = false -> confirmed answer = false -> s' = s /\ r = Done Success) /\
        (r <> OutOfFuel -> r_force a = true \/ confirmed answer = true ->
           fs_lock s' = Absent /\
           (r = Done Success <-> exists e, fs_graph s = GraphDir e) /\
           (r = Done Failure -> fs_graph s' = fs_graph s) /\
           (r = Done Success -> exists g t, loads nd s' g /\
              (* the edges are those of the first t random numbers *)
              (forall x y, contains_edge g (x, y) = true <-> exists k, (k < t)%nat /\ draws vc rng k x y) /\
              (forall v, contains_vertex g v = true <-> exists w, contains_edge g (v, w) = true \/ contains_edge g (w, v) = true) /\
              (* and t is the least multiple of the number of vertices less one that gives enough edges *)
              exists q, t = (q * (vc - 1))%nat /\ (ec = O \/ 2 <= vc)%nat /\
                least_nat (fun q => enough vc ec rng (q * (vc - 1))) q)))).
Proof.
  intros nd checked chunks order rng a answer fuel s s' r T B O Hr Hl E. unfold gc_random_main in E.
  pose proof (counts_spec checked a) as HC. destruct (random_counts checked a) as [[vc ec]| |].
  2, 3: cbn [run_prog] in E; injection E as <- <-; split; [auto|]; intros n Hn; split; [auto|]; intros Hno;
      exfalso; destruct HC as [HC|(n' & Hn' & -> & Hge)]; [exact (HC _ Hn)|];
      rewrite (id_argument_fun _ _ _ Hn Hn') in Hno; destruct Hno as [Hno|Hno]; [discriminate|lia].
  destruct HC as (n & m & Hn & Hc & Hm & -> & ->). split; [intro Hno; exfalso; exact (Hno _ Hn)|].
  intros n' Hn'. rewrite <- (id_argument_fun _ _ _ Hn Hn') in *. clear n' Hn'.
  split; [intros Hch Hge; exfalso; destruct Hc as [Hc|Hc]; [congruence|lia]|].
  intros _ m' Hm'. rewrite <- (wanted_fun _ _ _ _ Hm Hm') in *. clear m' Hm'. cbn zeta.
  set (vc := N.to_nat n) in *. set (ec := N.to_nat m) in *.
  destruct (creates_random_dag fuel vc ec rng) as [g| |] eqn:Eg.
  2:{ exfalso. unfold creates_random_dag in Eg. revert Eg. clear. generalize (N.of_nat (Nat.div vc 10)) as layer, (g_new, O) as st.
      induction fuel as [|f IH]; intros layer st; cbn [dag_loop]; destruct (Nat.ltb _ ec); try discriminate. apply IH. }
  2:{ cbn [run_prog] in E. injection E as <- <-. split; [auto|]. split; intro H; now contradiction H. }
  rewrite run_bind in E. destruct (run_prog (gc_random chunks (order g) (r_force a) answer) s) as [s1 r1] eqn:E1.
  cbn [fst snd run_prog] in E. injection E as <- <-.
  destruct (C73_random_dag rng vc ec fuel g Eg) as (Bg & _).
  destruct (C75_vertex_count rng vc ec fuel g Eg) as (_ & Hseen).
  apply built_wf in Bg as W. pose proof (shown_perm W (O g)) as So.
  assert (Bo : built (order g)).
  { destruct Bg as [cs Hb]. exists cs. eapply built_rehash; [exact Hb|apply O]. }
  assert (Un : n < 2 ^ 64) by exact (id_argument_u64 _ _ Hn).
  assert (Uo : u64_graph (order g)).
  { intros v Hv. apply (proj1 So) in Hv. unfold u64. destruct (Hseen v Hv) as [H|[k ->]].
    - unfold vc in H. rewrite N2Nat.id in H. lia.
    - apply Hr. }
  destruct (C83_random_stored nd chunks (order g) (r_force a) answer s s1 r1 T B Bo Uo Hl E1) as [Hno Hyes].
  split; [discriminate|]. split.
  { intros _ Hf Ha. destruct (Hno Hf Ha) as [-> ->]. auto. }
  intros _ Hf. destruct (Hyes Hf) as (H1 & H2 & H3 & H4). split; [assumption|]. split; [|split].
  - rewrite <- H2. split; [intros [= ->]; reflexivity|intros ->; reflexivity].
  - intros [= ->]. now apply H3.
  - intros [= ->]. destruct (H4 eq_refl) as (g' & Hg' & Sg'). exists g'.
    assert (Sg : a_same (shown g') (shown g)) by (eapply a_same_trans; eassumption). destruct Sg as [SV SE]. cbn [aV aE shown] in SV, SE.
    destruct (le_lt_dec vc 1) as [Hv|Hv].
    + destruct (few_vertices vc ec rng fuel g Hv Eg) as [-> Ez]. exists 0%nat. split; [assumption|].
      split; [|split].
      * intros x y. rewrite SE. cbn. split; [discriminate|intros (k & Hk & _); lia].
      * intro v. rewrite SV. split; [discriminate|]. intros (w & [H|H]); apply SE in H; discriminate.
      * exists 0%nat. split; [reflexivity|]. split; [now left|]. split; [|lia]. rewrite Ez. exists [].
        split; [constructor|]. split; [reflexivity|intros x y []].
    + unfold creates_random_dag in Eg. destruct (loop_value vc rng ltac:(lia) ec fuel g Eg) as (q & Q1 & Q2 & Q3).
      assert (Hq : least_nat (fun q => enough vc ec rng (q * (vc - 1))) q).
      { split; [now apply (enough_edges vc rng ltac:(lia))|]. intros q' Hq'. rewrite (enough_edges vc rng ltac:(lia)).
        specialize (Q1 q' Hq'). lia. }
      destruct (C118_generated_graph rng vc ec ltac:(lia) q Hq) as (g2 & [f Hf2] & Ge & Gv).
      assert (g2 = g) as ->.
      { specialize (Hf2 (Nat.max f q) (Nat.le_max_l _ _)). unfold creates_random_dag in Hf2.
        pose proof (loop_rounds vc rng ltac:(lia) ec (Nat.max f q) q Q1 Q2 (Nat.le_max_r _ _)) as Hl2. unfold start in Hl2.
        rewrite Hl2 in Hf2. injection Hf2 as <-. now rewrite Q3. }
      exists (q * (vc - 1))%nat. split; [assumption|]. split; [|split].
      * intros x y. rewrite SE. apply Ge.
      * intro v. rewrite SV, Gv. split; intros (w & H); exists w; rewrite !SE in *; exact H.
      * exists q. split; [reflexivity|]. split; [right; lia|assumption].
Qed.
Print Assumptions C121_random_program.


(** It ends exactly when enough edges can be drawn; a graph of fewer than two vertices has none. *)
Theorem C121_random_ends_iff : forall checked chunks order rng a answer s n m,
  id_argument (r_vertices a) n -> (checked = false \/ 3 * n < 2 ^ 64) -> wanted a n m ->
  ((exists fuel, snd (run_prog (gc_random_main checked chunks order rng a answer fuel) s) <> OutOfFuel) <->
   m = 0 \/ (2 <= n /\ exists k, enough (N.to_nat n) (N.to_nat m) rng k)).
Proof.
  intros checked chunks order rng a answer s n m Hn Hc Hm.
  assert (HC : random_counts checked a = Done (N.to_nat n, N.to_nat m)).
  { pose proof (counts_spec checked a) as H. destruct (random_counts checked a) as [[vc ec]| |].
    - destruct H as (n' & m' & Hn' & _ & Hm' & -> & ->). rewrite <- (id_argument_fun _ _ _ Hn Hn') in *.
      now rewrite <- (wanted_fun _ _ _ _ Hm Hm').
    - exfalso. destruct H as [H|(n' & Hn' & -> & Hge)]; [exact (H _ Hn)|]. rewrite <- (id_argument_fun _ _ _ Hn Hn') in Hge.
      destruct Hc; [discriminate|lia].
    - exfalso. destruct H as [H|(n' & Hn' & -> & Hge)]; [exact (H _ Hn)|]. rewrite <- (id_argument_fun _ _ _ Hn Hn') in Hge.
      destruct Hc; [discriminate|lia]. }
  assert (HF : forall fuel, snd (run_prog (gc_random_main checked chunks order rng a answer fuel) s) <> OutOfFuel <->
    creates_random_dag fuel (N.to_nat n) (N.to_nat m) rng <> OutOfFuel).
  { intro fuel. unfold gc_random_main. rewrite HC. destruct (creates_random_dag fuel _ _ rng); cbn [run_prog snd].
    - rewrite run_bind. cbn [run_prog snd]. split; discriminate.
    - split; discriminate.
    - split; intro H; now contradiction H. }
  assert (HD : forall fuel, creates_random_dag fuel (N.to_nat n) (N.to_nat m) rng <> Panic).
  { intro fuel. unfold creates_random_dag. clear. generalize (N.of_nat (Nat.div (N.to_nat n) 10)) as layer, (g_new, O) as st.
    induction fuel as [|f IH]; intros layer st; cbn [dag_loop]; destruct (Nat.ltb _ _); try discriminate. apply IH. }
  split.
  - intros [fuel H]. apply HF in H. destruct (creates_random_dag fuel (N.to_nat n) (N.to_nat m) rng) as [g| |] eqn:E.
    2: now destruct (HD fuel). 2: now contradiction H.
    destruct (le_lt_dec (N.to_nat n) 1) as [Hle|Hgt].
    + left. apply few_vertices in E; [|assumption]. destruct E as [_ E]. lia.
    + right. split; [lia|]. unfold creates_random_dag in E. destruct (loop_value (N.to_nat n) rng ltac:(lia) _ _ g E) as (q & _ & Q & _).
      exists (q * (N.to_nat n - 1))%nat. apply (enough_edges (N.to_nat n) rng ltac:(lia)). exact Q.
  - intros [->|[H2 Hk]].
    + exists 1%nat. apply HF. discriminate.
    + apply (C118_returns_iff rng (N.to_nat n) _ ltac:(lia)) in Hk as (g & f & Hf). exists f. apply HF. rewrite (Hf f (le_n _)). discriminate.
Qed.
Print Assumptions C121_random_ends_iff.

(** Refuted: [--connected] need not give a connected graph, [--cycle] never gives a graph with a cycle, and a
    number of edges that is not a number is not reported. *)
Definition sparse (k : nat) : N := match k with O => 1000 | _ => 2000 end.
Definition ask (connected : bool) (c : option (list text)) (e : option text) : random_args :=
  {| r_connected := connected; r_cycle := c; r_vertices := txt "3"; r_edges := e; r_force := true |}.
Theorem C121_connected_refuted : exists (rng : nat -> N) (s s' : fs),
  (forall k, rng k < 2 ^ 64) /\
  run_prog (gc_random_main true at_once id_order rng (ask true None (Some (txt "2"))) [] 5) s = (s', Done Success) /\
  forall nd, digit_table nd -> exists g, loads nd s' g /\
    ~ weakly_connected (fun v => contains_vertex g v = true) (gE g).
Proof.
  pose (g0 := apply_commands [AddEdge 1 1000; AddEdge 2 2000] g_new).
  exists sparse, (with_file []), (fst (run_prog (gc_random at_once g0 true []) (with_file []))).
  split; [intros [|k]; reflexivity|]. split; [vm_compute; reflexivity|]. intros nd T.
  assert (B : built g0) by (eexists; apply built_by_apply).
  assert (U : u64_graph g0).
  { intros v Hv. unfold u64. apply vertices_In in Hv. vm_compute in Hv. intuition (subst; reflexivity). }
  destruct (C83_random_stored nd at_once g0 true [] (with_file []) _ _ T at_once_ok B U eq_refl (surjective_pairing _)) as [_ H].
  destruct (H (or_introl eq_refl)) as (_ & Hs & _ & Hg). destruct (Hg (proj2 Hs (ex_intro _ _ eq_refl))) as (g & Hl & SV & SE).
  cbn [aV aE shown] in SV, SE. exists g. split; [assumption|]. intro HW.
  specialize (HW (fun v => v = 1 \/ v = 1000)).
  assert (X : 2 = 1 \/ 2 = 1000); [|destruct X; discriminate].
  apply (HW) with (x := 1); [|apply SV; reflexivity|apply SV; reflexivity|now left].
  intros x y E. apply SE in E. 
  assert (Hin : In (x, y) (edges g0)) by (apply edges_In; [now apply built_wf|now apply contains_edge_hasE; [apply built_wf|]]).
  vm_compute in Hin. destruct Hin as [[= <- <-]|[[= <- <-]|[]]]; intuition discriminate.
Qed.
Print Assumptions C121_connected_refuted.
Theorem C121_cycle_refuted : forall nd checked chunks order rng a answer fuel s s' g,
  digit_table nd -> buffering chunks -> hash_order order -> (forall k, rng k < 2 ^ 64) -> openable (fs_lock s) = true ->
  r_force a = true \/ confirmed answer = true ->
  run_prog (gc_random_main checked chunks order rng a answer fuel) s = (s', Done Success) -> loads nd s' g ->
  acyclic (gE g).
Proof.
  intros nd checked chunks order rng a answer fuel s s' g T B O Hr Hl Hf E Lg.
  destruct (C121_random_program nd checked chunks order rng a answer fuel s s' _ T B O Hr Hl E) as [Hbad H].
  pose proof (counts_spec checked a) as HC. destruct (random_counts checked a) as [[vc ec]| |] eqn:EC.
  2, 3: unfold gc_random_main in E; rewrite EC in E; discriminate.
  destruct HC as (n & m & Hn & Hc & Hm & _ & _). destruct (proj2 (H n Hn) Hc m Hm) as (_ & _ & H3).
  destruct (H3 ltac:(discriminate) Hf) as (_ & _ & _ & H4). destruct (H4 eq_refl) as (g' & t & Lg' & He & _).
  assert (g' = g) as -> by (unfold loads in *; congruence).
  apply ascending_acyclic. intros x y Hxy. apply He in Hxy as (k & _ & _ & Hd). lia.
Qed.
Print Assumptions C121_cycle_refuted.
Theorem C121_malformed_count_refuted : forall checked chunks order rng answer fuel a x, (forall n, ~ id_argument x n) ->
  let b e := {| r_connected := r_connected a; r_cycle := r_cycle a; r_vertices := r_vertices a; r_edges := e; r_force := r_force a |} in
  gc_random_main checked chunks order rng (b (Some x)) answer fuel = gc_random_main checked chunks order rng (b None) answer fuel.
Proof.
  intros checked chunks order rng answer fuel a x Hx b. unfold gc_random_main, random_counts, b. cbn [r_vertices r_edges r_force].
  pose proof (usize_arg x) as H. destruct (parse_usize x) as [k|]; [exfalso; exact (Hx _ H)|reflexivity].
Qed.
Print Assumptions C121_malformed_count_refuted.
Example C121_case :
  id_argument (r_vertices (ask true None (Some (txt "2")))) 3 /\ wanted (ask true None (Some (txt "2"))) 3 2 /\
  wanted (ask true None (Some (txt "abc"))) 3 9 /\
  (forall n, ~ id_argument (txt "abc") n) /\
  snd (run_prog (gc_random_main true at_once id_order sparse (ask false (Some [txt "1"; txt "2"]) (Some (txt "2"))) [] 5) (with_file []))
    = Done Success /\
  fst (run_prog (gc_random_main true at_once id_order sparse (ask false None (Some (txt "2"))) [] 5) (with_file []))
    <> with_file [].
Proof.
  assert (A : forall n, ~ id_argument (txt "abc") n) by (intros n H; apply parse_id_spec in H; discriminate).
  split; [now apply parse_id_spec|]. split; [left; exists (txt "2"); split; [reflexivity|now apply parse_id_spec]|].
  split; [right; split; [intros x k [= <-]; apply A|reflexivity]|]. split; [assumption|]. split; [vm_compute; reflexivity|].
  vm_compute. discriminate.
Qed.
