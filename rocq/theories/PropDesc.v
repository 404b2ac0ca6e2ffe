(** * What gc-desc prints: exactly, and about renamed, reversed and larger graphs (C76, C142, C153, C139) *)
From Coq Require Import String.
From Coq Require Import List NArith ZArith Bool Arith Lia Permutation FinFun.
From Verif Require Import Spec Base WalkFacts Graph GraphSpec GraphFacts OrderFacts PropGraph Cycle CycleSpec CycleFacts PropCycle
  Text Format FormatSpec TextFacts FormatFacts Store StoreSpec StoreFacts CrashFacts PropFormat PropStore
  Cli CliSpec CliFacts PropCli PropQuery RenameSpec RenameFacts PropRename PropReverse PropGrow.
Import ListNotations.
Open Scope N_scope.

(** The four texts printed about a set of vertices and a set of edges.  Two self-loops count as one edge (C04). *)
Definition describes (V : N -> Prop) (E : rel) (n e lo hi : text) : Prop :=
  (exists vs, enumerates vs V /\ canonical_numeral n (N.of_nat (length vs))) /\
  (exists straight loops, enumerates straight (fun x => E (fst x) (snd x) /\ fst x <> snd x) /\ enumerates loops (fun v => E v v) /\
     canonical_numeral e (N.of_nat (length straight + Nat.div (length loops) 2))) /\
  (((forall v, ~ V v) /\ lo = txt "-" /\ hi = txt "-") \/
   (exists least most, canonical_numeral lo least /\ canonical_numeral hi most /\ V least /\ V most /\ forall x, V x -> least <= x <= most)).
Definition desc_text (n e lo hi : text) : list text :=
  [txt "Vertices: " ++ n; txt "Edges: " ++ e; txt "Min vertex id: " ++ lo; txt "Max vertex id: " ++ hi].

Lemma enumerates_same {A} (l l' : list A) P : enumerates l P -> enumerates l' P -> length l = length l'.
Proof. intros [N1 I1] [N2 I2]. apply Permutation_length, NoDup_Permutation; [assumption|assumption|]. intro x. now rewrite I1, I2. Qed.
Lemma enumerates_map {A B} (f : A -> B) l P Q : Injective f -> enumerates l P -> (forall y, Q y <-> exists x, P x /\ y = f x) -> enumerates (map f l) Q.
Proof.
  intros Hf [N1 I1] HQ. split; [now apply Injective_map_NoDup|]. intro y. rewrite in_map_iff, HQ. split.
  - intros (x & <- & Hx). exists x. split; [now apply I1|reflexivity].
  - intros (x & Hx & ->). exists x. split; [reflexivity|now apply I1].
Qed.
Lemma enumerates_iff {A} (l : list A) P Q : enumerates l P -> (forall x, Q x <-> P x) -> enumerates l Q.
Proof. intros [N1 I1] H. split; [assumption|]. intro x. now rewrite I1, H. Qed.

Theorem C76_exact : forall nd order s, hash_order order ->
  (exists g n e lo hi, loads nd s g /\ run_prog (gc_desc nd order) s = (s, Some (desc_text n e lo hi)) /\ describes (gV g) (gE g) n e lo hi) \/
  ((forall g, ~ loads nd s g) /\ run_prog (gc_desc nd order) s = (s, None)).
Proof.
  intros nd order s O.
  assert (D : (exists g, loads nd s g) \/ ((forall g, ~ loads nd s g) /\ run_prog (gc_desc nd order) s = (s, None))).
  { unfold loads, gc_desc. rewrite run_bind, run_load. cbn [fst snd].
    match goal with |- context [(s, ?x) = _] => destruct x as [[g|er]| |] eqn:Ex end.
    - left. now exists g.
    - right. split; [discriminate|reflexivity].
    - right. split; [discriminate|reflexivity].
    - right. split; [discriminate|reflexivity]. }
  destruct D as [[g HL]|D]; [left|now right].
  destruct (C76_desc nd order s g O HL) as (n & e & lo & hi & P & Hn & He & H0 & H1). exists g, n, e, lo, hi.
  split; [assumption|]. split; [exact P|]. destruct (loaded nd order s g O HL) as (Bg & _). pose proof (built_wf Bg) as W.
  destruct (vertices_spec W) as [V1 V2]. destruct (edges_spec W) as [E1 E2].
  split; [|split].
  - exists (vertices g). split; [|assumption]. split; [assumption|]. intro v. apply vertices_In.
  - set (straight := filter (fun e => negb (fst e =? snd e)) (edges g)).
    set (loops := filter (fun e => fst e =? snd e) (edges g)).
    assert (S1 : enumerates straight (fun x => contains_edge g x = true /\ fst x <> snd x)).
    { split; [now apply NoDup_filter|]. intro x. unfold straight. rewrite filter_In, E2, negb_true_iff, N.eqb_neq. tauto. }
    assert (L1 : enumerates loops (fun x => contains_edge g x = true /\ fst x = snd x)).
    { split; [now apply NoDup_filter|]. intro x. unfold loops. rewrite filter_In, E2, N.eqb_eq. tauto. }
    assert (L2 : enumerates (map fst loops) (fun v => gE g v v)).
    { split.
      - destruct L1 as [N1 I1]. assert (K : loops = map (fun v => (v, v)) (map fst loops)).
        { rewrite map_map. rewrite <- (map_id loops) at 1. apply map_ext_in. intros [u v] Hx. apply I1 in Hx. cbn in *. now destruct Hx as [_ ->]. }
        rewrite K in N1. now apply NoDup_map_inv in N1.
      - intro v. rewrite in_map_iff. destruct L1 as [_ I1]. split.
        + intros ([a b] & <- & Hx). apply I1 in Hx. cbn in *. destruct Hx as [Hx ->]. exact Hx.
        + intro Hv. exists (v, v). split; [reflexivity|]. apply I1. now split. }
    exists straight, (map fst loops). split; [|split; [exact L2|]].
    + apply (enumerates_iff _ _ _ S1). now intros [a b].
    + rewrite map_length. rewrite (C04_edge_count_law g straight loops Bg S1 L1) in He. exact He.
  - destruct (vertices g) as [|v l] eqn:Ev.
    + left. assert (Hno : forall v, contains_vertex g v = false).
      { intro v. destruct (contains_vertex g v) eqn:Ec; [|reflexivity]. apply vertices_In in Ec. rewrite Ev in Ec. destruct Ec. }
      split; [intros v Hv; unfold gV in Hv; now rewrite Hno in Hv|now apply H0].
    + right. apply (H1 v). apply vertices_In. rewrite Ev. now left.
Qed.
Print Assumptions C76_exact.
Example C76_exact_case : loads table (with_file (txt "AddEdge 7 3" ++ [10] ++ txt "AddEdge 3 3" ++ [10] ++ txt "AddEdge 7 7" ++ [10] ++ txt "AddEdge 4 4"))
    (apply_commands [AddEdge 7 3; AddEdge 3 3; AddEdge 7 7; AddEdge 4 4] g_new) /\
  run_prog (gc_desc table id_order) (with_file (txt "AddEdge 7 3" ++ [10] ++ txt "AddEdge 3 3" ++ [10] ++ txt "AddEdge 7 7" ++ [10] ++ txt "AddEdge 4 4")) =
  (with_file (txt "AddEdge 7 3" ++ [10] ++ txt "AddEdge 3 3" ++ [10] ++ txt "AddEdge 7 7" ++ [10] ++ txt "AddEdge 4 4"),
   Some (desc_text (txt "3") (txt "2") (txt "3") (txt "7"))) /\
  run_prog (gc_desc table id_order) empty_dir = (empty_dir, None).
Proof. split; [reflexivity|]. split; vm_compute; reflexivity. Qed.

Lemma describes_unique V E n e lo hi n' e' lo' hi' : describes V E n e lo hi -> describes V E n' e' lo' hi' ->
  desc_text n e lo hi = desc_text n' e' lo' hi'.
Proof.
  intros ((vs & A1 & A2) & (st & lp & B1 & B2 & B3) & C) ((vs' & A1' & A2') & (st' & lp' & B1' & B2' & B3') & C').
  rewrite (enumerates_same _ _ _ A1 A1') in A2. rewrite (enumerates_same _ _ _ B1 B1'), (enumerates_same _ _ _ B2 B2') in B3.
  rewrite (canonical_unique _ _ _ A2 A2'), (canonical_unique _ _ _ B3 B3').
  destruct C as [(C1 & -> & ->)|(x & y & C1 & C2 & C3 & C4 & C5)], C' as [(D1 & -> & ->)|(x' & y' & D1 & D2 & D3 & D4 & D5)].
  - reflexivity.
  - now elim (C1 x').
  - now elim (D1 x).
  - assert (x = x') by (pose proof (C5 x' D3); pose proof (D5 x C3); lia). assert (y = y') by (pose proof (C5 y' D4); pose proof (D5 y C4); lia).
    subst x' y'. now rewrite (canonical_unique _ _ _ C1 D1), (canonical_unique _ _ _ C2 D2).
Qed.
Lemma desc_runs nd order s g : hash_order order -> loads nd s g ->
  exists n e lo hi, run_prog (gc_desc nd order) s = (s, Some (desc_text n e lo hi)) /\ describes (gV g) (gE g) n e lo hi.
Proof.
  intros O HL. destruct (C76_exact nd order s O) as [(g' & n & e & lo & hi & HL' & P & D)|[Hn _]]; [|now elim (Hn g)].
  assert (g' = g) by (unfold loads in HL, HL'; congruence). subst g'. now exists n, e, lo, hi.
Qed.

(** The description of a graph with every edge turned around is the same, to the letter. *)
Theorem C153_desc : forall nd order order' s s' g h, hash_order order -> hash_order order' -> loads nd s g -> loads nd s' h ->
  reversed (shown g) (shown h) ->
  exists lines, run_prog (gc_desc nd order) s = (s, Some lines) /\ run_prog (gc_desc nd order') s' = (s', Some lines).
Proof.
  intros nd order order' s s' g h O O' HL HL' [HV HE]. change (forall v, gV h v <-> gV g v) in HV. change (forall u v, gE h u v <-> gE g v u) in HE.
  destruct (desc_runs nd order s g O HL) as (n & e & lo & hi & P & D). destruct (desc_runs nd order' s' h O' HL') as (n' & e' & lo' & hi' & P' & D').
  exists (desc_text n e lo hi). split; [exact P|]. rewrite P'. do 2 f_equal. symmetry. apply (describes_unique (gV h) (gE h) n e lo hi); [|exact D'].
  destruct D as ((vs & A1 & A2) & (st & lp & B1 & B2 & B3) & C). split; [|split].
  - exists vs. split; [now apply (enumerates_iff _ _ _ A1)|assumption].
  - exists (map (fun x => (snd x, fst x)) st), lp. split; [|split].
    + assert (Hi : Injective (fun x : N * N => (snd x, fst x))) by (intros [a b] [c d] [= -> ->]; reflexivity).
      apply (enumerates_map _ _ _ _ Hi B1). intros [a b]. cbn [fst snd]. rewrite HE. split.
      * intros [H1 H2]. exists (b, a). cbn. repeat split; auto.
      * intros ([c d] & [H1 H2] & [= -> ->]). cbn in *. split; auto.
    + apply (enumerates_iff _ _ _ B2). intro v. apply HE.
    + now rewrite map_length.
  - destruct C as [(C1 & C2)|(x & y & C1 & C2 & C3 & C4 & C5)].
    + left. split; [|assumption]. intros v Hv. apply (C1 v). now apply HV.
    + right. exists x, y. split; [assumption|]. split; [assumption|]. split; [now apply HV|]. split; [now apply HV|]. intros z Hz. apply C5. now apply HV.
Qed.
Print Assumptions C153_desc.

(** Of a renamed graph the counts are the same; the extreme ids are the renamed ones if the renaming keeps the order. *)
Theorem C142_desc : forall nd f order order' s s', injective f -> hash_order order -> hash_order order' -> renamed_files nd f s s' ->
  exists n e lo hi lo' hi', run_prog (gc_desc nd order) s = (s, Some (desc_text n e lo hi)) /\
    run_prog (gc_desc nd order') s' = (s', Some (desc_text n e lo' hi')) /\
    ((forall x y, x < y -> f x < f y) -> (lo = txt "-" /\ hi = txt "-" /\ lo' = txt "-" /\ hi' = txt "-") \/
       exists a b, canonical_numeral lo a /\ canonical_numeral hi b /\ canonical_numeral lo' (f a) /\ canonical_numeral hi' (f b)).
Proof.
  intros nd f order order' s s' Hf O O' HR.
  destruct (files_load nd f s s' HR) as (cs & g & g' & B & B' & HL & HL').
  destruct (C142_graph f cs g g' Hf B B') as [[RV RE] _]. change (forall y z, gE g' y z <-> exists u v, gE g u v /\ y = f u /\ z = f v) in RE.
  change (forall y, gV g' y <-> exists x, gV g x /\ y = f x) in RV.
  destruct (desc_runs nd order s g O HL) as (n & e & lo & hi & P & D). destruct (desc_runs nd order' s' g' O' HL') as (n' & e' & lo' & hi' & P' & D').
  destruct D as ((vs & A1 & A2) & (st & lp & B1 & B2 & B3) & C), D' as ((vs' & A1' & A2') & (st' & lp' & B1' & B2' & B3') & C').
  assert (M1 : enumerates (map f vs) (gV g')) by (apply (enumerates_map f vs _ _ Hf A1); intro y; apply RV).
  assert (M2 : enumerates (map (rename_edge f) st) (fun x => gE g' (fst x) (snd x) /\ fst x <> snd x)).
  { apply (enumerates_map _ _ _ _ (fe_inj f Hf) B1). intros [y z]. cbn [fst snd]. rewrite RE. split.
    - intros [(u & v & H & -> & ->) Hne]. exists (u, v). cbn. split; [split; [assumption|]|reflexivity]. intros ->. now apply Hne.
    - intros ([u v] & [H1 H2] & [= -> ->]). cbn in *. split; [now exists u, v|]. intro E. now apply Hf in E. }
  assert (M3 : enumerates (map f lp) (fun v => gE g' v v)).
  { apply (enumerates_map f lp _ _ Hf B2). intro y. rewrite RE. split.
    - intros (u & v & H & -> & E). apply Hf in E. subst v. now exists u.
    - intros (u & H & ->). now exists u, u. }
  pose proof (enumerates_same _ _ _ M1 A1') as K1. pose proof (enumerates_same _ _ _ M2 B1') as K2. pose proof (enumerates_same _ _ _ M3 B2') as K3.
  rewrite map_length in K1, K2, K3. rewrite <- K1 in A2'. rewrite <- K2, <- K3 in B3'.
  apply (canonical_unique _ _ _ A2) in A2'. apply (canonical_unique _ _ _ B3) in B3'. subst n' e'.
  exists n, e, lo, hi, lo', hi'. split; [exact P|]. split; [exact P'|]. intro Hm.
  assert (Hle : forall x y, x <= y -> f x <= f y) by (intros x y H; destruct (N.eq_dec x y) as [->|]; [reflexivity|apply N.lt_le_incl, Hm; lia]).
  destruct C as [(C1 & -> & ->)|(x & y & C1 & C2 & C3 & C4 & C5)], C' as [(D1 & -> & ->)|(x' & y' & D1 & D2 & D3 & D4 & D5)].
  - now left.
  - apply RV in D3. destruct D3 as (u & Hu & _). now elim (C1 u).
  - elim (D1 (f x)). apply RV. now exists x.
  - right. exists x, y. split; [assumption|]. split; [assumption|].
    assert (F3 : gV g' (f x)) by (apply RV; now exists x). assert (F4 : gV g' (f y)) by (apply RV; now exists y).
    pose proof (D5 _ F3). pose proof (D5 _ F4). apply RV in D3, D4. destruct D3 as (u & Hu & ->), D4 as (v & Hv & ->).
    pose proof (Hle _ _ (proj1 (C5 u Hu))). pose proof (Hle _ _ (proj2 (C5 v Hv))).
    assert (f u = f x) as <- by lia. assert (f v = f y) as <- by lia. now split.
Qed.
Print Assumptions C142_desc.

(** Of a larger graph no count is smaller, the least id is no greater and the greatest id no smaller. *)
Theorem C139_desc : forall nd order order' s s' g g', hash_order order -> hash_order order' -> loads nd s g -> loads nd s' g' ->
  PropGrow.within (shown g) (shown g') ->
  exists n e lo hi n' e' lo' hi' i j i' j', run_prog (gc_desc nd order) s = (s, Some (desc_text n e lo hi)) /\
    run_prog (gc_desc nd order') s' = (s', Some (desc_text n' e' lo' hi')) /\
    canonical_numeral n i /\ canonical_numeral n' i' /\ i <= i' /\ canonical_numeral e j /\ canonical_numeral e' j' /\ j <= j' /\
    ((lo = txt "-" /\ hi = txt "-") \/
     exists a b a' b', canonical_numeral lo a /\ canonical_numeral hi b /\ canonical_numeral lo' a' /\ canonical_numeral hi' b' /\ a' <= a /\ b <= b').
Proof.
  intros nd order order' s s' g g' O O' HL HL' [HV HE]. change (forall v, gV g v -> gV g' v) in HV. change (forall u v, gE g u v -> gE g' u v) in HE.
  destruct (desc_runs nd order s g O HL) as (n & e & lo & hi & P & D). destruct (desc_runs nd order' s' g' O' HL') as (n' & e' & lo' & hi' & P' & D').
  destruct D as ((vs & A1 & A2) & (st & lp & B1 & B2 & B3) & C), D' as ((vs' & A1' & A2') & (st' & lp' & B1' & B2' & B3') & C').
  assert (L : forall A (l l' : list A) P Q, enumerates l P -> enumerates l' Q -> (forall x, P x -> Q x) -> (length l <= length l')%nat).
  { intros A l l' R S [N1 I1] [N2 I2] H. apply NoDup_incl_length; [assumption|]. intros x Hx. apply I2, H. now apply I1. }
  pose proof (L _ _ _ _ _ A1 A1' HV) as K1. pose proof (L _ _ _ _ _ B2 B2' (fun v H => HE v v H)) as K3.
  pose proof (L _ _ _ _ _ B1 B1' (fun x H => conj (HE _ _ (proj1 H)) (proj2 H))) as K2.
  exists n, e, lo, hi, n', e', lo', hi'. do 4 eexists. split; [exact P|]. split; [exact P'|].
  split; [exact A2|]. split; [exact A2'|]. split; [lia|]. split; [exact B3|]. split; [exact B3'|].
  split; [pose proof (Nat.div_le_mono _ _ 2 ltac:(discriminate) K3); lia|].
  destruct C as [(C1 & C2)|(x & y & C1 & C2 & C3 & C4 & C5)]; [now left|right].
  destruct C' as [(D1 & _)|(x' & y' & D1 & D2 & D3 & D4 & D5)]; [elim (D1 x); now apply HV|].
  exists x, y, x', y'. pose proof (D5 x (HV x C3)). pose proof (D5 y (HV y C4)). do 4 (split; [assumption|]). split; lia.
Qed.
Print Assumptions C139_desc.
(** A concrete pair of directories for each of the three. *)
Example C139_desc_case : exists g g', loads table (with_file (txt "AddEdge 7 3")) g /\
  loads table (with_file (txt "AddEdge 7 3" ++ [10] ++ txt "AddEdge 9 9" ++ [10] ++ txt "AddEdge 2 2")) g' /\
  PropGrow.within (shown g) (shown g') /\
  snd (run_prog (gc_desc table id_order) (with_file (txt "AddEdge 7 3" ++ [10] ++ txt "AddEdge 9 9" ++ [10] ++ txt "AddEdge 2 2"))) =
  Some (desc_text (txt "4") (txt "2") (txt "2") (txt "9")) /\
  renamed_files table (fun x => x + 1) (with_file (txt "AddEdge 7 3")) (with_file (txt "AddEdge 8 4")) /\
  reversed (shown (apply_commands [AddEdge 7 3] g_new)) (shown (apply_commands [AddEdge 3 7] g_new)).
Proof.
  exists (apply_commands [AddEdge 7 3] g_new), (apply_commands [AddEdge 7 3; AddEdge 9 9; AddEdge 2 2] g_new).
  split; [reflexivity|]. split; [reflexivity|]. split; [|split; [vm_compute; reflexivity|split]].
  - split.
    + intros x Hx. apply (refines (built_by_apply _)) in Hx. apply (refines (built_by_apply _)). cbn in *. tauto.
    + intros x y Hx. apply (refines (built_by_apply _)) in Hx. apply (refines (built_by_apply _)). cbn in *. tauto.
  - exists (txt "AddEdge 7 3"), (txt "AddEdge 8 4"), [AddEdge 7 3]. repeat split; reflexivity.
  - exact (reversed_runs [AddEdge 7 3]).
Qed.
