(** * Property C174: a graph at any place of a file system; graphs in different directories *)
From Coq Require Import String.
From Coq Require Import List NArith Bool Arith Lia.
From Verif Require Import Spec Base Graph GraphSpec GraphFacts Text Format FormatSpec TextFacts FormatFacts
  Store StoreSpec StoreFacts CrashFacts PropFormat PropStore Cli Place PlaceFacts.
Import ListNotations.

(** ** What it means *)
(** The tools; queries load the graph and then only compute. *)
Inductive command_line :=
| RunInit
| RunRequest (cs : list graph_command)
| RunAdd (a : add_args)
| RunDelete (vertex edge : option (list text))
| RunBuild (order : graph -> graph)
| RunClean (force : bool) (answer : text)
| RunRandom (g : graph) (force : bool) (answer : text)
| RunQuery.
(** What they answer: a status, or what was loaded. *)
Definition answer_of : Type := exit + outcome (result graph).
(** A tool on the tree, with [--path root]. *)
Definition in_tree nd chunks (root : place) (x : command_line) : tprog answer_of :=
  let status p := tbind p (fun r => TRet (inl r)) in
  match x with
  | RunInit => status (t_gc_init root)
  | RunRequest cs => status (t_status (t_apply root chunks cs))
  | RunAdd a => status (t_gc_add root chunks a)
  | RunDelete v e => status (t_gc_delete root chunks v e)
  | RunBuild order => status (t_gc_build root nd chunks order)
  | RunClean force answer => status (t_gc_clean root force answer)
  | RunRandom g force answer => status (t_gc_random root chunks g force answer)
  | RunQuery => tbind (t_load root nd) (fun r => TRet (inr r))
  end.
(** The same tool on the four paths of Store.v. *)
Definition in_store nd chunks (x : command_line) : prog answer_of :=
  let status p := bind p (fun r => Ret (inl r)) in
  match x with
  | RunInit => status gc_init
  | RunRequest cs => status (exit_of (apply_graph_commands chunks cs))
  | RunAdd a => status (gc_add chunks a)
  | RunDelete v e => status (gc_delete chunks v e)
  | RunBuild order => status (gc_build nd chunks order)
  | RunClean force answer => status (gc_clean force answer)
  | RunRandom g force answer => status (gc_random chunks g force answer)
  | RunQuery => bind (load_graph nd) (fun r => Ret (inr r))
  end.
Lemma sim_tool nd chunks root x : sim root (in_tree nd chunks root x) (in_store nd chunks x).
Proof.
  destruct x; cbn [in_tree in_store]; (apply sim_bind; [|intro; constructor]).
  - apply sim_gc_init.
  - apply sim_status, sim_apply.
  - apply sim_gc_add.
  - apply sim_gc_delete.
  - apply sim_gc_build.
  - apply sim_gc_clean.
  - apply sim_gc_random.
  - apply sim_load.
Qed.

(** ** One graph: everything that Store.v says holds in the tree *)
Theorem C174_run : forall nd chunks root x t t' r, sane t -> usable root t ->
  trun (in_tree nd chunks root x) t = (t', r) ->
  run_prog (in_store nd chunks x) (view root t) = (view root t', r) /\ sane t' /\ usable root t'.
Proof.
  intros nd chunks root x t t' r S0 U E.
  destruct (sim_run _ root _ _ t (sim_tool nd chunks root x) (conj S0 U)) as (A & B & _).
  rewrite E in A, B. cbn [fst snd] in A, B. now split.
Qed.
Print Assumptions C174_run.
Theorem C174_crash : forall nd chunks root x t t', sane t -> usable root t ->
  tcrash (in_tree nd chunks root x) t t' ->
  crash (in_store nd chunks x) (view root t) (view root t') /\ sane t' /\ usable root t'.
Proof.
  intros nd chunks root x t t' S0 U E.
  destruct (sim_crash _ root _ _ t t' (sim_tool nd chunks root x) (conj S0 U) E) as (A & B & _). now split.
Qed.
Print Assumptions C174_crash.
(** Whatever a tool does, and wherever it is stopped: nothing outside the lock and the graph directory changes, but that
    missing directories of the path are made. *)
Theorem C174_elsewhere : forall nd chunks root x t t', sane t -> usable root t ->
  tcrash (in_tree nd chunks root x) t t' -> forall p,
  p <> root ++ [txt "lock"] -> (forall q, p <> root ++ txt ".graph" :: q) ->
  t' p = t p \/ (t p = Nothing /\ t' p = ADir /\ exists q, root = p ++ q).
Proof.
  intros nd chunks root x t t' S0 U E p P1 P2.
  destruct (sim_crash _ root _ _ t t' (sim_tool nd chunks root x) (conj S0 U) E) as (_ & _ & F).
  apply F. intros [O|(q & O)]; [congruence|exact (P2 q O)].
Qed.
Print Assumptions C174_elsewhere.

(** ** Graphs in different directories *)
Lemma apart_sym r1 r2 : apart r1 r2 -> apart r2 r1.
Proof. intros (D & F). split; [congruence|]. intro q. destruct (F q) as (A & B & C & E). now repeat split. Qed.
Lemma graph_in r1 r2 q x s : r1 ++ txt ".graph" :: q = r2 ++ x :: s -> (x = txt "lock" /\ s = []) \/ x = txt ".graph" ->
  r1 = r2 /\ x = txt ".graph" \/ (exists m, r2 = r1 ++ txt ".graph" :: m) \/ (exists m, r1 = r2 ++ txt ".graph" :: m).
Proof.
  intros E X. destruct (prefix_split _ _ _ _ _ E) as [(m & M1 & M2)|(m & M1 & M2)].
  - destruct m as [|y m]; cbn [app] in M2.
    + left. rewrite app_nil_r in M1. split; [congruence|]. injection M2. congruence.
    + injection M2 as <- _. right. left. now exists m.
  - destruct m as [|y m]; cbn [app] in M2.
    + left. rewrite app_nil_r in M1. split; [congruence|]. injection M2. congruence.
    + injection M2 as <- M2. destruct X as [(-> & ->)| ->].
      * destruct m; discriminate.
      * right. right. now exists m.
Qed.
Lemma apart_own r1 r2 p : apart r1 r2 -> own r2 p -> ~ own r1 p.
Proof.
  intros (D & F) O1 O2. destruct O1 as [->|(q1 & ->)], O2 as [E|(q2 & E)].
  - apply app_inj_tail in E as (E & _). congruence.
  - symmetry in E. destruct (graph_in _ _ _ _ _ E (or_introl (conj eq_refl eq_refl))) as [(_ & H)|[(m & M)|(m & M)]]; [discriminate|..].
    + exact (proj2 (proj2 (proj2 (F m))) M).
    + exact (proj1 (proj2 (F m)) M).
  - destruct (graph_in _ _ _ _ _ E (or_introl (conj eq_refl eq_refl))) as [(_ & H)|[(m & M)|(m & M)]]; [discriminate|..].
    + exact (proj1 (proj2 (F m)) M).
    + exact (proj2 (proj2 (proj2 (F m))) M).
  - destruct (graph_in _ _ _ _ _ E (or_intror eq_refl)) as [(H & _)|[(m & M)|(m & M)]]; [congruence|..].
    + exact (proj1 (proj2 (F m)) M).
    + exact (proj2 (proj2 (proj2 (F m))) M).
Qed.
Lemma apart_kept r1 r2 t t' : apart r1 r2 -> only_own r1 t t' -> forall p, own r2 p -> t' p = t p.
Proof.
  intros A F p O. destruct (F p (apart_own r1 r2 p A O)) as [E|(_ & _ & q & E)]; [assumption|exfalso].
  destruct A as (_ & A). destruct O as [->|(s & ->)]; rewrite <- app_assoc in E; cbn [app] in E.
  - exact (proj1 (A q) E).
  - exact (proj1 (proj2 (A (s ++ q))) E).
Qed.
Lemma apart_prefix r1 r2 a b : apart r1 r2 -> r2 = a ++ b -> ~ own r1 a.
Proof.
  intros (_ & A) E [->|(s & ->)]; rewrite <- app_assoc in E; cbn [app] in E.
  - exact (proj1 (proj2 (proj2 (A b))) E).
  - exact (proj2 (proj2 (proj2 (A (s ++ b)))) E).
Qed.
Lemma apart_usable r1 r2 t t' : apart r1 r2 -> only_own r1 t t' -> usable r2 t -> usable r2 t'.
Proof.
  intros A F U a b E c H. destruct (F a (apart_prefix _ _ _ _ A E)) as [G|(_ & G & _)]; [|congruence].
  rewrite G in H. exact (U a b E c H).
Qed.
Lemma apart_view r1 r2 t t' : apart r1 r2 -> only_own r1 t t' ->
  view r2 t' = view r2 t \/ (t r2 = Nothing /\ view r2 t' = set_root true (view r2 t)).
Proof.
  intros A F. pose proof (apart_kept _ _ _ _ A F) as K. unfold view, set_root. cbn [fs_lock fs_graph].
  rewrite !K by (apply own_lock || apply own_graph).
  destruct (F r2) as [E|(E & E' & _)].
  - apply (apart_prefix _ _ _ [] A). now rewrite app_nil_r.
  - left. unfold is_dir. now rewrite E.
  - right. unfold is_dir. now rewrite E, E'.
Qed.

(** A tool, stopped anywhere, changes nothing of a graph that is apart from its own: not the lock, not the commands, not
    whether it can be used. *)
Theorem C174_apart : forall nd chunks r1 r2 x t t', sane t -> usable r1 t -> apart r1 r2 ->
  tcrash (in_tree nd chunks r1 x) t t' ->
  t' (r2 ++ [txt "lock"]) = t (r2 ++ [txt "lock"]) /\
  (forall q, t' (r2 ++ txt ".graph" :: q) = t (r2 ++ txt ".graph" :: q)) /\
  (usable r2 t -> usable r2 t').
Proof.
  intros nd chunks r1 r2 x t t' S0 U A E.
  destruct (sim_crash _ r1 _ _ t t' (sim_tool nd chunks r1 x) (conj S0 U) E) as (_ & _ & F).
  pose proof (apart_kept _ _ _ _ A F) as K. split; [apply K, own_lock|]. split; [intro q; apply K, own_graph|].
  now apply (apart_usable r1).
Qed.
Print Assumptions C174_apart.

(** Any number of processes in any number of directories, in any interleaving: what happens in one directory is what its
    own processes could do without the others. *)
Definition separate (roots : list place) : Prop := forall r1 r2, In r1 roots -> In r2 roots -> r1 = r2 \/ apart r1 r2.
Definition mine {A} (r : place) (l : list (place * A)) : list A :=
  map snd (filter (fun x => if place_dec (fst x) r then true else false) l).

(** A process has ended with the same answer, or has not ended. *)
Definition same_answer {A} (P : tprog A) (p : prog A) : Prop := forall a, P = TRet a <-> p = Ret a.

Inductive beside {A} (r : place) : list place -> list (tprog A) -> list (prog A) -> Prop :=
| beside_nil : beside r [] [] []
| beside_mine rs P p Ps ps : sim r P p -> beside r rs Ps ps -> beside r (r :: rs) (P :: Ps) (p :: ps)
| beside_other rs P p Ps ps r' : r' <> r -> sim r' P p -> beside r rs Ps ps -> beside r (r' :: rs) (P :: Ps) ps.
Lemma beside_split A r rs (pre : list (tprog A)) P post ps : beside r rs (pre ++ P :: post) ps ->
  exists ra r' rb qa qb, rs = ra ++ r' :: rb /\ beside r ra pre qa /\ beside r rb post qb /\ exists p, sim r' P p /\
    ((r' = r /\ ps = qa ++ p :: qb) \/ (r' <> r /\ ps = qa ++ qb)).
Proof.
  revert rs ps. induction pre as [|Q pre IH]; intros rs ps H; cbn [app] in H.
  - inversion H as [|rs0 ? p ? ps0 M K|rs0 ? p ? ps0 r' D M K]; subst.
    + exists [], r, rs0, [], ps0. split; [reflexivity|]. split; [constructor|]. split; [assumption|].
      exists p. split; [assumption|]. now left.
    + exists [], r', rs0, [], ps. split; [reflexivity|]. split; [constructor|]. split; [assumption|].
      exists p. split; [assumption|]. now right.
  - inversion H as [|rs0 ? p ? ps0 M K|rs0 ? p ? ps0 r' D M K]; subst;
      destruct (IH _ _ K) as (ra & r1 & rb & qa & qb & -> & B1 & B2 & q & B3 & B4).
    + exists (r :: ra), r1, rb, (p :: qa), qb. split; [reflexivity|]. split; [now constructor|]. split; [assumption|].
      exists q. split; [assumption|]. destruct B4 as [(-> & ->)|(D & ->)]; [now left|now right].
    + exists (r' :: ra), r1, rb, qa, qb. split; [reflexivity|]. split; [now apply (beside_other _ _ _ p)|]. split; [assumption|].
      exists q. now split.
Qed.
Lemma beside_app A r ra rb (a b : list (tprog A)) x y : beside r ra a x -> beside r rb b y -> beside r (ra ++ rb) (a ++ b) (x ++ y).
Proof.
  intros H K. induction H as [|rs P p Ps ps M H IH|rs P p Ps ps r' D M H IH]; cbn [app]; [assumption|..].
  - now constructor.
  - now apply (beside_other _ _ _ p).
Qed.
Lemma beside_answers A r rs (Ps : list (tprog A)) ps : beside r rs Ps ps -> Forall2 same_answer (mine r (combine rs Ps)) ps.
Proof.
  assert (Q : forall (P : tprog A) p, sim r P p -> same_answer P p).
  { intros P p M a. destruct M; split; intro E; try discriminate; congruence. }
  induction 1 as [|rs P p Ps ps M H IH|rs P p Ps ps r' D M H IH]; unfold mine; cbn [combine filter fst]; [constructor|..].
  - destruct (place_dec r r); [|contradiction]. cbn [map snd]. constructor; [now apply Q|assumption].
  - destruct (place_dec r' r); [contradiction|assumption].
Qed.
Lemma beside_steps A r rs (c c' : tree * list (tprog A)) : separate (r :: rs) -> tisteps c c' ->
  sane (fst c) -> (forall r', In r' (r :: rs) -> usable r' (fst c)) -> fst c r = ADir ->
  forall ps, beside r rs (snd c) ps ->
  exists ps', isteps (view r (fst c), ps) (view r (fst c'), ps') /\ beside r rs (snd c') ps'.
Proof.
  intros SEP H. induction H as [c|c c1 c2 (pre & u & k & post & E1 & E2 & E3) H IH]; intros S0 U R ps B.
  - exists ps. split; [constructor|assumption].
  - rewrite E1 in B. destruct (beside_split _ _ _ _ _ _ _ B) as (ra & r' & rb & qa & qb & Er & B1 & B2 & p & M & B4).
    assert (I : In r' (r :: rs)) by (right; rewrite Er; apply in_elt).
    inversion M as [|? ? v h O K]; subst p. subst.
    destruct (O (fst c) (conj S0 (U r' I))) as (A1 & A2 & A3).
    assert (U1 : forall r1, In r1 (r :: ra ++ r' :: rb) -> usable r1 (fst c1)).
    { intros r1 I1. rewrite E2. destruct (SEP r' r1 I I1) as [<-|AP].
      - exact (usable_kept _ _ _ (U r' I) A2).
      - exact (apart_usable _ _ _ _ AP A2 (U r1 I1)). }
    assert (K1 : sim r' (k (fst c)) (h (view r' (fst c)))) by (apply K; split; [assumption|now apply U]).
    destruct B4 as [(-> & ->)|(D & ->)].
    + assert (R1 : fst c1 r = ADir).
      { rewrite E2. destruct (A2 r) as [G|(G & _)]; [|congruence|congruence].
        apply (prefix_not_own r r []). now rewrite app_nil_r. }
      destruct (IH) with (ps := qa ++ h (view r (fst c)) :: qb) as (ps' & P1 & P2).
      * now rewrite E2.
      * assumption.
      * assumption.
      * rewrite E3. apply beside_app; [assumption|]. now constructor.
      * exists ps'. split; [|assumption]. apply (is_step _ (v (view r (fst c)), qa ++ h (view r (fst c)) :: qb)).
        -- exists qa, v, h, qb. now repeat split.
        -- rewrite <- A3, <- E2. assumption.
    + assert (AP : apart r' r) by (destruct (SEP r' r I (or_introl eq_refl)); [contradiction|assumption]).
      assert (V : view r (fst c1) = view r (fst c)).
      { rewrite E2. destruct (apart_view _ _ _ _ AP A2) as [V|(V & _)]; [assumption|congruence]. }
      destruct (IH) with (ps := qa ++ qb) as (ps' & P1 & P2).
      * now rewrite E2.
      * assumption.
      * apply dir_of. change (fs_root (view r (fst c1)) = true). rewrite V. now apply dir_of.
      * rewrite E3. apply beside_app; [assumption|]. now apply (beside_other _ _ _ (h (view r' (fst c)))).
      * exists ps'. split; [|assumption]. now rewrite <- V.
Qed.
Lemma usable_dir r t : sane t -> t r = ADir -> usable r t.
Proof.
  intros S0 R a b E c Ec. destruct b as [|x b].
  - rewrite app_nil_r in E. congruence.
  - assert (K : t a = ADir) by (apply (sane_above t a (x :: b) S0); [rewrite <- E; congruence|discriminate]). congruence.
Qed.
Theorem C174_schedules : forall nd (ws : list (place * ((list text -> list text) * command_line))) r t t' Ps',
  sane t -> separate (r :: map fst ws) -> (forall w, In w ws -> usable (fst w) t) -> t r = ADir ->
  tisteps (t, map (fun w => in_tree nd (fst (snd w)) (fst w) (snd (snd w))) ws) (t', Ps') ->
  exists ps', isteps (view r t, map (fun w => in_store nd (fst w) (snd w)) (mine r ws)) (view r t', ps') /\
    Forall2 same_answer (mine r (combine (map fst ws) Ps')) ps'.
Proof.
  intros nd ws r t t' Ps' S0 SEP U R H.
  assert (B : beside r (map fst ws) (map (fun w => in_tree nd (fst (snd w)) (fst w) (snd (snd w))) ws)
                (map (fun w => in_store nd (fst w) (snd w)) (mine r ws))).
  { clear. induction ws as [|(r', (ch, x)) ws IH]; [constructor|]. unfold mine. cbn [map filter fst snd].
    destruct (place_dec r' r) as [->|D]; cbn [map fst snd].
    - constructor; [apply sim_tool|]. apply IH.
    - apply (beside_other _ _ _ (in_store nd ch x)); [assumption|apply sim_tool|]. apply IH. }
  destruct (beside_steps _ _ _ _ _ SEP H S0) with (ps := map (fun w => in_store nd (fst w) (snd w)) (mine r ws)) as (ps' & P & Q).
  - cbn [fst]. intros r1 [<-|I]; [now apply usable_dir|].
    apply in_map_iff in I as (w & <- & I). now apply U.
  - assumption.
  - assumption.
  - exists ps'. split; [exact P|]. now apply beside_answers.
Qed.
Print Assumptions C174_schedules.

(** ** Histories over several directories *)
Definition t_invoke (root : place) nd chunks order (i : invocation) : tprog exit :=
  match i with
  | Init => t_gc_init root
  | AddVertices vids => t_status (t_apply root chunks (map AddVertex vids))
  | AddEdges es => t_status (t_apply root chunks (map (fun e => AddEdge (fst e) (snd e)) es))
  | RemoveVertices vids => t_status (t_apply root chunks (map RemoveVertex vids))
  | RemoveEdges es => t_status (t_apply root chunks (map (fun e => RemoveEdge (fst e) (snd e)) es))
  | Build => t_gc_build root nd chunks order
  end.
Lemma sim_invoke root nd chunks order i : sim root (t_invoke root nd chunks order i) (invoke nd chunks order i).
Proof.
  destruct i; cbn [t_invoke invoke]; [apply sim_gc_init|apply sim_status, sim_apply..|apply sim_gc_build].
Qed.
Inductive thistory nd : tree -> list (place * invocation) -> tree -> Prop :=
| th_nil t : thistory nd t [] t
| th_cons t r i is t1 t2 chunks order : buffering chunks -> hash_order order ->
    trun (t_invoke r nd chunks order i) t = (t1, Success) -> thistory nd t1 is t2 -> thistory nd t ((r, i) :: is) t2.
Lemma holds_same nd s s' a : fs_lock s' = fs_lock s -> fs_graph s' = fs_graph s -> holds nd s a -> holds nd s' a.
Proof. intros E1 E2. unfold holds. now rewrite E1, E2. Qed.
Lemma thistory_step nd r r' chunks order i t t1 rs : separate (r :: r' :: rs) ->
  sane t -> (forall q, In q (r :: r' :: rs) -> usable q t) ->
  trun (t_invoke r' nd chunks order i) t = (t1, Success) ->
  sane t1 /\ (forall q, In q (r :: r' :: rs) -> usable q t1) /\
  (r' = r -> run_prog (invoke nd chunks order i) (view r t) = (view r t1, Success)) /\
  (r' <> r -> fs_lock (view r t1) = fs_lock (view r t) /\ fs_graph (view r t1) = fs_graph (view r t)).
Proof.
  intros SEP S0 U E. assert (I' : In r' (r :: r' :: rs)) by now (right; left).
  destruct (sim_run _ r' _ _ t (sim_invoke r' nd chunks order i) (conj S0 (U r' I'))) as (A & B & F).
  rewrite E in A, B, F. cbn [fst snd] in A, B, F. split; [exact (proj1 B)|]. split; [|split].
  - intros q I. destruct (SEP r' q I' I) as [<-|AP]; [exact (proj2 B)|].
    exact (apart_usable _ _ _ _ AP F (U q I)).
  - intros ->. exact A.
  - intro D. destruct (SEP r' r I' (or_introl eq_refl)) as [->|AP]; [contradiction|].
    destruct (apart_view _ _ _ _ AP F) as [->|(_ & ->)]; now split.
Qed.
Lemma thistory_holds nd r t hs t' : digit_table nd -> thistory nd t hs t' -> separate (r :: map fst hs) ->
  sane t -> (forall q, In q (r :: map fst hs) -> usable q t) -> Forall u64_invocation (mine r hs) ->
  forall a, holds nd (view r t) a -> holds nd (view r t') (fold_left a_invoke (mine r hs) a).
Proof.
  intros T H. induction H as [t|t r' i is t1 t2 chunks order B O E H IH]; intros SEP S0 U W a Ha; [exact Ha|].
  cbn [map fst] in SEP, U. destruct (thistory_step _ _ _ _ _ _ _ _ _ SEP S0 U E) as (S1 & U1 & Q1 & Q2).
  assert (SEP1 : separate (r :: map fst is)).
  { intros a1 a2 I1 I2. apply SEP; [destruct I1; [now left|now right; right]|destruct I2; [now left|now right; right]]. }
  assert (U2 : forall q, In q (r :: map fst is) -> usable q t1).
  { intros q I. apply U1. destruct I; [now left|now right; right]. }
  unfold mine in W |- *. cbn [filter fst] in W |- *. destruct (place_dec r' r) as [->|D].
  - cbn [map snd fold_left] in W |- *. inversion W as [|? ? W1 W2]; subst. apply IH; [assumption..|].
    pose proof (holds_invoke nd chunks order i (view r t) a T B O W1 Ha) as [_ Hh]. now rewrite (Q1 eq_refl) in Hh.
  - apply IH; [assumption..|]. destruct (Q2 D) as (L & G). exact (holds_same _ _ _ _ L G Ha).
Qed.
(** Graphs in several directories, used in any order: each is what its own invocations make it. *)
Theorem C174_histories : forall nd r t hs t' is, digit_table nd -> sane t ->
  separate (r :: map fst hs) -> (forall q, In q (r :: map fst hs) -> usable q t) ->
  t (r ++ [txt "lock"]) <> ADir -> t (r ++ [txt ".graph"]) = Nothing ->
  mine r hs = Init :: is -> Forall u64_invocation is -> thistory nd t hs t' ->
  exists g, trun (t_load r nd) t' = (t', Done (Ok g)) /\ built g /\ a_same (shown g) (fold_left a_invoke is a_empty).
Proof.
  intros nd r t hs t' is T S0 SEP U HL HG EI W H.
  assert (X : usable r t' /\ sane t' /\ holds nd (view r t') (fold_left a_invoke is a_empty)).
  2:{ destruct X as (X0 & X1 & X2). destruct (holds_load nd _ _ T X2) as (g & G1 & G2). exists g. split; [|assumption].
      destruct (sim_run _ r _ _ t' (sim_load r nd) (conj X1 X0)) as (A & _).
      rewrite A in G1. cbn [snd] in G1. unfold t_load in *. cbn [trun] in *. cbn [snd fst] in *. now rewrite G1. }
  assert (HL' : openable (fs_lock (view r t)) = true).
  { cbn [fs_lock view]. destruct (t (r ++ [txt "lock"])); [reflexivity..|contradiction]. }
  assert (HG' : fs_graph (view r t) = NoGraph) by (cbn [fs_graph view]; now rewrite HG).
  clear HL HG. revert EI. revert SEP U. induction H as [t|t r' i l t1 t2 chunks order B O E H IH]; intros SEP U EI; [discriminate|].
  cbn [map fst] in SEP, U. destruct (thistory_step _ _ _ _ _ _ _ _ _ SEP S0 U E) as (S1 & U1 & Q1 & Q2).
  assert (SEP1 : separate (r :: map fst l)).
  { intros a1 a2 I1 I2. apply SEP; [destruct I1; [now left|now right; right]|destruct I2; [now left|now right; right]]. }
  assert (U2 : forall q, In q (r :: map fst l) -> usable q t1).
  { intros q I. apply U1. destruct I; [now left|now right; right]. }
  assert (UE : sane t2 /\ forall q, In q (r :: r' :: map fst l) -> usable q t2).
  { clear - H S1 U1 SEP. revert S1 U1. assert (SUB : forall x, In x (map fst l) -> In x (r :: r' :: map fst l)) by (intros; now right; right).
    generalize dependent (r :: r' :: map fst l). intros all SEP SUB. 
    induction H as [t|t r1 i1 l t1 t3 chunks1 order1 B1 O1 E1 H IH]; intros S1 U1; [now split|].
    assert (I1 : In r1 all) by (apply SUB; now left).
    destruct (sim_run _ r1 _ _ t (sim_invoke r1 nd chunks1 order1 i1) (conj S1 (U1 r1 I1))) as (A & B & F).
    rewrite E1 in A, B, F. cbn [fst snd] in A, B, F. apply IH.
    - intros x I. apply SUB. now right.
    - exact (proj1 B).
    - intros q I. destruct (SEP r1 q I1 I) as [<-|AP]; [exact (proj2 B)|]. exact (apart_usable _ _ _ _ AP F (U1 q I)). }
  split; [exact (proj2 UE r (or_introl eq_refl))|]. split; [exact (proj1 UE)|].
  unfold mine in EI. cbn [filter fst] in EI. destruct (place_dec r' r) as [->|D].
  - cbn [map snd] in EI. injection EI as -> EI. fold (mine r l) in EI. rewrite <- EI in W |- *.
    apply (thistory_holds nd r t1 l t2 T H SEP1 S1 U2 W).
    pose proof (Q1 eq_refl) as RI. cbn [invoke] in RI. unfold gc_init in RI. rewrite run_bind, run_init, HG' in RI.
    apply (f_equal fst) in RI. cbn beta iota delta [run_prog fst snd] in RI. rewrite <- RI. split; [exact HL'|]. exists [], [].
    split; [reflexivity|]. split; [now left|]. split; [reflexivity|apply a_same_refl].
  - destruct (Q2 D) as (L & G). apply IH; try assumption; [now rewrite L|now rewrite G].
Qed.
Print Assumptions C174_histories.

(** ** Graphs that are not apart *)
Lemma trun_bind A B (P : tprog A) (F : A -> tprog B) t :
  trun (tbind P F) t = trun (F (snd (trun P t))) (fst (trun P t)).
Proof. revert t. induction P as [a|u k IH]; intro t; cbn [tbind trun]; [reflexivity|]. apply IH. Qed.
Lemma nothing_below t p q : sane t -> t p = Nothing -> t (p ++ q) = Nothing.
Proof.
  intros S0 E. destruct q as [|x q]; [now rewrite app_nil_r|]. destruct (t (p ++ x :: q)) eqn:E'; [reflexivity|exfalso..];
  (assert (K : t p = ADir) by (apply (sane_above t p (x :: q) S0); [congruence|discriminate])); congruence.
Qed.
(** REFUTED: that graphs in different directories never disturb each other.  A graph made in [<path>/lock] turns the lock
    of the graph at [<path>] into a directory: from then on no request on that graph is stored. *)
Theorem C174_lock_taken_refuted : forall root t, sane t -> t root = ADir -> t (root ++ [txt "lock"]) = Nothing ->
  exists t', trun (t_gc_init (root ++ [txt "lock"])) t = (t', Success) /\
    forall chunks cs t'' r, trun (t_apply root chunks cs) t' = (t'', r) ->
      r = IoErr /\ forall q, t'' (root ++ txt ".graph" :: q) = t (root ++ txt ".graph" :: q).
Proof.
  intros root t S0 R L. pose proof (usable_dir root t S0 R) as U.
  assert (U' : usable (root ++ [txt "lock"]) t).
  { intros a b E c Ec. destruct (prefix_split _ _ _ _ _ E) as [(m & -> & M)|(m & -> & M)].
    - destruct m as [|x [|y m]]; cbn [app] in M.
      + rewrite app_nil_r in Ec. congruence.
      + injection M as <- M. congruence.
      + injection M as <- M. discriminate.
    - exact (U a m eq_refl c Ec). }
  set (s := view (root ++ [txt "lock"]) t).
  assert (G0 : fs_graph s = NoGraph).
  { unfold s. cbn [fs_graph view]. now rewrite (nothing_below t _ [txt ".graph"] S0 L). }
  destruct (sim_run _ _ _ _ t (sim_gc_init (root ++ [txt "lock"])) (conj S0 U')) as (A & (B1 & B2) & F).
  fold s in A. unfold gc_init in A. rewrite run_bind, run_init, G0 in A. cbn beta iota delta [run_prog fst snd] in A.
  destruct (trun (t_gc_init (root ++ [txt "lock"])) t) as (t', e) eqn:E. cbn [fst snd] in A, B1, B2, F.
  pose proof (f_equal fst A) as A1. pose proof (f_equal snd A) as A2. cbn [fst snd] in A1, A2. subst e.
  exists t'. split; [reflexivity|]. intros chunks cs t'' r E2.
  assert (LD : t' (root ++ [txt "lock"]) = ADir).
  { apply dir_of. change (fs_root (view (root ++ [txt "lock"]) t') = true). now rewrite <- A1. }
  assert (RD : t' root = ADir) by (apply (proj2 B1 root (txt "lock")); congruence).
  assert (KP : forall q, t' (root ++ txt ".graph" :: q) = t (root ++ txt ".graph" :: q)).
  { intro q. destruct (F (root ++ txt ".graph" :: q)) as [K|(_ & _ & q' & K)]; [|assumption|].
    - intros [O|(q' & O)]; rewrite <- app_assoc in O; apply app_inv_head in O; discriminate.
    - rewrite <- app_assoc in K. apply app_inv_head in K. discriminate. }
  destruct (sim_run _ _ _ _ t' (sim_apply root chunks cs) (conj B1 (usable_dir root t' B1 RD))) as (C1 & (C2 & _) & C3).
  rewrite E2 in C1, C2, C3. cbn [fst snd] in C1, C2, C3.
  assert (LK : fs_lock (view root t') = Directory) by (cbn [fs_lock view]; now rewrite LD).
  assert (Z : snd (run_prog (apply_graph_commands chunks cs) (view root t')) = IoErr).
  { unfold apply_graph_commands, with_lock. rewrite run_bind. unfold lock. cbn [run_prog fst snd].
    cbn [set_root fs_root fs_lock]. rewrite LK. reflexivity. }
  rewrite C1 in Z. cbn [snd] in Z.
  split; [assumption|]. intro q. rewrite <- KP.
  (* the run stops when the lock cannot be taken *)
  revert E2. unfold t_apply, t_with_lock. rewrite trun_bind. unfold t_lock, t_touch. cbn [trun fst snd].
  unfold open_create, can_create, lock_path. rewrite removelast_last. change lock_name with (txt "lock").
  destruct (mkroot_ok root t' (conj B1 (usable_dir root t' B1 RD))) as (D1 & D2 & D3).
  assert (LK2 : make_dirs [] root t' (root ++ [txt "lock"]) = ADir).
  { pose proof (f_equal fs_lock D3) as X. cbn [fs_lock set_root view] in X. rewrite LD in X.
    now destruct (make_dirs [] root t' (root ++ [txt "lock"])). }
  rewrite !(proj2 (dir_of _ (root ++ [txt "lock"])) LK2). rewrite !andb_false_r. cbn [trun fst snd]. intros [= <- _].
  destruct (make_dirs_only t' [] root B1 (proj1 B1)) as (_ & M). destruct (M (root ++ txt ".graph" :: q)) as [K|(_ & _ & a & b & Ea & Eb)]; [assumption|].
  exfalso. cbn [app] in Eb. rewrite <- Eb, <- app_assoc in Ea. apply app_self in Ea. discriminate.
Qed.
Print Assumptions C174_lock_taken_refuted.
(** REFUTED likewise: cleaning the graph at [<path>] removes whatever is in [<path>/.graph], such as a graph made there. *)
Theorem C174_clean_inside_refuted : forall root force answer t t', sane t -> usable root t ->
  force = true \/ confirmed answer = true ->
  trun (t_gc_clean root force answer) t = (t', Success) -> forall q, t' (root ++ txt ".graph" :: q) = Nothing.
Proof.
  intros root force answer t t' S0 U FC E q.
  destruct (sim_run _ _ _ _ t (sim_gc_clean root force answer) (conj S0 U)) as (A & (B & _) & _).
  rewrite E in A, B. cbn [fst snd] in A, B.
  replace (root ++ txt ".graph" :: q) with ((root ++ [txt ".graph"]) ++ q) by now rewrite <- app_assoc.
  apply nothing_below; [assumption|].
  assert (G : fs_graph (view root t') = NoGraph).
  { unfold gc_clean in A. replace (negb force && negb (confirmed answer)) with false in A
      by (destruct FC as [-> | ->]; [reflexivity|now destruct force]).
    apply (f_equal (fun p => match snd p with Success => fs_graph (fst p) | Failure => NoGraph end)) in A. cbn [fst snd] in A.
    rewrite <- A. unfold clean, with_lock, lock, unlock. destruct (view root t) as [sr [|lc|] [| |e]]; reflexivity. }
  cbn [fs_graph view] in G. now destruct (t' (root ++ [txt ".graph"])).
Qed.
Print Assumptions C174_clean_inside_refuted.

(** ** A file where a directory of the path should be *)
Lemma make_dirs_blocked t names : sane t -> forall a b c above, names = a ++ b -> a <> [] -> t (above ++ a) = AFile c ->
  make_dirs above names t = t.
Proof.
  intro S0. induction names as [|n rest IH]; intros a b c above E D H; [now destruct a|].
  cbn [make_dirs]. destruct a as [|x a]; [congruence|]. injection E as <- E.
  destruct a as [|y a].
  - now rewrite H.
  - replace (t (above ++ [n])) with ADir.
    + apply (IH (y :: a) b c); [assumption|discriminate|]. now rewrite <- app_assoc.
    + symmetry. apply (sane_above t (above ++ [n]) (y :: a) S0); [rewrite <- app_assoc; cbn [app]; congruence|discriminate].
Qed.
(** Nothing is changed, nothing is found, and the library reports it. *)
Theorem C174_file_in_the_way : forall nd chunks root a b c t, sane t -> root = a ++ b -> t a = AFile c ->
  trun (t_init root) t = (t, IoErr) /\
  (forall cs, trun (t_apply root chunks cs) t = (t, IoErr)) /\
  trun (t_load root nd) t = (t, Done (Err (txt "io error"))) /\
  (forall g, trun (t_save root chunks g) t = (t, IoErr)) /\
  trun (t_clean root) t = (t, IoErr) /\
  (forall x, fst (trun (in_tree nd chunks root x) t) = t).
Proof.
  intros nd chunks root a b c t S0 E H.
  assert (D : a <> []) by (intros ->; destruct S0; congruence).
  assert (ND : forall q, is_dir t (root ++ q) = false).
  { intro q. rewrite E, <- app_assoc. destruct (is_dir t (a ++ b ++ q)) eqn:X; [exfalso|reflexivity]. apply dir_of in X.
    destruct (b ++ q) as [|x l] eqn:Y; [rewrite app_nil_r in X; congruence|].
    assert (K : t a = ADir) by (apply (sane_above t a (x :: l) S0); [congruence|discriminate]). congruence. }
  assert (NT : forall q, q <> [] -> t (root ++ q) = Nothing).
  { intros q Q. rewrite E, <- app_assoc. destruct (t (a ++ b ++ q)) eqn:X; [reflexivity|exfalso..];
    (assert (K : t a = ADir) by (apply (sane_above t a (b ++ q) S0); [congruence|destruct b; [assumption|discriminate]])); congruence. }
  assert (R0 : is_dir t root = false) by (rewrite <- (app_nil_r root); apply ND).
  assert (M : forall q, make_dirs [] (root ++ q) t = t).
  { intro q. apply (make_dirs_blocked t _ S0 a (b ++ q) c []); [now rewrite E, <- app_assoc|assumption|assumption]. }
  assert (L : trun (t_lock root) t = (t, IoErr)).
  { unfold t_lock, t_touch, open_create, can_create. cbn [trun]. unfold lock_path. rewrite removelast_last.
    pose proof (M []) as M0. rewrite app_nil_r in M0. rewrite M0. now rewrite R0. }
  assert (WL : forall A (P : tprog (io A)), trun (t_with_lock root P) t = (t, IoErr)).
  { intros A P. unfold t_with_lock. rewrite trun_bind, L. reflexivity. }
  assert (I : trun (t_init root) t = (t, IoErr)).
  { unfold t_init, t_touch, open_create, can_create. cbn [trun]. unfold command_path. rewrite removelast_two, M.
    now rewrite ND. }
  assert (LO : trun (t_load root nd) t = (t, Done (Err (txt "io error")))).
  { unfold t_load, command_path. cbn [trun]. now rewrite NT by discriminate. }
  assert (SA : forall g, trun (t_save root chunks g) t = (t, IoErr)).
  { intro g. unfold t_save, create_empty, can_create. cbn [trun]. unfold command_path. rewrite removelast_two, ND. reflexivity. }
  split; [assumption|]. split; [intro cs; apply WL|]. split; [assumption|]. split; [assumption|]. split; [apply WL|].
  assert (OP : forall A values (f : list text -> outcome A) C N0, (forall v, trun (C v) t = (t, IoErr)) -> fst (trun N0 t) = t ->
    fst (trun (t_option values f C N0) t) = t).
  { intros A values f C N0 HC HN. unfold t_option. destruct values as [vs|]; [|assumption]. destruct (f vs); [|reflexivity..].
    rewrite trun_bind, HC. assumption. }
  intros x. destruct x; cbn [in_tree]; rewrite trun_bind; cbn [trun fst].
  - unfold t_gc_init, t_status. rewrite trun_bind, I. reflexivity.
  - unfold t_status, t_apply. rewrite trun_bind, WL. reflexivity.
  - unfold t_gc_add, t_add_edges. cbv zeta. repeat (apply OP; [intro; apply WL|]). reflexivity.
  - unfold t_gc_delete. repeat (apply OP; [intro; apply WL|]). reflexivity.
  - unfold t_gc_build. rewrite trun_bind, LO. reflexivity.
  - unfold t_gc_clean. destruct (_ && _); [reflexivity|]. unfold t_status. rewrite trun_bind. unfold t_clean. rewrite WL. reflexivity.
  - unfold t_gc_random. destruct (_ && _); [reflexivity|]. rewrite trun_bind. unfold t_clean. rewrite WL. reflexivity.
  - now rewrite LO.
Qed.
Print Assumptions C174_file_in_the_way.

(** ** A concrete case: two graphs, one in a directory below the other, used in turns *)
Definition top_only : tree := fun p => match p with [] => ADir | _ => Nothing end.
Lemma top_sane : sane top_only.
Proof. split; [reflexivity|]. intros p n H. exfalso. apply H. now destruct p. Qed.
Lemma top_usable r : usable r top_only.
Proof. intros a b _ c. now destruct a. Qed.
Definition place_a : place := [txt "a"].
Definition place_b : place := [txt "a"; txt "b"].
Lemma ab_apart : apart place_a place_b.
Proof.
  split; [discriminate|]. intro q. unfold place_a, place_b. repeat split; intro E; cbn [app] in E; injection E; discriminate.
Qed.
Lemma ab_separate : separate [place_a; place_a; place_b; place_a; place_b].
Proof.
  assert (C : forall r, In r [place_a; place_a; place_b; place_a; place_b] -> r = place_a \/ r = place_b).
  { intros r [<-|[<-|[<-|[<-|[<-|[]]]]]]; (now left) || now right. }
  intros r1 r2 I1 I2. destruct (C r1 I1) as [-> | ->], (C r2 I2) as [-> | ->];
    (now left) || (right; apply ab_apart) || (right; apply apart_sym, ab_apart).
Qed.
Definition ab_history : list (place * invocation) :=
  [(place_a, Init); (place_b, Init); (place_a, AddEdges [(1, 2)%N]); (place_b, AddVertices [7%N])].
Example C174_case : exists t', thistory table top_only ab_history t' /\
  separate (place_a :: map fst ab_history) /\ sane top_only /\
  (forall q, In q (place_a :: map fst ab_history) -> usable q top_only) /\
  mine place_a ab_history = [Init; AddEdges [(1, 2)%N]] /\
  t' (place_a ++ [txt ".graph"; txt "commands"]) = AFile (txt "AddEdge 1 2" ++ [10%N]) /\
  t' (place_b ++ [txt ".graph"; txt "commands"]) = AFile (txt "AddVertex 7" ++ [10%N]).
Proof.
  eexists. split; [|split; [apply ab_separate|split; [apply top_sane|split; [intros; apply top_usable|split; [reflexivity|split]]]]].
  - eapply (th_cons table _ _ _ _ _ _ at_once id_order at_once_ok id_order_ok).
    { apply injective_projections; [reflexivity|vm_compute; reflexivity]. }
    eapply (th_cons table _ _ _ _ _ _ at_once id_order at_once_ok id_order_ok).
    { apply injective_projections; [reflexivity|vm_compute; reflexivity]. }
    eapply (th_cons table _ _ _ _ _ _ at_once id_order at_once_ok id_order_ok).
    { apply injective_projections; [reflexivity|vm_compute; reflexivity]. }
    eapply (th_cons table _ _ _ _ _ _ at_once id_order at_once_ok id_order_ok).
    { apply injective_projections; [reflexivity|vm_compute; reflexivity]. }
    constructor.
  - vm_compute. reflexivity.
  - vm_compute. reflexivity.
Qed.
(** The lock of a graph taken by another graph: gc-add still reports success, and stores nothing. *)
Example C174_case_lock :
  let run P t := fst (trun P t) in
  let t1 := run (t_gc_init place_a) top_only in
  let t2 := run (t_gc_init (place_a ++ [txt "lock"])) t1 in
  let add := {| a_vertex := Some [txt "5"]; a_reverse := false; a_edge := None; a_chain := None; a_cycle := None;
                a_star := None; a_clique := None |} in
  t1 place_a = ADir /\ t1 (place_a ++ [txt "lock"]) = Nothing /\
  snd (trun (t_gc_add place_a at_once add) t1) = Success /\
  run (t_gc_add place_a at_once add) t1 (place_a ++ [txt ".graph"; txt "commands"]) = AFile (txt "AddVertex 5" ++ [10%N]) /\
  snd (trun (t_gc_add place_a at_once add) t2) = Success /\
  run (t_gc_add place_a at_once add) t2 (place_a ++ [txt ".graph"; txt "commands"]) = AFile [].
Proof. vm_compute. repeat (split; [reflexivity|]). reflexivity. Qed.
(** A graph in the graph directory of another, removed with it. *)
Example C174_case_clean :
  let run P t := fst (trun P t) in
  let t1 := run (t_gc_init place_a) top_only in
  let t2 := run (t_gc_init (place_a ++ [txt ".graph"])) t1 in
  let t3 := run (t_gc_clean place_a true []) t2 in
  t2 (place_a ++ [txt ".graph"; txt ".graph"; txt "commands"]) = AFile [] /\
  snd (trun (t_gc_clean place_a true []) t2) = Success /\
  t3 (place_a ++ [txt ".graph"; txt ".graph"; txt "commands"]) = Nothing.
Proof. vm_compute. repeat (split; [reflexivity|]). reflexivity. Qed.
(** A path through a file. *)
Example C174_case_file :
  let t := put [txt "a"] (AFile (txt "x")) top_only in
  sane t /\ place_b = [txt "a"] ++ [txt "b"] /\ t [txt "a"] = AFile (txt "x").
Proof.
  split; [|split; reflexivity]. apply (put_file_sane top_only [] (txt "a") (txt "x") top_sane eq_refl). discriminate.
Qed.
