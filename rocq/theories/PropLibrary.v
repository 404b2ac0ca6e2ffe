(** * Properties C177 and C178: with_lock and is_locked in the hands of other programs *)
From Coq Require Import String.
From Coq Require Import List NArith ZArith Bool Arith Lia.
From Verif Require Import Spec Base Graph GraphSpec GraphFacts Text Format FormatSpec TextFacts FormatFacts
  Store StoreSpec StoreFacts CrashFacts PropFormat PropStore PropUtf8 PropKill Library.
Import ListNotations.
Open Scope N_scope.

(** ** What it means *)
(** A use that is reported as done: a call, or a lock around nothing. *)
Definition fine (u : use) : bool := match u with Call _ => true | Guard [] => true | Guard _ => false end.
(** What it stores: a sequence stops behind the first use that is not reported as done. *)
Fixpoint written (u : use) : list graph_command :=
  match u with
  | Call cs => cs
  | Guard l => (fix go l := match l with [] => [] | u :: r => written u ++ (if fine u then go r else []) end) l
  end.
Definition all_written (l : list use) : list graph_command := written (Guard l).

(** ** C177 *)
Lemma use_ind2 (P : use -> Prop) : (forall cs, P (Call cs)) -> (forall l, Forall P l -> P (Guard l)) -> forall u, P u.
Proof.
  intros HC HG. fix IH 1. intros [cs|l]; [apply HC|]. apply HG. induction l as [|u l IHl]; constructor; [apply IH|assumption].
Qed.
Lemma text_app cs cs' : commands_text (cs ++ cs') = commands_text cs ++ commands_text cs'.
Proof. unfold commands_text. now rewrite map_app, concat_app. Qed.
Lemma all_written_cons u l : all_written (u :: l) = written u ++ (if fine u then all_written l else []).
Proof. reflexivity. Qed.
Definition outcome_of (u : use) : io unit := if fine u then IoOk tt else IoErr.
(** The lock file is gone afterwards, the commands of [written] are stored, and only a call or a lock around nothing is reported as done. *)
Theorem C177_uses : forall chunks u s c, buffering chunks -> commands_entry s = File c -> openable (fs_lock s) = true ->
  exists s', run_prog (do_use chunks u) s = (s', outcome_of u) /\
    commands_entry s' = File (c ++ commands_text (written u)) /\ fs_lock s' = Absent.
Proof.
  intros chunks u s c B. revert s c. induction u as [cs|l IH] using use_ind2; intros s c E O.
  - cbn [do_use]. rewrite run_apply, O, E by assumption. eexists. split; [reflexivity|].
    split; [|reflexivity]. cbn [written]. apply commands_entry_dir in E. destruct s as [r x g]; cbn in *. now subst g.
  - cbn [do_use]. rewrite run_with_lock, O. cbv zeta.
    assert (T : forall s c, commands_entry s = File c -> openable (fs_lock s) = true -> l <> [] \/ True ->
      commands_entry (fst (run_prog (in_turn (do_use chunks) l) s)) = File (c ++ commands_text (all_written l)) /\
      (l = [] -> run_prog (in_turn (do_use chunks) l) s = (s, IoOk tt)) /\
      (l <> [] -> fs_lock (fst (run_prog (in_turn (do_use chunks) l) s)) = Absent)).
    { clear s c E O. induction IH as [|u l IHu IHl IH']; intros s c E O _.
      - cbn [in_turn run_prog fst]. split; [now rewrite E, app_nil_r|]. split; [reflexivity|]. intro X. now destruct X.
      - cbn [in_turn]. destruct (IHu s c E O) as (s1 & R & E1 & L1). rewrite run_bind, R. cbn [fst snd].
        rewrite all_written_cons, text_app. unfold outcome_of. destruct (fine u).
        + assert (O1 : openable (fs_lock s1) = true) by now rewrite L1.
          destruct (IH' s1 _ E1 O1 (or_intror I)) as (X & Y & Z). fold (in_turn (do_use chunks)).
          split; [rewrite X; now rewrite app_assoc|]. split; [discriminate|]. intros _.
          destruct l as [|u' l']; [now rewrite (Y eq_refl)|]. now apply Z.
        + cbn [run_prog fst snd]. split; [cbn [commands_text map concat]; now rewrite app_nil_r|]. split; [discriminate|now intros _]. }
    assert (E2 : commands_entry (locked s) = File c) by exact E.
    assert (O2 : openable (fs_lock (locked s)) = true) by (destruct s as [r [|x|] g]; cbn in *; congruence).
    destruct (T (locked s) c E2 O2 (or_intror I)) as (X & Y & Z). destruct l as [|u l].
    + rewrite (Y eq_refl). cbn [fst snd]. destruct s as [r [|x|] g]; cbn in O; try discriminate O; cbn [locked set_lock set_root created fs_lock];
        (eexists; split; [reflexivity|]; split; [|reflexivity]; cbn [written]; cbn [commands_text map concat]; now rewrite app_nil_r).
    + assert (NE : u :: l <> []) by discriminate. rewrite (Z NE). eexists. split; [reflexivity|]. split; [exact X|exact (Z NE)].
Qed.
Print Assumptions C177_uses.
(** A caller that holds the lock over one or more calls of the library is always told of a failure, and everything the calls
    wrote is stored. *)
Theorem C177_guarded_calls_refuted : forall chunks css s c, buffering chunks -> commands_entry s = File c -> openable (fs_lock s) = true ->
  css <> [] ->
  exists s', run_prog (do_use chunks (Guard (map Call css))) s = (s', IoErr) /\
    commands_entry s' = File (c ++ commands_text (concat css)).
Proof.
  intros chunks css s c B E O NE. destruct (C177_uses chunks (Guard (map Call css)) s c B E O) as (s' & R & E' & _). exists s'.
  assert (W : written (Guard (map Call css)) = concat css).
  { clear. change (all_written (map Call css) = concat css). induction css as [|cs css IH]; [reflexivity|].
    cbn [map concat]. rewrite all_written_cons. cbn [fine written]. now rewrite IH. }
  rewrite W in E'. split; [|exact E']. rewrite R. destruct css; [now destruct NE|reflexivity].
Qed.
Print Assumptions C177_guarded_calls_refuted.
(** Around the function of the file format, which does not lock, it does what it says. *)
Theorem C177_guarded_writes : forall chunks css s c, buffering chunks -> commands_entry s = File c -> openable (fs_lock s) = true ->
  exists s', run_prog (with_lock (raw_turn chunks css)) s = (s', IoOk tt) /\
    commands_entry s' = File (c ++ commands_text (concat css)) /\ fs_lock s' = Absent.
Proof.
  intros chunks css s c B E O. rewrite run_with_lock, O. cbv zeta.
  assert (T : forall css s c, commands_entry s = File c ->
    exists s', run_prog (raw_turn chunks css) s = (s', IoOk tt) /\ commands_entry s' = File (c ++ commands_text (concat css)) /\ fs_lock s' = fs_lock s).
  { clear css s c E O. induction css as [|cs css IH]; intros s c E.
    - exists s. split; [reflexivity|]. split; [|reflexivity]. cbn [concat commands_text map]. now rewrite app_nil_r.
    - cbn [raw_turn]. rewrite run_bind, run_add_commands, E by assumption. cbn [fst snd].
      destruct (IH (set_commands (File (c ++ commands_text cs)) s) (c ++ commands_text cs) eq_refl) as (s' & R & E' & L').
      exists s'. split; [exact R|]. split; [|exact L']. cbn [concat]. now rewrite text_app, app_assoc. }
  destruct (T css (locked s) c E) as (s' & R & E' & L'). rewrite R. cbn [fst snd]. rewrite L'.
  destruct s as [r [|x|] g]; cbn in O; try discriminate O; cbn [locked set_lock set_root created fs_lock];
    (eexists; split; [reflexivity|]; split; [exact E'|reflexivity]).
Qed.
Print Assumptions C177_guarded_writes.
(** The calls for one vertex or edge store what the calls for a list of one do. *)
Theorem C177_one : forall chunks v a b, add_vertex1 chunks v = add_vertices chunks [v] /\ add_edge1 chunks a b = add_edges chunks [(a, b)] /\
  remove_vertex1 chunks v = remove_vertices chunks [v] /\
  (forall s c, buffering chunks -> commands_entry s = File c -> openable (fs_lock s) = true ->
    exists s1 s2 s3,
    run_prog (add_vertex1 chunks v) s = (s1, IoOk tt) /\ commands_entry s1 = File (c ++ commands_text [AddVertex v]) /\
    run_prog (add_edge1 chunks a b) s = (s2, IoOk tt) /\ commands_entry s2 = File (c ++ commands_text [AddEdge a b]) /\
    run_prog (remove_vertex1 chunks v) s = (s3, IoOk tt) /\ commands_entry s3 = File (c ++ commands_text [RemoveVertex v])).
Proof.
  intros chunks v a b. split; [reflexivity|]. split; [reflexivity|]. split; [reflexivity|]. intros s c B E O.
  destruct (C177_uses chunks (Call [AddVertex v]) s c B E O) as (s1 & R1 & E1 & _).
  destruct (C177_uses chunks (Call [AddEdge a b]) s c B E O) as (s2 & R2 & E2 & _).
  destruct (C177_uses chunks (Call [RemoveVertex v]) s c B E O) as (s3 & R3 & E3 & _).
  now exists s1, s2, s3.
Qed.
Print Assumptions C177_one.
Example C177_case :
  run_prog (do_use bytewise (Guard [Call [AddVertex 4]; Guard [Call [AddVertex 5]; Call [AddVertex 6]]; Call [AddVertex 7]])) (with_file []) =
    (with_file (commands_text [AddVertex 4; AddVertex 5; AddVertex 6]), IoErr) /\
  run_prog (with_lock (raw_turn bytewise [[AddVertex 4]; [AddVertex 5]])) (with_file []) =
    (with_file (commands_text [AddVertex 4; AddVertex 5]), IoOk tt).
Proof. vm_compute. split; reflexivity. Qed.

(** ** C178 *)
Definition says_locked (s : fs) (b : bool) : Prop := run_prog is_locked s = (s, b).
(** A program that never touches the lock file. *)
Definition lockless {A} (p : prog A) : Prop := forall l, keeps (fun s => fs_lock s = l) p.
(** A process that took the lock and has yet to remove it. *)
Definition holds_it {A} (p : prog (io A)) : Prop := exists b, lockless b /\ p = section b.

(** In the block of a process that is alone, and after its end. *)
Theorem C178_alone : forall s, openable (fs_lock s) = true ->
  snd (run_prog (with_lock (bind is_locked (fun b => Ret (IoOk b)))) s) = IoOk true /\
  (forall A (b : prog (io A)), lockless b -> says_locked (fst (run_prog (with_lock b) s)) false).
Proof.
  intros s O. split.
  - destruct s as [r [|x|] g]; try discriminate O; reflexivity.
  - intros A b H. rewrite run_with_lock, O. cbv zeta.
    assert (L : fs_lock (fst (run_prog b (locked s))) = fs_lock (locked s)).
    { specialize (H (fs_lock (locked s))). revert H. generalize (eq_refl (fs_lock (locked s))). generalize (locked s) at 1 4. intros u U H.
      revert u U. induction H as [a|upd k K H' IH]; intros u U; cbn [run_prog fst]; [assumption|]. apply IH. now apply K. }
    rewrite L. destruct s as [r [|x|] g]; try discriminate O; reflexivity.
Qed.
Print Assumptions C178_alone.

(** Where a process [with_lock b] can be. *)
Inductive phase {A} : bool -> prog (io A) -> Prop :=
| ph_start b : lockless b -> phase false (with_lock b)
| ph_open b s0 : lockless b -> phase false (match with_lock b with Act _ k => k s0 | p => p end)
| ph_in b : lockless b -> phase true (section b)
| ph_done r : phase false (Ret r).
Lemma phase_step A x (p : prog (io A)) : phase x p -> forall upd k s, p = Act upd k -> fs_lock s <> Directory ->
  fs_lock (upd s) <> Directory /\ (exists y, phase y (k s)) /\
  (fs_lock (upd s) = Absent \/ phase true (k s) \/ (fs_lock (upd s) = fs_lock s /\ phase x (k s))).
Proof.
  intros H. destruct H as [b LB|b s0 LB|b LB|r]; intros upd k s Eq ND.
  - injection Eq as <- <-. assert (X : phase false (match with_lock b with Act _ k => k s | p => p end)) by now constructor.
    split; [exact ND|]. split; [exists false; exact X|]. right. right. split; [reflexivity|exact X].
  - injection Eq as <- <-. cbn [bind]. destruct (fs_root s); cbn [andb].
    + assert (O : openable (fs_lock s) = true) by (destruct (fs_lock s); [reflexivity..|now destruct ND]). rewrite O. cbn [bind].
      change (bind b (fun res => bind unlock (fun u => match u with IoOk _ => Ret res | IoErr => Ret IoErr end))) with (section b).
      split; [destruct s as [r [|y|] g]; cbn in *; congruence|]. split; [exists true; now constructor|]. right. left. now constructor.
    + split; [exact ND|]. split; [exists false; constructor|]. right. right. split; [reflexivity|constructor].
  - unfold section in Eq. destruct b as [r|upd0 k0].
    + cbn [bind] in Eq. unfold unlock in Eq. injection Eq as <- <-. split; [destruct (fs_lock s) eqn:X; cbn; congruence|].
      split.
      * exists false. destruct (fs_lock s); constructor.
      * left. destruct (fs_lock s) eqn:X; [exact X|reflexivity|now destruct ND].
    + cbn [bind] in Eq. injection Eq as <- <-.
      assert (L : fs_lock (upd0 s) = fs_lock s).
      { specialize (LB (fs_lock s)). inversion LB as [|u' k' K H' Q]; subst. now apply K. }
      assert (LK : lockless (k0 s)).
      { intro l. specialize (LB l). inversion LB as [|u' k' K H' Q]; subst. apply H'. }
      assert (X : phase true (section (k0 s))) by now constructor. unfold section in X.
      split; [now rewrite L|]. split; [exists true; exact X|]. right. left. exact X.
  - discriminate Eq.
Qed.
(** If nobody is killed, [true] means that somebody holds the lock. *)
Theorem C178_true_is_held : forall A (bs : list (prog (io A))) s s' ps, Forall lockless bs -> fs_lock s = Absent ->
  isteps (s, map with_lock bs) (s', ps) -> says_locked s' true -> Exists holds_it ps.
Proof.
  intros A bs s s' ps F L R.
  assert (INV : forall c c', @isteps (io A) c c' ->
    fs_lock (fst c) <> Directory -> Forall (fun p => exists x, phase x p) (snd c) -> (fs_lock (fst c) = Absent \/ Exists (phase true) (snd c)) ->
    fs_lock (fst c') = Absent \/ Exists (phase true) (snd c')).
  { clear. intros c c' R. induction R as [c|c c' c'' (pre & upd & k & post & E & Eu & Ek) R IH]; intros ND FA J; [assumption|].
    rewrite E in FA, J. apply Forall_app in FA. destruct FA as (F1 & F2). inversion F2 as [|p' l' (x & PX) F3 Q]; subst.
    destruct (phase_step A x _ PX upd k (fst c) eq_refl ND) as (ND' & (y & PY) & C).
    apply IH.
    - now rewrite Eu.
    - rewrite Ek. apply Forall_app. split; [assumption|]. constructor; [now exists y|assumption].
    - rewrite Eu, Ek. destruct C as [C|[C|(C & C')]]; [now left|right; apply Exists_app; right; now constructor|].
      destruct J as [J|J]; [left; now rewrite C|].
      assert (AB : fs_lock (upd (fst c)) = Absent \/ fs_lock (upd (fst c)) <> Absent) by (destruct (fs_lock (upd (fst c))); [now left|right; discriminate..]).
      destruct AB as [AB|AB]; [now left|right]. apply Exists_app in J. apply Exists_app. destruct J as [J|J]; [now left|right].
      inversion J as [? ? J1|? ? J1]; subst; [|now apply Exists_cons_tl].
      destruct (phase_step A true _ J1 upd k (fst c) eq_refl ND) as (_ & _ & [D|[D|(_ & D)]]); [|now apply Exists_cons_hd..].
      now destruct AB. }
  intro SL. assert (SA : fs_lock s' <> Absent) by (intro X; unfold says_locked, is_locked in SL; cbn in SL; rewrite X in SL; discriminate).
  destruct (INV _ _ R) as [X|X]; cbn [fst snd] in *; [now rewrite L| |now left|now destruct SA|].
  - apply Forall_map. revert F. apply Forall_impl. intros b H. exists false. now constructor.
  - revert X. clear. intro X. apply Exists_exists in X. apply Exists_exists. destruct X as (p & I & X). exists p. split; [assumption|].
    remember true as t eqn:T. destruct X as [b LB|b s0 LB|b LB|r]; try discriminate T. now exists b.
Qed.
Print Assumptions C178_true_is_held.
(** The other way round it says nothing: of two processes in their blocks one ends, and the other is still inside while
    [is_locked] says [false]. *)
Theorem C178_false_is_free_refuted : forall A (r : io A) (b : prog (io A)) s, openable (fs_lock s) = true ->
  exists s', isteps (s, [with_lock (Ret r); with_lock b]) (s', [Ret r; section b]) /\ says_locked s' false.
Proof.
  intros A r b s O.
  exists (fst (run_schedule [0%nat; 0%nat; 1%nat; 1%nat; 0%nat] s [with_lock (Ret r); with_lock b])).
  pose proof (run_schedule_isteps _ [0%nat; 0%nat; 1%nat; 1%nat; 0%nat] s [with_lock (Ret r); with_lock b]) as R.
  destruct s as [r0 [|x|] g]; try discriminate O; (split; [exact R|reflexivity]).
Qed.
Print Assumptions C178_false_is_free_refuted.
(** Nor does it help to ask first: two processes that do are in their blocks at the same time. *)
Theorem C178_ask_first_refuted : forall A (b1 b2 : prog (io A)) s, fs_lock s = Absent ->
  exists s', isteps (s, [careful b1; careful b2]) (s', [section b1; section b2]).
Proof.
  intros A b1 b2 s L.
  exists (fst (run_schedule [0%nat; 1%nat; 0%nat; 0%nat; 1%nat; 1%nat] s [careful b1; careful b2])).
  pose proof (run_schedule_isteps _ [0%nat; 1%nat; 0%nat; 0%nat; 1%nat; 1%nat] s [careful b1; careful b2]) as R.
  destruct s as [r0 x g]; cbn in L; subst x. exact R.
Qed.
Print Assumptions C178_ask_first_refuted.
(** A process that is killed in its block leaves the lock file. From then on whoever asks first does nothing, any number of
    them in any order; the next ordinary call of the library takes the lock file away. *)
Inductive patient {A} : fs -> fs -> Prop :=
| pat_none s : patient s s
| pat_next b s s1 s2 : fst (run_prog (@careful A b) s) = s1 -> patient s1 s2 -> patient s s2.
Theorem C178_killed_refuted : forall A (b : prog (io A)) s u, openable (fs_lock s) = true -> lockless b ->
  crash b (locked s) u ->
  crash (with_lock b) s u /\
  (forall u', @patient A u u' -> u' = u /\ says_locked u' true) /\
  (forall chunks cs, buffering chunks -> says_locked (fst (run_prog (apply_graph_commands chunks cs) u)) false).
Proof.
  intros A b s u O LB K.
  assert (L : exists l, fs_lock u = File l).
  { assert (L0 : exists l, fs_lock (locked s) = File l) by (destruct s as [r [|x|] g]; cbn in *; try discriminate O; eauto).
    destruct L0 as (l & L0). exists l. specialize (LB (File l)). clear O. revert L0 LB. induction K as [p v|upd k v v' K IH]; intros L0 LB; [assumption|].
    inversion LB as [|u' k' K1 H' Q]; subst. apply IH; [now apply K1|apply H']. }
  destruct L as (l & L). split; [|split].
  - assert (R : run_prog lock s = (locked s, IoOk tt)) by now rewrite run_lock, O.
    unfold with_lock. apply crash_bind. right. rewrite R. cbn [fst snd]. apply crash_bind. left. exact K.
  - intros u' P. induction P as [v|b' v v1 v2 E P IH].
    + split; [reflexivity|]. unfold says_locked, is_locked. cbn [run_prog]. now rewrite L.
    + assert (v1 = v). { rewrite <- E. unfold careful. rewrite run_bind. cbn [is_locked run_prog fst snd]. now rewrite L. }
      rewrite H in IH. exact (IH K L).
  - intros chunks cs B. rewrite run_apply by assumption. rewrite L. cbn [openable]. unfold says_locked.
    destruct (commands_entry u) eqn:E; reflexivity.
Qed.
Print Assumptions C178_killed_refuted.
(** A directory in the place of the lock file is reported as a lock, and nobody can take it. *)
Theorem C178_directory : forall A (b : prog (io A)) s, fs_lock s = Directory ->
  says_locked s true /\ run_prog (with_lock b) s = (set_root true s, IoErr).
Proof. intros A b [r x g] L. cbn in L. subst x. split; reflexivity. Qed.
Print Assumptions C178_directory.
Example C178_case : lockless (add_commands bytewise [AddVertex 4]) /\ openable (fs_lock (with_file [])) = true /\
  says_locked (with_file []) false /\ says_locked (locked (with_file [])) true /\
  crash (add_commands bytewise [AddVertex 4]) (locked (with_file [])) (locked (with_file [])).
Proof.
  split; [|split; [reflexivity|split; [reflexivity|split; [reflexivity|constructor]]]].
  intro l. constructor; [auto|]. intro s. destruct (commands_entry s); [constructor| |constructor].
  generalize (bytewise (add_pieces [AddVertex 4])). intro cs. induction cs as [|x cs IH]; cbn [append_chunks]; constructor; [|intro; exact IH].
  intros [r y [| |[|o|]]] H; exact H.
Qed.
