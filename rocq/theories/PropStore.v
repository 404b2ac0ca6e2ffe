(** * Properties C21-C28, C78, C94 and C95: the graph directory, its lock, crashes and
      concurrent processes *)
From Coq Require Import String.
From Coq Require Import List NArith Bool Arith Lia Permutation.
From Verif Require Import Spec Base Graph GraphSpec GraphFacts Text Format FormatSpec TextFacts FormatFacts
  Store StoreSpec StoreFacts CrashFacts PropFormat.
Import ListNotations.
Open Scope N_scope.

(** ** Vocabulary *)
(** What [load_graph] answers in a state. *)
Definition loads (nd : N -> bool) (s : fs) (g : graph) : Prop :=
  run_prog (load_graph nd) s = (s, Done (Ok g)).
(** The API call behind an invocation. *)
Definition exit_of {A} (p : prog (io A)) : prog exit :=
  bind p (fun r => Ret (match r with IoOk _ => Success | IoErr => Failure end)).
Definition invoke nd chunks order (i : invocation) : prog exit :=
  match i with
  | Init => gc_init
  | AddVertices vids => exit_of (add_vertices chunks vids)
  | AddEdges es => exit_of (add_edges chunks es)
  | RemoveVertices vids => exit_of (remove_vertices chunks vids)
  | RemoveEdges es => exit_of (remove_edges chunks es)
  | Build => gc_build nd chunks order
  end.
(** A history of complete invocations, each with its own buffering and hash
    order, all successful. *)
Inductive history nd : fs -> list invocation -> fs -> Prop :=
| h_nil s : history nd s [] s
| h_cons s i is s1 s2 chunks order : buffering chunks -> hash_order order ->
    run_prog (invoke nd chunks order i) s = (s1, Success) -> history nd s1 is s2 -> history nd s (i :: is) s2.
Definition id_order (g : graph) : graph := g.
Lemma id_order_ok : hash_order id_order.
Proof. intro g. reflexivity. Qed.

(** A directory for the examples. *)
Definition empty_dir : fs := {| fs_root := true; fs_lock := Absent; fs_graph := NoGraph |}.
Definition with_file (c : text) : fs := {| fs_root := true; fs_lock := Absent; fs_graph := GraphDir (File c) |}.

(** ** C21 *)
Theorem C21_init : forall s s' r, run_prog init s = (s', r) ->
  (* succeeds unless a path is taken by something else *)
  (r = IoOk tt <-> fs_graph s <> NotADir /\ fs_graph s <> GraphDir Directory) /\
  (* an existing file is left alone *)
  (forall c, commands_entry s = File c -> commands_entry s' = File c) /\
  (* a missing one is created empty, and loads as the empty graph *)
  (r = IoOk tt -> commands_entry s = Absent -> commands_entry s' = File [] /\
     forall nd, exists g, loads nd s' g /\ a_same (shown g) a_empty) /\
  (* the lock file is not touched *)
  fs_lock s' = fs_lock s /\
  (* running it again changes nothing *)
  run_prog init s' = (s', r).
Proof.
  intros s s' r. rewrite run_init. intro H.
  assert (He : forall nd t, fs_graph t = GraphDir (File []) -> exists g, loads nd t g /\ a_same (shown g) a_empty).
  { intros nd t Ht. exists g_new. split; [|split; intros; split; [discriminate|intros []|discriminate|intros []]].
    unfold loads. rewrite run_load. unfold commands_entry. rewrite Ht. reflexivity. }
  destruct (fs_graph s) as [| |e] eqn:Eg.
  - injection H as <- <-. split; [split; [intros _; split; discriminate|reflexivity]|].
    split; [unfold commands_entry; rewrite Eg; discriminate|]. split; [intros _ _; split; [reflexivity|intro; apply He; reflexivity]|].
    split; reflexivity.
  - injection H as <- <-. split; [split; [discriminate|intros [? _]; congruence]|].
    split; [unfold commands_entry; rewrite Eg; discriminate|]. split; [discriminate|].
    split; [reflexivity|]. rewrite run_init. cbn [set_root fs_graph]. now rewrite Eg.
  - destruct e as [|c|]; cbn [created openable] in H; injection H as <- <-.
    + split; [split; [intros _; split; discriminate|reflexivity]|].
      split; [unfold commands_entry; rewrite Eg; discriminate|]. split; [intros _ _; split; [reflexivity|intro; apply He; reflexivity]|].
      split; reflexivity.
    + split; [split; [intros _; split; discriminate|reflexivity]|].
      split; [unfold commands_entry; rewrite Eg; trivial|]. split; [unfold commands_entry; rewrite Eg; discriminate|].
      split; reflexivity.
    + split; [split; [discriminate|intros [_ ?]; congruence]|].
      split; [unfold commands_entry; rewrite Eg; discriminate|]. split; [discriminate|].
      split; reflexivity.
Qed.
Print Assumptions C21_init.
Example C21_case : run_prog init empty_dir = (with_file [], IoOk tt) /\
  run_prog init (with_file (txt "garbage")) = (with_file (txt "garbage"), IoOk tt).
Proof. split; reflexivity. Qed.

(** ** C22 *)
Lemma holds_invoke nd chunks order i s a : digit_table nd -> buffering chunks -> hash_order order ->
  u64_invocation i -> holds nd s a ->
  snd (run_prog (invoke nd chunks order i) s) = Success /\
  holds nd (fst (run_prog (invoke nd chunks order i) s)) (a_invoke a i).
Proof.
  intros T B O U H.
  assert (Hap : forall i, u64_invocation i ->
    snd (run_prog (exit_of (apply_graph_commands chunks (invocation_commands i))) s) = Success /\
    holds nd (fst (run_prog (exit_of (apply_graph_commands chunks (invocation_commands i))) s)) (a_invoke a i)).
  { intros j Uj. unfold exit_of. rewrite run_bind.
    destruct (holds_apply nd chunks (invocation_commands j) s a T B (invocation_commands_u64 j Uj) H) as [H1 H2].
    rewrite H1. cbn [run_prog fst snd]. split; [reflexivity|]. now rewrite <- invocation_commands_spec. }
  destruct i as [|vids|es|vids|es|]; cbn [invoke].
  - unfold gc_init. rewrite run_bind, run_init. destruct H as (Hl & c & cs & E & Hc & Hr & Ha).
    rewrite E. cbn [fst snd run_prog openable created]. split; [reflexivity|].
    split; [exact Hl|]. exists c, cs. cbn [a_invoke]. tauto.
  - apply (Hap (AddVertices vids) U).
  - apply (Hap (AddEdges es) U).
  - apply (Hap (RemoveVertices vids) U).
  - apply (Hap (RemoveEdges es) U).
  - now apply holds_build.
Qed.
Lemma holds_history nd s is s' : digit_table nd -> history nd s is s' -> forall a,
  Forall u64_invocation is -> holds nd s a -> holds nd s' (fold_left a_invoke is a).
Proof.
  intro T. induction 1 as [s|s i is s1 s2 chunks order B O E H IH]; intros a U Ha; [exact Ha|].
  inversion U; subst. cbn [fold_left]. apply IH; [assumption|].
  pose proof (holds_invoke nd chunks order i s a T B O H2 Ha) as [_ Hh]. now rewrite E in Hh.
Qed.

(** Loading after any history gives exactly the sets of the history. *)
Theorem C22_histories : forall nd s is s', digit_table nd ->
  openable (fs_lock s) = true -> (fs_graph s = NoGraph \/ fs_graph s = GraphDir Absent) ->
  Forall u64_invocation is -> history nd s (Init :: is) s' ->
  exists g, loads nd s' g /\ built g /\ a_same (shown g) (fold_left a_invoke is a_empty).
Proof.
  intros nd s is s' T Hl Hg U H. inversion H as [|? ? ? s1 ? chunks order B O E H']; subst.
  assert (H1 : holds nd s1 a_empty).
  { cbn [invoke] in E. unfold gc_init in E. rewrite run_bind, run_init in E.
    destruct Hg as [Hg|Hg]; rewrite Hg in E; cbn in E; injection E as <-;
      (split; [exact Hl|]); exists [], []; (split; [reflexivity|]); (split; [now left|]); (split; [reflexivity|]); apply a_same_refl. }
  pose proof (holds_history nd s1 is s' T H' a_empty U H1) as H2.
  destruct (holds_load nd s' _ T H2) as (g & Hgg & Hb & Hs). exists g.
  split; [|now split]. unfold loads. rewrite run_load in *. cbn [snd] in Hgg. now rewrite Hgg.
Qed.
Print Assumptions C22_histories.
(** No invocation of such a history can fail: whatever came before, the next one
    succeeds. *)
Theorem C22_histories_succeed : forall nd s is s' i chunks order, digit_table nd ->
  openable (fs_lock s) = true -> (fs_graph s = NoGraph \/ fs_graph s = GraphDir Absent) ->
  Forall u64_invocation (is ++ [i]) -> history nd s (Init :: is) s' -> buffering chunks -> hash_order order ->
  snd (run_prog (invoke nd chunks order i) s') = Success.
Proof.
  intros nd s is s' i chunks order T Hl Hg U H B O. apply Forall_app in U. destruct U as [U Ui].
  inversion Ui as [|? ? Ui1 _]; subst.
  inversion H as [|? ? ? s1 ? chunks0 order0 B0 O0 E H']; subst.
  assert (H1 : holds nd s1 a_empty).
  { cbn [invoke] in E. unfold gc_init in E. rewrite run_bind, run_init in E.
    destruct Hg as [Hg|Hg]; rewrite Hg in E; cbn in E; injection E as <-;
      (split; [exact Hl|]); exists [], []; (split; [reflexivity|]); (split; [now left|]); (split; [reflexivity|]); apply a_same_refl. }
  pose proof (holds_history nd s1 is s' T H' a_empty U H1) as H2.
  now apply (holds_invoke nd chunks order i s' _ T B O Ui1 H2).
Qed.
Print Assumptions C22_histories_succeed.
Example C22_case : exists s', Forall u64_invocation [AddEdges [(1, 2); (2, 3)]; Build; RemoveVertices [2]] /\
  history table empty_dir [Init; AddEdges [(1, 2); (2, 3)]; Build; RemoveVertices [2]] s' /\
  commands_entry s' = File (txt "AddVertex 1" ++ [10] ++ txt "AddVertex 2" ++ [10] ++ txt "AddVertex 3" ++ [10] ++
    txt "AddEdge 1 2" ++ [10] ++ txt "AddEdge 2 3" ++ [10] ++ txt "RemoveVertex 2" ++ [10]).
Proof.
  eexists. split; [repeat constructor|]. split.
  - eapply (h_cons table _ _ _ _ _ at_once id_order at_once_ok id_order_ok); [vm_compute; reflexivity|].
    eapply (h_cons table _ _ _ _ _ at_once id_order at_once_ok id_order_ok); [vm_compute; reflexivity|].
    eapply (h_cons table _ _ _ _ _ at_once id_order at_once_ok id_order_ok); [vm_compute; reflexivity|].
    eapply (h_cons table _ _ _ _ _ at_once id_order at_once_ok id_order_ok); [vm_compute; reflexivity|].
    constructor.
  - vm_compute. reflexivity.
Qed.

(** ** C23 *)
Theorem C23_build : forall nd chunks order s s' r, digit_table nd -> buffering chunks -> hash_order order ->
  run_prog (gc_build nd chunks order) s = (s', r) ->
  (forall g, loads nd s g -> r = Success /\
     (exists g', loads nd s' g' /\ built g' /\ a_same (shown g') (shown g)) /\
     exists vs es, NoDup vs /\ (forall v, In v vs <-> contains_vertex g v = true) /\
       NoDup es /\ (forall a b, In (a, b) es <-> contains_edge g (a, b) = true) /\
       commands_entry s' = File (commands_text (map AddVertex vs ++ map (fun e => AddEdge (fst e) (snd e)) es))) /\
  ((forall g, ~ loads nd s g) -> r = Failure /\ s' = s) /\
  fs_lock s' = fs_lock s.
Proof.
  intros nd chunks order s s' r T B O. rewrite run_build by assumption. intro H.
  unfold loads. rewrite run_load. destruct (commands_entry s) as [|c|] eqn:Ec.
  - injection H as <- <-. split; [discriminate|]. now repeat split.
  - destruct (gcmd_read nd c) as [[g|m]| |] eqn:Er; injection H as <- <-;
      try (split; [discriminate|]; now repeat split).
    split; [|split; [intro H; exfalso; now apply (H g)|reflexivity]].
    intros g' [= <-]. split; [reflexivity|].
    apply gcmd_read_ok in Er. destruct Er as (cs & Hr & ->). set (g := apply_commands cs g_new).
    assert (Bg : built_by cs g) by apply built_by_apply.
    assert (Wg : wf g) by now apply (built_by_wf Bg).
    assert (Wo : wf (order g)) by (eapply wf_perm; [exact Wg|apply O]).
    assert (So : a_same (shown (order g)) (shown g)) by (apply shown_perm; [assumption|apply O]).
    assert (Uo : u64_graph (order g)).
    { intros v Hv. apply (built_by_u64 cs g Bg); [now apply (read_u64 nd c)|]. now apply (proj1 So). }
    split.
    + exists (apply_commands (as_commands (order g)) g_new).
      rewrite run_load, commands_set, (gcmd_roundtrip nd T) by assumption.
      split; [reflexivity|]. split; [apply built_apply_commands, built_empty|].
      eapply a_same_trans; [now apply as_commands_roundtrip|exact So].
    + exists (vertices (order g)), (edges (order g)).
      destruct (vertices_spec Wo) as [V1 V2]. destruct (edges_spec Wo) as [E1 E2].
      split; [assumption|]. split; [intro v; rewrite V2; apply (proj1 So)|].
      split; [assumption|]. split.
      * intros a b. rewrite (edges_In a b Wo), <- (contains_edge_hasE a b Wo). apply (proj2 So).
      * rewrite commands_set. f_equal. apply gcmd_text_commands.
  - injection H as <- <-. split; [discriminate|]. now repeat split.
Qed.
Print Assumptions C23_build.
Example C23_case : exists g, loads table (with_file (txt "AddEdge 5 6" ++ [10] ++ txt "RemoveVertex 6")) g /\
  fst (run_prog (gc_build table at_once id_order) (with_file (txt "AddEdge 5 6" ++ [10] ++ txt "RemoveVertex 6"))) =
    with_file (txt "AddVertex 5" ++ [10]).
Proof. eexists. split; reflexivity. Qed.

(** ** C24 *)
Theorem C24_with_lock : forall A (block : prog (io A)) s s1 r,
  openable (fs_lock s) = true ->
  (* the block runs once, in the state with the lock file present *)
  run_prog block {| fs_root := true; fs_lock := created (fs_lock s); fs_graph := fs_graph s |} = (s1, r) ->
  (exists l, created (fs_lock s) = File l) /\
  (* if it leaves the lock file alone, the lock is released and its result returned *)
  ((exists l, fs_lock s1 = File l) ->
     run_prog (with_lock block) s =
       ({| fs_root := fs_root s1; fs_lock := Absent; fs_graph := fs_graph s1 |}, r)).
Proof.
  intros A block s s1 r Hl E. split; [destruct (fs_lock s); cbn in *; try discriminate; eauto|].
  intros [l Hf]. rewrite run_with_lock, Hl. cbn zeta.
  change (locked s) with {| fs_root := true; fs_lock := created (fs_lock s); fs_graph := fs_graph s |}.
  rewrite E. cbn [fst snd]. now rewrite Hf.
Qed.
Print Assumptions C24_with_lock.
(** The adding and removing calls are such blocks: they leave no lock file
    behind whether they succeed or not, and an old lock file does not stop
    them. *)
Theorem C24_apply : forall chunks cs s s' r, buffering chunks ->
  openable (fs_lock s) = true -> run_prog (apply_graph_commands chunks cs) s = (s', r) ->
  fs_lock s' = Absent /\
  (r = IoOk tt <-> exists c, commands_entry s = File c) /\
  (forall c, commands_entry s = File c -> commands_entry s' = File (c ++ commands_text cs)) /\
  (r = IoErr -> fs_graph s' = fs_graph s).
Proof.
  intros chunks cs s s' r B Hl. rewrite run_apply, Hl by assumption.
  destruct (commands_entry s) as [|c|] eqn:Ec; intros [= <- <-].
  - split; [reflexivity|]. split; [split; [discriminate|intros [c Hc]; discriminate]|]. split; [discriminate|reflexivity].
  - split; [reflexivity|]. split; [split; [eauto|reflexivity]|]. split; [now intros c' [= <-]|discriminate].
  - split; [reflexivity|]. split; [split; [discriminate|intros [c Hc]; discriminate]|]. split; [discriminate|reflexivity].
Qed.
Print Assumptions C24_apply.
Example C24_case : run_prog (apply_graph_commands bytewise [AddVertex 4])
  {| fs_root := true; fs_lock := File (txt "stale"); fs_graph := GraphDir (File []) |} =
  (with_file (txt "AddVertex 4" ++ [10]), IoOk tt).
Proof. reflexivity. Qed.

(** ** C25: there is no mutual exclusion. *)
Theorem C25_mutual_exclusion_refuted : forall A (b1 b2 : prog (io A)) s, openable (fs_lock s) = true ->
  exists s', isteps (s, [with_lock b1; with_lock b2]) (s', [section b1; section b2]).
Proof. intros A b1 b2 s H. destruct (both_inside A b1 b2 s H) as (s' & H' & _). eauto. Qed.
Print Assumptions C25_mutual_exclusion_refuted.
(** As a result a process can report a failure although its commands were
    stored. *)
Theorem C25_spurious_failure_refuted : forall c cs1 cs2, exists s',
  isteps (with_file c, [apply_graph_commands at_once cs1; apply_graph_commands at_once cs2])
         (s', [Ret (IoOk tt); Ret IoErr]) /\
  commands_entry s' = File ((c ++ commands_text cs1) ++ commands_text cs2).
Proof.
  intros c cs1 cs2.
  set (sch := [0; 0; 1; 1; 0; 0; 1; 1; 0; 1]%nat).
  exists (fst (run_schedule sch (with_file c) [apply_graph_commands at_once cs1; apply_graph_commands at_once cs2])).
  split; [exact (run_schedule_isteps _ sch (with_file c) [apply_graph_commands at_once cs1; apply_graph_commands at_once cs2])|].
  rewrite <- (concat_add_pieces cs1), <- (concat_add_pieces cs2). reflexivity.
Qed.
Print Assumptions C25_spurious_failure_refuted.
Example C25_case : openable (fs_lock (with_file [])) = true.
Proof. reflexivity. Qed.

(** ** C26: an addition made while gc-build runs can vanish, both reporting
    success. *)
Theorem C26_lost_update_refuted : forall nd chunks order s a v, digit_table nd -> buffering chunks -> hash_order order ->
  holds nd s a -> u64 v -> ~ aV a v ->
  exists s' g, isteps (s, [gc_build nd chunks order; exit_of (add_vertices chunks [v])]) (s', [Ret Success; Ret Success]) /\
    loads nd s' g /\ contains_vertex g v = false.
Proof.
  intros nd chunks order s a v T B O Hh Hu Hv.
  destruct Hh as (Hl & c & cs & E & Hc & Hr & Ha).
  assert (Er : gcmd_read nd c = Done (Ok (apply_commands cs g_new))) by (apply gcmd_read_ok; eauto).
  set (g0 := apply_commands cs g_new) in *.
  (* gc-build reads, then the other process runs to its end *)
  set (rest := bind (save_graph_as_commands chunks (order g0)) (fun w => Ret (match w with IoOk _ => Success | IoErr => Failure end))).
  assert (S1 : isteps (s, [gc_build nd chunks order; exit_of (add_vertices chunks [v])]) (s, [rest; exit_of (add_vertices chunks [v])])).
  { eapply is_step; [|constructor]. eexists [], _, _, _. split; [reflexivity|]. split; [reflexivity|].
    cbn [fst snd app]. unfold commands_entry. rewrite E. cbn [bind]. rewrite Er. reflexivity. }
  set (s2 := fst (run_prog (exit_of (add_vertices chunks [v])) s)).
  assert (R2 : run_prog (exit_of (add_vertices chunks [v])) s =
    (set_commands (File (c ++ commands_text [AddVertex v])) (released s), Success)).
  { unfold exit_of, add_vertices. rewrite run_bind, run_apply, Hl by assumption. unfold commands_entry. rewrite E. reflexivity. }
  assert (S2 : isteps (s, [rest; exit_of (add_vertices chunks [v])]) (s2, [rest; Ret Success])).
  { pose proof (run_isteps _ (exit_of (add_vertices chunks [v])) s [rest] []) as H. rewrite R2 in H. cbn [fst snd] in H.
    unfold s2. rewrite R2. exact H. }
  assert (R3 : run_prog rest s2 = (set_commands (File (gcmd_text (order g0))) (released s), Success)).
  { unfold rest, s2. rewrite R2, run_bind, run_save by assumption. reflexivity. }
  assert (S3 : isteps (s2, [rest; Ret Success]) (set_commands (File (gcmd_text (order g0))) (released s), [Ret Success; Ret Success])).
  { pose proof (run_isteps _ rest s2 [] [Ret Success]) as H. rewrite R3 in H. exact H. }
  assert (Bg : built_by cs g0) by apply built_by_apply.
  assert (Wg : wf g0) by now apply (built_by_wf Bg).
  assert (Wo : wf (order g0)) by (eapply wf_perm; [exact Wg|apply O]).
  assert (So : a_same (shown (order g0)) (shown g0)) by (apply shown_perm; [assumption|apply O]).
  assert (Uo : u64_graph (order g0)).
  { intros x Hx. apply (built_by_u64 cs g0 Bg); [now apply (read_u64 nd c)|]. now apply (proj1 So). }
  exists (set_commands (File (gcmd_text (order g0))) (released s)), (apply_commands (as_commands (order g0)) g_new).
  split; [eapply isteps_trans; [exact S1|]; eapply isteps_trans; [exact S2|exact S3]|].
  split; [unfold loads; rewrite run_load, commands_set, (gcmd_roundtrip nd T) by assumption; reflexivity|].
  apply not_true_iff_false. intro Hx. apply Hv.
  assert (Sx : a_same (shown (apply_commands (as_commands (order g0)) g_new)) a).
  { eapply a_same_trans; [now apply as_commands_roundtrip|]. eapply a_same_trans; [exact So|].
    eapply a_same_trans; [apply (refines Bg)|exact Ha]. }
  now apply (proj1 Sx).
Qed.
Print Assumptions C26_lost_update_refuted.
Example C26_case : holds table (with_file (txt "AddVertex 1" ++ [10])) (a_run [AddVertex 1]) /\ ~ aV (a_run [AddVertex 1]) 2.
Proof.
  split.
  - split; [reflexivity|]. exists (txt "AddVertex 1" ++ [10]), [AddVertex 1].
    split; [reflexivity|]. split; [right; eexists; reflexivity|]. split; [reflexivity|apply a_same_refl].
  - cbn. intuition lia.
Qed.
(** Concurrent additions and removals alone lose nothing as long as each of them
    reaches the file in at most one write: any number of processes, any schedule,
    any of them stopped anywhere. *)
Theorem C26_concurrent_appends : forall nd (ws : list ((list text -> list text) * list graph_command)) s c cs s' ps,
  digit_table nd -> fs_root s = true -> openable (fs_lock s) = true -> fs_graph s = GraphDir (File c) ->
  closed c -> gcmd_read_as_commands nd c = Done (Ok cs) ->
  Forall (fun w => buffering (fst w) /\ (length (fst w (add_pieces (snd w))) <= 1)%nat) ws ->
  Forall (Forall u64_command) (map snd ws) ->
  isteps (s, map (fun w => apply_graph_commands (fst w) (snd w)) ws) (s', ps) ->
  exists written rest, Permutation (written ++ rest) (map snd ws) /\
    (Forall (fun p => exists r, p = Ret r) ps -> rest = []) /\
    exists c', commands_entry s' = File c' /\ closed c' /\
      gcmd_read_as_commands nd c' = Done (Ok (cs ++ concat written)).
Proof.
  intros nd ws s c cs s' ps T Hr Hl Hg Hc Hread One U H.
  destruct (winv_steps c _ _ _ H (winv_init s c ws (conj Hr (conj Hl Hg)))) as (xs & m & HF & Hm & (_ & _ & Hs) & _).
  cbn [fst snd] in *. destruct (emits_whole ws m _ One Hm) as (w & r & Hp & Em & Hd). exists w, r. split; [assumption|].
  split; [intro F; apply Hd; now apply (wstages_over xs ps)|].
  exists (c ++ texts w). unfold commands_entry. rewrite Hs, Em. split; [reflexivity|]. rewrite texts_concat.
  assert (Uw : Forall u64_command (concat w)).
  { apply Forall_concat. rewrite Forall_forall in *. intros x Hx. apply U. eapply Permutation_in; [exact Hp|].
    apply in_or_app. now left. }
  split; [apply closed_app; [assumption|apply closed_commands]|]. now apply C18_append.
Qed.
Print Assumptions C26_concurrent_appends.
Example C26_appends_case : closed (txt "AddVertex 7" ++ [10]) /\
  gcmd_read_as_commands table (txt "AddVertex 7" ++ [10]) = Done (Ok [AddVertex 7]) /\
  Forall (Forall u64_command) [[AddVertex 1; AddEdge 1 7]; [RemoveVertex 7]] /\
  Forall (fun w => buffering (fst w) /\ (length (fst w (add_pieces (snd w))) <= 1)%nat)
    [(at_once, [AddVertex 1; AddEdge 1 7]); (at_once, [RemoveVertex 7])].
Proof.
  split; [right; eexists; reflexivity|]. split; [reflexivity|]. split; [repeat constructor|].
  constructor; [split; [apply at_once_ok|reflexivity]|]. constructor; [split; [apply at_once_ok|reflexivity]|constructor].
Qed.
(** With several writes per process the lines of two processes can mix and the
    graph becomes unreadable; here the process whose line is torn apart reports
    success. *)
Theorem C26_mixed_lines_refuted : forall nd, digit_table nd -> exists chunks s' r1 r2 m, buffering chunks /\
  isteps (with_file [], [apply_graph_commands chunks [AddVertex 1]; apply_graph_commands chunks [AddVertex 2]])
         (s', [Ret r1; Ret r2]) /\ r1 = IoOk tt /\
  snd (run_prog (load_graph nd) s') = Done (Err m).
Proof.
  intros nd T. exists bytewise.
  set (sch := ([0; 0; 1; 1; 0; 1] ++ [0] ++ repeat 1 12 ++ repeat 0 12 ++ [1])%nat).
  set (ps := [apply_graph_commands bytewise [AddVertex 1]; apply_graph_commands bytewise [AddVertex 2]]).
  exists (fst (run_schedule sch (with_file []) ps)), (IoOk tt), IoErr,
    (txt "Error at line 1: Couldn't parse 'AAddVertex 2'").
  split; [apply bytewise_ok|]. split; [exact (run_schedule_isteps _ sch (with_file []) ps)|].
  split; [reflexivity|]. rewrite run_load. cbn [snd].
  change (commands_entry (fst (run_schedule sch (with_file []) ps))) with
    (File (txt "AAddVertex 2" ++ [10] ++ txt "ddVertex 1" ++ [10])).
  assert (E : gcmd_read_as_commands nd (txt "AAddVertex 2" ++ [10] ++ txt "ddVertex 1" ++ [10]) =
    Done (Err (txt "Error at line 1: Couldn't parse 'AAddVertex 2'"))).
  { apply read_as_commands_err.
    exists [], (txt "AAddVertex 2"), [txt "ddVertex 1"], [], (txt "Couldn't parse 'AAddVertex 2'").
    split; [reflexivity|]. split; [constructor|]. split.
    - intros [H|(w & t & H & Hw)]; [discriminate|]. destruct Hw as [|y w Hy Hw]; injection H as H _; [discriminate|].
      subst y. unfold blank in Hy. cbn [In] in Hy. lia.
    - split; [|reflexivity]. apply gcmd_parse_err; [assumption|]. split; [|reflexivity].
      intros x H. inversion H. }
  unfold gcmd_read, read, gcmd_read_as_commands in *. now rewrite E.
Qed.
Print Assumptions C26_mixed_lines_refuted.

(** However the processes cut their texts into writes, no byte is lost, repeated
    or altered: the file grows by the pieces of all processes, each process's own
    pieces in order. *)
Theorem C26_no_byte_lost : forall (ws : list ((list text -> list text) * list graph_command)) s c s' ps,
  fs_root s = true -> openable (fs_lock s) = true -> fs_graph s = GraphDir (File c) ->
  isteps (s, map (fun w => apply_graph_commands (fst w) (snd w)) ws) (s', ps) ->
  exists m rest, emits (map (fun w => fst w (add_pieces (snd w))) ws) m rest /\
    commands_entry s' = File (c ++ concat m) /\
    (Forall (fun p => exists r, p = Ret r) ps -> Forall (eq []) rest).
Proof.
  intros ws s c s' ps Hr Hl Hg H.
  destruct (winv_steps c _ _ _ H (winv_init s c ws (conj Hr (conj Hl Hg)))) as (xs & m & HF & Hm & (_ & _ & Hs) & _).
  cbn [fst snd] in *. exists m, (map snd xs). split; [assumption|].
  split; [unfold commands_entry; now rewrite Hs|]. intro F. now apply (wstages_over xs ps).
Qed.
Print Assumptions C26_no_byte_lost.
(** Two writers, the first in two pieces, the second between them. *)
Example C26_bytes_case : emits [[txt "Add"; txt "Vertex 1"]; [txt "AddVertex 2"]]
  [txt "Add"; txt "AddVertex 2"; txt "Vertex 1"] [[]; []].
Proof.
  apply (em_piece _ [txt "Add"; txt "AddVertex 2"] [] (txt "Vertex 1") [] [[]]).
  apply (em_piece _ [txt "Add"] [[txt "Vertex 1"]] (txt "AddVertex 2") [] []).
  apply (em_piece _ [] [] (txt "Add") [txt "Vertex 1"] [[txt "AddVertex 2"]]). constructor.
Qed.

(** ** C94 *)
Theorem C94_lock_released : forall (ws : list ((list text -> list text) * list graph_command)) s c s' ps,
  ws <> [] -> fs_root s = true -> openable (fs_lock s) = true -> fs_graph s = GraphDir (File c) ->
  isteps (s, map (fun w => apply_graph_commands (fst w) (snd w)) ws) (s', ps) ->
  Forall (fun p => exists r, p = Ret r) ps ->
  fs_lock s' = Absent /\ In (Ret (IoOk tt)) ps.
Proof.
  intros ws s c s' ps Hne Hr Hl Hg H F.
  destruct (winv_steps c _ _ _ H (winv_init s c ws (conj Hr (conj Hl Hg)))) as (xs & m & HF & _ & _ & Hi & Ho).
  cbn [fst snd] in *. destruct (wstages_over xs ps HF F) as [Hov _].
  assert (Hn : map (fun w : (list text -> list text) * list graph_command => fst w (add_pieces (snd w))) ws <> []).
  { destruct ws; [now elim Hne|discriminate]. }
  split; [auto|]. destruct (Hi Hn) as [H1|[H1|[H1 _]]]; [assumption| |].
  - rewrite Forall_forall in Hov. apply Hov in H1. discriminate.
  - elim H1. auto.
Qed.
Print Assumptions C94_lock_released.
(** A stale lock file and two processes whose steps alternate. *)
Example C94_case : exists s', isteps
    ({| fs_root := true; fs_lock := File (txt "stale"); fs_graph := GraphDir (File []) |},
     map (fun w => apply_graph_commands (fst w) (snd w)) [(at_once, [AddVertex 1]); (at_once, [AddVertex 2])])
    (s', [Ret (IoOk tt); Ret IoErr]) /\ fs_lock s' = Absent.
Proof.
  set (s := {| fs_root := true; fs_lock := File (txt "stale"); fs_graph := GraphDir (File []) |}).
  set (ps := map (fun w : (list text -> list text) * list graph_command => apply_graph_commands (fst w) (snd w))
    [(at_once, [AddVertex 1]); (at_once, [AddVertex 2])]).
  set (sch := [0; 1; 0; 1; 0; 1; 0; 1; 0; 1]%nat).
  exists (fst (run_schedule sch s ps)).
  split; [exact (run_schedule_isteps _ sch s ps)|reflexivity].
Qed.

(** ** C95: histories in which any addition or removal that needs at most one
    write may be cut short *)
Inductive faulty_history nd : fs -> list event -> fs -> Prop :=
| fh_nil s : faulty_history nd s [] s
| fh_finishes s i es s' chunks order : buffering chunks -> hash_order order ->
    faulty_history nd (fst (run_prog (invoke nd chunks order i) s)) es s' ->
    faulty_history nd s (Finishes i :: es) s'
| fh_stops s i es s1 s' chunks order : i <> Build ->
    buffering chunks -> (length (chunks (add_pieces (invocation_commands i))) <= 1)%nat ->
    crash (invoke nd chunks order i) s s1 ->
    faulty_history nd s1 es s' -> faulty_history nd s (Stops i :: es) s'.
Definition event_invocation (e : event) : invocation := match e with Finishes i | Stops i => i end.

Lemma holds_stop nd chunks order i s s1 a : digit_table nd -> buffering chunks ->
  (length (chunks (add_pieces (invocation_commands i))) <= 1)%nat -> i <> Build -> u64_invocation i -> holds nd s a ->
  crash (invoke nd chunks order i) s s1 -> holds nd s1 a \/ holds nd s1 (a_invoke a i).
Proof.
  intros T B H1w Hi U Hh H.
  assert (Hap : forall j, u64_invocation j -> (length (chunks (add_pieces (invocation_commands j))) <= 1)%nat ->
            crash (exit_of (apply_graph_commands chunks (invocation_commands j))) s s1 ->
            holds nd s1 a \/ holds nd s1 (a_invoke a j)).
  { clear H H1w. intros j Uj H1w H. pose proof Hh as (Hl & c & cs & E & Hc & Hr & Ha).
    assert (Hce : commands_entry s = File c) by (unfold commands_entry; now rewrite E).
    unfold exit_of in H. apply crash_bind in H. destruct H as [H|H].
    - destruct (crash_apply_once _ _ _ _ _ B H1w Hl Hce H) as [H1 [H2|H2]].
      + left. split; [assumption|]. exists c, cs. tauto.
      + right. split; [assumption|].
        destruct (holds_apply nd chunks (invocation_commands j) s a T B (invocation_commands_u64 j Uj) Hh) as [_ H3].
        rewrite run_apply, Hl, Hce in H3 by assumption. cbn [fst] in H3.
        destruct H3 as (_ & c' & cs' & E' & H3). cbn in E'. injection E' as <-.
        exists (c ++ commands_text (invocation_commands j)), cs'. split; [assumption|].
        now rewrite <- invocation_commands_spec.
    - destruct (holds_apply nd chunks (invocation_commands j) s a T B (invocation_commands_u64 j Uj) Hh) as [H4 H3].
      rewrite H4 in H. apply crash_ret in H. subst s1. right. now rewrite <- invocation_commands_spec. }
  destruct i as [|vids|es|vids|es|]; cbn [invoke] in H.
  - left. destruct Hh as (Hl & c & cs & E & Hx). unfold gc_init, init in H. cbn [bind] in H.
    destruct s as [rt l d]. cbn in E, Hl. subst d.
    apply crash_act in H. destruct H as [->|H]; [split; [exact Hl|]; exists c, cs; cbn; tauto|]. cbn in H.
    apply crash_act in H. destruct H as [->|H]; [split; [exact Hl|]; exists c, cs; cbn; tauto|]. cbn in H.
    apply crash_ret in H. subst s1. split; [exact Hl|]. exists c, cs. cbn. tauto.
  - apply (Hap (AddVertices vids) U H1w H).
  - apply (Hap (AddEdges es) U H1w H).
  - apply (Hap (RemoveVertices vids) U H1w H).
  - apply (Hap (RemoveEdges es) U H1w H).
  - congruence.
Qed.
Lemma holds_faulty nd s es s' : digit_table nd -> faulty_history nd s es s' -> forall a,
  Forall (fun e => u64_invocation (event_invocation e)) es -> holds nd s a ->
  exists is, effective es is /\ holds nd s' (fold_left a_invoke is a).
Proof.
  intro T. induction 1 as [s|s i es s' chunks order B O H IH|s i es s1 s' chunks order Hi B H1w Hc H IH]; intros a U Ha.
  - exists []. split; [constructor|assumption].
  - inversion U as [|? ? U1 U2]; subst. cbn [event_invocation] in U1.
    destruct (holds_invoke nd chunks order i s a T B O U1 Ha) as [_ Hh].
    destruct (IH _ U2 Hh) as (is & He & Hs). exists (i :: is). split; [now constructor|assumption].
  - inversion U as [|? ? U1 U2]; subst. cbn [event_invocation] in U1.
    destruct (holds_stop nd chunks order i s s1 a T B H1w Hi U1 Ha Hc) as [Hh|Hh].
    + destruct (IH _ U2 Hh) as (is & He & Hs). exists is. split; [now constructor|assumption].
    + destruct (IH _ U2 Hh) as (is & He & Hs). exists (i :: is). split; [now constructor|assumption].
Qed.
Theorem C95_crash_histories : forall nd s es s', digit_table nd ->
  openable (fs_lock s) = true -> (fs_graph s = NoGraph \/ fs_graph s = GraphDir Absent) ->
  Forall (fun e => u64_invocation (event_invocation e)) es -> faulty_history nd s (Finishes Init :: es) s' ->
  (exists is g, effective es is /\ loads nd s' g /\ built g /\ a_same (shown g) (fold_left a_invoke is a_empty)) /\
  (* whatever was left behind, the next invocation works *)
  (forall i chunks order, u64_invocation i -> buffering chunks -> hash_order order ->
     snd (run_prog (invoke nd chunks order i) s') = Success).
Proof.
  intros nd s es s' T Hl Hg U H. inversion H as [|? ? ? ? chunks0 order0 B0 O0 H'|]; subst.
  assert (H1 : holds nd (fst (run_prog (invoke nd chunks0 order0 Init) s)) a_empty).
  { cbn [invoke]. unfold gc_init. rewrite run_bind, run_init.
    destruct Hg as [Hg|Hg]; rewrite Hg; cbn [fst snd run_prog openable created];
      (split; [exact Hl|]); exists [], []; (split; [reflexivity|]); (split; [now left|]); (split; [reflexivity|]); apply a_same_refl. }
  destruct (holds_faulty nd _ es s' T H' a_empty U H1) as (is & He & Hh). split.
  - destruct (holds_load nd s' _ T Hh) as (g & Hgg & Hb & Hs). exists is, g. split; [assumption|].
    split; [|now split]. unfold loads. rewrite run_load in *. cbn [snd] in Hgg. now rewrite Hgg.
  - intros i chunks order Ui B O. now apply (holds_invoke nd chunks order i s' _ T B O Ui Hh).
Qed.
Print Assumptions C95_crash_histories.
(** An addition stopped right after taking the lock, then one stopped before
    releasing it: the first has no effect, the second has. *)
Example C95_case : exists s', faulty_history table empty_dir
    [Finishes Init; Stops (AddVertices [1]); Stops (AddEdges [(2, 3)]); Finishes (RemoveVertices [2])] s' /\
  commands_entry s' = File (txt "AddEdge 2 3" ++ [10] ++ txt "RemoveVertex 2" ++ [10]).
Proof.
  eexists. split.
  - eapply (fh_finishes _ _ _ _ _ at_once id_order at_once_ok id_order_ok).
    eapply (fh_stops _ _ _ _ _ _ at_once id_order); [discriminate|apply at_once_ok|reflexivity| |].
    { cbn. apply crash_act. right. cbn. apply crash_act. right. cbn. apply crash_now. }
    eapply (fh_stops _ _ _ _ _ _ at_once id_order); [discriminate|apply at_once_ok|reflexivity| |].
    { cbn. apply crash_act. right. cbn. apply crash_act. right. cbn. apply crash_act. right. cbn.
      apply crash_act. right. cbn. apply crash_now. }
    eapply (fh_finishes _ _ _ _ _ at_once id_order at_once_ok id_order_ok). apply fh_nil.
  - vm_compute. reflexivity.
Qed.

(** ** C27: a crash can leave a half-written line, which may read as another
    command or make the file unreadable. *)
Theorem C27_torn_line_refuted : forall nd, digit_table nd ->
  (exists s', crash (apply_graph_commands bytewise [AddVertex 12]) (with_file []) s' /\
     gcmd_read_as_commands nd [] = Done (Ok []) /\
     exists g, loads nd s' g /\ contains_vertex g 1 = true) /\
  (exists s' m, crash (apply_graph_commands bytewise [AddVertex 12]) (with_file []) s' /\
     snd (run_prog (load_graph nd) s') = Done (Err m)).
Proof.
  intros nd T. split.
  - destruct (crash_apply_conv [AddVertex 12] (with_file []) [] (txt "AddVertex 1")) as (s' & Hc & He & Hl);
      [reflexivity|reflexivity|now exists [50; 10]|].
    exists s'. split; [assumption|]. split; [reflexivity|].
    exists (apply_commands [AddVertex 1] g_new). split; [|reflexivity].
    unfold loads. rewrite run_load, He. f_equal. apply gcmd_read_ok. exists [AddVertex 1]. split; [|reflexivity].
    apply read_as_commands_ok. apply reads_line; [| |constructor].
    + apply (gcmd_line_shape numeral _ (AddVertex 1)). apply (gcmd_line_written (AddVertex 1)). reflexivity.
    + apply gcmd_parse_ok; [assumption|]. apply (gcmd_line_written (AddVertex 1)). reflexivity.
  - destruct (crash_apply_conv [AddVertex 12] (with_file []) [] (txt "Add")) as (s' & Hc & He & Hl);
      [reflexivity|reflexivity|now eexists (txt "Vertex 12" ++ [10])|].
    exists s', (txt "Error at line 1: Couldn't parse 'Add'"). split; [assumption|].
    rewrite run_load, He. cbn [snd app].
    assert (E : gcmd_read_as_commands nd (txt "Add") = Done (Err (txt "Error at line 1: Couldn't parse 'Add'"))).
    { apply read_as_commands_err. exists [], (txt "Add"), [], [], (txt "Couldn't parse 'Add'").
      split; [reflexivity|]. split; [constructor|]. split.
      - intros [H|(w & t & H & Hw)]; [discriminate|]. destruct Hw as [|y w Hy Hw]; injection H as H _; [discriminate|].
        subst y. unfold blank in Hy. cbn [In] in Hy. lia.
      - split; [|reflexivity]. apply gcmd_parse_err; [assumption|]. split; [|reflexivity]. intros x H. inversion H. }
    unfold gcmd_read, read, gcmd_read_as_commands in *. now rewrite E.
Qed.
Print Assumptions C27_torn_line_refuted.
(** What is true at every crash point: the old content is intact, followed by a
    prefix of the new text; it reads as the old commands and a prefix of the new
    ones, except that one last command may be cut (same kind, same first id, last
    id missing final digits) or may not parse. *)
Theorem C27_crash_append : forall nd chunks cs' s s' c cs, digit_table nd -> buffering chunks ->
  commands_entry s = File c -> closed c -> gcmd_read_as_commands nd c = Done (Ok cs) -> Forall u64_command cs' ->
  crash (apply_graph_commands chunks cs') s s' ->
  exists p, commands_entry s' = File (c ++ p) /\ prefix p (commands_text cs') /\
  exists k, (k <= length cs')%nat /\
    (gcmd_read_as_commands nd (c ++ p) = Done (Ok (cs ++ firstn k cs')) \/
     (exists x x', nth_error cs' k = Some x /\ cut_command x' x /\
        gcmd_read_as_commands nd (c ++ p) = Done (Ok (cs ++ firstn k cs' ++ [x']))) \/
     (exists m, (k < length cs')%nat /\ gcmd_read_as_commands nd (c ++ p) = Done (Err m))).
Proof.
  intros nd chunks cs' s s' c cs T B Hc Hcl Hr U H.
  destruct (crash_apply chunks cs' s s' c B Hc H) as (p & Hp & Hpre).
  exists p. split; [assumption|]. split; [assumption|]. now apply read_torn.
Qed.
Print Assumptions C27_crash_append.
(** After a torn line the next successful addition is glued to it. *)
Theorem C27_next_addition_lost_refuted : forall nd, digit_table nd -> exists s1 s2,
  crash (apply_graph_commands bytewise [AddVertex 1]) (with_file []) s1 /\
  run_prog (apply_graph_commands bytewise [AddVertex 2]) s1 = (s2, IoOk tt) /\
  (exists g, loads nd s1 g) /\ forall g, ~ loads nd s2 g.
Proof.
  intros nd T.
  destruct (crash_apply_conv [AddVertex 1] (with_file []) [] (txt "AddVertex 1")) as (s' & Hc & He & Hl);
    [reflexivity|reflexivity|now exists [10]|].
  exists s'. eexists. split; [assumption|].
  split; [rewrite run_apply by apply bytewise_ok; rewrite Hl, He; reflexivity|]. split.
  - exists (apply_commands [AddVertex 1] g_new).
    unfold loads. rewrite run_load, He. f_equal. apply gcmd_read_ok. exists [AddVertex 1]. split; [|reflexivity].
    apply read_as_commands_ok. apply reads_line; [| |constructor].
    + apply (gcmd_line_shape numeral _ (AddVertex 1)). apply (gcmd_line_written (AddVertex 1)). reflexivity.
    + apply gcmd_parse_ok; [assumption|]. apply (gcmd_line_written (AddVertex 1)). reflexivity.
  - intros g Hg. unfold loads in Hg. rewrite run_load, commands_set in Hg. injection Hg as Hg.
    apply gcmd_read_ok in Hg. destruct Hg as (cs & Hr & _). apply read_as_commands_ok in Hr.
    change (lines (([] ++ txt "AddVertex 1") ++ commands_text [AddVertex 2])) with [txt "AddVertex 1AddVertex 2"] in Hr.
    inversion Hr as [|? ? ? Hs|? ? x xs Hs Ha]; subst.
    + destruct Hs as [H0|(w & t & H0 & Hw)]; [discriminate|]. destruct Hw as [|y w Hy Hw]; injection H0 as H0 _; [discriminate|].
      subst y. unfold blank in Hy. cbn [In] in Hy. lia.
    + unfold accepts in Ha. apply (gcmd_parse_ok nd T) in Ha. inversion Ha as [d n Hn E| | |]; subst.
      destruct Hn as [[_ Hf] _]. rewrite Forall_forall in Hf. specialize (Hf 65).
      assert (Hi : ascii09 65) by (apply Hf; cbn; tauto). apply ascii09_range in Hi. lia.
Qed.
Print Assumptions C27_next_addition_lost_refuted.
Example C27_case : closed [] /\ Forall u64_command [AddVertex 12; AddEdge 1 2] /\
  prefix (txt "AddVertex 12" ++ [10] ++ txt "Add") (commands_text [AddVertex 12; AddEdge 1 2]).
Proof. split; [now left|]. split; [repeat constructor|]. exists (txt "Edge 1 2" ++ [10]). reflexivity. Qed.

(** ** C28: a crash right after gc-build opened the file loses the graph. *)
Theorem C28_build_crash_refuted : forall nd chunks order s g, loads nd s g ->
  exists s' g', crash (gc_build nd chunks order) s s' /\ loads nd s' g' /\
    forall v, contains_vertex g' v = false.
Proof.
  intros nd chunks order s g H. unfold loads in H. rewrite run_load in H. injection H as H.
  destruct (commands_entry s) as [|c|] eqn:Ec; try discriminate.
  exists (set_commands (File []) s), g_new. split; [now apply (crash_build_empty nd chunks order s c g)|].
  split; reflexivity.
Qed.
Print Assumptions C28_build_crash_refuted.
(** What is true: at every crash point the file is the old one, or a prefix of
    the new text. *)
Theorem C28_build_crash : forall nd chunks order s s' c, buffering chunks -> hash_order order ->
  commands_entry s = File c -> crash (gc_build nd chunks order) s s' ->
  s' = s \/
  exists g g' p, loads nd s g /\ Permutation g g' /\ commands_entry s' = File p /\ prefix p (gcmd_text g').
Proof.
  intros nd chunks order s s' c B O Hc H. destruct (crash_build nd chunks order s s' c B Hc H) as [->|(g & p & Hg & Hp & Hpre)].
  - now left.
  - right. exists g, (order g), p. split; [unfold loads; now rewrite run_load, Hc, Hg|]. split; [apply O|]. now split.
Qed.
Print Assumptions C28_build_crash.
Example C28_case : exists g, loads table (with_file (txt "AddEdge 1 2" ++ [10])) g /\ contains_vertex g 1 = true.
Proof. eexists. split; reflexivity. Qed.

(** ** C78 *)
Theorem C78_clean : forall force answer s s' r, openable (fs_lock s) = true ->
  run_prog (gc_clean force answer) s = (s', r) ->
  let yes := force = true \/ exists w1 a w2, answer = w1 ++ a ++ w2 /\ Forall blank w1 /\ Forall blank w2 /\
               (a = txt "yes" \/ a = txt "y") in
  (~ yes -> s' = s) /\
  (yes -> fs_lock s' = Absent /\
     (r = Success <-> exists e, fs_graph s = GraphDir e) /\
     (r = Success -> fs_graph s' = NoGraph /\
        snd (run_prog init s') = IoOk tt /\ commands_entry (fst (run_prog init s')) = File []) /\
     (r = Failure -> fs_graph s' = fs_graph s)).
Proof.
  intros force answer s s' r Hl E yes.
  assert (Hconf : forall t, confirmed t = true <-> exists w1 a w2, t = w1 ++ a ++ w2 /\ Forall blank w1 /\ Forall blank w2 /\
               (a = txt "yes" \/ a = txt "y")).
  { intro t. unfold confirmed.
    assert (Hb : forall c, In c [121; 101; 115] -> ~ blank c).
    { intros c Hc Hb. unfold blank in Hb. cbn [In] in Hc, Hb. lia. }
    assert (Hsp : forall x, exists w, x = w ++ trim_start x /\ Forall blank w) by
      (intro x; destruct (trim_start_spec x) as (w & H1 & H2 & _); eauto).
    assert (Htr : forall x, exists w1 w2, x = w1 ++ trim x ++ w2 /\ Forall blank w1 /\ Forall blank w2).
    { intro x. unfold trim. destruct (Hsp x) as (w1 & E1 & H1). destruct (Hsp (rev (trim_start x))) as (w2 & E2 & H2).
      exists w1, (rev w2). split; [|split; [assumption|now apply Forall_rev]].
      rewrite <- rev_app_distr, <- E2, rev_involutive. assumption. }
    assert (Hkeep : forall w x, Forall blank w -> (forall c u, x = c :: u -> ~ blank c) -> trim_start (w ++ x) = x).
    { intros w x Hw Hx. induction Hw as [|c w Hc Hw IH]; cbn [app trim_start].
      - destruct x as [|c x]; [reflexivity|]. cbn [trim_start]. destruct (ws c) eqn:Ew; [|reflexivity].
        apply ws_blank in Ew. now destruct (Hx c x eq_refl).
      - apply ws_blank in Hc. now rewrite Hc. }
    assert (Hfix : forall w1 a w2, Forall blank w1 -> Forall blank w2 -> (a = txt "yes" \/ a = txt "y") -> trim (w1 ++ a ++ w2) = a).
    { intros w1 a w2 H1 H2 Ha. unfold trim.
      rewrite Hkeep; [|assumption|].
      - rewrite rev_app_distr, Hkeep; [apply rev_involutive|now apply Forall_rev|].
        destruct Ha as [->| ->]; intros c u Ec; injection Ec as <- _; apply Hb; cbn; tauto.
      - destruct Ha as [->| ->]; intros c u Ec; injection Ec as <- _; apply Hb; cbn; tauto. }
    split.
    - intro H. destruct (Htr t) as (w1 & w2 & E1 & H1 & H2). exists w1, (trim t), w2.
      split; [assumption|]. split; [assumption|]. split; [assumption|].
      destruct (trim t) as [|c1 [|c2 [|c3 [|? ?]]]]; try discriminate.
      + right. apply N.eqb_eq in H. now subst.
      + left. rewrite !andb_true_iff, !N.eqb_eq in H. destruct H as [[-> ->] ->]. reflexivity.
    - intros (w1 & a & w2 & -> & H1 & H2 & Ha). rewrite (Hfix w1 a w2 H1 H2 Ha). destruct Ha as [->| ->]; reflexivity. }
  unfold gc_clean in E. subst yes. rewrite <- Hconf.
  destruct (negb force && negb (confirmed answer)) eqn:Ey.
  - rewrite andb_true_iff, !negb_true_iff in Ey. destruct Ey as [-> Ec]. injection E as <- <-. split; [reflexivity|].
    intros [?|?]; congruence.
  - assert (Hy : force = true \/ confirmed answer = true).
    { destruct force; [now left|]. right. cbn in Ey. now apply negb_false_iff in Ey. }
    split; [intro; contradiction|]. intros _. rewrite run_bind, run_clean, Hl in E.
    destruct (fs_graph s) as [| |e] eqn:Eg; cbn in E; injection E as <- <-; cbn; rewrite ?Eg.
    + split; [reflexivity|]. split; [split; [discriminate|intros [e He]; discriminate]|]. split; [discriminate|reflexivity].
    + split; [reflexivity|]. split; [split; [discriminate|intros [e He]; discriminate]|]. split; [discriminate|reflexivity].
    + split; [reflexivity|]. split; [split; [eauto|reflexivity]|]. split; [|discriminate]. now repeat split.
Qed.
Print Assumptions C78_clean.
Example C78_case : run_prog (gc_clean false (txt " yes" ++ [10])) (with_file (txt "AddVertex 1")) = (empty_dir, Success) /\
  run_prog (gc_clean false (txt "YES" ++ [10])) (with_file []) = (with_file [], Success) /\
  run_prog (gc_clean true []) empty_dir = (empty_dir, Failure).
Proof. repeat split. Qed.
