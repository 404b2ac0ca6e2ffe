(** * Properties C110-C112: a killed gc-random, repairing a directory, and what
      gc-build prints *)
From Coq Require Import String.
From Coq Require Import List NArith Bool Arith Lia Permutation.
From Verif Require Import Spec Base Graph GraphSpec GraphFacts Text Format FormatSpec TextFacts FormatFacts
  Store StoreSpec StoreFacts CrashFacts Writer WriterFacts Utf8 Cli PropFormat PropStore PropWriter PropGraph PropCli PropUtf8 Verbose.
Import ListNotations.
Open Scope N_scope.

(** ** C110 *)
Lemma crash_clean s s' : crash clean s s' ->
  fs_graph s' = fs_graph s \/ fs_graph s' = NoGraph.
Proof.
  unfold clean, with_lock. intro H. apply crash_bind in H. destruct H as [H|H]; [left; now apply crash_lock|].
  rewrite run_lock in H. destruct (openable (fs_lock s)) eqn:E; cbn [fst snd] in H.
  2:{ apply crash_ret in H. subst. now left. }
  assert (El : fs_graph (locked s) = fs_graph s) by reflexivity.
  apply crash_bind in H. destruct H as [H|H].
  - apply crash_act in H. destruct H as [->|H]; [left; exact El|]. apply crash_ret in H. subst s'.
    destruct (fs_graph (locked s)) eqn:Eg; [left|left|right]; congruence || reflexivity.
  - cbn [run_prog fst snd] in H.
    assert (G : forall u, fs_graph u = fs_graph s \/ fs_graph u = NoGraph ->
      crash (bind unlock (fun v => match v with IoErr => Ret IoErr | IoOk _ => Ret (match fs_graph (locked s) with GraphDir _ => IoOk tt | _ => IoErr end) end)) u s' ->
      fs_graph s' = fs_graph s \/ fs_graph s' = NoGraph).
    { intros u Hu Hc. apply crash_bind in Hc. destruct Hc as [Hc|Hc]; [apply crash_unlock in Hc; now rewrite Hc|].
      rewrite run_unlock in Hc. destruct (fs_lock u); cbn [fst snd] in Hc; apply crash_ret in Hc; subst s'; exact Hu. }
    eapply G; [|exact H]. destruct (fs_graph (locked s)) eqn:Eg; [left|left|right]; congruence || reflexivity.
Qed.

(** The ways a killed gc-random can leave the directory. *)
Theorem C110_killed_random : forall nd cap g force answer s s', digit_table nd -> built g -> u64_graph g ->
  crash (gc_random (buffered cap) g force answer) s s' ->
  (* the stored graph is untouched *)
  fs_graph s' = fs_graph s \/
  (* there is no graph, which every reader reports *)
  (exists m, run_prog (load_graph nd) s' = (s', Done (Err m))) \/
  (* there is a part of the new graph *)
  exists g', loads nd s' g' /\
    (forall v, contains_vertex g' v = true -> contains_vertex g v = true) /\
    (forall e, contains_edge g' e = true -> contains_edge g e = true).
Proof.
  intros nd cap g force answer s s' T Bg Ug H. apply built_wf in Bg as W.
  assert (Hno : fs_graph s' = NoGraph \/ fs_graph s' = GraphDir Absent ->
            exists m, run_prog (load_graph nd) s' = (s', Done (Err m))).
  { intro E. eexists. rewrite run_load. unfold commands_entry. destruct E as [-> | ->]; reflexivity. }
  assert (Hpart : forall n, commands_entry s' = File (concat (firstn n (buffered cap (save_pieces g)))) ->
    (exists m, run_prog (load_graph nd) s' = (s', Done (Err m))) \/
    exists g', loads nd s' g' /\
      (forall v, contains_vertex g' v = true -> contains_vertex g v = true) /\
      (forall e, contains_edge g' e = true -> contains_edge g e = true)).
  { intros n Es. destruct (buffered_prefix cap (save_pieces g) n (save_pieces_nonempty _)) as [k Ek].
    rewrite Ek, save_pieces_fine in Es.
    destruct (read_fine nd T (as_commands g) k (as_commands_additions _) (as_commands_u64 _ W Ug)) as [(j & Hj & Ej)|[m Em]].
    - right. exists (apply_commands (firstn j (as_commands g)) g_new). split.
      + unfold loads. rewrite run_load, Es. f_equal. apply gcmd_read_ok. eauto.
      + now apply part_within.
    - left. exists m. rewrite run_load, Es. f_equal. exact (read_err _ _ _ Em). }
  unfold gc_random in H. destruct (negb force && negb (confirmed answer)); [apply crash_ret in H; subst; now left|].
  apply crash_bind in H. destruct H as [H|H]; [apply crash_clean in H as [H|H]; auto|].
  rewrite run_clean in H. destruct (openable (fs_lock s)); [|cbn [fst snd] in H; apply crash_ret in H; subst; now left].
  destruct (fs_graph s) as [| |e] eqn:Eg; cbn [fst snd] in H; try (apply crash_ret in H; subst; now left).
  set (s1 := set_graph NoGraph (released s)) in H.
  apply crash_bind in H. destruct H as [H|H].
  - right. unfold init in H. apply crash_act in H. destruct H as [->|H]; [left; apply Hno; now left|].
    apply crash_act in H. destruct H as [->|H]; [left; apply Hno; now right|]. apply crash_ret in H. subst s'.
    apply (Hpart O). reflexivity.
  - rewrite run_init in H. cbn [s1 set_graph fs_graph fst snd] in H. right.
    set (s2 := set_commands (File []) (set_root true (set_graph NoGraph (released s)))) in H.
    apply crash_bind in H. destruct H as [H|H].
    + unfold save_graph_as_commands in H. apply crash_act in H. destruct H as [->|H]; [now apply (Hpart O)|].
      cbn [s2 set_commands set_graph fs_graph] in H.
      apply (crash_write _ (set_commands (File []) s2) [] s' eq_refl) in H. destruct H as [n ->]. now apply (Hpart n).
    + rewrite run_save in H by apply buffered_ok. cbn [s2 set_commands set_graph fs_graph fst snd] in H.
      apply crash_ret in H. subst s'. apply (Hpart (length (buffered cap (save_pieces g)))).
      cbn [commands_entry fs_graph]. rewrite firstn_all, buffered_ok. now rewrite concat_save_pieces.
Qed.
Print Assumptions C110_killed_random.

(** Expected but false: the old graph or the new one is stored. Instead there may be no
    graph at all, or an empty one. *)
Theorem C110_old_or_new_refuted : forall nd chunks s c g,
  openable (fs_lock s) = true -> fs_graph s = GraphDir (File c) ->
  exists s1 s2, crash (gc_random chunks g true []) s s1 /\ crash (gc_random chunks g true []) s s2 /\
    (forall g', ~ loads nd s1 g') /\ loads nd s2 g_new.
Proof.
  intros nd chunks s c g Hl Eg.
  exists (set_graph NoGraph (released s)), (set_commands (File []) (set_root true (set_graph NoGraph (released s)))).
  assert (Hrun : run_prog clean s = (set_graph NoGraph (released s), IoOk tt)) by now rewrite run_clean, Hl, Eg.
  refine (conj _ (conj _ (conj _ _))).
  - unfold gc_random. cbn [negb andb]. apply crash_bind. right. rewrite Hrun. cbn [fst snd]. constructor.
  - unfold gc_random. cbn [negb andb]. apply crash_bind. right. rewrite Hrun. cbn [fst snd].
    apply crash_bind. right. rewrite run_init. cbn [set_graph fs_graph fst snd]. constructor.
  - intros g' H. unfold loads in H. rewrite run_load in H. discriminate H.
  - unfold loads. rewrite run_load. reflexivity.
Qed.
Print Assumptions C110_old_or_new_refuted.
Example C110_case : loads table (with_file (txt "AddVertex 5")) (apply_commands [AddVertex 5] g_new) /\
  built sample /\ u64_graph sample /\ openable (fs_lock (with_file (txt "AddVertex 5"))) = true /\
  exists s', crash (gc_random (buffered 13) sample true []) (with_file (txt "AddVertex 5")) s' /\
    fs_graph s' <> fs_graph (with_file (txt "AddVertex 5")) /\ exists g', loads table s' g' /\ g' <> g_new.
Proof.
  split; [reflexivity|]. split; [apply sample_built|]. split; [apply sample_u64|]. split; [reflexivity|].
  eexists. split.
  { unfold gc_random. cbn [negb andb]. apply crash_bind. right. apply crash_bind. right. apply crash_bind. left.
    cbn. eapply crash_later. eapply crash_later. apply crash_now. }
  split; [cbn; discriminate|]. eexists. split; [vm_compute; reflexivity|]. discriminate.
Qed.

(** ** C111 *)
(** Nothing but the tools' own files: the lock is not a directory, neither is the
    commands file, and the graph directory is not a file. *)
Definition regular (s : fs) : Prop :=
  fs_lock s <> Directory /\ fs_graph s <> NotADir /\ fs_graph s <> GraphDir Directory.

Lemma keeps_lock : keeps regular lock.
Proof.
  constructor; [intros s H; exact H|]. intro s0. constructor; [|constructor].
  intros [[] [|c|] d]; unfold regular; cbn; intuition discriminate.
Qed.
Lemma keeps_unlock : keeps regular unlock.
Proof. constructor; [|constructor]. intros [r [|c|] d]; unfold regular; cbn; intuition discriminate. Qed.
Lemma keeps_with_lock A (p : prog (io A)) : keeps regular p -> keeps regular (with_lock p).
Proof.
  intro H. apply keeps_bind; [apply keeps_lock|]. intros [u|]; [|constructor]. apply keeps_bind; [assumption|].
  intro r. apply keeps_bind; [apply keeps_unlock|]. intros [u'|]; constructor.
Qed.
Lemma keeps_init : keeps regular init.
Proof.
  constructor.
  - intros [r l [| |e]]; unfold regular; cbn; intuition discriminate.
  - intro s0. constructor; [|constructor]. intros [r l [| |[|c|]]]; unfold regular; cbn; intuition discriminate.
Qed.
Lemma keeps_clean : keeps regular clean.
Proof.
  apply keeps_with_lock. constructor; [|constructor]. intros [r l [| |e]]; unfold regular; cbn; intuition discriminate.
Qed.
Lemma keeps_append cs : keeps regular (append_chunks cs).
Proof.
  induction cs as [|c cs IH]; cbn [append_chunks]; constructor; [|intro; exact IH].
  intros [r l [| |[|o|]]]; unfold regular, append_chunk; cbn; intuition discriminate.
Qed.
Lemma keeps_apply chunks cs : keeps regular (apply_graph_commands chunks cs).
Proof.
  apply keeps_with_lock. constructor; [intros s H; exact H|]. intro s.
  destruct (commands_entry s); [constructor|apply keeps_append|constructor].
Qed.
Lemma keeps_writes cs : forall off, keeps regular (write_chunks off cs).
Proof.
  induction cs as [|c cs IH]; intro off; cbn [write_chunks]; constructor; [|intro; apply IH].
  intros [r l [| |[|o|]]]; unfold regular, write_chunk; cbn; intuition discriminate.
Qed.
Lemma keeps_save chunks g : keeps regular (save_graph_as_commands chunks g).
Proof.
  constructor.
  - intros [r l [| |[|o|]]]; unfold regular; cbn; intuition discriminate.
  - intro s. destruct (fs_graph s) as [| |[|o|]]; try constructor; apply keeps_writes.
Qed.
Lemma keeps_option_call A values (f : list text -> outcome A) call next : (forall a, keeps regular (call a)) ->
  keeps regular next -> keeps regular (option_call values f call next).
Proof.
  intros Hc Hn. unfold option_call. destruct values as [vs|]; [|assumption].
  destruct (f vs) as [a| |]; try constructor. apply keeps_bind; [apply Hc|]. intros _. assumption.
Qed.
Lemma keeps_tool nd p : tool nd p -> keeps regular p.
Proof.
  intros [|chunks args B|chunks vertex edge B|chunks order B|force answer|chunks g force answer B].
  - apply keeps_bind; [apply keeps_init|]. intros []; constructor.
  - unfold gc_add. repeat (apply keeps_option_call; [intro; apply keeps_apply|]). constructor.
  - unfold gc_delete. repeat (apply keeps_option_call; [intro; apply keeps_apply|]). constructor.
  - apply keeps_bind; [constructor; [intros s H; exact H|constructor]|]. intros [[g|m]| |]; try apply keeps_ret.
    apply keeps_bind; [apply keeps_save|]. intros []; constructor.
  - unfold gc_clean. destruct (_ && _); [constructor|]. apply keeps_bind; [apply keeps_clean|]. intros []; constructor.
  - unfold gc_random. destruct (_ && _); [constructor|]. apply keeps_bind; [apply keeps_clean|]. intros [u|]; [|constructor].
    apply keeps_bind; [apply keeps_init|]. intros [u'|]; [|constructor].
    apply keeps_bind; [apply keeps_save|]. intros []; constructor.
Qed.
Lemma keeps_isteps A I (c c' : fs * list (prog A)) : isteps c c' -> Forall (keeps I) (snd c) -> I (fst c) -> I (fst c').
Proof.
  induction 1 as [c|c c' c'' (pre & upd & k & post & E1 & E2 & E3) _ IH]; intros F Hs; [assumption|].
  rewrite E1 in F. apply Forall_app in F. destruct F as [F1 F2]. inversion F2 as [|? ? Hk F3]; subst.
  inversion Hk as [|? ? K1 K2]; subst. apply IH.
  - rewrite E3. apply Forall_app. split; [assumption|]. now constructor.
  - rewrite E2. now apply K1.
Qed.

(** Whatever ran before, and wherever it was stopped, the next gc-init succeeds and
    leaves a commands file; gc-clean then succeeds, and gc-init again gives the empty
    graph, without a lock. *)
Theorem C111_repair : forall nd ps s s' ps', Forall (tool nd) ps -> regular s -> isteps (s, ps) (s', ps') ->
  exists s1 s2 s3 c,
    run_prog gc_init s' = (s1, Success) /\ commands_entry s1 = File c /\
    (forall c', commands_entry s' = File c' -> c = c') /\
    (forall answer, run_prog (gc_clean true answer) s1 = (s2, Success)) /\ fs_graph s2 = NoGraph /\ fs_lock s2 = Absent /\
    run_prog gc_init s2 = (s3, Success) /\ fs_lock s3 = Absent /\ loads nd s3 g_new.
Proof.
  intros nd ps s s' ps' HT HR R.
  assert (H : regular s').
  { apply (keeps_isteps _ regular _ _ R); [|exact HR]. revert HT. apply Forall_impl, keeps_tool. }
  clear HT HR R. destruct s' as [rt l d]. destruct H as (H1 & H2 & H3). cbn [fs_lock fs_graph] in *.
  assert (Hl : openable l = true) by (destruct l; [reflexivity|reflexivity|congruence]).
  set (c := match d with GraphDir (File c) => c | _ => [] end).
  exists {| fs_root := true; fs_lock := l; fs_graph := GraphDir (File c) |},
    {| fs_root := true; fs_lock := Absent; fs_graph := NoGraph |},
    {| fs_root := true; fs_lock := Absent; fs_graph := GraphDir (File []) |}, c.
  refine (conj _ (conj _ (conj _ (conj _ (conj _ (conj _ (conj _ (conj _ _)))))))); try reflexivity.
  - unfold gc_init. rewrite run_bind, run_init. cbn [fs_graph].
    destruct d as [| |[|o|]]; try congruence; reflexivity.
  - intros c' Hc. subst c. unfold commands_entry in Hc. cbn [fs_graph] in Hc. destruct d as [| |e]; try discriminate. now rewrite Hc.
  - intro answer. unfold gc_clean. cbn [negb andb]. rewrite run_bind, run_clean. cbn [fs_lock fs_graph]. rewrite Hl. reflexivity.
Qed.
Print Assumptions C111_repair.
(** gc-random and gc-clean, both stopped half-way. *)
Example C111_case : regular (with_file (txt "Add")) /\
  Forall (tool table) [gc_random at_once g_new true []; gc_clean true []] /\
  exists s' ps', isteps (with_file (txt "Add"), [gc_random at_once g_new true []; gc_clean true []]) (s', ps') /\
    fs_graph s' = GraphDir Absent /\ fs_lock s' = File [].
Proof.
  split; [unfold regular; cbn; intuition discriminate|].
  split; [repeat constructor; apply at_once_ok|].
  set (ps := [gc_random at_once g_new true []; gc_clean true []]).
  set (sch := [0; 0; 0; 0; 0; 1; 1]%nat).
  exists (fst (run_schedule sch (with_file (txt "Add")) ps)), (snd (run_schedule sch (with_file (txt "Add")) ps)).
  split; [|split; reflexivity].
  pose proof (run_schedule_isteps _ sch (with_file (txt "Add")) ps) as H.
  destruct (run_schedule sch (with_file (txt "Add")) ps) as [a b]. exact H.
Qed.

(** ** C112 *)
Theorem C112_build_prints : forall nd chunks order verbose s, buffering chunks -> hash_order order ->
  (* printing changes nothing: same files, same exit status, same states if killed *)
  fst (run_prog (gc_build_print nd chunks order verbose) s) = fst (run_prog (gc_build nd chunks order) s) /\
  snd (snd (run_prog (gc_build_print nd chunks order verbose) s)) = snd (run_prog (gc_build nd chunks order) s) /\
  (forall s', crash (gc_build_print nd chunks order verbose) s s' <-> crash (gc_build nd chunks order) s s') /\
  (* what is printed *)
  (forall g, loads nd s g -> exists s' n e,
     run_prog (gc_build_print nd chunks order verbose) s =
       (s', ((if verbose then [txt "Vertices: " ++ n; txt "Edges: " ++ e] else []) ++ [txt "Done."], Success)) /\
     canonical_numeral n (N.of_nat (length (vertices g))) /\ canonical_numeral e (N.of_nat (edge_count g)) /\
     ((forall v, contains_edge g (v, v) = false) -> canonical_numeral e (N.of_nat (length (edges g))))) /\
  ((forall g, ~ loads nd s g) -> run_prog (gc_build_print nd chunks order verbose) s = (s, ([], Failure))).
Proof.
  intros nd chunks order verbose s B O.
  assert (Hl : fst (run_prog (load_graph nd) s) = s) by reflexivity.
  refine (conj _ (conj _ (conj _ (conj _ _)))).
  - unfold gc_build_print, gc_build. rewrite !run_bind.
    destruct (snd (run_prog (load_graph nd) s)) as [[g|m]| |]; try reflexivity.
    rewrite !run_bind. reflexivity.
  - unfold gc_build_print, gc_build. rewrite !run_bind.
    destruct (snd (run_prog (load_graph nd) s)) as [[g|m]| |]; try reflexivity.
    rewrite !run_bind. destruct (snd (run_prog (save_graph_as_commands chunks (order g)) _)); reflexivity.
  - intro s'. unfold gc_build_print, gc_build. rewrite !crash_bind.
    destruct (snd (run_prog (load_graph nd) s)) as [[g|m]| |]; try (rewrite !crash_ret; tauto).
    rewrite !crash_bind, !crash_ret. tauto.
  - intros g H. pose proof H as H'. unfold loads in H. rewrite run_load in H. injection H as H.
    destruct (commands_entry s) as [|c|] eqn:Ec; try discriminate.
    assert (Bg : built g) by (apply gcmd_read_ok in H; destruct H as (cs & _ & ->); exists cs; apply built_by_apply).
    apply built_wf in Bg as W. assert (Wo : wf (order g)) by (eapply wf_perm; [exact W|apply O]).
    exists (fst (run_prog (gc_build_print nd chunks order verbose) s)),
      (show (N.of_nat (vertex_count (order g)))), (show (N.of_nat (edge_count (order g)))).
    assert (Ee : edge_count (order g) = edge_count g).
    { rewrite !edge_count_law by assumption.
      assert (P : Permutation (edges (order g)) (edges g)) by (apply same_edges_perm; try assumption; apply (shown_perm W (O g))).
      f_equal; [|f_equal]; apply Permutation_length; clear - P; induction P; cbn;
        repeat match goal with |- context [if ?b then _ else _] => destruct b end; eauto using Permutation. }
    split; [|split; [|split]].
    + unfold gc_build_print. rewrite !run_bind, H'. cbn [fst snd]. rewrite !run_bind, run_save by assumption.
      apply commands_entry_dir in Ec. rewrite Ec. reflexivity.
    + replace (length (vertices g)) with (vertex_count (order g)); [apply show_spec|].
      unfold vertex_count. rewrite <- (Permutation_length (O g)). symmetry. apply map_length.
    + rewrite Ee. apply show_spec.
    + intro Hn. rewrite Ee, (C04_edge_count_loop_free g Bg Hn). apply show_spec.
  - intro Hn. unfold gc_build_print. rewrite run_bind. unfold loads in Hn.
    destruct (run_prog (load_graph nd) s) as [s0 r] eqn:Er. cbn [fst snd] in *.
    assert (s0 = s) as -> by (rewrite <- Hl; reflexivity).
    destruct r as [[g|m]| |]; try reflexivity. now elim (Hn g).
Qed.
Print Assumptions C112_build_prints.
(** The results a program can return when the directory may be in any state at each of its steps. *)
Inductive ends {A} : prog A -> A -> Prop :=
| ends_ret a : ends (Ret a) a
| ends_act upd k s a : ends (k s) a -> ends (Act upd k) a.
Lemma ends_bind {A B} (p : prog A) (f : A -> prog B) b : ends (bind p f) b -> exists a, ends p a /\ ends (f a) b.
Proof.
  induction p as [a|upd k IH]; cbn [bind]; intro H; [exists a; split; [constructor|assumption]|].
  inversion H as [|u k' s a0 H1]; subst. destruct (IH _ H1) as (a & Ha & Hb). exists a. split; [econstructor; eassumption|assumption].
Qed.
(** Beside any other processes, gc-build prints "Done." as its last line exactly when it reports success. *)
Lemma isteps_ends {A} (c c' : fs * list (prog A)) : isteps c c' -> forall i p a,
  nth_error (snd c) i = Some p -> nth_error (snd c') i = Some (Ret a) -> ends p a.
Proof.
  intro H. induction H as [c|c c1 c2 S H IH]; intros i p a Hp Ha.
  - rewrite Hp in Ha. injection Ha as ->. constructor.
  - destruct S as (ps1 & upd & k & ps2 & E1 & _ & E2). rewrite E1 in Hp. rewrite E2 in IH.
    destruct (Nat.lt_trichotomy i (length ps1)) as [L|[->|L]].
    + rewrite nth_error_app1 in Hp by lia. apply (IH i p a); [now rewrite nth_error_app1 by lia|assumption].
    + rewrite nth_error_app2, Nat.sub_diag in Hp by lia. cbn [nth_error] in Hp. injection Hp as <-.
      econstructor. apply (IH (length ps1)); [|eassumption]. rewrite nth_error_app2, Nat.sub_diag by lia. reflexivity.
    + apply (IH i p a); [|assumption]. rewrite nth_error_app2 in Hp |- * by lia.
      destruct (i - length ps1)%nat eqn:E; [lia|exact Hp].
Qed.
Theorem C112_done_iff_success : forall nd chunks order verbose (ps1 ps2 qs : list (prog (list text * exit))) s s' i out r,
  isteps (s, ps1 ++ gc_build_print nd chunks order verbose :: ps2) (s', qs) ->
  i = length ps1 -> nth_error qs i = Some (Ret (out, r)) ->
  (r = Success /\ exists ls, out = ls ++ [txt "Done."] /\ length ls = (if verbose then 2 else 0)%nat) \/
  (r = Failure /\ ~ In (txt "Done.") out).
Proof.
  intros nd chunks order verbose ps1 ps2 qs s s' i out r H -> Hr.
  assert (E : ends (gc_build_print nd chunks order verbose) (out, r)).
  { eapply (isteps_ends _ _ H (length ps1)); [|exact Hr]. cbn [snd]. rewrite nth_error_app2, Nat.sub_diag by lia. reflexivity. }
  unfold gc_build_print in E. apply ends_bind in E. destruct E as (w & _ & E).
  destruct w as [[g|m]| |]; try (inversion E; subst; right; split; [reflexivity|intros []]).
  apply ends_bind in E. destruct E as ([u|] & _ & E); inversion E; subst; [left|right]; (split; [reflexivity|]).
  - exists (if verbose then count_lines (order g) else []). split; [reflexivity|]. now destruct verbose.
  - destruct verbose; [|intros []]. intros [F|[F|[]]]; discriminate F.
Qed.
Print Assumptions C112_done_iff_success.
(** The other case happens: gc-clean between the reading and the writing. *)
Example C112_failing_case : exists s s' qs,
  isteps (s, [gc_build_print table at_once id_order true; bind (gc_clean true []) (fun e => Ret ([], e))]) (s', qs) /\
  exists n e, nth_error qs 0 = Some (Ret ([n; e], Failure)).
Proof.
  set (ps := [gc_build_print table at_once id_order true; bind (gc_clean true []) (fun e => Ret ([], e))]).
  set (sch := [0; 1; 1; 1; 1; 1; 1; 0; 0; 0; 0]%nat).
  exists (with_file (txt "AddVertex 1")), (fst (run_schedule sch (with_file (txt "AddVertex 1")) ps)), (snd (run_schedule sch (with_file (txt "AddVertex 1")) ps)).
  split; [|do 2 eexists; reflexivity].
  pose proof (run_schedule_isteps _ sch (with_file (txt "AddVertex 1")) ps) as H.
  destruct (run_schedule sch (with_file (txt "AddVertex 1")) ps) as [a b]. exact H.
Qed.
(** Expected but false: the second number is the number of edges. *)
Theorem C112_edge_line_refuted : forall nd, digit_table nd -> exists s g, loads nd s g /\
  length (edges g) = 1%nat /\
  forall chunks order, buffering chunks -> hash_order order ->
    fst (snd (run_prog (gc_build_print nd chunks order true) s)) = [txt "Vertices: 1"; txt "Edges: 0"; txt "Done."].
Proof.
  intros nd T. exists (with_file (commands_text [AddEdge 1 1])), (apply_commands [AddEdge 1 1] g_new).
  assert (H : loads nd (with_file (commands_text [AddEdge 1 1])) (apply_commands [AddEdge 1 1] g_new)).
  { unfold loads. rewrite run_load. f_equal. cbn [commands_entry with_file fs_graph]. apply gcmd_read_ok.
    exists [AddEdge 1 1]. split; [|reflexivity].
    apply (read_whole nd T [] [] [AddEdge 1 1] 1 (or_introl eq_refl) eq_refl). repeat constructor. }
  split; [exact H|]. split; [reflexivity|]. intros chunks order B O.
  unfold gc_build_print. rewrite run_bind, H. cbn [fst snd]. rewrite run_bind, run_save by assumption. cbn [fst snd run_prog with_file fs_graph].
  assert (E : order (apply_commands [AddEdge 1 1] g_new) = apply_commands [AddEdge 1 1] g_new).
  { specialize (O (apply_commands [AddEdge 1 1] g_new)). cbn in O |- *. now apply Permutation_length_1_inv in O. }
  rewrite E. reflexivity.
Qed.
Print Assumptions C112_edge_line_refuted.
Example C112_case : exists s g, loads table s g /\ (forall v, contains_edge g (v, v) = false) /\
  snd (run_prog (gc_build_print table at_once id_order true) s) =
    ([txt "Vertices: 3"; txt "Edges: 2"; txt "Done."], Success).
Proof.
  exists (with_file (txt "AddEdge 1 2" ++ [10] ++ txt "AddEdge 2 3")), (apply_commands [AddEdge 1 2; AddEdge 2 3] g_new).
  split; [reflexivity|]. split; [|reflexivity]. intro v.
  destruct (contains_edge _ (v, v)) eqn:E; [|reflexivity]. apply contains_edge_hasE_raw in E. destruct E as [(es & E1 & E2) _].
  vm_compute in E1. destruct v as [|[[]|[]|]]; try discriminate E1; injection E1 as <-; cbn in E2; intuition discriminate.
Qed.
