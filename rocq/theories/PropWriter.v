(** * Properties C96-C99: additions and gc-build killed between two system calls,
      with the buffered writer the code uses *)
From Coq Require Import String.
From Coq Require Import List NArith Bool Arith Lia Permutation.
From Verif Require Import Spec Base Graph GraphSpec GraphFacts Text Format FormatSpec TextFacts FormatFacts
  Store StoreSpec StoreFacts CrashFacts Writer WriterFacts PropFormat PropStore.
Import ListNotations.
Open Scope N_scope.

(** ** C96 *)
Theorem C96_killed_addition : forall nd cap cs' s s' c cs, digit_table nd ->
  commands_entry s = File c -> closed c -> gcmd_read_as_commands nd c = Done (Ok cs) -> Forall u64_command cs' ->
  crash (apply_graph_commands (buffered cap) cs') s s' ->
  exists c' k, commands_entry s' = File c' /\ (k <= length cs')%nat /\
    gcmd_read_as_commands nd c' = Done (Ok (cs ++ firstn k cs')).
Proof.
  intros nd cap cs' s s' c cs T Hc Hcl Hr U H.
  destruct (crash_apply_writes (buffered cap) cs' s s' c Hc H) as [n E].
  destruct (buffered_prefix cap (add_pieces cs') n (add_pieces_nonempty cs')) as [m Em]. rewrite Em in E.
  destruct (read_pieces nd T c cs cs' m Hcl Hr U) as (k & Hk & Ek). eauto.
Qed.
Print Assumptions C96_killed_addition.
(** A buffer of 15 bytes; killed after the first write, one command is there. *)
Example C96_case : closed [] /\ Forall u64_command [AddVertex 12; AddEdge 1 2] /\
  crash (apply_graph_commands (buffered 15) [AddVertex 12; AddEdge 1 2]) (with_file [])
    {| fs_root := true; fs_lock := File []; fs_graph := GraphDir (File (txt "AddVertex 12" ++ [10])) |}.
Proof.
  split; [now left|]. split; [repeat constructor|].
  do 4 (apply crash_act; right; cbn). apply crash_now.
Qed.

(** ** C97 *)
(** A request whose text fits in the buffer is written by at most one call. *)
Theorem C97_small_one_write : forall cap cs, (length (commands_text cs) <= cap)%nat ->
  (length (buffered cap (add_pieces cs)) <= 1)%nat.
Proof.
  intros cap cs H. rewrite buffered_small by assumption. destruct (commands_text cs); cbn; lia.
Qed.
Print Assumptions C97_small_one_write.
(** So it is all or nothing when the process is killed, and the file stays ready
    for the next addition. *)
Theorem C97_killed_small : forall nd cap cs' s s' c cs, digit_table nd ->
  (length (commands_text cs') <= cap)%nat -> openable (fs_lock s) = true ->
  commands_entry s = File c -> closed c -> gcmd_read_as_commands nd c = Done (Ok cs) -> Forall u64_command cs' ->
  crash (apply_graph_commands (buffered cap) cs') s s' ->
  openable (fs_lock s') = true /\
  exists c', commands_entry s' = File c' /\ closed c' /\
    (c' = c \/ gcmd_read_as_commands nd c' = Done (Ok (cs ++ cs'))).
Proof.
  intros nd cap cs' s s' c cs T Hsm Hl Hc Hcl Hr U H.
  destruct (crash_apply_once _ _ _ _ _ (buffered_ok cap) (C97_small_one_write cap cs' Hsm) Hl Hc H) as [H1 H2].
  split; [assumption|]. unfold commands_entry. destruct H2 as [-> | ->].
  - exists c. tauto.
  - exists (c ++ commands_text cs'). split; [reflexivity|]. split; [apply closed_app; [assumption|apply closed_commands]|].
    right. now apply C18_append.
Qed.
Print Assumptions C97_killed_small.
(** And any number of such requests can run at once, in any interleaving, each
    stopped anywhere: what is stored is a list of whole requests, all of them when
    all processes end. *)
Theorem C97_concurrent_small : forall nd css s c cs s' ps, digit_table nd ->
  fs_root s = true -> openable (fs_lock s) = true -> fs_graph s = GraphDir (File c) ->
  closed c -> gcmd_read_as_commands nd c = Done (Ok cs) ->
  Forall (fun cs' => (N.of_nat (length (commands_text cs')) <= 8192)%N) css -> Forall (Forall u64_command) css ->
  isteps (s, map (apply_graph_commands (buffered default_capacity)) css) (s', ps) ->
  exists written rest, Permutation (written ++ rest) css /\
    (Forall (fun p => exists r, p = Ret r) ps -> rest = []) /\
    exists c', commands_entry s' = File c' /\ closed c' /\
      gcmd_read_as_commands nd c' = Done (Ok (cs ++ concat written)).
Proof.
  intros nd css s c cs s' ps T Hr Hl Hg Hc Hread Sm U H.
  pose (ws := map (fun cs' => (buffered default_capacity, cs')) css).
  assert (E : map snd ws = css) by (unfold ws; rewrite map_map; cbn; apply map_id).
  rewrite <- E. apply (C26_concurrent_appends nd ws s c cs s' ps); try assumption.
  - unfold ws. apply Forall_map. eapply Forall_impl; [|exact Sm]. intros x Hx. cbn [fst snd].
    split; [apply buffered_ok|]. apply C97_small_one_write. change default_capacity with (N.to_nat 8192).
    cbn beta in Hx. lia.
  - now rewrite E.
  - unfold ws. rewrite map_map. exact H.
Qed.
Print Assumptions C97_concurrent_small.
Example C97_case :
  Forall (fun cs' => (N.of_nat (length (commands_text cs')) <= 8192)%N) [[AddVertex 1; AddEdge 1 7]; [RemoveVertex 7]] /\
  Forall (Forall u64_command) [[AddVertex 1; AddEdge 1 7]; [RemoveVertex 7]].
Proof.
  split; [|repeat constructor].
  constructor; [apply N.leb_le; vm_compute; reflexivity|].
  constructor; [apply N.leb_le; vm_compute; reflexivity|constructor].
Qed.

(** ** C98: larger requests *)
(** 481 lines of 17 bytes and one of 15 bytes without its line feed fill the
    buffer exactly. *)
Definition filling : list graph_command := repeat (AddVertex 100000) 481.
Definition large : list graph_command := filling ++ [AddVertex 10000; AddVertex 3].
Definition first_write : text := commands_text filling ++ txt "AddVertex 10000".
Definition second_write : text := [10] ++ txt "AddVertex 3" ++ [10].
Lemma large_writes : buffered default_capacity (add_pieces large) = [first_write; second_write].
Proof. vm_compute. reflexivity. Qed.
Lemma small_writes : buffered default_capacity (add_pieces [AddVertex 2]) = [txt "AddVertex 2" ++ [10]].
Proof. vm_compute. reflexivity. Qed.
Lemma large_u64 : Forall u64_command large.
Proof.
  unfold large, filling. apply Forall_app. split; [|repeat constructor].
  apply Forall_forall. intros x Hx. apply repeat_spec in Hx. subst. reflexivity.
Qed.
Lemma reads_member acc ls cs l : reads acc ls cs -> In l ls -> skipped l \/ exists c, acc l c.
Proof.
  induction 1 as [|x ls cs Hs H IH|x ls c cs Hs Ha H IH]; intro Hin; [destruct Hin| |]; destruct Hin as [<-|Hin]; eauto.
Qed.
Lemma glued_unreadable nd s front rest : digit_table nd -> closed front ->
  commands_entry s = File (front ++ (txt "AddVertex 10000AddVertex 2" ++ [10]) ++ rest) ->
  forall g, ~ loads nd s g.
Proof.
  intros T Cf E g Hg. unfold loads in Hg. rewrite run_load, E in Hg. injection Hg as Hg.
  apply gcmd_read_ok in Hg. destruct Hg as (cs & Hr & _). apply read_as_commands_ok in Hr.
  pose proof (lines_app_closed _ ((txt "AddVertex 10000AddVertex 2" ++ [10]) ++ rest) Cf) as E1.
  pose proof (lines_app_closed (txt "AddVertex 10000AddVertex 2" ++ [10]) rest (or_intror (ex_intro _ _ eq_refl))) as E2.
  change (lines (txt "AddVertex 10000AddVertex 2" ++ [10])) with [txt "AddVertex 10000AddVertex 2"] in E2.
  rewrite E2 in E1. setoid_rewrite E1 in Hr. clear E1 E2.
  destruct (reads_member _ _ _ (txt "AddVertex 10000AddVertex 2") Hr) as [H|[x H]].
  - apply in_or_app. right. left. reflexivity.
  - destruct H as [H|(w & t & H & Hw)]; [discriminate|].
    destruct Hw as [|y w Hy Hw]; injection H as H _; [discriminate|].
    subst y. unfold blank in Hy. cbn [In] in Hy. lia.
  - unfold accepts in H. apply (gcmd_parse_ok nd T) in H. inversion H as [d n Hn E1| | |]; subst.
    destruct Hn as [[_ Hf] _]. rewrite Forall_forall in Hf.
    assert (Hi : ascii09 65) by (apply Hf; cbn; tauto). apply ascii09_range in Hi. lia.
Qed.

(** The same steps for texts [w1], [w2]. *)
Definition writing (ws : list text) : prog (io unit) :=
  with_lock (Act (fun s => s) (fun s => match commands_entry s with File _ => append_chunks ws | _ => Ret IoErr end)).
Lemma between w1 w2 w3 : exists s',
  isteps (with_file [], [writing [w1; w2]; writing [w3]]) (s', [Ret (IoOk tt); Ret IoErr]) /\
  commands_entry s' = File ((w1 ++ w3) ++ w2).
Proof.
  set (sch := [0; 0; 1; 1; 0; 1; 0; 1; 0; 0; 1]%nat).
  exists (fst (run_schedule sch (with_file []) [writing [w1; w2]; writing [w3]])).
  split; [exact (run_schedule_isteps _ sch (with_file []) [writing [w1; w2]; writing [w3]])|reflexivity].
Qed.
Lemma killed_between w1 w2 : crash (writing [w1; w2]) (with_file [])
  {| fs_root := true; fs_lock := File []; fs_graph := GraphDir (File w1) |}.
Proof. do 4 (apply crash_act; right; cbn). apply crash_now. Qed.
Lemma read_loads nd s c cs : commands_entry s = File c -> gcmd_read_as_commands nd c = Done (Ok cs) ->
  exists g, loads nd s g.
Proof.
  intros E H. exists (apply_commands cs g_new). unfold loads. rewrite run_load, E. f_equal. apply gcmd_read_ok. eauto.
Qed.
Lemma next_addition w : run_prog (apply_graph_commands (buffered default_capacity) [AddVertex 2])
  {| fs_root := true; fs_lock := File []; fs_graph := GraphDir (File w) |} =
  (with_file (w ++ txt "AddVertex 2" ++ [10]), IoOk tt).
Proof. rewrite run_apply by apply buffered_ok. reflexivity. Qed.
Lemma glued_text front : commands_entry (with_file ((front ++ txt "AddVertex 10000") ++ txt "AddVertex 2" ++ [10])) =
  File (front ++ txt "AddVertex 10000AddVertex 2" ++ [10]).
Proof. cbn [commands_entry with_file fs_graph]. now rewrite <- app_assoc. Qed.

(** Killed after the first of its two writes, such a request leaves a readable
    graph, but the next successful addition makes it unreadable. *)
Theorem C98_next_addition_refuted : forall nd, digit_table nd -> exists s1 s2,
  crash (apply_graph_commands (buffered default_capacity) large) (with_file []) s1 /\
  (exists g, loads nd s1 g) /\
  run_prog (apply_graph_commands (buffered default_capacity) [AddVertex 2]) s1 = (s2, IoOk tt) /\
  forall g, ~ loads nd s2 g.
Proof.
  intros nd T. exists {| fs_root := true; fs_lock := File []; fs_graph := GraphDir (File first_write) |}.
  assert (Hc : crash (apply_graph_commands (buffered default_capacity) large) (with_file [])
            {| fs_root := true; fs_lock := File []; fs_graph := GraphDir (File first_write) |}).
  { unfold apply_graph_commands, add_commands. rewrite large_writes.
    change (crash (writing [first_write; second_write]) (with_file [])
      {| fs_root := true; fs_lock := File []; fs_graph := GraphDir (File first_write) |}).
    apply killed_between. }
  eexists. split; [exact Hc|]. split.
  - destruct (C96_killed_addition nd default_capacity large (with_file []) _ [] [] T eq_refl (or_introl eq_refl) eq_refl large_u64 Hc)
      as (c' & k & E & _ & Hr). injection E as <-. eapply (read_loads nd _ first_write); [reflexivity|exact Hr].
  - split; [apply next_addition|].
    apply (glued_unreadable nd _ (commands_text filling) [] T (closed_commands filling)).
    rewrite app_nil_r. unfold first_write. apply glued_text.
Qed.
Print Assumptions C98_next_addition_refuted.
(** The same happens without a crash when another process adds a vertex between
    the two writes; one of the two processes reports success. *)
Theorem C98_concurrent_refuted : forall nd, digit_table nd -> exists s',
  isteps (with_file [], map (apply_graph_commands (buffered default_capacity)) [large; [AddVertex 2]])
         (s', [Ret (IoOk tt); Ret IoErr]) /\
  forall g, ~ loads nd s' g.
Proof.
  intros nd T.
  assert (E : map (apply_graph_commands (buffered default_capacity)) [large; [AddVertex 2]] =
            [writing [first_write; second_write]; writing [txt "AddVertex 2" ++ [10]]]).
  { cbn [map]. unfold apply_graph_commands, add_commands. rewrite large_writes, small_writes. reflexivity. }
  rewrite E. clear E.
  destruct (between first_write second_write (txt "AddVertex 2" ++ [10])) as (s' & H & Hs). exists s'. split; [exact H|].
  apply (glued_unreadable nd _ (commands_text filling) second_write T (closed_commands filling)). rewrite Hs. unfold first_write.
  now rewrite <- !app_assoc.
Qed.
Print Assumptions C98_concurrent_refuted.
(** What is true for requests of any size: a kill leaves whole commands (C96), no
    byte is lost or altered (C26). *)
Example C98_case : Forall u64_command large /\ length large = 483%nat.
Proof. split; [apply large_u64|reflexivity]. Qed.

(** ** C99 *)
Lemma read_err nd c m : gcmd_read_as_commands nd c = Done (Err m) -> gcmd_read nd c = Done (Err m).
Proof. unfold gcmd_read, read, gcmd_read_as_commands. now intros ->. Qed.
Theorem C99_killed_build : forall nd cap order s s' g, digit_table nd -> hash_order order -> loads nd s g ->
  crash (gc_build nd (buffered cap) order) s s' ->
  s' = s \/
  (exists m, run_prog (load_graph nd) s' = (s', Done (Err m))) \/
  exists g', loads nd s' g' /\
    (forall v, contains_vertex g' v = true -> contains_vertex g v = true) /\
    (forall e, contains_edge g' e = true -> contains_edge g e = true).
Proof.
  intros nd cap order s s' g T O Hg H. unfold loads in Hg. rewrite run_load in Hg. injection Hg as Hg.
  destruct (commands_entry s) as [|c|] eqn:Ec; try discriminate.
  destruct (crash_build_writes nd (buffered cap) order s s' c Ec H) as [->|(g0 & n & Hg0 & Es)]; [now left|right].
  rewrite Hg in Hg0. injection Hg0 as <-.
  apply gcmd_read_ok in Hg. destruct Hg as (cs & Hr & Eg).
  assert (Bg : built_by cs g) by (subst g; apply built_by_apply).
  assert (Wg : wf g) by now apply (built_by_wf Bg).
  assert (Wo : wf (order g)) by (eapply wf_perm; [exact Wg|apply O]).
  assert (So : a_same (shown (order g)) (shown g)) by (apply shown_perm; [assumption|apply O]).
  assert (Uo : u64_graph (order g)).
  { intros v Hv. apply (built_by_u64 cs g Bg); [now apply (read_u64 nd c)|]. now apply (proj1 So). }
  destruct (buffered_prefix cap (save_pieces (order g)) n (save_pieces_nonempty _)) as [k Ek].
  rewrite Ek, save_pieces_fine in Es.
  destruct (read_fine nd T (as_commands (order g)) k (as_commands_additions _) (as_commands_u64 _ Wo Uo))
    as [(j & Hj & Ej)|[m Em]].
  - right. exists (apply_commands (firstn j (as_commands (order g))) g_new). split.
    + unfold loads. rewrite run_load, Es. f_equal. apply gcmd_read_ok. eauto.
    + destruct (part_within (order g) j Wo) as [P1 P2]. split.
      * intros v Hv. apply P1 in Hv. now apply (proj1 So).
      * intros [a b] He. apply P2 in He. now apply (proj2 So).
  - left. exists m. rewrite run_load, Es. f_equal. exact (read_err _ _ _ Em).
Qed.
Print Assumptions C99_killed_build.
(** With a buffer of 13 bytes a kill after the first write leaves one of two
    vertices; with 22 bytes it leaves a line without its id, which is an error. *)
Example C99_case : exists g, loads table (with_file (txt "AddEdge 1 2" ++ [10])) g /\
  buffered 13 (save_pieces g) =
    [txt "AddVertex 1" ++ [10]; txt "AddVertex 2" ++ [10]; txt "AddEdge 1 2" ++ [10]] /\
  buffered 22 (save_pieces g) =
    [txt "AddVertex 1" ++ [10] ++ txt "AddVertex "; txt "2" ++ [10] ++ txt "AddEdge 1 2" ++ [10]].
Proof. eexists. split; [reflexivity|]. split; vm_compute; reflexivity. Qed.
