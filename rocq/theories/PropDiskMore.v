(** * Property C120: gc-delete and gc-random when write calls are cut short or refused *)
From Coq Require Import String.
From Coq Require Import List NArith Bool Arith Lia Permutation.
From Verif Require Import Spec Base Graph GraphSpec GraphFacts Text Format FormatSpec TextFacts FormatFacts
  Store StoreSpec StoreFacts CrashFacts Writer WriterFacts Cli CliSpec CliFacts Disk DiskFacts PropFormat PropStore PropCli PropDisk.
Import ListNotations.
Open Scope N_scope.

(** ** gc-delete *)
(** One request, whatever the answers. *)
Lemma disk_apply_prefix cap d cs s c : openable (fs_lock s) = true -> commands_entry s = File c ->
  exists p, fst (run_prog (disk_apply cap d cs) s) = set_commands (File (c ++ p)) (released s) /\
    prefix p (commands_text cs) /\ (working d -> p = commands_text cs).
Proof.
  intros Hl Hc. rewrite run_disk_apply, Hl, Hc. cbn [fst].
  destruct (disk_writes_prefix cap d (add_pieces cs) 0 []) as (q & E & _). rewrite concat_add_pieces in E. cbn [app] in E.
  eexists. split; [reflexivity|]. split; [exists q; exact E|]. intro W.
  destruct (disk_writes_working cap d (add_pieces cs) W 0 []) as [_ H2]. now rewrite concat_add_pieces in H2.
Qed.
(** For all answers of the operating system: success, and the file grows by a prefix of each of the two
    requests. *)
Theorem C120_delete_disk : forall cap d vertex edge lv es s c, openable (fs_lock s) = true -> commands_entry s = File c ->
  option_ids vertex lv -> option_ids edge (flat es) ->
  exists s' p1 p2, run_prog (disk_delete cap d vertex edge) s = (s', Success) /\
    commands_entry s' = File (c ++ p1 ++ p2) /\
    prefix p1 (commands_text (map RemoveVertex lv)) /\
    prefix p2 (commands_text (map (fun e => RemoveEdge (fst e) (snd e)) es)) /\
    (working (d 0%nat) -> p1 = commands_text (map RemoveVertex lv)) /\
    (working (d 1%nat) -> p2 = commands_text (map (fun e => RemoveEdge (fst e) (snd e)) es)) /\
    (vertex <> None \/ edge <> None -> fs_lock s' = Absent).
Proof.
  intros cap d vertex edge lv es s c Hl Hc Hv He. unfold disk_delete.
  set (next := option_call edge _ _ _).
  assert (H2 : forall s1 c1, openable (fs_lock s1) = true -> commands_entry s1 = File c1 ->
    exists s2 p2, run_prog next s1 = (s2, Success) /\ commands_entry s2 = File (c1 ++ p2) /\
      prefix p2 (commands_text (map (fun e => RemoveEdge (fst e) (snd e)) es)) /\
      (working (d 1%nat) -> p2 = commands_text (map (fun e => RemoveEdge (fst e) (snd e)) es)) /\
      (edge = None -> s2 = s1) /\ (edge <> None -> fs_lock s2 = Absent)).
  { intros s1 c1 Hl1 Hc1. unfold next. rewrite run_option. destruct edge as [vs|]; cbn in He.
    - apply parse_all_done in He as Ep. rewrite Ep. cbn [obind]. rewrite tuple_even. cbn [obind expect].
      destruct (disk_apply_prefix cap (d 1%nat) (map (fun e => RemoveEdge (fst e) (snd e)) es) s1 c1 Hl1 Hc1) as (p & E & Hp & Hw).
      rewrite E. eexists. exists p. split; [reflexivity|]. split; [apply commands_set|]. split; [exact Hp|]. split; [exact Hw|].
      split; [discriminate|reflexivity].
    - destruct es as [|[? ?] ?]; [|discriminate]. exists s1, []. split; [reflexivity|]. split; [now rewrite app_nil_r|].
      split; [now exists []|]. split; [reflexivity|]. split; [reflexivity|congruence]. }
  rewrite run_option. destruct vertex as [vs|]; cbn in Hv.
  - apply parse_all_done in Hv as Ep. rewrite Ep.
    destruct (disk_apply_prefix cap (d 0%nat) (map RemoveVertex lv) s c Hl Hc) as (p & E & Hp & Hw). rewrite E.
    destruct (H2 (set_commands (File (c ++ p)) (released s)) (c ++ p) eq_refl (commands_set _ _)) as (s2 & p2 & R & E2 & Hp2 & Hw2 & Hn & Hs).
    exists s2, p, p2. split; [exact R|]. split; [rewrite app_assoc; exact E2|]. split; [exact Hp|]. split; [exact Hp2|].
    split; [exact Hw|]. split; [exact Hw2|]. intros _. destruct edge; [apply Hs; discriminate|]. now rewrite (Hn eq_refl).
  - subst lv. destruct (H2 s c Hl Hc) as (s2 & p2 & R & E2 & Hp2 & Hw2 & Hn & Hs).
    exists s2, [], p2. split; [exact R|]. split; [exact E2|]. split; [now exists []|]. split; [exact Hp2|].
    split; [reflexivity|]. split; [exact Hw2|]. intros [H|H]; [congruence|now apply Hs].
Qed.
Print Assumptions C120_delete_disk.
(** Expected but false: gc-delete removes nothing but what it was told to.  The disk takes 14 bytes of the
    only write call and is full then. *)
Definition fourteen : disk := fun i => match i with O => Takes 14 | _ => Refused end.
Theorem C120_wrong_vertex_refuted : forall nd, digit_table nd ->
  exists s g s' g', loads nd s g /\ contains_vertex g 1 = true /\ contains_vertex g 12 = true /\
    run_prog (disk_delete (N.to_nat 8192) (fun _ => fourteen) (Some [txt "12"]) None) s = (s', Success) /\
    loads nd s' g' /\ contains_vertex g' 1 = false /\ contains_vertex g' 12 = true.
Proof.
  intros nd T. exists (with_file (commands_text [AddVertex 1; AddVertex 12])), (apply_commands [AddVertex 1; AddVertex 12] g_new).
  assert (L : forall c cs, gcmd_read_as_commands nd c = Done (Ok cs) -> loads nd (with_file c) (apply_commands cs g_new)).
  { intros c cs H. unfold loads. rewrite run_load. f_equal. apply gcmd_read_ok. eauto. }
  assert (R : gcmd_read_as_commands nd (commands_text [AddVertex 1; AddVertex 12]) = Done (Ok [AddVertex 1; AddVertex 12]))
    by (apply (read_commands_text nd T [AddVertex 1; AddVertex 12]); repeat constructor).
  exists (with_file (commands_text [AddVertex 1; AddVertex 12] ++ command_into_line (RemoveVertex 1))),
    (apply_commands ([AddVertex 1; AddVertex 12] ++ [RemoveVertex 1]) g_new).
  split; [now apply L|]. split; [reflexivity|]. split; [reflexivity|]. split; [vm_compute; reflexivity|]. split; [|split; reflexivity].
  apply L. apply read_as_commands_ok. rewrite lines_app_closed by apply closed_commands.
  apply reads_app; [now apply read_as_commands_ok in R|].
  change (lines (command_into_line (RemoveVertex 1))) with [command_into_line (RemoveVertex 1)].
  pose proof (gcmd_line_written (RemoveVertex 1) eq_refl) as W. constructor; [apply (gcmd_line_shape _ _ _ W)| |constructor].
  apply gcmd_parse_ok; assumption.
Qed.
Print Assumptions C120_wrong_vertex_refuted.
Example C120_delete_case : option_ids (Some [txt "12"; txt "3"]) [12; 3] /\ option_ids (Some [txt "1"; txt "2"]) (flat [(1, 2)]) /\
  run_prog (disk_delete 100 (fun k => if Nat.eqb k 0 then twenty else one_byte) (Some [txt "12"; txt "3"]) (Some [txt "1"; txt "2"])) (with_file []) =
    (with_file (commands_text [RemoveVertex 12] ++ txt "Remo" ++ commands_text [RemoveEdge 1 2]), Success).
Proof.
  split; [|split; [|vm_compute; reflexivity]]; cbn [option_ids];
    repeat constructor; try discriminate; reflexivity.
Qed.

(** ** gc-random *)
Theorem C120_random_disk : forall nd cap d g force answer s e, digit_table nd -> built g -> u64_graph g ->
  openable (fs_lock s) = true -> fs_graph s = GraphDir e -> force = true \/ confirmed answer = true ->
  exists s' r p q, run_prog (disk_random cap d g force answer) s = (s', r) /\ fs_lock s' = Absent /\
    (* the old graph is gone, the new text is there up to some byte *)
    commands_entry s' = File p /\ gcmd_text g = p ++ q /\
    (r = Failure -> exists i, d i = Refused \/ d i = Takes 0) /\
    (r = Success -> (length q <= cap)%nat) /\
    (working d -> r = Success /\ exists g', loads nd s' g' /\ a_same (shown g') (shown g)).
Proof.
  intros nd cap d g force answer s e T Bg Ug Hl Hg Hy.
  destruct (disk_writes_prefix cap d (save_pieces g) 0 []) as (q & E & Hs & Hf). rewrite concat_save_pieces in E. cbn [app] in E.
  set (w := disk_writes cap d 0 [] (save_pieces g)) in *.
  exists (set_commands (File (concat (fst w))) (set_commands (File []) (set_root true (set_graph NoGraph (released s))))), (if snd w then Success else Failure), (concat (fst w)), q.
  assert (R : run_prog (disk_random cap d g force answer) s =
    (set_commands (File (concat (fst w))) (set_commands (File []) (set_root true (set_graph NoGraph (released s)))), if snd w then Success else Failure)).
  { unfold disk_random. replace (negb force && negb (confirmed answer)) with false by (destruct Hy as [-> | ->]; [reflexivity|now rewrite andb_false_r]).
    rewrite run_bind, run_clean, Hl, Hg. cbn [fst snd]. rewrite run_bind, run_init. cbn [set_graph fs_graph fst snd].
    rewrite run_bind, (run_disk_save _ _ _ _ [] (commands_set _ _)). fold w. cbn [fst snd run_prog]. now destruct (snd w). }
  split; [exact R|]. split; [reflexivity|]. split; [reflexivity|]. split; [exact E|].
  split; [intro Hr; apply Hf; destruct (snd w); [discriminate|reflexivity]|].
  split; [intro Hr; apply Hs; [cbn; lia|]; destruct (snd w); [reflexivity|discriminate]|].
  intro W. destruct (disk_writes_working cap d (save_pieces g) W 0 []) as [H1 H2]. fold w in H1, H2. rewrite H1. split; [reflexivity|].
  rewrite concat_save_pieces in H2. cbn [app] in H2. exists (apply_commands (as_commands g) g_new).
  split; [unfold loads; rewrite run_load, commands_set, H2, (gcmd_roundtrip nd T) by (try assumption; now apply built_wf); reflexivity|].
  apply as_commands_roundtrip. now apply built_wf.
Qed.
Print Assumptions C120_random_disk.
(** Expected but false: if gc-random reports success, the generated graph is stored.  On a full disk a graph
    whose text fits in the buffer is not, and the old one is gone. *)
Theorem C120_random_success_refuted : forall nd cap g s e, openable (fs_lock s) = true -> fs_graph s = GraphDir e ->
  (length (gcmd_text g) <= cap)%nat ->
  exists s', run_prog (disk_random cap full_disk g true []) s = (s', Success) /\ loads nd s' g_new.
Proof.
  intros nd cap g s e Hl Hg Hc. unfold disk_random. cbn [negb andb].
  rewrite run_bind, run_clean, Hl, Hg. cbn [fst snd]. rewrite run_bind, run_init. cbn [set_graph fs_graph fst snd].
  rewrite run_bind, (run_disk_save _ _ _ _ [] (commands_set _ _)), full_disk_save by assumption. cbn [fst snd run_prog io_of concat].
  eexists. split; reflexivity.
Qed.
Print Assumptions C120_random_success_refuted.
Example C120_random_case : built sample /\ u64_graph sample /\ openable (fs_lock (with_file (txt "AddVertex 8"))) = true /\
  (N.of_nat (length (gcmd_text sample)) <= 8192)%N /\
  run_prog (disk_random 30 twenty sample true []) (with_file (txt "AddVertex 8")) =
    (with_file (txt "AddVertex 3" ++ [10] ++ txt "AddVerte"), Failure).
Proof.
  split; [apply sample_built|]. split; [apply sample_u64|]. split; [reflexivity|]. split; [apply N.leb_le; vm_compute; reflexivity|].
  vm_compute. reflexivity.
Qed.
