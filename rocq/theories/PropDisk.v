(** * Properties C113-C114: write calls that the operating system cuts short or
      refuses *)
From Coq Require Import String.
From Coq Require Import List NArith Bool Arith Lia Permutation.
From Verif Require Import Spec Base Graph GraphSpec GraphFacts Text Format FormatSpec TextFacts FormatFacts
  Store StoreSpec StoreFacts CrashFacts Writer WriterFacts Cli CliSpec CliFacts Disk DiskFacts PropFormat PropStore PropCli.
Import ListNotations.
Open Scope N_scope.

(** ** C113 *)
Lemma run_disk_build nd cap d order s c g : commands_entry s = File c -> gcmd_read nd c = Done (Ok g) ->
  run_prog (disk_build nd cap d order) s =
  (set_commands (File (concat (fst (disk_writes cap d 0 [] (save_pieces (order g)))))) s,
   if snd (disk_writes cap d 0 [] (save_pieces (order g))) then ([txt "Done."], Success) else ([], Failure)).
Proof.
  intros Ec Eg. unfold disk_build. rewrite run_bind, run_load, Ec. cbn [fst snd]. rewrite Eg. rewrite run_bind, (run_disk_save _ _ _ _ c Ec).
  cbn [fst snd]. destruct (snd (disk_writes _ _ _ _ _)); reflexivity.
Qed.
(** For all answers of the operating system. *)
Theorem C113_build_disk : forall nd cap d order s g, digit_table nd -> hash_order order -> loads nd s g ->
  exists s' out r p q,
    run_prog (disk_build nd cap d order) s = (s', (out, r)) /\
    (out = [txt "Done."] <-> r = Success) /\ fs_lock s' = fs_lock s /\
    (* the file holds the new text up to some byte *)
    commands_entry s' = File p /\ gcmd_text (order g) = p ++ q /\
    (* a failure has a reason; success means that at most one buffer is missing *)
    (r = Failure -> exists i, d i = Refused \/ d i = Takes 0) /\
    (r = Success -> (length q <= cap)%nat) /\
    (* a disk that takes something of each call loses nothing *)
    (working d -> r = Success /\ q = [] /\ exists g', loads nd s' g' /\ built g' /\ a_same (shown g') (shown g)).
Proof.
  intros nd cap d order s g T O H. pose proof H as H'. unfold loads in H. rewrite run_load in H. injection H as H.
  destruct (commands_entry s) as [|c|] eqn:Ec; try discriminate.
  rewrite (run_disk_build nd cap d order s c g Ec H).
  destruct (disk_writes_prefix cap d (save_pieces (order g)) 0 []) as (q & E & Hs & Hf).
  rewrite concat_save_pieces in E. cbn [app] in E.
  set (w := disk_writes cap d 0 [] (save_pieces (order g))) in *.
  assert (Hw : working d -> snd w = true /\ q = []).
  { intro W. destruct (disk_writes_working cap d (save_pieces (order g)) W 0 []) as [H1 H2]. fold w in H1, H2.
    split; [assumption|]. rewrite concat_save_pieces in H2. cbn [app] in H2. rewrite H2 in E.
    rewrite <- (app_nil_r (gcmd_text (order g))) in E at 1. apply app_inv_head in E. now symmetry. }
  exists (set_commands (File (concat (fst w))) s), (if snd w then [txt "Done."] else []), (if snd w then Success else Failure),
    (concat (fst w)), q.
  refine (conj _ (conj _ (conj _ (conj _ (conj _ (conj _ (conj _ _))))))).
  - destruct (snd w); reflexivity.
  - destruct (snd w); split; intro; congruence || discriminate.
  - reflexivity.
  - reflexivity.
  - exact E.
  - intro Hr. apply Hf. destruct (snd w); [discriminate|reflexivity].
  - intro Hr. apply Hs; [cbn; lia|]. destruct (snd w); [reflexivity|discriminate].
  - intro W. destruct (Hw W) as [H1 H2]. rewrite H1. split; [reflexivity|]. split; [assumption|].
    destruct (C23_build nd (cut_by cap d) order s _ _ T (cut_by_ok cap d W) O (surjective_pairing _)) as [H3 _].
    destruct (H3 g H') as (_ & G & _). rewrite run_build, Ec, H in G by (now apply cut_by_ok).
    rewrite H2, app_nil_r in E. rewrite <- E. exact G.
Qed.
Print Assumptions C113_build_disk.
(** Killed at any point besides: the old file, or the new text up to some byte. *)
Theorem C113_killed : forall nd cap d order s s' c g, commands_entry s = File c -> gcmd_read nd c = Done (Ok g) ->
  crash (disk_build nd cap d order) s s' -> s' = s \/ exists p, commands_entry s' = File p /\ prefix p (gcmd_text (order g)).
Proof.
  intros nd cap d order s s' c g Ec Eg H. unfold disk_build in H. apply crash_bind in H. destruct H as [H|H].
  - left. unfold load_graph in H. apply crash_act in H. destruct H as [->|H]; [reflexivity|]. now apply crash_ret in H.
  - rewrite run_load, Ec in H. cbn [fst snd] in H. rewrite Eg in H.
    apply commands_entry_dir in Ec as Ed.
    destruct (disk_writes_prefix cap d (save_pieces (order g)) 0 []) as (q & E & _). rewrite concat_save_pieces in E. cbn [app] in E.
    assert (Hp : forall n, prefix (concat (firstn n (fst (disk_writes cap d 0 [] (save_pieces (order g)))))) (gcmd_text (order g))).
    { intro n. rewrite E. destruct (concat_firstn_prefix (fst (disk_writes cap d 0 [] (save_pieces (order g)))) n) as [t Ht].
      exists (t ++ q). rewrite Ht at 1. now rewrite <- app_assoc. }
    apply crash_bind in H. destruct H as [H|H].
    + unfold disk_save in H. apply crash_act in H. destruct H as [->|H]; [now left|]. rewrite Ed in H. right.
      apply crash_bind in H. destruct H as [H|H].
      * apply (crash_write _ (set_commands (File []) s) [] s' eq_refl) in H. destruct H as [n ->].
        eexists. split; [reflexivity|]. apply Hp.
      * pose proof (run_write_chunks (fst (disk_writes cap d 0 [] (save_pieces (order g)))) (set_commands (File []) s) [] eq_refl) as R.
        cbn [length app] in R. rewrite R in H. cbn [fst snd] in H. apply crash_ret in H. subst s'.
        eexists. split; [reflexivity|]. exists q. exact E.
    + rewrite (run_disk_save _ _ _ _ c Ec) in H. cbn [fst snd] in H. right. apply crash_ret in H. subst s'.
      eexists. split; [reflexivity|]. exists q. exact E.
Qed.
Print Assumptions C113_killed.
(** Expected but false: "Done." and a success status mean that the graph is stored.
    On a full disk every graph whose text fits in the buffer is lost. *)
Theorem C113_done_refuted : forall nd cap order s g, loads nd s g -> (length (gcmd_text (order g)) <= cap)%nat ->
  exists s', run_prog (disk_build nd cap full_disk order) s = (s', ([txt "Done."], Success)) /\ loads nd s' g_new.
Proof.
  intros nd cap order s g H Hl. unfold loads in H. rewrite run_load in H. injection H as H.
  destruct (commands_entry s) as [|c|] eqn:Ec; try discriminate.
  rewrite (run_disk_build nd cap full_disk order s c g Ec H), full_disk_save by assumption.
  eexists. split; reflexivity.
Qed.
Print Assumptions C113_done_refuted.
(** A disk that takes one byte per call, and one that fills up after twenty bytes. *)
Definition one_byte : disk := fun _ => Takes 1.
Definition twenty : disk := fun i => if Nat.ltb i 20 then Takes 1 else Refused.
Example C113_case : working one_byte /\ exists g, loads table (with_file (txt "AddEdge 5 6")) g /\
  (N.of_nat (length (gcmd_text (id_order g))) <= 8192)%N /\
  snd (run_prog (disk_build table 25 one_byte id_order) (with_file (txt "AddEdge 5 6"))) = ([txt "Done."], Success) /\
  run_prog (disk_build table 25 twenty id_order) (with_file (txt "AddEdge 5 6")) =
    (with_file (txt "AddVertex 5" ++ [10] ++ txt "AddVerte"), ([], Failure)).
Proof.
  split; [intro i; now exists O|]. eexists. split; [reflexivity|]. split; [apply N.leb_le; vm_compute; reflexivity|].
  split; vm_compute; reflexivity.
Qed.

(** ** C114 *)
Theorem C114_append_disk : forall nd cap d cs' s s' r c cs, digit_table nd -> openable (fs_lock s) = true ->
  commands_entry s = File c -> closed c -> gcmd_read_as_commands nd c = Done (Ok cs) -> Forall u64_command cs' ->
  run_prog (disk_apply cap d cs') s = (s', r) ->
  fs_lock s' = Absent /\
  exists p q, commands_entry s' = File (c ++ p) /\ commands_text cs' = p ++ q /\
    (r = IoErr -> exists i, d i = Refused \/ d i = Takes 0) /\
    (r = IoOk tt -> (length q <= cap)%nat) /\
    (working d -> r = IoOk tt /\ q = []) /\
    (* how the file reads then *)
    exists k, (k <= length cs')%nat /\
      (gcmd_read_as_commands nd (c ++ p) = Done (Ok (cs ++ firstn k cs')) \/
       (exists x x', nth_error cs' k = Some x /\ cut_command x' x /\
          gcmd_read_as_commands nd (c ++ p) = Done (Ok (cs ++ firstn k cs' ++ [x']))) \/
       (exists m, (k < length cs')%nat /\ gcmd_read_as_commands nd (c ++ p) = Done (Err m))).
Proof.
  intros nd cap d cs' s s' r c cs T Hl Hc Hcl Hr U H. rewrite run_disk_apply, Hl, Hc in H. injection H as <- <-.
  split; [reflexivity|].
  destruct (disk_writes_prefix cap d (add_pieces cs') 0 []) as (q & E & Hs & Hf).
  rewrite concat_add_pieces in E. cbn [app] in E.
  set (w := disk_writes cap d 0 [] (add_pieces cs')) in *.
  exists (concat (fst w)), q. refine (conj eq_refl (conj E (conj _ (conj _ (conj _ _))))).
  - intro Hr'. apply Hf. destruct (snd w); [discriminate|reflexivity].
  - intro Hr'. apply Hs; [cbn; lia|]. destruct (snd w); [reflexivity|discriminate].
  - intro W. destruct (disk_writes_working cap d (add_pieces cs') W 0 []) as [H1 H2]. fold w in H1, H2. rewrite H1.
    split; [reflexivity|]. rewrite concat_add_pieces in H2. cbn [app] in H2. rewrite H2 in E.
    rewrite <- (app_nil_r (commands_text cs')) in E at 1. apply app_inv_head in E. now symmetry.
  - apply (read_torn nd T); try assumption. exists q. exact E.
Qed.
Print Assumptions C114_append_disk.
(** The exit status of gc-add says nothing about the disk. *)
Lemma add_with_exit call call' a s s' : snd (run_prog (add_with call a) s) = snd (run_prog (add_with call' a) s').
Proof.
  assert (E : succeeds (Ret Success) True) by (intro; cbn; tauto).
  assert (Hg : forall call, succeeds (add_with call a) _) by (intro; unfold add_with; repeat eapply succeeds_option; exact E).
  pose proof (Hg call s) as H1. pose proof (Hg call' s') as H2. rewrite <- H1 in H2.
  destruct (snd (run_prog (add_with call a) s)), (snd (run_prog (add_with call' a) s')); try reflexivity.
  - symmetry. exact (proj2 H2 eq_refl).
  - exact (proj1 H2 eq_refl).
Qed.
Lemma gc_add_with chunks a : gc_add chunks a = add_with (fun _ => apply_graph_commands chunks) a.
Proof. reflexivity. Qed.
Theorem C114_exit_status : forall chunks cap d args s,
  snd (run_prog (disk_add cap d args) s) = snd (run_prog (gc_add chunks args) s).
Proof. intros. rewrite gc_add_with. apply add_with_exit. Qed.
Print Assumptions C114_exit_status.
(** Expected but false: a success status of gc-add means that the request is stored.
    On a full disk no request is, and every well-formed one ends with success. *)
Theorem C114_success_refuted : forall cap args lv le lc ly ls lq s, denotes args lv le lc ly ls lq ->
  exists s', run_prog (disk_add cap (fun _ => full_disk) args) s = (s', Success) /\ fs_graph s' = fs_graph s.
Proof.
  intros cap args lv le lc ly ls lq s D. destruct (run_prog (disk_add cap (fun _ => full_disk) args) s) as [s' r] eqn:E.
  exists s'. assert (r = Success).
  { change r with (snd (s', r)). rewrite <- E, (C114_exit_status at_once).
    apply (C81_exit_status at_once args s _ _ (surjective_pairing _)). now exists lv, le, lc, ly, ls, lq. }
  subst r. split; [reflexivity|].
  assert (Ap : forall cs t, fs_graph t = fs_graph s -> fs_graph (fst (run_prog (disk_apply cap full_disk cs) t)) = fs_graph s).
  { intros cs t Ht. rewrite run_disk_apply. destruct (openable (fs_lock t)); [|exact Ht].
    destruct (commands_entry t) as [|c|] eqn:Ec; [exact Ht| |exact Ht]. rewrite full_disk_nothing, app_nil_r.
    apply commands_entry_dir in Ec. cbn [fst set_commands set_graph fs_graph]. congruence. }
  assert (K : fs_graph (fst (run_prog (disk_add cap (fun _ => full_disk) args) s)) = fs_graph s); [|now rewrite E in K].
  unfold disk_add, add_with.
  apply (option_call_keeps _ _ _ _ _ (fun t => fs_graph t = fs_graph s)); [reflexivity|intros; now apply Ap|intros t1 H1].
  apply (option_call_keeps _ _ _ _ _ (fun t => fs_graph t = fs_graph s)); [assumption|intros; now apply Ap|intros t2 H2].
  apply (option_call_keeps _ _ _ _ _ (fun t => fs_graph t = fs_graph s)); [assumption|intros; now apply Ap|intros t3 H3].
  apply (option_call_keeps _ _ _ _ _ (fun t => fs_graph t = fs_graph s)); [assumption|intros; now apply Ap|intros t4 H4].
  apply (option_call_keeps _ _ _ _ _ (fun t => fs_graph t = fs_graph s)); [assumption|intros; now apply Ap|intros t5 H5].
  apply (option_call_keeps _ _ _ _ _ (fun t => fs_graph t = fs_graph s)); [assumption|intros; now apply Ap|intros t6 H6].
  assumption.
Qed.
Print Assumptions C114_success_refuted.
(** *** gc-add when the disk is full for some of its requests *)
(** The values of the k-th option, if the disk takes its request. *)
Definition kept (keep : nat -> bool) (k : nat) (l : list N) : list N := if keep k then l else [].
Definition sound_or_full (keep : nat -> bool) (d : nat -> disk) : Prop :=
  forall k, if keep k then working (d k) else d k = full_disk.
Lemma holds_disk_apply nd cap d (b : bool) cs s a : digit_table nd -> (if b then working d else d = full_disk) -> Forall u64_command cs ->
  holds nd s a -> holds nd (fst (run_prog (disk_apply cap d cs) s)) (if b then fold_left a_step cs a else a).
Proof.
  intros T W U H. assert (H' := H). destruct H' as (Hl & c & cs0 & E & Hc & Hr & Ha).
  assert (Ec : commands_entry s = File c) by (unfold commands_entry; now rewrite E).
  rewrite run_disk_apply, Hl, Ec. cbn [fst]. destruct b.
  - destruct (disk_writes_working cap d (add_pieces cs) W 0 []) as [_ ->]. cbn [app]. rewrite concat_add_pieces.
    pose proof (holds_apply nd at_once cs s a T at_once_ok U H) as [_ K]. rewrite (run_apply _ _ _ at_once_ok), Hl, Ec in K. exact K.
  - subst d. rewrite full_disk_nothing, app_nil_r. split; [reflexivity|]. exists c, cs0. split; [reflexivity|]. now split.
Qed.
Lemma edges_then_disk nd cap d (b : bool) values f R next s a V E (P : fs * exit -> Prop) : digit_table nd -> (if b then working d else d = full_disk) ->
  computes values f R -> holds nd s (a_union a V E) ->
  (forall s', holds nd s' (a_union a V (fun x y => E x y \/ (b = true /\ R x y))) -> P (run_prog next s')) ->
  P (run_prog (option_call values f (fun es => disk_apply cap d (map (fun e => AddEdge (fst e) (snd e)) es)) next) s).
Proof.
  intros T W C H HP. rewrite run_option. destruct values as [vs|]; cbn in C.
  - destruct C as (es & Ef & U & Hi). rewrite Ef. apply HP.
    pose proof (holds_disk_apply nd cap d b (invocation_commands (AddEdges es)) s _ T W (invocation_commands_u64 (AddEdges es) U) H) as K.
    rewrite invocation_commands_spec in K. destruct b.
    + eapply holds_same; [exact K|]. eapply a_same_trans; [apply fold_add_edges|].
      eapply a_same_trans; [apply a_union_merge|]. apply a_union_ext. intros x y. rewrite Hi. tauto.
    + eapply holds_same; [exact K|]. apply a_union_ext. intros x y. split; [tauto|]. intros [?|[? _]]; [assumption|discriminate].
  - apply HP. eapply holds_same; [exact H|]. apply a_union_ext. intros x y. specialize (C x y). tauto.
Qed.
Lemma vertices_then_disk nd cap d (b : bool) values lv next s a (P : fs * exit -> Prop) : digit_table nd -> (if b then working d else d = full_disk) ->
  option_ids values lv -> holds nd s a ->
  (forall s', holds nd s' (a_union a (fun x => In x (if b then lv else [])) (fun _ _ => False)) -> P (run_prog next s')) ->
  P (run_prog (option_call values parse_all (fun vs => disk_apply cap d (map AddVertex vs)) next) s).
Proof.
  intros T W Hv H HP. rewrite run_option.
  assert (Z : forall t, holds nd t a -> holds nd t (a_union a (fun x => In x (@nil N)) (fun _ _ => False))).
  { intros t Ht. eapply holds_same; [exact Ht|]. split; cbn.
    - intro x. split; [tauto|]. intros [Hx|[[]|[y [[]|[]]]]]. exact Hx.
    - intros x y. tauto. }
  destruct values as [vs|]; cbn in Hv.
  - apply parse_all_done in Hv as Ep. rewrite Ep. apply HP.
    pose proof (holds_disk_apply nd cap d b (invocation_commands (AddVertices lv)) s a T W
      (invocation_commands_u64 (AddVertices lv) (id_arguments_u64 vs lv Hv)) H) as K.
    rewrite invocation_commands_spec in K. destruct b; [|now apply Z]. eapply holds_same; [exact K|apply fold_add_vertices].
  - subst lv. apply HP. destruct b; now apply Z.
Qed.
(** The options whose request meets a working disk take effect, those whose request meets a full one do not, and the exit
    status is the same. *)
Theorem C114_gc_add : forall nd cap d keep args lv le lc ly ls lq s a, digit_table nd -> sound_or_full keep d ->
  denotes args lv le lc ly ls lq -> holds nd s a ->
  exists s' g, run_prog (disk_add cap d args) s = (s', Success) /\ loads nd s' g /\ built g /\
    a_same (shown g) (a_union a (fun x => In x (kept keep 0 lv))
      (added (a_reverse args) (kept keep 1 le) (kept keep 2 lc) (kept keep 3 ly) (kept keep 4 ls) (kept keep 5 lq))) /\
    holds nd s' (shown g).
Proof.
  intros nd cap d keep args lv le lc ly ls lq s a T W D H.
  destruct (denotes_computes _ _ _ _ _ _ _ D) as (Ce & Cc & Cy & Cs & Cq).
  set (F := a_union a (fun x => In x (kept keep 0 lv))
      (added (a_reverse args) (kept keep 1 le) (kept keep 2 lc) (kept keep 3 ly) (kept keep 4 ls) (kept keep 5 lq))).
  set (P := fun r : fs * exit => exists s' g, r = (s', Success) /\ loads nd s' g /\ built g /\ a_same (shown g) F /\ holds nd s' (shown g)).
  change (P (run_prog (disk_add cap d args) s)). unfold disk_add, add_with. cbv zeta.
  apply (vertices_then_disk nd cap (d 0%nat) (keep 0%nat) (a_vertex args) lv _ s a P T (W 0%nat) (d_vertex _ _ _ _ _ _ _ D) H). intros s1 H1.
  apply (edges_then_disk nd cap (d 1%nat) (keep 1%nat) _ _ _ _ _ _ _ _ P T (W 1%nat) Ce H1). intros s2 H2.
  apply (edges_then_disk nd cap (d 2%nat) (keep 2%nat) _ _ _ _ _ _ _ _ P T (W 2%nat) Cc H2). intros s3 H3.
  apply (edges_then_disk nd cap (d 3%nat) (keep 3%nat) _ _ _ _ _ _ _ _ P T (W 3%nat) Cy H3). intros s4 H4.
  apply (edges_then_disk nd cap (d 4%nat) (keep 4%nat) _ _ _ _ _ _ _ _ P T (W 4%nat) Cs H4). intros s5 H5.
  apply (edges_then_disk nd cap (d 5%nat) (keep 5%nat) _ _ _ _ _ _ _ _ P T (W 5%nat) Cq H5). intros s6 H6.
  assert (H7 : holds nd s6 F).
  { eapply holds_same; [exact H6|]. unfold F. apply a_union_ext. intros x y. unfold added.
    assert (Z : forall (b r : bool) (X : list N -> rel), (forall u v, ~ X [] u v) -> forall l,
      (flip r (X (if b then l else [])) x y <-> b = true /\ flip r (X l) x y)).
    { intros b r X HX l. destruct b; [tauto|]. split; [|intros [K _]; discriminate K]. unfold flip. destruct r; intro K; now apply HX in K. }
    unfold kept. rewrite (Z (keep 1%nat) _ pairs_rel), (Z (keep 2%nat) _ chain_rel), (Z (keep 3%nat) _ cycle_rel), (Z (keep 4%nat) _ star_rel).
    - assert (Zq : clique_rel (if keep 5%nat then lq else []) x y <-> keep 5%nat = true /\ clique_rel lq x y) by exact (Z (keep 5%nat) false clique_rel ltac:(
        intros u v [(p & q & r & K)|(p & q & r & K)]; destruct p; discriminate K) lq).
      rewrite Zq.
      generalize (flip (a_reverse args) (pairs_rel le) x y) (flip (a_reverse args) (chain_rel lc) x y)
        (flip (a_reverse args) (cycle_rel ly) x y) (flip (a_reverse args) (star_rel ls) x y) (clique_rel lq x y).
      clear. tauto.
    - intros u v (t & K & _). discriminate K.
    - intros u v [(p & q & K)|[[t K] _]]; [destruct p; discriminate K|destruct t; discriminate K].
    - intros u v (p & q & K). destruct p; discriminate K.
    - intros u v (p & q & K). destruct p as [|[? ?] p]; discriminate K. }
  destruct (holds_load nd s6 _ T H7) as (g & Hg & Hb & Hs). exists s6, g. split; [reflexivity|].
  split; [unfold loads; rewrite run_load in *; cbn [snd] in Hg; now rewrite Hg|]. split; [assumption|]. split; [assumption|].
  eapply holds_same; [exact H7|now apply a_same_sym].
Qed.
Print Assumptions C114_gc_add.
(** The disk is full for the vertices and not for the edges. *)
Example C114_gc_add_case : let keep := fun k => negb (Nat.eqb k 0) in
  sound_or_full keep (fun k => if Nat.eqb k 0 then full_disk else one_byte) /\
  run_prog (disk_add 100 (fun k => if Nat.eqb k 0 then full_disk else one_byte)
    {| a_vertex := Some [txt "9"]; a_reverse := false; a_edge := Some [txt "1"; txt "2"]; a_chain := None; a_cycle := None; a_star := None; a_clique := None |})
    (with_file []) = (with_file (txt "AddEdge 1 2" ++ [10]), Success).
Proof.
  cbv zeta. split; [|vm_compute; reflexivity]. intros [|k]; cbn; [reflexivity|]. intro i. now exists O.
Qed.
(** A disk that fills up within a line. *)
Example C114_case : closed [] /\ Forall u64_command [AddVertex 12; AddVertex 34] /\
  run_prog (disk_apply default_capacity twenty [AddVertex 12; AddVertex 34]) (with_file []) =
    (with_file (txt "AddVertex 12" ++ [10] ++ txt "AddVert"), IoOk tt).
Proof. split; [now left|]. split; [repeat constructor|]. vm_compute. reflexivity. Qed.
