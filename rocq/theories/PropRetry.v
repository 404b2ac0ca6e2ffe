(** * Property C185: trying again *)
From Coq Require Import String.
From Coq Require Import List NArith Bool Arith Lia.
From Verif Require Import Spec Base Graph GraphSpec GraphFacts Text Format FormatSpec TextFacts FormatFacts
  Store StoreSpec StoreFacts CrashFacts PropFormat PropStore Cli CliSpec CliFacts PropCli Disk Writer WriterFacts PropWriter Refuse PropRefuse.
Import ListNotations.
Open Scope N_scope.

(** ** What it means *)
(** One attempt at an invocation that is not known to have succeeded: any call may have been refused, or the process was
    killed anywhere (for requests that are written with one call; gc-build is another matter, C99). *)
Inductive attempt (nd : N -> bool) (i : invocation) : fs -> fs -> Prop :=
| at_refused s s1 r gr chunks order : buffering chunks -> hash_order order ->
    run_prog (r_invoke gr nd chunks order i) s = (s1, r) -> attempt nd i s s1
| at_killed s s1 gr chunks order : i <> Build -> buffering chunks -> (length (chunks (add_pieces (invocation_commands i))) <= 1)%nat ->
    crash (r_invoke gr nd chunks order i) s s1 -> attempt nd i s s1.
(** A user that repeats each invocation until it is answered with success, and only then goes on to the next. *)
Inductive persistent (nd : N -> bool) : fs -> list invocation -> fs -> Prop :=
| pe_nil s : persistent nd s [] s
| pe_again s i is s1 s2 : attempt nd i s s1 -> persistent nd s1 (i :: is) s2 -> persistent nd s (i :: is) s2
| pe_done s i is s1 s2 gr chunks order : buffering chunks -> hash_order order ->
    run_prog (r_invoke gr nd chunks order i) s = (s1, Success) -> persistent nd s1 is s2 -> persistent nd s (i :: is) s2.
Definition adding (i : invocation) : Prop := match i with AddVertices _ | AddEdges _ | Init | Build => True | _ => False end.

(** ** Lists of additions, and of removals, count as sets *)
Definition puts (c : graph_command) (x : N) : Prop :=
  match c with AddVertex v => x = v | AddEdge a b => x = a \/ x = b | _ => False end.
Definition adds_only (cs : list graph_command) : Prop := Forall (fun c => match c with AddVertex _ | AddEdge _ _ => True | _ => False end) cs.
Definition removes_only (cs : list graph_command) : Prop := Forall (fun c => match c with RemoveVertex _ | RemoveEdge _ _ => True | _ => False end) cs.
Lemma adds_value cs : adds_only cs -> forall a,
  (forall x, aV (fold_left a_step cs a) x <-> aV a x \/ exists c, In c cs /\ puts c x) /\
  (forall x y, aE (fold_left a_step cs a) x y <-> aE a x y \/ In (AddEdge x y) cs).
Proof.
  induction cs as [|c cs IH]; intros A a; cbn [fold_left].
  - split; intros; [split; [tauto|intros [H|(c & [] & _)]; exact H]|cbn; tauto].
  - inversion A as [|? ? A1 A2]; subst. destruct (IH A2 (a_step a c)) as [HV HE]. split; intros.
    + rewrite HV. split.
      * intros [H|(d & Hd & Hp)]; [|right; exists d; split; [now right|exact Hp]].
        destruct c; try contradiction; cbn in H; (destruct H as [H|H]; [now left|right; eexists; split; [now left|exact H]]).
      * intros [H|(d & [<-|Hd] & Hp)]; [left|left|right; now exists d].
        -- destruct c; try contradiction; cbn; now left.
        -- destruct c; try contradiction; cbn in *; now right.
    + rewrite HE. cbn [In]. destruct c as [v|v|p q|p q]; try contradiction; cbn.
      * split; [tauto|]. intros [H|[H|H]]; [tauto|discriminate|tauto].
      * split; [intros [[H|[-> ->]]|H]; tauto|]. intros [H|[H|H]]; [tauto| |tauto]. injection H as <- <-. tauto.
Qed.
Lemma removes_value cs : removes_only cs -> forall a,
  (forall x, aV (fold_left a_step cs a) x <-> aV a x /\ ~ In (RemoveVertex x) cs) /\
  (forall x y, aE (fold_left a_step cs a) x y <->
     aE a x y /\ ~ In (RemoveEdge x y) cs /\ ~ In (RemoveVertex x) cs /\ ~ In (RemoveVertex y) cs).
Proof.
  induction cs as [|c cs IH]; intros A a; cbn [fold_left].
  - split; intros; cbn; tauto.
  - inversion A as [|? ? A1 A2]; subst. destruct (IH A2 (a_step a c)) as [HV HE]. split; intros.
    + rewrite HV. cbn [In]. destruct c as [v|v|p q|p q]; try contradiction; cbn.
      * split; [intros [[H1 H2] H3]; split; [exact H1|]; intros [E|E]; [injection E as E; congruence|contradiction]|].
        intros [H1 H2]. repeat split; [exact H1| |tauto]. intros ->. apply H2. now left.
      * split; [intros [H1 H3]; split; [exact H1|]; intros [E|E]; [discriminate|contradiction]|tauto].
    + rewrite HE. cbn [In]. destruct c as [v|v|p q|p q]; try contradiction; cbn.
      * split.
        -- intros [(H1 & H2 & H3) (H4 & H5 & H6)]. split; [exact H1|]. repeat split.
           ++ intros [E|E]; [discriminate|contradiction].
           ++ intros [E|E]; [injection E as E; congruence|contradiction].
           ++ intros [E|E]; [injection E as E; congruence|contradiction].
        -- intros (H1 & H2 & H3 & H4). repeat split; try tauto; intros ->; [apply H3|apply H4]; now left.
      * split.
        -- intros [(H1 & H2) (H4 & H5 & H6)]. split; [exact H1|]. repeat split.
           ++ intros [E|E]; [injection E as <- <-; tauto|contradiction].
           ++ intros [E|E]; [discriminate|contradiction].
           ++ intros [E|E]; [discriminate|contradiction].
        -- intros (H1 & H2 & H3 & H4). repeat split; try tauto. intros [-> ->]. apply H2. now left.
Qed.
Lemma adds_same cs ds a : adds_only cs -> adds_only ds -> (forall c, In c cs <-> In c ds) ->
  a_same (fold_left a_step cs a) (fold_left a_step ds a).
Proof.
  intros A B H. destruct (adds_value cs A a) as [V1 E1]. destruct (adds_value ds B a) as [V2 E2]. split; intros.
  - rewrite V1, V2. split; (intros [K|(c & K1 & K2)]; [now left|right; exists c; split; [now apply H|exact K2]]).
  - rewrite E1, E2, H. tauto.
Qed.
Lemma removes_same cs ds a : removes_only cs -> removes_only ds -> (forall c, In c cs <-> In c ds) ->
  a_same (fold_left a_step cs a) (fold_left a_step ds a).
Proof.
  intros A B H. destruct (removes_value cs A a) as [V1 E1]. destruct (removes_value ds B a) as [V2 E2]. split; intros.
  - rewrite V1, V2, H. tauto.
  - rewrite E1, E2, !H. tauto.
Qed.
Lemma one_sort i : adds_only (invocation_commands i) \/ removes_only (invocation_commands i).
Proof.
  destruct i as [|l|l|l|l|]; cbn [invocation_commands]; [left; constructor|left|left|right|right|left; constructor];
    apply Forall_map, Forall_forall; trivial.
Qed.
Lemma invoke_twice i a : a_same (a_invoke (a_invoke a i) i) (a_invoke a i).
Proof.
  rewrite <- !invocation_commands_spec, <- fold_left_app.
  assert (H : forall c, In c (invocation_commands i ++ invocation_commands i) <-> In c (invocation_commands i)) by (intro; rewrite in_app_iff; tauto).
  destruct (one_sort i) as [S|S]; [apply adds_same|apply removes_same]; try assumption; apply Forall_app; now split.
Qed.
Lemma invoke_same i a b : a_same a b -> a_same (a_invoke a i) (a_invoke b i).
Proof.
  rewrite <- !invocation_commands_spec. generalize (invocation_commands i). intros cs. revert a b.
  induction cs as [|c cs IH]; intros a b H; [exact H|]. cbn [fold_left]. apply IH. now apply a_step_same.
Qed.
Lemma invokes_same is : forall a b, a_same a b -> a_same (fold_left a_invoke is a) (fold_left a_invoke is b).
Proof. induction is as [|i is IH]; intros a b H; [exact H|]. cbn [fold_left]. apply IH. now apply invoke_same. Qed.

(** ** A request that is killed while calls are refused *)
Lemma kill_run A (p : prog A) : forall s, crash p s (fst (run_prog p s)).
Proof. induction p as [a|u k IH]; intro s; cbn [run_prog]; [constructor|]. constructor. apply IH. Qed.
Definition same_graph (s s' : fs) : Prop := fs_graph s' = fs_graph s /\ (openable (fs_lock s) = true -> openable (fs_lock s') = true).
Lemma kill_r_lock gr s s' : crash (r_lock gr) s s' -> same_graph s s'.
Proof.
  intro H. apply crash_act in H. destruct H as [->|H]; [now split|]. apply crash_act in H. destruct H as [->|H].
  - destruct (may_mkdir gr); now split.
  - apply crash_ret in H. subst s'. destruct (may_mkdir gr), (may_lock gr && _); split; try reflexivity; cbn; auto; now destruct (fs_lock s).
Qed.
Lemma kill_r_unlock gr s s' : crash (r_unlock gr) s s' -> same_graph s s'.
Proof.
  intro H. apply crash_act in H. destruct H as [->|H]; [now split|]. apply crash_ret in H. subst s'.
  unfold same_graph. destruct (may_unlock gr), (fs_lock s) eqn:E; cbn; rewrite ?E; now split.
Qed.
Lemma kill_r_add gr chunks cs s s' c : buffering chunks -> (length (chunks (add_pieces cs)) <= 1)%nat -> commands_entry s = File c ->
  crash (r_add_commands gr chunks cs) s s' ->
  fs_lock s' = fs_lock s /\ (fs_graph s' = GraphDir (File c) \/ fs_graph s' = GraphDir (File (c ++ commands_text cs))).
Proof.
  intros B W Ec H. pose proof (commands_entry_dir _ _ Ec) as Eg. unfold r_add_commands in H. destruct (may_append gr).
  2: { apply crash_ret in H. subst s'. auto. }
  unfold add_commands in H. apply crash_act in H. destruct H as [->|H]; [auto|]. rewrite Ec in H.
  apply (crash_append _ _ _ _ Ec) in H. destruct H as [n ->]. split; [reflexivity|]. cbn [set_commands set_graph fs_graph].
  destruct (one_write_cases chunks cs B W) as [[_ ->]| ->].
  - left. destruct n; cbn; now rewrite app_nil_r.
  - destruct n as [|n]; cbn; [left; now rewrite app_nil_r|right].
    replace (firstn n []) with (@nil text) by now destruct n. cbn. now rewrite app_nil_r.
Qed.
Lemma kill_r_apply gr chunks cs s s' c : buffering chunks -> (length (chunks (add_pieces cs)) <= 1)%nat ->
  openable (fs_lock s) = true -> commands_entry s = File c -> crash (r_apply gr chunks cs) s s' ->
  openable (fs_lock s') = true /\ (fs_graph s' = GraphDir (File c) \/ fs_graph s' = GraphDir (File (c ++ commands_text cs))).
Proof.
  intros B W Hl Ec H. pose proof (commands_entry_dir _ _ Ec) as Eg. unfold r_apply, r_with_lock in H. apply crash_bind in H. destruct H as [H|H].
  - apply kill_r_lock in H. destruct H as [Hg Ho]. split; [now apply Ho|]. left. now rewrite Hg.
  - pose proof (kill_r_lock gr s _ (kill_run _ _ s)) as [Hg Ho]. specialize (Ho Hl).
    set (t := fst (run_prog (r_lock gr) s)) in *. assert (Et : commands_entry t = File c) by (unfold commands_entry in *; now rewrite Hg).
    destruct (snd (run_prog (r_lock gr) s)).
    2: { apply crash_ret in H. subst s'. split; [exact Ho|]. left. now rewrite Hg. }
    apply crash_bind in H. destruct H as [H|H].
    + destruct (kill_r_add gr chunks cs t s' c B W Et H) as [-> Hx]. now split.
    + destruct (kill_r_add gr chunks cs t _ c B W Et (kill_run _ _ t)) as [El Hx].
      set (u := fst (run_prog (r_add_commands gr chunks cs) t)) in *. rewrite <- El in Ho.
      apply crash_bind in H. destruct H as [H|H].
      * apply kill_r_unlock in H. destruct H as [Hg' Ho']. split; [now apply Ho'|]. now rewrite Hg'.
      * pose proof (kill_r_unlock gr u _ (kill_run _ _ u)) as [Hg' Ho'].
        assert (Es : s' = fst (run_prog (r_unlock gr) u)) by (destruct (snd (run_prog (r_unlock gr) u)); now apply crash_ret in H).
        rewrite Es. split; [now apply Ho'|]. now rewrite Hg'.
Qed.
Lemma holds_kill_apply nd gr chunks cs s s' a : digit_table nd -> buffering chunks -> (length (chunks (add_pieces cs)) <= 1)%nat ->
  Forall u64_command cs -> holds nd s a -> crash (r_apply gr chunks cs) s s' -> holds nd s' a \/ holds nd s' (fold_left a_step cs a).
Proof.
  intros T B W U Hh H. pose proof Hh as (Hl & c & ds & E & Hc & Hr & Ha).
  assert (Hce : commands_entry s = File c) by (unfold commands_entry; now rewrite E).
  destruct (kill_r_apply gr chunks cs s s' c B W Hl Hce H) as [H1 [H2|H2]].
  - left. split; [exact H1|]. exists c, ds. tauto.
  - right. destruct (holds_apply nd chunks cs s a T B U Hh) as [_ H3].
    rewrite run_apply, Hl, Hce in H3 by assumption. cbn [fst] in H3.
    destruct H3 as (_ & c' & cs' & E' & H3). cbn in E'. injection E' as <-. split; [exact H1|].
    exists (c ++ commands_text cs), cs'. now split.
Qed.
Lemma holds_kill nd gr chunks order i s s1 a : digit_table nd -> buffering chunks ->
  (length (chunks (add_pieces (invocation_commands i))) <= 1)%nat -> i <> Build -> u64_invocation i -> holds nd s a ->
  crash (r_invoke gr nd chunks order i) s s1 -> holds nd s1 a \/ holds nd s1 (a_invoke a i).
Proof.
  intros T B W Hi U Hh H.
  assert (Hap : forall j, u64_invocation j -> (length (chunks (add_pieces (invocation_commands j))) <= 1)%nat ->
            crash (exit_of (r_apply gr chunks (invocation_commands j))) s s1 -> holds nd s1 a \/ holds nd s1 (a_invoke a j)).
  { clear H W. intros j Uj W H. rewrite <- invocation_commands_spec. unfold exit_of in H. apply crash_bind in H.
    assert (K : crash (r_apply gr chunks (invocation_commands j)) s s1).
    { destruct H as [H|H]; [exact H|]. destruct (snd (run_prog (r_apply gr chunks (invocation_commands j)) s)); apply crash_ret in H; subst s1; apply kill_run. }
    exact (holds_kill_apply nd gr chunks _ s s1 a T B W (invocation_commands_u64 j Uj) Hh K). }
  destruct i as [|vids|es|vids|es|]; cbn [r_invoke] in H; [|now apply Hap..|congruence].
  left. destruct Hh as (Hl & c & cs & E & Hx). unfold r_gc_init, r_init in H. cbn [bind] in H.
  destruct s as [rt l d]. cbn in E, Hl. subst d.
  assert (Z : forall s2, fs_lock s2 = l -> fs_graph s2 = GraphDir (File c) -> holds nd s2 a).
  { intros s2 E1 E2. split; [now rewrite E1|]. exists c, cs. tauto. }
  apply crash_act in H. destruct H as [->|H]; [now apply Z|]. cbn in H.
  apply crash_act in H. destruct H as [->|H]; [apply Z; now destruct (may_mkdir gr)|]. cbn in H.
  assert (K : s1 = (if may_touch gr then match fs_graph (if may_mkdir gr then set_root true {| fs_root := rt; fs_lock := l; fs_graph := GraphDir (File c) |} else {| fs_root := rt; fs_lock := l; fs_graph := GraphDir (File c) |}) with
     | GraphDir e => set_commands (created e) (if may_mkdir gr then set_root true {| fs_root := rt; fs_lock := l; fs_graph := GraphDir (File c) |} else {| fs_root := rt; fs_lock := l; fs_graph := GraphDir (File c) |})
     | _ => if may_mkdir gr then set_root true {| fs_root := rt; fs_lock := l; fs_graph := GraphDir (File c) |} else {| fs_root := rt; fs_lock := l; fs_graph := GraphDir (File c) |} end
     else if may_mkdir gr then set_root true {| fs_root := rt; fs_lock := l; fs_graph := GraphDir (File c) |} else {| fs_root := rt; fs_lock := l; fs_graph := GraphDir (File c) |})).
  { exact (proj1 (crash_ret _ _ _ _) H). }
  subst s1. apply Z; now destruct (may_touch gr), (may_mkdir gr).
Qed.

(** ** C185 *)
Lemma holds_attempt nd i s s1 a : digit_table nd -> u64_invocation i -> attempt nd i s s1 -> holds nd s a ->
  holds nd s1 a \/ holds nd s1 (a_invoke a i).
Proof.
  intros T U H Ha. destruct H as [s s1 r gr chunks order B O E|s s1 gr chunks order Hi B W K].
  - destruct (holds_refused nd gr chunks order i s a s1 r T B O U Ha E) as [H|[_ H]]; [now right|now left].
  - exact (holds_kill nd gr chunks order i s s1 a T B W Hi U Ha K).
Qed.
Lemma holds_persistent nd s is s' : digit_table nd -> persistent nd s is s' -> forall a, Forall u64_invocation is -> holds nd s a ->
  holds nd s' (fold_left a_invoke is a).
Proof.
  intro T. induction 1 as [s|s i is s1 s2 K H IH|s i is s1 s2 gr chunks order B O E H IH]; intros a U Ha; [exact Ha| |].
  - pose proof (Forall_inv U) as Ui. destruct (holds_attempt nd i s s1 a T Ui K Ha) as [H1|H1]; [now apply IH|].
    eapply holds_same; [apply (IH _ U H1)|]. cbn [fold_left]. apply invokes_same, invoke_twice.
  - inversion U as [|? ? Ui U2]; subst. cbn [fold_left]. apply (IH _ U2).
    destruct (holds_refused nd gr chunks order i s a s1 Success T B O Ui Ha E) as [H1|[H1 _]]; [exact H1|discriminate].
Qed.
(** However often each invocation had to be repeated, and whatever was refused or killed meanwhile: the stored graph is that of the
    list of invocations, each made once. *)
Theorem C185_again : forall nd s0 done s is s', digit_table nd ->
  openable (fs_lock s0) = true -> (fs_graph s0 = NoGraph \/ fs_graph s0 = GraphDir Absent) ->
  Forall u64_invocation done -> history nd s0 (Init :: done) s ->
  Forall u64_invocation is -> persistent nd s is s' ->
  exists g, loads nd s' g /\ built g /\ a_same (shown g) (fold_left a_invoke (done ++ is) a_empty).
Proof.
  intros nd s0 done s is s' T Hl0 Hg0 U0 H0 U H.
  assert (Ha : holds nd s (fold_left a_invoke done a_empty)).
  { inversion H0 as [|? ? ? s1 ? chunks order B O E H']; subst.
    assert (H1 : holds nd s1 a_empty).
    { cbn [invoke] in E. unfold gc_init in E. rewrite run_bind, run_init in E.
      destruct Hg0 as [Hg|Hg]; rewrite Hg in E; cbn in E; injection E as <-;
        (split; [exact Hl0|]); exists [], []; (split; [reflexivity|]); (split; [now left|]); (split; [reflexivity|]); apply a_same_refl. }
    exact (holds_history nd s1 done s T H' a_empty U0 H1). }
  pose proof (holds_persistent nd s is s' T H _ U Ha) as Hh. rewrite <- fold_left_app in Hh.
  destruct (holds_load nd s' _ T Hh) as (g & Hg & Hb & Hs). exists g. split; [|now split].
  unfold loads. rewrite run_load in *. cbn [snd] in Hg. now rewrite Hg.
Qed.
Print Assumptions C185_again.
(** Several users that only add may repeat anything, in any order: each addition counts once. *)
Theorem C185_any_order : forall nd s0 s1 is js t u, digit_table nd ->
  openable (fs_lock s0) = true -> (fs_graph s0 = NoGraph \/ fs_graph s0 = GraphDir Absent) ->
  openable (fs_lock s1) = true -> (fs_graph s1 = NoGraph \/ fs_graph s1 = GraphDir Absent) ->
  Forall u64_invocation is -> Forall u64_invocation js -> Forall adding is -> Forall adding js ->
  (forall i, In i is <-> In i js) ->
  history nd s0 (Init :: is) t -> history nd s1 (Init :: js) u ->
  exists g h, loads nd t g /\ loads nd u h /\ built g /\ built h /\ a_same (shown g) (shown h).
Proof.
  intros nd s0 s1 is js t u T L0 G0 L1 G1 U V A B S H K.
  destruct (C22_histories nd s0 is t T L0 G0 U H) as (g & Hg & Bg & Sg).
  destruct (C22_histories nd s1 js u T L1 G1 V K) as (h & Hh & Bh & Sh).
  exists g, h. split; [exact Hg|]. split; [exact Hh|]. split; [exact Bg|]. split; [exact Bh|].
  assert (F : forall l a, fold_left a_invoke l a = fold_left a_step (flat_map invocation_commands l) a).
  { induction l as [|i l IH]; intro a; [reflexivity|]. cbn [fold_left flat_map]. now rewrite IH, fold_left_app, invocation_commands_spec. }
  assert (D : forall l, Forall adding l -> adds_only (flat_map invocation_commands l)).
  { induction l as [|i l IH]; intro Hl; [constructor|]. inversion Hl as [|? ? H1 H2]; subst. cbn [flat_map]. apply Forall_app.
    split; [|now apply IH]. destruct i; try contradiction; cbn [invocation_commands]; try constructor; apply Forall_map, Forall_forall; trivial. }
  eapply a_same_trans; [exact Sg|]. eapply a_same_trans; [|apply a_same_sym; exact Sh]. rewrite !F.
  apply adds_same; [now apply D|now apply D|]. intro c. rewrite !in_flat_map.
  split; intros (i & Hi & Hc); exists i; (split; [now apply S|exact Hc]).
Qed.
Print Assumptions C185_any_order.

(** ** gc-add and gc-delete *)
Definition part (a b : aset) : Prop := (forall x, aV a x -> aV b x) /\ (forall x y, aE a x y -> aE b x y).
Lemma part_refl a : part a a. Proof. split; auto. Qed.
Lemma part_trans a b c : part a b -> part b c -> part a c.
Proof. intros [H1 H2] [H3 H4]. split; auto. Qed.
(** The commands are stored or not. *)
Lemma holds_r_apply nd gr chunks cs s a : digit_table nd -> buffering chunks -> Forall u64_command cs -> holds nd s a ->
  holds nd (fst (run_prog (r_apply gr chunks cs) s)) a \/ holds nd (fst (run_prog (r_apply gr chunks cs) s)) (fold_left a_step cs a).
Proof.
  intros T B U H. destruct (run_r_apply gr chunks cs s B) as (t & u & Ht & Hg & _ & _ & Ho & _). rewrite Ht. cbn [fst].
  pose proof H as (Hl & c & ds & Ec & _).
  assert (Hc : commands_entry s = File c) by (unfold commands_entry; now rewrite Ec). rewrite Hc in Hg.
  destruct (stored_now gr s).
  - right. destruct (holds_apply nd chunks cs s a T B U H) as [_ H2].
    apply (holds_graph nd (fst (run_prog (apply_graph_commands chunks cs) s))); [|now apply Ho|exact H2].
    rewrite run_apply by assumption. rewrite Hl, Hc. cbn [fst set_commands set_graph fs_graph]. exact Hg.
  - left. destruct Hg as [Hg _]. now apply (holds_graph nd s); [|apply Ho|].
Qed.
(** One attempt at gc-add or gc-delete: any calls may be refused, and the process may be killed anywhere (when each option
    is written with one call). *)
Definition tool := (nat -> grants) -> (list text -> list text) -> prog exit.
Inductive tool_try (p : tool) (s : fs) : fs -> Prop :=
| try_refused grs chunks : buffering chunks -> tool_try p s (fst (run_prog (p grs chunks) s))
| try_killed grs chunks s' : buffering chunks -> (forall cs, length (chunks (add_pieces cs)) <= 1)%nat ->
    crash (p grs chunks) s s' -> tool_try p s s'.
(** Any number of attempts. *)
Inductive tries (p : tool) : fs -> fs -> Prop :=
| tries_none s : tries p s s
| tries_one s s1 s2 : tool_try p s s1 -> tries p s1 s2 -> tries p s s2.
Section Between.
  Variable nd : N -> bool.
  Variables low high : aset.
  Definition between (s : fs) : Prop := exists a, holds nd s a /\ part low a /\ part a high.
  Definition stays (p : tool) : Prop := forall s s', between s -> tool_try p s s' -> between s'.
  (** Commands that do not lead out of it. *)
  Definition inside (cs : list graph_command) : Prop := Forall u64_command cs /\
    forall a, part low a -> part a high -> part low (fold_left a_step cs a) /\ part (fold_left a_step cs a) high.
  Lemma stays_ret e : stays (fun _ _ => Ret e).
  Proof. intros s s' Hs H. destruct H as [grs chunks B|grs chunks s' B W H]; [exact Hs|]. apply crash_ret in H. now subst s'. Qed.
  Lemma stays_option A k values (f : list text -> outcome A) mk next : digit_table nd ->
    (forall vs x, values = Some vs -> f vs = Done x -> inside (mk x)) -> stays next ->
    stays (fun grs chunks => option_call values f (fun x => r_apply (grs k) chunks (mk x)) (next grs chunks)).
  Proof.
    intros T Hi Hn. unfold option_call. destruct values as [vs|]; [|exact Hn].
    destruct (f vs) as [x| |] eqn:E; [|apply stays_ret|apply stays_ret]. destruct (Hi vs x eq_refl E) as [U K].
    assert (Q : forall s a, part low a -> part a high -> holds nd s a \/ holds nd s (fold_left a_step (mk x) a) -> between s).
    { intros s a H1 H2 [H|H]; [exists a|exists (fold_left a_step (mk x) a)]; (split; [exact H|]); [now split|now apply K]. }
    intros s s' Hs H. destruct H as [grs chunks B|grs chunks s' B W H].
    - rewrite run_bind. refine (Hn _ _ _ (try_refused next _ grs chunks B)). destruct Hs as (a & Ha & H1 & H2).
      exact (Q _ a H1 H2 (holds_r_apply nd (grs k) chunks (mk x) s a T B U Ha)).
    - apply crash_bind in H. destruct H as [H|H].
      + destruct Hs as (a & Ha & H1 & H2). exact (Q _ a H1 H2 (holds_kill_apply nd (grs k) chunks (mk x) s s' a T B (W _) U Ha H)).
      + refine (Hn _ _ _ (try_killed next _ grs chunks s' B W H)). destruct Hs as (a & Ha & H1 & H2).
        exact (Q _ a H1 H2 (holds_r_apply nd (grs k) chunks (mk x) s a T B U Ha)).
  Qed.
  Lemma stays_many p : stays p -> forall s s', tries p s s' -> between s -> between s'.
  Proof. intros H s s' K. induction K as [s|s s1 s2 K1 K IH]; intro Hs; [exact Hs|]. apply IH. exact (H _ _ Hs K1). Qed.
End Between.
Lemma inside_adds a (V : N -> Prop) (E : rel) cs : Forall u64_command cs -> adds_only cs ->
  (forall v, In (AddVertex v) cs -> V v) -> (forall x y, In (AddEdge x y) cs -> E x y) -> inside a (a_union a V E) cs.
Proof.
  intros U A HV HE. split; [exact U|]. intros b H1 H2. destruct (adds_value cs A b) as [V1 E1]. split.
  - apply (part_trans _ b); [exact H1|]. split; [intros x Hx; apply V1; now left|intros x y Hx; apply E1; now left].
  - split; [intros x Hx; apply V1 in Hx|intros x y Hx; apply E1 in Hx].
    + destruct Hx as [Hx|(c & Hc & Hp)]; [now apply H2|]. pose proof (proj1 (Forall_forall _ _) A c Hc) as Ac. cbn beta in Ac.
      destruct c as [v|v|p q|p q]; try contradiction; cbn in Hp |- *.
      * subst v. right; left. now apply HV.
      * apply HE in Hc. right; right. destruct Hp as [-> | ->]; [exists q; now left|exists p; now right].
    + destruct Hx as [Hx|Hc]; [now apply H2|]. right. now apply HE.
Qed.
Lemma inside_removes a (V : N -> Prop) (E : rel) cs : Forall u64_command cs -> removes_only cs ->
  (forall v, In (RemoveVertex v) cs -> V v) -> (forall x y, In (RemoveEdge x y) cs -> E x y) -> inside (a_minus a V E) a cs.
Proof.
  intros U A HV HE. split; [exact U|]. intros b H1 H2. destruct (removes_value cs A b) as [V1 E1]. split.
  - split; [intros x Hx; apply V1|intros x y Hx; apply E1].
    + split; [now apply H1|]. intro Hc. apply HV in Hc. now destruct Hx.
    + destruct Hx as (K1 & K2 & K3 & K4). split; [apply H1; now repeat split|]. repeat split; intro Hc; [now apply HE in Hc|now apply HV in Hc..].
  - apply (part_trans _ b); [|exact H2]. split; [intros x Hx; now apply V1 in Hx|intros x y Hx; now apply E1 in Hx].
Qed.
Lemma inside_edges a (V : N -> Prop) (E : rel) es : Forall u64_pair es -> (forall x y, In (x, y) es -> E x y) ->
  inside a (a_union a V E) (map (fun e => AddEdge (fst e) (snd e)) es).
Proof.
  intros U H. apply inside_adds.
  - apply Forall_map. exact U.
  - apply Forall_map, Forall_forall; trivial.
  - intros v Hv. apply in_map_iff in Hv. destruct Hv as (e & E1 & _). discriminate.
  - intros x y Hx. apply in_map_iff in Hx. destruct Hx as ([p q] & E1 & H1). cbn in E1. injection E1 as -> ->. now apply H.
Qed.
(** gc-add, tried any number of times with any refusals, then once with none: as if done once. *)
Theorem C185_gc_add : forall nd chunks args lv le lc ly ls lq s s1 g0, digit_table nd -> buffering chunks ->
  denotes args lv le lc ly ls lq -> loads nd s g0 -> openable (fs_lock s) = true -> (forall c, commands_entry s = File c -> closed c) ->
  tries (fun grs chunks => r_gc_add grs chunks args) s s1 ->
  exists s' g, run_prog (gc_add chunks args) s1 = (s', Success) /\
    loads nd s' g /\ built g /\
    a_same (shown g) (a_union (shown g0) (fun x => In x lv) (added (a_reverse args) le lc ly ls lq)).
Proof.
  intros nd chunks args lv le lc ly ls lq s s1 g0 T B D L Ho Cl Tr.
  set (V := (fun x => In x lv) : N -> Prop). set (E := added (a_reverse args) le lc ly ls lq).
  assert (H : holds nd s (shown g0)).
  { unfold loads in L. rewrite run_load in L. destruct (commands_entry s) as [|c|] eqn:Ec; try discriminate. cbn [snd] in L. injection L as L.
    apply gcmd_read_ok in L. destruct L as (cs & Hr & Hg). split; [exact Ho|]. exists c, cs. split; [now apply commands_entry_dir|].
    split; [now apply Cl|]. split; [exact Hr|]. subst g0. apply a_same_sym. exact (refines (built_by_apply cs)). }
  assert (K : between nd (shown g0) (a_union (shown g0) V E) s1).
  { apply (stays_many nd (shown g0) (a_union (shown g0) V E) (fun grs chunks => r_gc_add grs chunks args)) with (2 := Tr).
    2:{ exists (shown g0). split; [exact H|]. split; [apply part_refl|]. split; cbn; auto. }
    destruct (denotes_computes _ _ _ _ _ _ _ D) as (Ce & Cc & Cy & Cs & Cq).
    assert (Q : forall k values (f : list text -> outcome (list edge)) (R : rel) next, computes values f R -> (forall x y, R x y -> E x y) ->
      stays nd (shown g0) (a_union (shown g0) V E) next ->
      stays nd (shown g0) (a_union (shown g0) V E) (fun grs chunks => option_call values f (fun es => r_apply (grs k) chunks (map (fun e => AddEdge (fst e) (snd e)) es)) (next grs chunks))).
    { intros k values f R next C HR Hn. apply stays_option; try assumption. intros vs es -> Ef. destruct C as (es' & Ef' & U & Hi).
      rewrite Ef in Ef'. injection Ef' as <-. apply inside_edges; [exact U|]. intros x y Hx. apply HR. now apply Hi. }
    unfold r_gc_add, add_with. cbv zeta. apply stays_option; try assumption.
    { intros vs x Ev Ep. destruct D as [Dv _ _ _ _ _ _ _ _]. rewrite Ev in Dv. cbn in Dv. apply parse_all_done in Dv as Dp. rewrite Ep in Dp.
      injection Dp as ->. apply inside_adds.
      - apply Forall_map. exact (id_arguments_u64 vs lv Dv).
      - apply Forall_map, Forall_forall; trivial.
      - intros v Hv. apply in_map_iff in Hv. destruct Hv as (w & E1 & H1). injection E1 as ->. exact H1.
      - intros p q Hp. apply in_map_iff in Hp. destruct Hp as (w & E1 & _). discriminate. }
    apply (Q 1%nat _ _ _ _ Ce); [unfold E, added; intros; now left|].
    apply (Q 2%nat _ _ _ _ Cc); [unfold E, added; intros; right; now left|].
    apply (Q 3%nat _ _ _ _ Cy); [unfold E, added; intros; right; right; now left|].
    apply (Q 4%nat _ _ _ _ Cs); [unfold E, added; intros; right; right; right; now left|].
    apply (Q 5%nat _ _ _ _ Cq); [unfold E, added; intros; right; right; right; now right|].
    apply stays_ret. }
  destruct K as (a & Ha & P1 & P2).
  destruct (C80_gc_add nd chunks args lv le lc ly ls lq _ a T B D Ha) as (s' & g & E1 & E2 & E3 & E4 & _).
  exists s', g. split; [exact E1|]. split; [exact E2|]. split; [exact E3|]. eapply a_same_trans; [exact E4|]. fold V E.
  destruct P1 as [P1 P1'], P2 as [P2 P2']. split; cbn; intros.
  - split; [intros [X|X]; [now apply P2 in X|now right]|]. intros [X|X]; [left; now apply P1|now right].
  - split; [intros [X|X]; [now apply P2' in X|now right]|]. intros [X|X]; [left; now apply P1'|now right].
Qed.
Print Assumptions C185_gc_add.
(** gc-delete, likewise. *)
Theorem C185_gc_delete : forall nd chunks vertex edge lv le s s1 g0, digit_table nd -> buffering chunks ->
  option_ids vertex lv -> option_ids edge le -> Nat.even (length le) = true ->
  loads nd s g0 -> openable (fs_lock s) = true -> (forall c, commands_entry s = File c -> closed c) ->
  tries (fun grs chunks => r_gc_delete grs chunks vertex edge) s s1 ->
  exists s' g, run_prog (gc_delete chunks vertex edge) s1 = (s', Success) /\
    loads nd s' g /\ built g /\ a_same (shown g) (a_minus (shown g0) (fun x => In x lv) (pairs_rel le)).
Proof.
  intros nd chunks vertex edge lv le s s1 g0 T B Dv De Ev L Ho Cl Tr.
  set (V := (fun x => In x lv) : N -> Prop). set (E := pairs_rel le).
  assert (H : holds nd s (shown g0)).
  { unfold loads in L. rewrite run_load in L. destruct (commands_entry s) as [|c|] eqn:Ec; try discriminate. cbn [snd] in L. injection L as L.
    apply gcmd_read_ok in L. destruct L as (cs & Hr & Hg). split; [exact Ho|]. exists c, cs. split; [now apply commands_entry_dir|].
    split; [now apply Cl|]. split; [exact Hr|]. subst g0. apply a_same_sym. exact (refines (built_by_apply cs)). }
  assert (K : between nd (a_minus (shown g0) V E) (shown g0) s1).
  { apply (stays_many nd (a_minus (shown g0) V E) (shown g0) (fun grs chunks => r_gc_delete grs chunks vertex edge)) with (2 := Tr).
    2:{ exists (shown g0). split; [exact H|]. split; [|apply part_refl]. split; cbn; tauto. }
    unfold r_gc_delete.
    apply (stays_option nd _ _ _ 0%nat vertex _ (map RemoveVertex) (fun grs chunks => option_call edge _ (fun es => r_apply (grs 1%nat) chunks (map (fun e => RemoveEdge (fst e) (snd e)) es)) (Ret Success))); try assumption.
    { intros vs x -> Ep. cbn in Dv. apply parse_all_done in Dv as Dp. rewrite Ep in Dp. injection Dp as ->. apply inside_removes.
      - apply Forall_map. exact (id_arguments_u64 vs lv Dv).
      - apply Forall_map, Forall_forall; trivial.
      - intros v Hv. apply in_map_iff in Hv. destruct Hv as (w & E1 & H1). injection E1 as ->. exact H1.
      - intros p q Hp. apply in_map_iff in Hp. destruct Hp as (w & E1 & _). discriminate. }
    apply (stays_option nd _ _ _ 1%nat edge _ (map (fun e => RemoveEdge (fst e) (snd e))) (fun _ _ => Ret Success)); try assumption; [|apply stays_ret].
    intros vs es -> Ep. cbn in De. apply parse_all_done in De as Dp. rewrite Dp in Ep. cbn [obind] in Ep.
    destruct (even_flat (S (length le)) le) as [ps Eps]; [lia|exact Ev|]. subst le. rewrite tuple_even in Ep. cbn [obind expect] in Ep.
    injection Ep as ->. apply inside_removes.
    - apply Forall_map. pose proof (id_arguments_u64 vs _ De) as U. rewrite Forall_forall in *. intros [x y] Hi.
      apply flat_In in Hi. destruct Hi as (p & q & Ef). cbn. split; apply U; rewrite Ef, in_app_iff; cbn; tauto.
    - apply Forall_map, Forall_forall; trivial.
    - intros v Hv. apply in_map_iff in Hv. destruct Hv as (w & E1 & _). discriminate.
    - intros x y Hx. apply in_map_iff in Hx. destruct Hx as ([p q] & E1 & H1). cbn in E1. injection E1 as -> ->. now apply flat_In. }
  destruct K as (a & Ha & P1 & P2).
  destruct (C82_gc_delete nd chunks vertex edge lv le _ a T B Dv De Ev Ha) as (s' & g & E1 & E2 & E3 & E4 & _).
  exists s', g. split; [exact E1|]. split; [exact E2|]. split; [exact E3|]. eapply a_same_trans; [exact E4|]. fold V E.
  destruct P1 as [P1 P1'], P2 as [P2 P2']. split; cbn; intros.
  - split; [intros [X Y]; split; [now apply P2|exact Y]|]. intros [X Y]. split; [apply P1; now split|exact Y].
  - split; [intros (X & Y); split; [now apply P2'|exact Y]|]. intros (X & Y). split; [apply P1'; now split|exact Y].
Qed.
Print Assumptions C185_gc_delete.

(** ** What is not so *)
(** A large request that is killed between two write calls leaves a readable graph; the same request again, answered with Ok,
    makes it unreadable. *)
Lemma glued_again nd s front rest : digit_table nd -> closed front ->
  commands_entry s = File (front ++ (txt "AddVertex 10000AddVertex 100000" ++ [10]) ++ rest) ->
  forall g, ~ loads nd s g.
Proof.
  intros T Cf E g Hg. unfold loads in Hg. rewrite run_load, E in Hg. injection Hg as Hg.
  apply gcmd_read_ok in Hg. destruct Hg as (cs & Hr & _). apply read_as_commands_ok in Hr.
  pose proof (lines_app_closed _ ((txt "AddVertex 10000AddVertex 100000" ++ [10]) ++ rest) Cf) as E1.
  pose proof (lines_app_closed (txt "AddVertex 10000AddVertex 100000" ++ [10]) rest (or_intror (ex_intro _ _ eq_refl))) as E2.
  change (lines (txt "AddVertex 10000AddVertex 100000" ++ [10])) with [txt "AddVertex 10000AddVertex 100000"] in E2.
  rewrite E2 in E1. setoid_rewrite E1 in Hr. clear E1 E2.
  destruct (reads_member _ _ _ (txt "AddVertex 10000AddVertex 100000") Hr) as [H|[x H]].
  - apply in_or_app. right. left. reflexivity.
  - destruct H as [H|(w & t & H & Hw)]; [discriminate|].
    destruct Hw as [|y w Hy Hw]; injection H as H _; [discriminate|].
    subst y. unfold blank in Hy. cbn [In] in Hy. lia.
  - unfold accepts in H. apply (gcmd_parse_ok nd T) in H. inversion H as [d n Hn E1| | |]; subst.
    destruct Hn as [[_ Hf] _]. rewrite Forall_forall in Hf.
    assert (Hi : ascii09 65) by (apply Hf; cbn; tauto). apply ascii09_range in Hi. lia.
Qed.
Theorem C185_killed_refuted : forall nd, digit_table nd -> exists s1 s2,
  crash (apply_graph_commands (buffered default_capacity) large) (with_file []) s1 /\
  (exists g, loads nd s1 g) /\
  run_prog (apply_graph_commands (buffered default_capacity) large) s1 = (s2, IoOk tt) /\
  forall g, ~ loads nd s2 g.
Proof.
  intros nd T. exists {| fs_root := true; fs_lock := File []; fs_graph := GraphDir (File first_write) |}.
  assert (Hc : crash (apply_graph_commands (buffered default_capacity) large) (with_file [])
            {| fs_root := true; fs_lock := File []; fs_graph := GraphDir (File first_write) |}).
  { unfold apply_graph_commands, add_commands. rewrite large_writes.
    change (crash (writing [first_write; second_write]) (with_file [])
      {| fs_root := true; fs_lock := File []; fs_graph := GraphDir (File first_write) |}).
    apply killed_between. }
  eexists. split; [exact Hc|]. split; [|split].
  - destruct (C96_killed_addition nd default_capacity large (with_file []) _ [] [] T eq_refl (or_introl eq_refl) eq_refl large_u64 Hc)
      as (c' & k & E & _ & Hr). injection E as <-. eapply (read_loads nd _ first_write); [reflexivity|exact Hr].
  - rewrite run_apply by apply buffered_ok. cbn [openable fs_lock commands_entry fs_graph]. reflexivity.
  - apply (glued_again nd _ (commands_text filling) (commands_text (tl large)) T (closed_commands filling)).
    change (File (first_write ++ commands_text large) =
      File (commands_text filling ++ (txt "AddVertex 10000AddVertex 100000" ++ [10]) ++ commands_text (tl large))).
    unfold first_write. rewrite <- app_assoc. reflexivity.
Qed.
Print Assumptions C185_killed_refuted.
(** An addition that is repeated after somebody removed it is an addition. *)
Theorem C185_late_refuted : forall nd chunks order, digit_table nd -> buffering chunks -> hash_order order -> exists t u g h,
  history nd empty_dir [Init; AddVertices [1]; RemoveVertices [1]] t /\ loads nd t g /\ ~ aV (shown g) 1 /\
  history nd empty_dir [Init; AddVertices [1]; RemoveVertices [1]; AddVertices [1]] u /\ loads nd u h /\ aV (shown h) 1.
Proof.
  intros nd chunks order T B O.
  assert (U : Forall u64_invocation [AddVertices [1]; RemoveVertices [1]; AddVertices [1]]) by (repeat constructor).
  assert (R : forall is s a, Forall u64_invocation is -> holds nd s a -> exists s', history nd s is s').
  { induction is as [|i is IH]; intros s a Ui Ha; [exists s; constructor|]. inversion Ui as [|? ? U1 U2]; subst.
    destruct (holds_invoke nd chunks order i s a T B O U1 Ha) as [E1 H1].
    destruct (run_prog (invoke nd chunks order i) s) as [s1 r] eqn:E. cbn [fst snd] in *. subst r.
    destruct (IH s1 _ U2 H1) as [s' Hs]. exists s'. exact (h_cons _ _ _ _ _ _ chunks order B O E Hs). }
  assert (H0 : holds nd (with_file []) a_empty).
  { split; [reflexivity|]. exists [], []. split; [reflexivity|]. split; [now left|]. split; [reflexivity|apply a_same_refl]. }
  assert (X : forall is, Forall u64_invocation is -> exists s' g, history nd empty_dir (Init :: is) s' /\ loads nd s' g /\
    a_same (shown g) (fold_left a_invoke is a_empty)).
  { intros is Ui. destruct (R is (with_file []) a_empty Ui H0) as [s' Hs].
    assert (H1 : history nd empty_dir (Init :: is) s') by (eapply (h_cons _ _ _ _ _ _ chunks order B O); [reflexivity|exact Hs]).
    destruct (C22_histories nd empty_dir is s' T eq_refl (or_introl eq_refl) Ui H1) as (g & Hg & _ & Sg). now exists s', g. }
  destruct (X [AddVertices [1]; RemoveVertices [1]]) as (t & g & Ht & Hg & Sg); [repeat constructor|].
  destruct (X [AddVertices [1]; RemoveVertices [1]; AddVertices [1]]) as (u & h & Hu & Hh & Sh); [exact U|].
  exists t, u, g, h. split; [exact Ht|]. split; [exact Hg|]. split.
  - intro K. apply (proj1 Sg) in K. cbn in K. tauto.
  - split; [exact Hu|]. split; [exact Hh|]. apply (proj1 Sh). cbn. tauto.
Qed.
Print Assumptions C185_late_refuted.

(** An addition that is killed after its write, answered with an error although it was stored, refused, and at last answered
    with success; then another one. *)
Example C185_case : persistent table (with_file []) [AddVertices [1]; RemoveVertices [2]]
  (with_file (txt "AddVertex 1" ++ [10] ++ txt "AddVertex 1" ++ [10] ++ txt "AddVertex 1" ++ [10] ++ txt "RemoveVertex 2" ++ [10])).
Proof.
  assert (B : buffering (fun l => [concat l])) by (intro; cbn [concat]; apply app_nil_r).
  eapply pe_again.
  { eapply (at_killed _ _ _ _ no_unlock (fun l => [concat l]) id_order); [discriminate|exact B|cbn; lia|].
    cbn [invoke]. unfold exit_of. apply crash_bind. left. do 4 (apply crash_act; right; cbn). apply crash_now. }
  eapply pe_again.
  { eapply (at_refused _ _ _ _ _ no_unlock (fun l => l) id_order); [intro; reflexivity|apply id_order_ok|vm_compute; reflexivity]. }
  eapply pe_again.
  { eapply (at_refused _ _ _ _ _ nothing_granted (fun l => l) id_order); [intro; reflexivity|apply id_order_ok|vm_compute; reflexivity]. }
  eapply (pe_done _ _ _ _ _ _ all_granted (fun l => l) id_order); [intro; reflexivity|apply id_order_ok|vm_compute; reflexivity|].
  eapply (pe_done _ _ _ _ _ _ all_granted (fun l => l) id_order); [intro; reflexivity|apply id_order_ok|vm_compute; reflexivity|].
  exact (pe_nil _ _).
Qed.
(** gc-add -v 1 -e 2 3, of which the first attempt stores the vertex only; gc-delete -v 1 -e 2 3. *)
Example C185_tools_case :
  let a := {| a_vertex := Some [txt "1"]; a_reverse := false; a_edge := Some [txt "2"; txt "3"]; a_chain := None; a_cycle := None;
              a_star := None; a_clique := None |} in
  let grs (k : nat) := match k with O => all_granted | _ => nothing_granted end in
  denotes a [1] [2; 3] [] [] [] [] /\ option_ids (a_vertex a) [1] /\ option_ids (a_edge a) [2; 3] /\
  loads table (with_file []) g_new /\ (forall c, commands_entry (with_file []) = File c -> closed c) /\
  run_prog (r_gc_add grs (fun l => l) a) (with_file []) = (with_file (txt "AddVertex 1" ++ [10]), Success) /\
  run_prog (gc_add (fun l => l) a) (with_file (txt "AddVertex 1" ++ [10])) =
    (with_file (txt "AddVertex 1" ++ [10] ++ txt "AddVertex 1" ++ [10] ++ txt "AddEdge 2 3" ++ [10]), Success).
Proof.
  assert (I : forall vs l, parse_all vs = Done l -> option_ids (Some vs) l) by (intros vs l; apply parse_all_done).
  cbv zeta. split; [|split; [|split; [|split; [|split; [|split]]]]].
  - constructor; cbn [a_vertex a_edge a_chain a_cycle a_star a_clique]; try reflexivity; try discriminate; apply I; vm_compute; reflexivity.
  - apply I. vm_compute. reflexivity.
  - apply I. vm_compute. reflexivity.
  - reflexivity.
  - intros c E. injection E as <-. now left.
  - vm_compute. reflexivity.
  - vm_compute. reflexivity.
Qed.
(** The same gc-add: nothing granted, then killed between its two options. *)
Example C185_tries_case :
  let a := {| a_vertex := Some [txt "1"]; a_reverse := false; a_edge := Some [txt "2"; txt "3"]; a_chain := None; a_cycle := None;
              a_star := None; a_clique := None |} in
  tries (fun grs chunks => r_gc_add grs chunks a) (with_file []) (with_file (txt "AddVertex 1" ++ [10])).
Proof.
  cbv zeta. eapply tries_one; [apply (try_refused _ _ (fun _ => nothing_granted) (fun l => l)); intro; reflexivity|].
  eapply tries_one; [|apply tries_none].
  apply (try_killed _ _ (fun _ => all_granted) (fun l => [concat l])); [intro l; cbn; apply app_nil_r|intro; cbn; lia|].
  unfold r_gc_add, add_with. cbv zeta. unfold option_call at 1. cbn [a_vertex].
  replace (parse_all [txt "1"]) with (Done [1]) by (vm_compute; reflexivity). apply crash_bind. right.
  match goal with |- crash _ ?s _ => replace s with (with_file (txt "AddVertex 1" ++ [10])) by (vm_compute; reflexivity) end.
  constructor.
Qed.
