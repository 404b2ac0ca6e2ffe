(** * Properties C115-C116: open files and the names they were opened under *)
From Coq Require Import String.
From Coq Require Import List NArith Bool Arith Lia Permutation.
From Verif Require Import Spec Base Graph GraphSpec GraphFacts Text Format FormatSpec TextFacts FormatFacts
  Store StoreSpec StoreFacts CrashFacts Writer WriterFacts Cli Inode InodeFacts PropFormat PropStore.
Import ListNotations.
Open Scope N_scope.

(** ** C115 *)
(** The same tool in both models. *)
Inductive twin (nd : N -> bool) : iprog exit -> prog exit -> Prop :=
| twin_init : twin nd i_gc_init gc_init
| twin_request chunks cs : twin nd (ibind (i_apply chunks cs) i_exit) (exit_of (apply_graph_commands chunks cs))
| twin_build chunks order : twin nd (i_gc_build nd chunks order) (gc_build nd chunks order).
Lemma like_exit o r : like o (i_exit r) (Ret (match r with IoOk _ => Success | IoErr => Failure end)).
Proof. constructor. Qed.
Lemma twin_like nd p q o : twin nd p q -> like o p q.
Proof.
  intros [|chunks cs|chunks order].
  - apply like_bind; [apply like_exit|apply like_init].
  - apply like_bind; [apply like_exit|]. apply like_with_lock. intro. apply like_add.
  - apply like_bind; [|apply like_load]. intros o' [[g|m]| |]; try apply like_ret.
    apply like_bind; [apply like_exit|apply like_save].
Qed.
Theorem C115_names_suffice : forall nd ps qs s s' ps', Forall2 (twin nd) ps qs -> sound_fs s ->
  ii_steps (s, ps) (s', ps') ->
  exists qs', isteps (shown_fs s, qs) (shown_fs s', qs') /\ Forall2 (fun p q => forall r, p = IRet r -> q = Ret r) ps' qs'.
Proof.
  intros nd ps qs s s' ps' F Hs H. destruct (linked_steps _ s ps qs s' ps') as (qs' & I & _ & L); [|assumption|].
  - split; [assumption|]. eapply forall2_impl; [|exact F]. intros p q T. exists None. split; [now split|]. now apply (twin_like nd).
  - exists qs'. split; [assumption|]. eapply forall2_impl; [|exact L]. intros p q (o & _ & Hl) r ->. inversion Hl. reflexivity.
Qed.
Print Assumptions C115_names_suffice.
(** So what is proved of all schedules there holds here, for instance that requests of
    one write each lose nothing. *)
Theorem C115_concurrent_appends : forall nd (ws : list ((list text -> list text) * list graph_command)) s c cs s' ps,
  digit_table nd -> sound_fs s -> i_root s = true -> openable (i_lock s) = true -> fs_graph (shown_fs s) = GraphDir (File c) ->
  closed c -> gcmd_read_as_commands nd c = Done (Ok cs) ->
  Forall (fun w => buffering (fst w) /\ (length (fst w (add_pieces (snd w))) <= 1)%nat) ws ->
  Forall (fun w => Forall u64_command (snd w)) ws ->
  ii_steps (s, map (fun w => i_apply (fst w) (snd w)) ws) (s', ps) ->
  exists written rest, Permutation (written ++ rest) (map snd ws) /\
    (Forall (fun p => exists r, p = IRet r) ps -> rest = []) /\
    exists c', commands_entry (shown_fs s') = File c' /\ closed c' /\
      gcmd_read_as_commands nd c' = Done (Ok (cs ++ concat written)).
Proof.
  intros nd ws s c cs s' ps T Hs Hr Hl Hg Hc Hread B U H.
  destruct (linked_steps _ s (map (fun w => i_apply (fst w) (snd w)) ws) (map (fun w => apply_graph_commands (fst w) (snd w)) ws) s' ps) as (qs' & I & _ & L); [|eassumption|].
  - split; [assumption|]. clear - Hs. induction ws as [|w ws IH]; cbn [map]; constructor; [|assumption].
    exists None. split; [now split|]. apply like_with_lock. intro. apply like_add.
  - destruct (C26_concurrent_appends nd ws (shown_fs s) c cs (shown_fs s') qs' T Hr Hl Hg Hc Hread) as (wr & rs & H1 & H2 & H3); try assumption.
    + now apply Forall_map.
    + exists wr, rs. split; [assumption|]. split; [|assumption]. intro F. apply H2. clear - L F. induction L as [|p q ps qs (o & _ & Hl) _ IH]; constructor.
      * inversion F as [|? ? [r ->] _]; subst. inversion Hl; subst. eexists. reflexivity.
      * apply IH. now inversion F.
Qed.
Print Assumptions C115_concurrent_appends.
Lemma ii_at A pre upd k post s c : @ii_steps A (upd s, pre ++ k s :: post) c -> ii_steps (s, pre ++ IAct upd k :: post) c.
Proof. intro H. eapply ii_more; [|exact H]. exists pre, upd, k, post. repeat split. Qed.
Definition named (c : text) : ifs := {| i_root := true; i_lock := Absent; i_graph := IGraphDir (IFile 0); i_files := [c] |}.
(** gc-build has opened and read the file when the addition begins. *)
Example C115_case : sound_fs (named (txt "AddVertex 1")) /\
  exists s' ps', ii_steps (named (txt "AddVertex 1"),
      [i_gc_build table at_once id_order; ibind (i_apply at_once [AddVertex 2]) i_exit]) (s', ps') /\
    shown_fs s' = {| fs_root := true; fs_lock := File []; fs_graph := GraphDir (File (txt "AddVertex 1")) |}.
Proof.
  split; [intros n H; injection H as <-; cbn; lia|]. eexists _, _. split.
  { apply (ii_at _ [] _ _ [_]). apply (ii_at _ [] _ _ [_]). apply (ii_at _ [_] _ _ []). apply (ii_at _ [_] _ _ []). apply ii_refl. }
  reflexivity.
Qed.

(** ** C116 *)
Lemma i_run_bind A B (p : iprog A) (f : A -> iprog B) : forall s, i_run (ibind p f) s = i_run (f (snd (i_run p s))) (fst (i_run p s)).
Proof. induction p as [a|upd k IH]; intro s; cbn; [reflexivity|apply IH]. Qed.
Lemma i_run_write n cs : forall c s, (n < length (i_files s))%nat -> content n s = c ->
  snd (i_run (i_write n (length c) cs) s) = IoOk tt /\
  i_graph (fst (i_run (i_write n (length c) cs) s)) = i_graph s /\
  length (i_files (fst (i_run (i_write n (length c) cs) s))) = length (i_files s) /\
  content n (fst (i_run (i_write n (length c) cs) s)) = c ++ concat cs.
Proof.
  induction cs as [|x cs IH]; intros c s Hn Hc; cbn [i_write i_run concat].
  - rewrite app_nil_r. auto.
  - rewrite Hc, write_at_end, <- app_length. destruct (IH (c ++ x) (i_set_content n (c ++ x) s)) as (H1 & H2 & H3 & H4).
    + cbn. now rewrite replace_length.
    + now apply nth_replace.
    + rewrite H1, H2, H3, H4, <- app_assoc. cbn. rewrite replace_length. auto.
Qed.
Lemma i_run_save chunks g s n : buffering chunks -> sound_fs s -> i_graph s = IGraphDir (IFile n) ->
  exists s', i_run (i_save chunks g) s = (s', IoOk tt) /\ i_graph s' = IGraphDir (IFile n) /\
    length (i_files s') = length (i_files s) /\ content n s' = gcmd_text g.
Proof.
  intros B Hs Hg. specialize (Hs n Hg). unfold i_save. cbn [i_run]. rewrite Hg.
  destruct (i_run_write n (chunks (save_pieces g)) [] (i_set_content n [] s)) as (H1 & H2 & H3 & H4).
  { cbn. now rewrite replace_length. }
  { now apply nth_replace. }
  cbn [length app] in *. rewrite (B (save_pieces g)), concat_save_pieces in H4.
  destruct (i_run (i_write n 0 (chunks (save_pieces g))) (i_set_content n [] s)) as [s' r]. cbn [fst snd] in *. subst r.
  exists s'. rewrite H2, H3. cbn. rewrite replace_length. auto.
Qed.
Lemma i_run_clean s e : openable (i_lock s) = true -> i_graph s = IGraphDir e ->
  i_run i_clean s = ({| i_root := true; i_lock := Absent; i_graph := INoGraph; i_files := i_files s |}, IoOk tt).
Proof. destruct s as [r [|c|] d fs]; cbn; intros H ->; try discriminate H; reflexivity. Qed.

Lemma i_run_random chunks g s e : buffering chunks -> openable (i_lock s) = true -> i_graph s = IGraphDir e ->
  exists s', i_run (i_gc_random chunks g) s = (s', Success) /\ i_graph s' = IGraphDir (IFile (length (i_files s))) /\
    length (i_files s') = S (length (i_files s)) /\ content (length (i_files s)) s' = gcmd_text g.
Proof.
  intros B Hl Hg. unfold i_gc_random. rewrite i_run_bind, (i_run_clean s e Hl Hg). cbn [fst snd].
  rewrite i_run_bind. set (s0 := {| i_root := true; i_lock := Absent; i_graph := INoGraph; i_files := i_files s |}).
  set (s2 := {| i_root := true; i_lock := Absent; i_graph := IGraphDir (IFile (length (i_files s))); i_files := i_files s ++ [[]] |}).
  change (i_run i_init s0) with (s2, @IoOk unit tt). cbn [fst snd]. rewrite i_run_bind.
  destruct (i_run_save chunks g s2 (length (i_files s)) B) as (s' & E & H1 & H2 & H3).
  { intros m H. injection H as <-. cbn. rewrite app_length. cbn. lia. }
  { reflexivity. }
  rewrite E. exists s'. rewrite H1, H2, H3. cbn. rewrite app_length, Nat.add_1_r. auto.
Qed.
Lemma i_run_steps A (p : iprog A) : forall s pre post,
  ii_steps (s, pre ++ p :: post) (fst (i_run p s), pre ++ IRet (snd (i_run p s)) :: post).
Proof.
  induction p as [a|upd k IH]; intros s pre post; cbn [i_run]; [constructor|].
  eapply ii_more; [|apply IH]. exists pre, upd, k, post. repeat split.
Qed.
Lemma ii_trans A (a b c : ifs * list (iprog A)) : ii_steps a b -> ii_steps b c -> ii_steps a c.
Proof. induction 1; intro H2; [assumption|]. econstructor; eauto. Qed.

(** What is left to do for a request, or for gc-build, that has opened its file: some
    write calls, the end of [with_lock], the exit status.  [n]: the number of files when
    gc-clean or gc-random began. *)
Inductive cut_off (n : nat) : iprog exit -> Prop :=
| cut_request h cs : (h < n)%nat -> cut_off n (ibind (ibind (i_append h cs) i_finish) i_exit)
| cut_build h off cs : (h < n)%nat -> cut_off n (ibind (i_write h off cs) i_exit)
| cut_over r : cut_off n (IRet r).
(** They are what the tools become. *)
Theorem C116_requests_cut_off : forall chunks cs s n, sound_fs s -> openable (i_lock s) = true ->
  i_graph s = IGraphDir (IFile n) ->
  forall k, exists s' p, ii_steps (s, [ibind (i_apply chunks cs) i_exit]) (s', [p]) /\
    p = ibind (ibind (i_append n (skipn k (chunks (add_pieces cs)))) i_finish) i_exit /\ cut_off (length (i_files s')) p.
Proof.
  intros chunks cs s n Hs Hl Hg k.
  assert (W : forall k ws s1, (n < length (i_files s1))%nat ->
    exists s', ii_steps (s1, [ibind (ibind (i_append n ws) i_finish) i_exit])
      (s', [ibind (ibind (i_append n (skipn k ws)) i_finish) i_exit]) /\ (n < length (i_files s'))%nat).
  { induction k0 as [|k0 IH]; intros ws s1 Hn; [exists s1; split; [constructor|assumption]|].
    destruct ws as [|w ws]; [exists s1; split; [constructor|assumption]|].
    destruct (IH ws (i_set_content n (content n s1 ++ w) s1)) as (s' & H1 & H2); [cbn; now rewrite replace_length|].
    exists s'. split; [|assumption]. eapply ii_more; [|exact H1]. eexists [], _, _, []. repeat split; reflexivity. }
  destruct s as [r l d fs]. cbn [i_lock i_graph] in *. subst d.
  set (s1 := {| i_root := true; i_lock := created l; i_graph := IGraphDir (IFile n); i_files := fs |}).
  destruct (W k (chunks (add_pieces cs)) s1) as (s' & H1 & H2); [apply (Hs n); reflexivity|].
  exists s'. eexists. split; [|split; [reflexivity|now constructor]].
  apply (ii_at _ [] _ _ []). apply (ii_at _ [] _ _ []). cbn [app i_set_root i_root i_lock]. rewrite Hl. cbn [andb ibind].
  apply (ii_at _ [] _ _ []). exact H1.
Qed.
Print Assumptions C116_requests_cut_off.
(** Whatever they still do, in any interleaving, the graph that gc-random stored is
    not touched. *)
Theorem C116_new_graph_untouched : forall chunks g s e, buffering chunks -> openable (i_lock s) = true ->
  i_graph s = IGraphDir e ->
  exists s1, i_run (i_gc_random chunks g) s = (s1, Success) /\
  forall ps s' ps', Forall (cut_off (length (i_files s))) ps -> ii_steps (s1, ps) (s', ps') ->
    commands_entry (shown_fs s') = File (gcmd_text g).
Proof.
  intros chunks g s e B Hl Hg. destruct (i_run_random chunks g s e B Hl Hg) as (s1 & E & Eg & _ & Ec).
  exists s1. split; [assumption|]. intros ps s' ps' F H. set (n := length (i_files s)) in *.
  apply holding_steps in H.
  - cbn [fst] in H. destruct H as [H _]. unfold commands_entry. rewrite H. unfold shown_fs. cbn [fs_graph]. now rewrite Eg, Ec.
  - cbn [fst snd]. eapply Forall_impl; [|exact F]. intros p Hp. destruct Hp as [h cs Hh|h off cs Hh|r].
    + exists h. split; [|unfold apart; rewrite Eg; injection; unfold n; lia]. apply holding_bind; [|intro; constructor].
      apply holding_bind; [apply holding_append|]. intro. apply holding_finish.
    + exists h. split; [|unfold apart; rewrite Eg; injection; unfold n; lia]. apply holding_bind; [apply holding_write|intro; constructor].
    + exists (S n). split; [constructor|]. unfold apart. rewrite Eg. injection. lia.
Qed.
Print Assumptions C116_new_graph_untouched.
(** Expected but false: so the new graph is safe from everything that began before.
    gc-build that has only read the old graph brings it back. *)
Theorem C116_old_graph_returns_refuted : forall nd chunks order s n g0 g, digit_table nd -> buffering chunks -> hash_order order ->
  sound_fs s -> openable (i_lock s) = true -> i_graph s = IGraphDir (IFile n) -> gcmd_read nd (content n s) = Done (Ok g0) ->
  exists s' g', ii_steps (s, [i_gc_build nd chunks order; i_gc_random chunks g]) (s', [IRet Success; IRet Success]) /\
    loads nd (shown_fs s') g' /\ a_same (shown g') (shown g0).
Proof.
  intros nd chunks order s n g0 g T B O Hs Hl Hg Hr.
  set (rest := ibind (i_save chunks (order g0)) i_exit).
  assert (S1 : ii_steps (s, [i_gc_build nd chunks order; i_gc_random chunks g]) (s, [rest; i_gc_random chunks g])).
  { apply (ii_at _ [] _ _ [_]). cbn [app]. unfold i_commands. rewrite Hg.
    apply (ii_at _ [] _ _ [_]). cbn [app ibind]. rewrite Hr. constructor. }
  destruct (i_run_random chunks g s _ B Hl Hg) as (s1 & E1 & Eg1 & El1 & _).
  assert (S2 : ii_steps (s, [rest; i_gc_random chunks g]) (s1, [rest; IRet Success])).
  { pose proof (i_run_steps _ (i_gc_random chunks g) s [rest] []) as H. now rewrite E1 in H. }
  destruct (i_run_save chunks (order g0) s1 (length (i_files s)) B) as (s2 & E2 & Eg2 & _ & Ec2).
  { intros m H. rewrite Eg1 in H. injection H as <-. rewrite El1. lia. }
  { assumption. }
  assert (S3 : ii_steps (s1, [rest; IRet Success]) (s2, [IRet Success; IRet Success])).
  { pose proof (i_run_steps _ rest s1 [] [IRet Success]) as H. unfold rest in H at 2 3. rewrite i_run_bind, E2 in H. exact H. }
  apply gcmd_read_ok in Hr. destruct Hr as (cs & Hr & ->). set (g0 := apply_commands cs g_new) in *.
  assert (Bg : built_by cs g0) by apply built_by_apply.
  assert (Wg : wf g0) by now apply (built_by_wf Bg).
  assert (Wo : wf (order g0)) by (eapply wf_perm; [exact Wg|apply O]).
  assert (So : a_same (shown (order g0)) (shown g0)) by (apply shown_perm; [assumption|apply O]).
  assert (Uo : u64_graph (order g0)).
  { intros x Hx. apply (built_by_u64 cs g0 Bg); [now apply (read_u64 nd _ _ T Hr)|]. now apply (proj1 So). }
  exists s2, (apply_commands (as_commands (order g0)) g_new).
  split; [eapply ii_trans; [exact S1|]; eapply ii_trans; [exact S2|exact S3]|]. split.
  - unfold loads. rewrite run_load, commands_shown. unfold i_commands. rewrite Eg2, Ec2, (gcmd_roundtrip nd T) by assumption. reflexivity.
  - eapply a_same_trans; [now apply as_commands_roundtrip|exact So].
Qed.
Print Assumptions C116_old_graph_returns_refuted.
(** A program whose directory is removed before it opens the file to write says so by its exit
    status, and no graph is left: gc-random between its two last parts, gc-build after reading. *)
Theorem C116_removed_is_reported : forall nd chunks order s n g0 g, openable (i_lock s) = true ->
  i_graph s = IGraphDir (IFile n) -> gcmd_read nd (content n s) = Done (Ok g0) ->
  exists s1 s2,
    ii_steps (s, [i_gc_random chunks g; ibind i_clean i_exit]) (s1, [IRet Failure; IRet Success]) /\
    i_graph s1 = INoGraph /\
    ii_steps (s, [i_gc_build nd chunks order; ibind i_clean i_exit]) (s2, [IRet Failure; IRet Success]) /\
    i_graph s2 = INoGraph.
Proof.
  intros nd chunks order s n g0 g Hl Hg Hr.
  set (gone := fun fs => {| i_root := true; i_lock := Absent; i_graph := INoGraph; i_files := fs |}).
  assert (HC : forall s e p, openable (i_lock s) = true -> i_graph s = IGraphDir e ->
    ii_steps (s, [p; ibind i_clean i_exit]) (gone (i_files s), [p; IRet Success])).
  { intros s0 e p H1 H2. pose proof (i_run_steps _ (ibind i_clean i_exit) s0 [p] []) as H.
    rewrite i_run_bind, (i_run_clean s0 e H1 H2) in H. exact H. }
  assert (HF : forall g' fs q, ii_steps (gone fs, [ibind (i_save chunks g') i_exit; q]) (gone fs, [IRet Failure; q])).
  { intros g' fs q. exact (i_run_steps _ (ibind (i_save chunks g') i_exit) (gone fs) [] [q]). }
  assert (HS : forall A B (p : iprog A) (f : A -> iprog B) s0 q,
    ii_steps (s0, [ibind p f; q]) (fst (i_run p s0), [f (snd (i_run p s0)); q])).
  { induction p as [a|upd k IH]; intros f s0 q; cbn [i_run ibind]; [constructor|].
    apply (ii_at _ [] _ _ [_]). apply IH. }
  exists (gone (i_files s ++ [[]])), (gone (i_files s)). split; [|split; [reflexivity|split; [|reflexivity]]].
  - unfold i_gc_random. eapply ii_trans; [apply HS|]. rewrite (i_run_clean s _ Hl Hg). cbn [fst snd].
    fold (gone (i_files s)). eapply ii_trans; [apply HS|].
    set (s3 := {| i_root := true; i_lock := Absent; i_graph := IGraphDir (IFile (length (i_files s))); i_files := i_files s ++ [[]] |}).
    change (i_run i_init (gone (i_files s))) with (s3, @IoOk unit tt). cbn [fst snd].
    eapply ii_trans; [apply (HC s3 (IFile (length (i_files s)))); reflexivity|]. apply HF.
  - unfold i_gc_build. eapply ii_trans; [apply HS|].
    replace (i_run (i_load nd) s) with (s, @Done (result graph) (Ok g0))
      by (unfold i_load; cbn [i_run]; unfold i_commands; rewrite Hg; cbn [i_run]; now rewrite Hr).
    cbn [fst snd]. eapply ii_trans; [apply (HC s _ _ Hl Hg)|]. apply HF.
Qed.
Print Assumptions C116_removed_is_reported.
Example C116_case : openable (i_lock (named [])) = true /\ i_graph (named []) = IGraphDir (IFile 0) /\
  sound_fs (named []) /\ gcmd_read table (content 0 (named [])) = Done (Ok g_new) /\ cut_off 1 (ibind (ibind (i_append 0 [txt "AddVertex 7"]) i_finish) i_exit).
Proof.
  split; [reflexivity|]. split; [reflexivity|]. split; [intros n H; injection H as <-; cbn; lia|].
  split; [vm_compute; reflexivity|]. constructor. lia.
Qed.
