(** * Facts about open files *)
From Coq Require Import String.
From Coq Require Import List NArith Bool Arith Lia.
From Verif Require Import Base Graph Text Format Store StoreSpec StoreFacts CrashFacts Inode.
Import ListNotations.
Open Scope nat_scope.

(** The name stands for a file that exists. *)
Definition sound_fs (s : ifs) : Prop := forall n, i_graph s = IGraphDir (IFile n) -> n < length (i_files s).

Lemma replace_length A (x : A) l : forall n, length (replace_nth n x l) = length l.
Proof. induction l as [|a l IH]; intros [|n]; cbn; try reflexivity. now rewrite IH. Qed.
Lemma nth_replace A (x d : A) l : forall n, n < length l -> nth n (replace_nth n x l) d = x.
Proof. induction l as [|a l IH]; intros [|n] H; cbn in *; try lia; [reflexivity|]. apply IH. lia. Qed.
Lemma nth_replace_other A (x d : A) l : forall n m, n <> m -> nth m (replace_nth n x l) d = nth m l d.
Proof. induction l as [|a l IH]; intros [|n] [|m] H; cbn in *; try reflexivity; try lia. apply IH. lia. Qed.

(** ** Simulation by the programs of [Store.v] while nobody removes the name *)
Definition valid (o : option nat) (s : ifs) : Prop :=
  sound_fs s /\ match o with Some h => i_graph s = IGraphDir (IFile h) | None => True end.
Inductive like {A} : option nat -> iprog A -> prog A -> Prop :=
| like_ret o a : like o (IRet a) (Ret a)
| like_act o upd' k' q :
    (forall s n, i_graph s = IGraphDir (IFile n) -> i_graph (upd' s) = IGraphDir (IFile n)) ->
    (forall s, valid o s -> exists o', valid o' (upd' s) /\
       ((exists upd k, q = Act upd k /\ shown_fs (upd' s) = upd (shown_fs s) /\ like o' (k' s) (k (shown_fs s))) \/
        (shown_fs (upd' s) = shown_fs s /\ like o' (k' s) q))) ->
    like o (IAct upd' k') q.

Lemma like_bind A B (f : A -> iprog B) (g : A -> prog B) : (forall o a, like o (f a) (g a)) ->
  forall p o q, like o p q -> like o (ibind p f) (bind q g).
Proof.
  intros Hf p. induction p as [a|upd' k' IH]; intros o q H; inversion H as [? a0|? ? ? ? Hk Hs]; subst; cbn [ibind bind].
  - apply Hf.
  - apply like_act; [assumption|]. intros s Hv. destruct (Hs s Hv) as (o' & Hv' & [(upd & k & -> & E & L)|[E L]]).
    + exists o'. split; [assumption|]. left. exists upd, (fun s => bind (k s) g). split; [reflexivity|]. split; [assumption|]. now apply IH.
    + exists o'. split; [assumption|]. right. split; [assumption|]. now apply IH.
Qed.

Lemma forall2_impl A B (R R' : A -> B -> Prop) l l' : (forall x y, R x y -> R' x y) -> Forall2 R l l' -> Forall2 R' l l'.
Proof. intro H. induction 1; constructor; auto. Qed.
Definition linked {A} (s : ifs) (ps : list (iprog A)) (qs : list (prog A)) : Prop :=
  sound_fs s /\ Forall2 (fun p q => exists o, valid o s /\ like o p q) ps qs.
Lemma linked_step A s ps qs s' ps' : @linked A s ps qs -> ii_step (s, ps) (s', ps') ->
  exists qs', isteps (shown_fs s, qs) (shown_fs s', qs') /\ linked s' ps' qs'.
Proof.
  intros [Hs F] (pre & upd & k & post & E1 & E2 & E3). cbn [fst snd] in *. subst.
  apply Forall2_app_inv_l in F. destruct F as (qpre & qrest & F1 & F2 & ->).
  inversion F2 as [|? q ? qpost (o & Hv & L) F3]; subst.
  inversion L as [|? ? ? ? Hk Hst]; subst.
  destruct (Hst s Hv) as (o' & Hv' & D).
  assert (Keep : forall x y, (exists o, valid o s /\ @like A o x y) -> exists o, valid o (upd s) /\ @like A o x y).
  { intros x y (o1 & [H1 H2] & H3). exists o1. split; [|assumption]. split; [apply Hv'|]. destruct o1; [now apply Hk|trivial]. }
  assert (F1' := forall2_impl _ _ _ _ _ _ Keep F1). assert (F3' := forall2_impl _ _ _ _ _ _ Keep F3).
  destruct D as [(upd0 & k0 & -> & E & L')|[E L']].
  - exists (qpre ++ k0 (shown_fs s) :: qpost). split.
    + eapply is_step; [|constructor]. exists qpre, upd0, k0, qpost. repeat split. exact E.
    + split; [apply Hv'|]. apply Forall2_app; [assumption|]. constructor; [eauto|assumption].
  - exists (qpre ++ q :: qpost). rewrite E. split; [constructor|]. split; [apply Hv'|].
    apply Forall2_app; [assumption|]. constructor; [eauto|assumption].
Qed.
Lemma linked_steps A s ps qs s' ps' : @linked A s ps qs -> ii_steps (s, ps) (s', ps') ->
  exists qs', isteps (shown_fs s, qs) (shown_fs s', qs') /\ linked s' ps' qs'.
Proof.
  intros L H. remember (s, ps) as c eqn:Ec. remember (s', ps') as c' eqn:Ec'.
  revert s ps qs L Ec. induction H as [c|c c1 c2 H1 _ IH]; intros s ps qs L ->.
  - injection Ec' as -> ->. exists qs. split; [constructor|assumption].
  - destruct c1 as [s1 ps1]. destruct (linked_step _ _ _ _ _ _ L H1) as (qs1 & I1 & L1).
    destruct (IH Ec' s1 ps1 qs1 L1 eq_refl) as (qs2 & I2 & L2). exists qs2. split; [eapply isteps_trans; eassumption|assumption].
Qed.

Ltac act := apply like_act; [|let s := fresh "s" in let Hv := fresh "Hv" in intros s Hv].
Lemma sound_same s s' : i_graph s' = i_graph s -> length (i_files s') = length (i_files s) -> sound_fs s -> sound_fs s'.
Proof. unfold sound_fs. intros -> ->. trivial. Qed.
Lemma valid_same o s s' : i_graph s' = i_graph s -> length (i_files s') = length (i_files s) -> valid o s -> valid o s'.
Proof. intros H1 H2 [H3 H4]. split; [now apply (sound_same s)|]. now rewrite H1. Qed.

Lemma like_lock o : like o i_lock_prog lock.
Proof.
  act; [intros; assumption|]. exists o. split; [apply (valid_same o s); trivial|]. left.
  eexists _, _. split; [reflexivity|]. split; [reflexivity|]. act; [intros s0 n; destruct (i_root s0); trivial|].
  exists o. split; [apply (valid_same o s0); destruct (i_root s0); trivial|]. left.
  eexists _, _. split; [reflexivity|]. split; [cbn; destruct (i_root s0) eqn:Er; [reflexivity|]; unfold shown_fs; now rewrite Er|]. constructor.
Qed.
Lemma like_unlock o : like o i_unlock unlock.
Proof.
  act; [intros s n; destruct (i_lock s); trivial|]. exists o. split; [apply (valid_same o s); destruct (i_lock s); trivial|]. left.
  eexists _, _. split; [reflexivity|]. split; [cbn; destruct (i_lock s) eqn:E; unfold shown_fs; cbn; rewrite ?E; reflexivity|]. constructor.
Qed.
Lemma like_with_lock A (b : iprog (io A)) b' o : (forall o, like o b b') -> like o (i_with_lock b) (with_lock b').
Proof.
  intro H. apply like_bind; [|apply like_lock]. intros o1 [u|]; [|constructor].
  apply like_bind; [|apply H]. intros o2 r. apply like_bind; [|apply like_unlock]. intros o3 [u'|]; constructor.
Qed.
Lemma create_valid o s : valid o s -> i_graph s = IGraphDir IAbsent -> valid (Some (length (i_files s))) (i_create s).
Proof.
  intros _ E. split; [|reflexivity]. intros n H. injection H as <-. cbn [i_create i_files]. rewrite app_length. cbn. lia.
Qed.
Lemma create_content s : content (length (i_files s)) (i_create s) = [].
Proof. unfold content. cbn [i_create i_files]. now rewrite app_nth2, Nat.sub_diag by lia. Qed.
Lemma shown_create s : shown_fs (i_create s) = set_commands (File []) (shown_fs s).
Proof. rewrite <- (create_content s). reflexivity. Qed.
Lemma like_init o : like o i_init init.
Proof.
  act; [intros s n E; now rewrite E|].
  exists None. split.
  { split; [|trivial]. intros n. destruct (i_graph s) eqn:E; cbn; rewrite ?E; intro H; try discriminate H.
    apply (proj1 Hv). congruence. }
  left. eexists _, _. split; [reflexivity|]. split.
  { destruct (i_graph s) as [| |[| |]] eqn:E; unfold shown_fs; cbn; rewrite ?E; reflexivity. }
  act; [intros s0 n E; now rewrite E|].
  exists None. split.
  { split; [|trivial]. destruct (i_graph s0) as [| |[| |]] eqn:E; try apply Hv0. now apply (create_valid None s0). }
  left. eexists _, _. split; [reflexivity|]. split.
  { destruct (i_graph s0) as [| |[| |]] eqn:E; try (unfold shown_fs; cbn; rewrite ?E; reflexivity).
    rewrite shown_create. unfold shown_fs. cbn [fs_graph]. rewrite E. reflexivity. }
  cbn. destruct (i_graph s0) as [| |[| |]]; cbn; constructor.
Qed.
Lemma commands_shown s : commands_entry (shown_fs s) =
  match i_commands s with IAbsent => Absent | IFile n => File (content n s) | IDirectory => Directory end.
Proof. unfold i_commands, commands_entry, shown_fs. cbn. destruct (i_graph s) as [| |[| |]]; reflexivity. Qed.
Lemma like_load nd o : like o (i_load nd) (load_graph nd).
Proof.
  act; [trivial|]. destruct (i_commands s) as [|n|] eqn:E.
  - exists o. split; [assumption|]. left. eexists _, _. split; [reflexivity|]. split; [reflexivity|]. rewrite commands_shown, E. constructor.
  - exists (Some n). split.
    { split; [apply Hv|]. unfold i_commands in E. destruct (i_graph s); congruence. }
    right. split; [reflexivity|]. act; [trivial|]. exists None. split; [split; [apply Hv0|trivial]|].
    left. eexists _, _. split; [reflexivity|]. split; [reflexivity|].
    rewrite commands_shown. unfold i_commands. destruct Hv0 as [_ ->]. constructor.
  - exists o. split; [assumption|]. left. eexists _, _. split; [reflexivity|]. split; [reflexivity|]. rewrite commands_shown, E. constructor.
Qed.
Lemma set_content_shown n c s : sound_fs s -> i_graph s = IGraphDir (IFile n) ->
  shown_fs (i_set_content n c s) = set_commands (File c) (shown_fs s).
Proof.
  intros Hs E. unfold shown_fs, i_set_content, set_commands, set_graph. cbn. rewrite E. f_equal. f_equal. f_equal.
  unfold content. cbn. apply nth_replace. now apply Hs.
Qed.
Lemma set_content_valid o n c s : valid o s -> valid o (i_set_content n c s).
Proof. apply valid_same; [reflexivity|]. cbn. apply replace_length. Qed.
Lemma like_append n cs : like (Some n) (i_append n cs) (append_chunks cs).
Proof.
  induction cs as [|c cs IH]; cbn [i_append append_chunks]; [constructor|].
  act; [intros; assumption|]. exists (Some n). split; [now apply set_content_valid|]. left.
  eexists _, _. split; [reflexivity|]. split; [|exact IH].
  destruct Hv as [Hs E]. rewrite set_content_shown by assumption. unfold append_chunk. rewrite commands_shown.
  unfold i_commands. now rewrite E.
Qed.
Lemma like_add chunks cs o : like o (i_add_commands chunks cs) (add_commands chunks cs).
Proof.
  act; [trivial|]. destruct (i_commands s) as [|n|] eqn:E.
  - exists o. split; [assumption|]. left. eexists _, _. split; [reflexivity|]. split; [reflexivity|]. rewrite commands_shown, E. constructor.
  - exists (Some n). split.
    { split; [apply Hv|]. unfold i_commands in E. destruct (i_graph s); congruence. }
    left. eexists _, _. split; [reflexivity|]. split; [reflexivity|]. rewrite commands_shown, E. apply like_append.
  - exists o. split; [assumption|]. left. eexists _, _. split; [reflexivity|]. split; [reflexivity|]. rewrite commands_shown, E. constructor.
Qed.
Lemma like_write n cs : forall off, like (Some n) (i_write n off cs) (write_chunks off cs).
Proof.
  induction cs as [|c cs IH]; intro off; cbn [i_write write_chunks]; [constructor|].
  act; [intros; assumption|]. exists (Some n). split; [now apply set_content_valid|]. left.
  eexists _, _. split; [reflexivity|]. split; [|apply IH].
  destruct Hv as [Hs E]. rewrite set_content_shown by assumption. unfold write_chunk. rewrite commands_shown.
  unfold i_commands. now rewrite E.
Qed.
Lemma like_save chunks g o : like o (i_save chunks g) (save_graph_as_commands chunks g).
Proof.
  act; [intros s n E; now rewrite E|]. destruct (i_graph s) as [| |[|n|]] eqn:E;
    try (exists o; split; [assumption|]; left; eexists _, _; split; [reflexivity|]; split; [unfold shown_fs; rewrite E; reflexivity|];
         cbn; rewrite E; constructor).
  - exists (Some (length (i_files s))). split; [now apply (create_valid o)|]. left. eexists _, _. split; [reflexivity|]. split.
    + rewrite shown_create. unfold shown_fs. cbn [fs_graph]. rewrite E. reflexivity.
    + unfold shown_fs. cbn [fs_graph]. rewrite E. apply like_write.
  - exists (Some n). split; [apply set_content_valid; split; [apply Hv|assumption]|]. left. eexists _, _. split; [reflexivity|]. split.
    + rewrite set_content_shown by (try apply Hv; assumption). unfold shown_fs. rewrite E. reflexivity.
    + unfold shown_fs. cbn [fs_graph]. rewrite E. apply like_write.
Qed.

(** ** Programs that hold on to a file without a name *)
Definition apart (h : nat) (s : ifs) : Prop := i_graph s <> IGraphDir (IFile h).
(** Programs that only write to file [h] or remove the lock. *)
Inductive holding {A} (h : nat) : iprog A -> Prop :=
| hold_ret a : holding h (IRet a)
| hold_act upd k : (forall s, i_graph (upd s) = i_graph s /\ length (i_files (upd s)) = length (i_files s) /\
      forall m, m <> h -> content m (upd s) = content m s) ->
    (forall s, holding h (k s)) -> holding h (IAct upd k).
Lemma holding_bind A B h (p : iprog A) (f : A -> iprog B) : holding h p -> (forall a, holding h (f a)) -> holding h (ibind p f).
Proof. intros H Hf. induction H as [a|upd k Hu _ IH]; cbn [ibind]; [apply Hf|]. now constructor. Qed.
Lemma holding_append h cs : holding h (i_append h cs).
Proof.
  induction cs as [|c cs IH]; cbn [i_append]; constructor; [|intro; assumption]. intro s. cbn. rewrite replace_length.
  split; [reflexivity|]. split; [reflexivity|]. intros m Hm. apply nth_replace_other. congruence.
Qed.
Lemma holding_write h cs : forall off, holding h (i_write h off cs).
Proof.
  induction cs as [|c cs IH]; intro off; cbn [i_write]; constructor; [|intro; apply IH]. intro s. cbn. rewrite replace_length.
  split; [reflexivity|]. split; [reflexivity|]. intros m Hm. apply nth_replace_other. congruence.
Qed.
Lemma holding_finish A h (r : io A) : holding h (i_finish r).
Proof.
  apply holding_bind; [|intros [u|]; constructor]. constructor; [|constructor]. intro s. destruct (i_lock s); repeat split.
Qed.
Lemma holding_steps A (c c' : ifs * list (iprog A)) : ii_steps c c' ->
  Forall (fun p => exists h, holding h p /\ apart h (fst c)) (snd c) ->
  fs_graph (shown_fs (fst c')) = fs_graph (shown_fs (fst c)) /\ i_graph (fst c') = i_graph (fst c).
Proof.
  induction 1 as [c|c c1 c2 (pre & upd & k & post & E1 & E2 & E3) _ IH]; intro F; [split; reflexivity|].
  rewrite E1 in F. apply Forall_app in F. destruct F as [F1 F2]. inversion F2 as [|? ? (h & Hh & Ha) F3]; subst.
  inversion Hh as [|? ? Hu Hk]; subst. destruct (Hu (fst c)) as (H1 & H2 & H3).
  assert (Ka : forall h', apart h' (fst c) -> apart h' (fst c1)) by (unfold apart; intros h'; rewrite E2, H1; trivial).
  destruct IH as [I1 I2].
  - rewrite E3. apply Forall_app. split; [|constructor].
    + eapply Forall_impl; [|exact F1]. intros p (h' & X & Y). eauto.
    + exists h. auto.
    + eapply Forall_impl; [|exact F3]. intros p (h' & X & Y). eauto.
  - rewrite I1, I2, E2. split; [|assumption]. unfold shown_fs. cbn [fs_graph]. rewrite H1.
    destruct (i_graph (fst c)) as [| |[|n|]] eqn:Eg; try reflexivity. do 2 f_equal. apply H3. intros ->. now apply Ha.
Qed.
