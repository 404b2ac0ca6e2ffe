(** * Property C173: calls that the operating system refuses *)
From Coq Require Import String.
From Coq Require Import List NArith Bool Arith Lia.
From Verif Require Import Spec Base Graph GraphSpec GraphFacts Text Format FormatSpec TextFacts FormatFacts
  Store StoreSpec StoreFacts PropFormat PropStore Cli Disk Query Refuse.
Import ListNotations.

(** ** What it means *)
(** Everything granted. *)
Definition all_granted : grants :=
  {| may_mkdir := true; may_lock := true; may_unlock := true; may_touch := true; may_open := true; may_read := true;
     may_append := true; may_create := true; may_remove := Everything |}.
(** A directory that can be read but not changed. *)
Definition read_only (gr : grants) : Prop :=
  may_mkdir gr = false /\ may_lock gr = false /\ may_unlock gr = false /\ may_touch gr = false /\
  may_append gr = false /\ may_create gr = false /\ may_remove gr = NotAtAll.
(** Requests with the answers given, and those that count: all that were answered with success, and perhaps some others. *)
Inductive counted : list (invocation * exit) -> list invocation -> Prop :=
| counted_nil : counted [] []
| counted_yes i r l k : counted l k -> counted ((i, r) :: l) (i :: k)
| counted_no i l k : counted l k -> counted ((i, Failure) :: l) k.

(** The call behind an invocation, as in PropStore.v. *)
Definition r_invoke gr nd chunks order (i : invocation) : prog exit :=
  match i with
  | Init => r_gc_init gr
  | Build => r_gc_build gr nd chunks order
  | i => exit_of (r_apply gr chunks (invocation_commands i))
  end.
(** A history in which any call may be refused. *)
Inductive refused_history nd : fs -> list (invocation * exit) -> fs -> Prop :=
| rh_nil s : refused_history nd s [] s
| rh_cons s i r is s1 s2 gr chunks order : buffering chunks -> hash_order order ->
    run_prog (r_invoke gr nd chunks order i) s = (s1, r) -> refused_history nd s1 is s2 ->
    refused_history nd s ((i, r) :: is) s2.

(** ** Runs *)
Definition rooted (gr : grants) (s : fs) : fs := if may_mkdir gr then set_root true s else s.
Lemma rooted_lock gr s : fs_lock (rooted gr s) = fs_lock s.
Proof. unfold rooted. now destruct (may_mkdir gr). Qed.
Lemma rooted_graph gr s : fs_graph (rooted gr s) = fs_graph s.
Proof. unfold rooted. now destruct (may_mkdir gr). Qed.
Lemma run_r_with_lock A gr (block : prog (io A)) s : run_prog (r_with_lock gr block) s =
  let s0 := rooted gr s in
  if may_lock gr && fs_root s0 && openable (fs_lock s) then
    let r := run_prog block (set_lock (created (fs_lock s)) s0) in
    if may_unlock gr then
      match fs_lock (fst r) with
      | File _ => (set_lock Absent (fst r), snd r)
      | _ => (fst r, IoErr)
      end
    else (fst r, IoErr)
  else (s0, IoErr).
Proof.
  unfold r_with_lock, r_lock, r_unlock. rewrite run_bind. cbn [run_prog bind fst snd]. cbv zeta.
  fold (rooted gr s). rewrite rooted_lock.
  destruct (may_lock gr); cbn [andb]; [|reflexivity].
  destruct (fs_root (rooted gr s)); cbn [andb]; [|reflexivity].
  destruct (openable (fs_lock s)) eqn:Eo.
  - cbv iota beta. rewrite run_bind. set (r := run_prog block _). cbn [run_prog fst snd].
    destruct (may_unlock gr); [|reflexivity]. destruct (fs_lock (fst r)); reflexivity.
  - cbn [run_prog]. destruct s as [rt [|c|] d]; try discriminate. unfold rooted. destruct (may_mkdir gr); reflexivity.
Qed.

Definition stored_now gr s := may_lock gr && fs_root (rooted gr s) && openable (fs_lock s) && may_append gr.
Lemma run_r_apply gr chunks cs s : buffering chunks -> exists s' r,
  run_prog (r_apply gr chunks cs) s = (s', r) /\
  match commands_entry s with
  | File c => if stored_now gr s then fs_graph s' = GraphDir (File (c ++ commands_text cs)) else fs_graph s' = fs_graph s /\ r = IoErr
  | _ => fs_graph s' = fs_graph s /\ r = IoErr
  end /\
  (r = IoOk tt -> fs_lock s' = Absent) /\
  (r = IoErr -> stored_now gr s = false \/ may_unlock gr = false \/ forall c, commands_entry s <> File c) /\
  (openable (fs_lock s) = true -> openable (fs_lock s') = true) /\
  (fs_lock s' = Absent \/ fs_lock s' = fs_lock s \/ may_unlock gr = false).
Proof.
  intro B. unfold r_apply. rewrite run_r_with_lock. cbv zeta. unfold stored_now.
  destruct (may_lock gr && fs_root (rooted gr s)) eqn:El; cbn [andb].
  2:{ exists (rooted gr s), IoErr. split; [reflexivity|]. rewrite rooted_graph, rooted_lock.
      split; [destruct (commands_entry s); auto|]. split; [discriminate|]. split; [auto|]. split; [congruence|auto]. }
  destruct (openable (fs_lock s)) eqn:Eo; cbn [andb].
  2:{ exists (rooted gr s), IoErr. split; [reflexivity|]. rewrite rooted_graph, rooted_lock.
      split; [destruct (commands_entry s); auto|]. split; [discriminate|]. split; [auto|]. split; [congruence|auto]. }
  set (s1 := set_lock (created (fs_lock s)) (rooted gr s)).
  assert (Hl : exists c, fs_lock s1 = File c) by (cbn; destruct (fs_lock s); try discriminate; cbn; eauto).
  destruct Hl as [lc Hl].
  assert (Hg : fs_graph s1 = fs_graph s) by (unfold s1; cbn [set_lock fs_graph]; apply rooted_graph).
  assert (Hc : commands_entry s1 = commands_entry s) by (unfold commands_entry; now rewrite Hg).
  unfold r_add_commands. destruct (may_append gr).
  - rewrite run_add_commands by assumption. rewrite Hc. destruct (commands_entry s) as [|c|] eqn:Ec; cbn [fst snd].
    + rewrite Hl. destruct (may_unlock gr); eexists _, _; (split; [reflexivity|]);
        (split; [split; [exact Hg|reflexivity]|]); (split; [discriminate|]); (split; [right; right; discriminate|]);
        (split; [cbn [set_lock fs_lock]; rewrite ?Hl; auto|cbn [set_lock fs_lock]; auto]).
    + cbn [set_commands set_graph fs_lock]. rewrite Hl. destruct (may_unlock gr); eexists _, _; (split; [reflexivity|]);
        (split; [reflexivity|]); (split; [try discriminate; reflexivity|]); (split; [try discriminate; auto|]);
        cbn [set_lock set_commands set_graph fs_lock]; (split; [rewrite ?Hl; auto|auto]).
    + rewrite Hl. destruct (may_unlock gr); eexists _, _; (split; [reflexivity|]);
        (split; [split; [exact Hg|reflexivity]|]); (split; [discriminate|]); (split; [right; right; discriminate|]);
        (split; [cbn [set_lock fs_lock]; rewrite ?Hl; auto|cbn [set_lock fs_lock]; auto]).
  - cbn [run_prog fst snd]. rewrite Hl. destruct (may_unlock gr); eexists _, _; (split; [reflexivity|]);
      (split; [destruct (commands_entry s); (split; [exact Hg|reflexivity])|]); (split; [discriminate|]);
      (split; [auto|]); cbn [set_lock fs_lock]; (split; [rewrite ?Hl; auto|auto]).
Qed.

(** ** Requests *)
(** A request that returns Ok is stored and leaves no lock; one that returns an error is not stored, unless only the lock
    could not be removed.  The lock stays only if its removal was refused, or if it was there before. *)
Theorem C173_request : forall gr chunks cs s s' r, buffering chunks -> run_prog (r_apply gr chunks cs) s = (s', r) ->
  (r = IoOk tt -> fs_lock s' = Absent /\ exists c, commands_entry s = File c /\ commands_entry s' = File (c ++ commands_text cs)) /\
  (r = IoErr -> commands_entry s' = commands_entry s \/
     may_unlock gr = false /\ exists c, commands_entry s = File c /\ commands_entry s' = File (c ++ commands_text cs)) /\
  (fs_lock s' = Absent \/ fs_lock s' = fs_lock s \/ may_unlock gr = false).
Proof.
  intros gr chunks cs s s' r B H. destruct (run_r_apply gr chunks cs s B) as (t & u & E & Hg & Ho & He & _ & Hl).
  rewrite E in H. injection H as -> ->. split; [|split; [|exact Hl]].
  - intros ->. split; [auto|]. destruct (commands_entry s) as [|c|]; try (destruct Hg; discriminate).
    destruct (stored_now gr s); [|destruct Hg; discriminate]. exists c. split; [reflexivity|].
    unfold commands_entry. now rewrite Hg.
  - intros ->. destruct (commands_entry s) as [|c|] eqn:Ec.
    + left. destruct Hg as [Hg _]. unfold commands_entry in *. now rewrite Hg.
    + destruct (stored_now gr s).
      * right. destruct (He eq_refl) as [H|[H|H]]; [discriminate| |now specialize (H c)].
        split; [exact H|]. exists c. split; [reflexivity|]. unfold commands_entry. now rewrite Hg.
      * left. destruct Hg as [Hg _]. unfold commands_entry in *. now rewrite Hg.
    + left. destruct Hg as [Hg _]. unfold commands_entry in *. now rewrite Hg.
Qed.
Print Assumptions C173_request.

(** ** gc-init and gc-build *)
Theorem C173_init : forall gr s s' r, run_prog (r_gc_init gr) s = (s', r) ->
  (r = Success -> exists c, commands_entry s' = File c) /\
  (r = Failure -> commands_entry s' = commands_entry s) /\
  (commands_entry s' = commands_entry s \/ commands_entry s = Absent /\ commands_entry s' = File []) /\
  fs_lock s' = fs_lock s.
Proof.
  intros gr s s' r H. unfold r_gc_init, r_init in H. cbn [bind run_prog] in H.
  destruct s as [rt l [| |[|c|]]], (may_mkdir gr), (may_touch gr); cbn in H; injection H as <- <-; cbn;
    (split; [intro; try discriminate; eauto|]); (split; [intro; try discriminate; auto|]); auto.
Qed.
Print Assumptions C173_init.

(** A gc-build that fails has changed nothing. *)
Theorem C173_build : forall gr nd chunks order s s' r, buffering chunks ->
  run_prog (r_gc_build gr nd chunks order) s = (s', r) ->
  (r = Failure -> s' = s) /\
  (r = Success -> run_prog (gc_build nd chunks order) s = (s', Success)) /\
  fs_lock s' = fs_lock s.
Proof.
  intros gr nd chunks order s s' r B H. unfold r_gc_build, r_load in H. rewrite run_bind in H. cbn [run_prog fst snd] in H.
  unfold gc_build. rewrite run_bind, run_load. cbn [fst snd].
  destruct (may_open gr); cbn [negb] in H.
  2:{ injection H as <- <-. split; [auto|]. split; [discriminate|reflexivity]. }
  destruct (commands_entry s) as [|c|] eqn:Ec; try (injection H as <- <-; split; [auto|]; split; [discriminate|reflexivity]).
  destruct (may_read gr).
  2:{ injection H as <- <-. split; [auto|]. split; [discriminate|reflexivity]. }
  destruct (gcmd_read nd c) as [[g|]| |]; try (injection H as <- <-; split; [auto|]; split; [discriminate|reflexivity]).
  unfold r_save in H. destruct (may_create gr).
  2:{ injection H as <- <-. split; [auto|]. split; [discriminate|reflexivity]. }
  rewrite run_bind, run_save in H by assumption. rewrite run_bind, run_save by assumption.
  apply commands_entry_dir in Ec. rewrite Ec in *. cbn [fst snd run_prog] in *. injection H as <- <-.
  split; [discriminate|]. split; reflexivity.
Qed.
Print Assumptions C173_build.

(** ** Histories *)
Lemma holds_graph nd s s' a : fs_graph s' = fs_graph s -> openable (fs_lock s') = true -> holds nd s a -> holds nd s' a.
Proof. intros Hg Hl (_ & c & cs & H). split; [exact Hl|]. exists c, cs. now rewrite Hg. Qed.

Lemma holds_refused nd gr chunks order i s a s' r : digit_table nd -> buffering chunks -> hash_order order ->
  u64_invocation i -> holds nd s a -> run_prog (r_invoke gr nd chunks order i) s = (s', r) ->
  holds nd s' (a_invoke a i) \/ (r = Failure /\ holds nd s' a).
Proof.
  intros T B O U H E.
  assert (Hap : forall i, u64_invocation i -> run_prog (exit_of (r_apply gr chunks (invocation_commands i))) s = (s', r) ->
    holds nd s' (a_invoke a i) \/ (r = Failure /\ holds nd s' a)).
  { intros j Uj Hr. unfold exit_of in Hr. rewrite run_bind in Hr.
    destruct (run_r_apply gr chunks (invocation_commands j) s B) as (t & u & Ht & Hg & _ & _ & Ho & _).
    rewrite Ht in Hr. cbn [fst snd run_prog] in Hr. injection Hr as <- <-.
    pose proof H as (Hl & c & cs & Ec & _).
    assert (Hc : commands_entry s = File c) by (unfold commands_entry; now rewrite Ec). rewrite Hc in Hg.
    destruct (stored_now gr s).
    - left. destruct (holds_apply nd chunks (invocation_commands j) s a T B (invocation_commands_u64 j Uj) H) as [_ H2].
      rewrite <- invocation_commands_spec. apply (holds_graph nd (fst (run_prog (apply_graph_commands chunks (invocation_commands j)) s)));
        [|now apply Ho|exact H2].
      rewrite run_apply by assumption. rewrite Hl, Hc. cbn [fst set_commands set_graph fs_graph]. exact Hg.
    - right. destruct Hg as [Hg ->]. split; [reflexivity|]. now apply (holds_graph nd s); [|apply Ho|]. }
  destruct i as [|vids|es|vids|es|]; cbn [r_invoke] in E.
  - left. cbn [a_invoke]. destruct (C173_init gr s s' r E) as (_ & _ & H3 & H4).
    pose proof H as (Hl & c & cs & Ec & Hrest). split; [now rewrite H4|]. exists c, cs. split; [|exact Hrest].
    assert (Hc : commands_entry s = File c) by (unfold commands_entry; now rewrite Ec). rewrite Hc in H3.
    destruct H3 as [H3|[H3 _]]; [|discriminate]. now apply commands_entry_dir.
  - apply (Hap (AddVertices vids) U E).
  - apply (Hap (AddEdges es) U E).
  - apply (Hap (RemoveVertices vids) U E).
  - apply (Hap (RemoveEdges es) U E).
  - left. destruct (C173_build gr nd chunks order s s' r B E) as (H1 & H2 & _). destruct r.
    + destruct (holds_build nd chunks order s a T B O H) as [_ Hb]. now rewrite (H2 eq_refl) in Hb.
    + now rewrite (H1 eq_refl).
Qed.

(** Whatever is refused, and when, the stored graph is that of the requests that were answered with success, with some
    of the others perhaps. *)
Theorem C173_histories : forall nd s0 is s l s', digit_table nd ->
  openable (fs_lock s0) = true -> (fs_graph s0 = NoGraph \/ fs_graph s0 = GraphDir Absent) ->
  Forall u64_invocation is -> history nd s0 (Init :: is) s ->
  Forall (fun x => u64_invocation (fst x)) l -> refused_history nd s l s' ->
  exists k g, counted l k /\ loads nd s' g /\ built g /\
    a_same (shown g) (fold_left a_invoke k (fold_left a_invoke is a_empty)).
Proof.
  intros nd s0 is s l s' T Hl0 Hg0 U0 H0 U H.
  assert (Ha : holds nd s (fold_left a_invoke is a_empty)).
  { inversion H0 as [|? ? ? s1 ? chunks order B O E H']; subst.
    assert (H1 : holds nd s1 a_empty).
    { cbn [invoke] in E. unfold gc_init in E. rewrite run_bind, run_init in E.
      destruct Hg0 as [Hg|Hg]; rewrite Hg in E; cbn in E; injection E as <-;
        (split; [exact Hl0|]); exists [], []; (split; [reflexivity|]); (split; [now left|]); (split; [reflexivity|]); apply a_same_refl. }
    exact (holds_history nd s1 is s T H' a_empty U0 H1). }
  clear H0 U0. revert U Ha. generalize (fold_left a_invoke is a_empty). clear is.
  assert (HX : forall a, holds nd s a -> Forall (fun x => u64_invocation (fst x)) l ->
    exists k, counted l k /\ holds nd s' (fold_left a_invoke k a)).
  { induction H as [s|s i r is s1 s2 gr chunks order B O E H IH]; intros a Ha U.
    - exists []. split; [constructor|exact Ha].
    - inversion U as [|? ? U1 U2]; subst. destruct (holds_refused nd gr chunks order i s a s1 r T B O U1 Ha E) as [Hh|[-> Hh]].
      + destruct (IH _ Hh U2) as (k & H1 & H2). exists (i :: k). split; [now constructor|exact H2].
      + destruct (IH _ Hh U2) as (k & H1 & H2). exists k. split; [now constructor|exact H2]. }
  intros a U Ha. destruct (HX a Ha U) as (k & H1 & H2). destruct (holds_load nd s' _ T H2) as (g & Hg & Hb & Hs).
  exists k, g. split; [exact H1|]. split; [|now split]. unfold loads. rewrite run_load in *. cbn [snd] in Hg. now rewrite Hg.
Qed.
Print Assumptions C173_histories.

(** ** gc-clean *)
(** Success means that the graph and the lock are gone; after a failure the graph is there as before, or without its
    commands file if only that could be removed, or gone if only the lock could not be removed. *)
Theorem C173_clean : forall gr answer s s' r, run_prog (r_gc_clean gr true answer) s = (s', r) ->
  (r = Success -> fs_graph s' = NoGraph /\ fs_lock s' = Absent) /\
  (r = Failure -> fs_graph s' = fs_graph s \/
     may_remove gr = OnlyTheFile /\ fs_graph s' = GraphDir Absent \/
     may_unlock gr = false /\ fs_graph s' = NoGraph) /\
  (fs_lock s' = Absent \/ fs_lock s' = fs_lock s \/ may_unlock gr = false).
Proof.
  intros gr answer s s' r H. unfold r_gc_clean in H. cbn [negb andb] in H. unfold r_clean in H.
  rewrite run_bind, run_r_with_lock in H. cbv zeta in H. cbn [run_prog fst snd] in H.
  destruct (may_lock gr && fs_root (rooted gr s) && openable (fs_lock s)) eqn:El.
  2:{ injection H as <- <-. rewrite rooted_graph, rooted_lock. split; [discriminate|]. split; auto. }
  apply andb_true_iff in El. destruct El as [_ Eo].
  assert (Hl : exists c, created (fs_lock s) = File c) by (destruct (fs_lock s); try discriminate; cbn; eauto).
  destruct Hl as [lc Hl]. set (s1 := set_lock (created (fs_lock s)) (rooted gr s)) in *.
  assert (Hg : fs_graph s1 = fs_graph s) by (unfold s1; cbn [set_lock fs_graph]; apply rooted_graph).
  assert (Hs : fs_lock s1 = File lc) by exact Hl.
  rewrite Hg in H. destruct (fs_graph s) as [| |e] eqn:Eg; destruct (may_remove gr) eqn:Er; destruct (may_unlock gr) eqn:Eu;
    cbn [set_graph set_commands fs_lock fst snd] in H; rewrite ?Hs in H; cbn [fst snd] in H; injection H as <- <-;
    cbn [set_lock set_graph set_commands fs_graph fs_lock commands_entry]; rewrite ?Hg;
    (split; [first [discriminate | intros _; split; reflexivity]|]);
    (split; [first [discriminate | intros _; auto 6]|auto 6]).
Qed.
Print Assumptions C173_clean.

(** ** A directory that can only be read *)
Lemma read_only_lock A gr (block : prog (io A)) s : read_only gr -> run_prog (r_with_lock gr block) s = (s, IoErr).
Proof.
  intros (H1 & H2 & _). rewrite run_r_with_lock. cbv zeta. unfold rooted. now rewrite H1, H2.
Qed.
Lemma option_call_silent A values f (call : A -> prog (io unit)) next (S0 : fs -> Prop) :
  (forall a s, S0 s -> S0 (fst (run_prog (call a) s))) -> (forall s, S0 s -> S0 (fst (run_prog next s))) ->
  forall s, S0 s -> S0 (fst (run_prog (option_call values f call next) s)).
Proof.
  intros Hc Hn s Hs. unfold option_call. destruct values as [vs|]; [|now apply Hn].
  destruct (f vs) as [a| |]; [|exact Hs|exact Hs]. rewrite run_bind. now apply Hn, Hc.
Qed.
(** No tool changes anything there. *)
Theorem C173_read_only : forall gr grs nd chunks order s g force answer a vertex edge i, read_only gr -> (forall k, read_only (grs k)) ->
  fst (run_prog (r_invoke gr nd chunks order i) s) = s /\
  fst (run_prog (r_gc_clean gr force answer) s) = s /\
  fst (run_prog (r_gc_random gr chunks g force answer) s) = s /\
  fst (run_prog (r_gc_add grs chunks a) s) = s /\
  fst (run_prog (r_gc_delete grs chunks vertex edge) s) = s.
Proof.
  intros gr grs nd chunks order s g force answer a vertex edge i R Rs.
  assert (Hap : forall gr cs s, read_only gr -> run_prog (r_apply gr chunks cs) s = (s, IoErr)) by (intros; now apply read_only_lock).
  assert (Hcl : run_prog (r_clean gr) s = (s, IoErr)) by now apply read_only_lock.
  pose proof R as (R1 & R2 & R3 & R4 & R5 & R6 & R7).
  split; [|split; [|split; [|split]]].
  - destruct i; cbn [r_invoke]; unfold exit_of; rewrite ?run_bind; try (now rewrite Hap by assumption).
    + unfold r_gc_init, r_init. rewrite R1, R4. reflexivity.
    + unfold r_gc_build, r_load, r_save. rewrite R6. cbn [bind run_prog].
      destruct (if negb (may_open gr) then _ else _) as [[h|]| |]; reflexivity.
  - unfold r_gc_clean. destruct (negb force && negb (confirmed answer)); [reflexivity|]. rewrite run_bind, Hcl. reflexivity.
  - unfold r_gc_random. destruct (negb force && negb (confirmed answer)); [reflexivity|]. rewrite run_bind, Hcl. reflexivity.
  - unfold r_gc_add, add_with. cbv zeta.
    apply (fun c n => option_call_silent _ _ _ _ _ (fun t => t = s) c n s eq_refl); [intros ? ? ->; now rewrite Hap|].
    do 5 (intros t0 Ht0; apply (fun c n => option_call_silent _ _ _ _ _ (fun t => t = s) c n t0 Ht0); [intros ? ? ->; now rewrite Hap|]; clear t0 Ht0).
    intros t ->. reflexivity.
  - unfold r_gc_delete.
    apply (fun c n => option_call_silent _ _ _ _ _ (fun t => t = s) c n s eq_refl); [intros ? ? ->; now rewrite Hap|].
    intros t0 Ht0. apply (fun c n => option_call_silent _ _ _ _ _ (fun t => t = s) c n t0 Ht0); [intros ? ? ->; now rewrite Hap|].
    intros t ->. reflexivity.
Qed.
Print Assumptions C173_read_only.

(** Queries need only the permission to read. *)
Theorem C173_queries : forall gr nd order (f : graph -> outcome (list text)) s,
  run_prog (r_query gr nd (fun g => f (order g)) Panic) s =
    if may_open gr && may_read gr then run_prog (with_graph nd order f) s else (s, Panic).
Proof.
  intros gr nd order f s. unfold r_query, r_load, with_graph. rewrite !run_bind, run_load. cbn [run_prog fst snd].
  destruct (may_open gr), (may_read gr); cbn [andb negb]; try reflexivity. destruct (commands_entry s); reflexivity.
Qed.
Print Assumptions C173_queries.

(** gc-delete goes on after a refused request: each of its two options is stored or not, as its own calls are granted. *)
Definition may_store (gr : grants) : Prop := may_mkdir gr = true /\ may_lock gr = true /\ may_append gr = true.
Definition may_not_store (gr : grants) : Prop := may_lock gr = false \/ may_append gr = false.
Lemma apply_parts gr chunks cs s c : buffering chunks -> commands_entry s = File c -> exists t,
  commands_entry (fst (run_prog (r_apply gr chunks cs) s)) = File (c ++ t) /\ (t = [] \/ t = commands_text cs) /\
  (openable (fs_lock s) = true -> openable (fs_lock (fst (run_prog (r_apply gr chunks cs) s))) = true) /\
  (may_store gr -> openable (fs_lock s) = true -> t = commands_text cs) /\ (may_not_store gr -> t = []).
Proof.
  intros B Ec. destruct (run_r_apply gr chunks cs s B) as (s' & r & E & Hg & _ & _ & Ho & _). rewrite E. cbn [fst].
  rewrite Ec in Hg. destruct (stored_now gr s) eqn:En.
  - exists (commands_text cs). unfold commands_entry at 1. rewrite Hg. split; [reflexivity|]. split; [auto|]. split; [exact Ho|].
    split; [auto|]. unfold stored_now in En. intros [H|H]; rewrite H in En; cbn [andb] in En;
      rewrite ?andb_false_r in En; discriminate.
  - destruct Hg as [Hg _]. exists []. rewrite app_nil_r. unfold commands_entry in *. rewrite Hg. split; [exact Ec|]. split; [auto|].
    split; [exact Ho|]. split; [|auto]. intros (H1 & H2 & H3) H4. unfold stored_now, rooted in En.
    rewrite H1, H2, H3, H4 in En. discriminate.
Qed.
Theorem C173_delete : forall grs chunks vs es vwords ewords s c s' r, buffering chunks -> commands_entry s = File c ->
  parse_all vwords = Done vs -> obind (parse_all ewords) (fun l => obind (as_vertex_tuple l) expect) = Done es ->
  run_prog (r_gc_delete grs chunks (Some vwords) (Some ewords)) s = (s', r) ->
  r = Success /\ exists t u, commands_entry s' = File (c ++ t ++ u) /\
    (t = [] \/ t = commands_text (map RemoveVertex vs)) /\
    (u = [] \/ u = commands_text (map (fun e => RemoveEdge (fst e) (snd e)) es)) /\
    (openable (fs_lock s) = true ->
       (may_store (grs 0%nat) -> t = commands_text (map RemoveVertex vs)) /\
       (may_store (grs 1%nat) -> u = commands_text (map (fun e => RemoveEdge (fst e) (snd e)) es))) /\
    (may_not_store (grs 0%nat) -> t = []) /\ (may_not_store (grs 1%nat) -> u = []).
Proof.
  intros grs chunks vs es vwords ewords s c s' r B Ec Ev Ee H. unfold r_gc_delete, option_call in H. rewrite Ev in H.
  rewrite Ee in H. rewrite !run_bind in H. cbn [run_prog] in H. injection H as <- <-. split; [reflexivity|].
  destruct (apply_parts (grs 0%nat) chunks (map RemoveVertex vs) s c B Ec) as (t & E1 & T1 & O1 & Y1 & N1).
  set (s1 := fst (run_prog (r_apply (grs 0%nat) chunks (map RemoveVertex vs)) s)) in *.
  destruct (apply_parts (grs 1%nat) chunks (map (fun e => RemoveEdge (fst e) (snd e)) es) s1 (c ++ t) B E1) as (u & E2 & T2 & O2 & Y2 & N2).
  exists t, u. rewrite app_assoc. split; [exact E2|]. split; [exact T1|]. split; [exact T2|]. split; [|now split].
  intro Hl. split; intro Hs; [now apply Y1|]. apply Y2; [exact Hs|]. now apply O1.
Qed.
Print Assumptions C173_delete.

(** gc-init whose [create_dir_all] is refused half-way: reported, nothing but the empty root directory is left, and whatever
    is run next sees no graph; the next gc-init does what it would have done at first. *)
Theorem C173_init_half : forall gr nd s s' r, fs_graph s = NoGraph -> run_prog (r_init_half gr) s = (s', r) ->
  r = IoErr /\ fs_root s' = true /\ fs_lock s' = fs_lock s /\ fs_graph s' = NoGraph /\
  (forall g, ~ loads nd s' g) /\
  run_prog gc_init s' = run_prog gc_init s /\ snd (run_prog gc_init s') = Success.
Proof.
  intros gr nd s s' r Hg H. unfold r_init_half in H. cbn [run_prog] in H. cbn [set_root fs_graph] in H. rewrite Hg in H.
  assert (Hs : s' = set_root true s /\ r = IoErr) by (destruct (may_touch gr); injection H as <- <-; now split). destruct Hs as [-> ->].
  split; [reflexivity|]. split; [reflexivity|]. split; [reflexivity|]. split; [exact Hg|]. split; [|split].
  - intros g L. unfold loads in L. rewrite run_load in L. unfold commands_entry in L. cbn [set_root fs_graph] in L. rewrite Hg in L. discriminate.
  - unfold gc_init, init. cbn [bind run_prog set_root fs_graph]. rewrite Hg. reflexivity.
  - unfold gc_init, init. cbn [bind run_prog set_root fs_graph]. rewrite Hg. reflexivity.
Qed.
Print Assumptions C173_init_half.
Example C173_init_half_case :
  run_prog (r_init_half all_granted) {| fs_root := false; fs_lock := Absent; fs_graph := NoGraph |} =
    ({| fs_root := true; fs_lock := Absent; fs_graph := NoGraph |}, IoErr).
Proof. reflexivity. Qed.

(** The same for gc-add. Its words determine a list of requests, numbered, none twice: *)
Definition all_run (call : nat -> list graph_command -> prog (io unit)) (L : list (nat * list graph_command)) (s : fs) : fs :=
  fold_left (fun s x => fst (run_prog (call (fst x) (snd x)) s)) L s.
Definition shape (k : nat) (q : (nat -> list graph_command -> prog (io unit)) -> prog exit) : Prop :=
  (exists L, NoDup (map fst L) /\ Forall (fun y => k <= fst y)%nat L /\ forall call s, run_prog (q call) s = (all_run call L s, Success)) \/
  (forall call s, snd (run_prog (q call) s) <> Success).
Lemma shape_option A k (values : option (list text)) (f : list text -> outcome A) (mk : A -> list graph_command) q : shape (S k) q ->
  shape k (fun call => option_call values f (fun x => call k (mk x)) (q call)).
Proof.
  intro H. destruct values as [vs|].
  2:{ destruct H as [(L & H1 & H2 & H3)|H]; [left; exists L|right; exact H]. split; [exact H1|]. split; [|exact H3].
      eapply Forall_impl; [|exact H2]. cbn. intros; lia. }
  unfold option_call. destruct (f vs) as [x| |]; [|right; intros; cbn; discriminate..].
  destruct H as [(L & H1 & H2 & H3)|H].
  - left. exists ((k, mk x) :: L). cbn [map fst]. split; [constructor; [|exact H1]|split].
    + intro Hi. apply in_map_iff in Hi. destruct Hi as (y & E & Hy). rewrite Forall_forall in H2. apply H2 in Hy. lia.
    + constructor; [cbn; lia|]. eapply Forall_impl; [|exact H2]. cbn. intros; lia.
    + intros call s. rewrite run_bind, H3. reflexivity.
  - right. intros call s. rewrite run_bind. apply H.
Qed.
Lemma shape_add a : shape 0 (fun call => add_with call a).
Proof.
  unfold add_with. cbv zeta. repeat (apply shape_option; cbv beta). left. exists []. repeat split; constructor.
Qed.
(** Each request adds a text of its own. *)
Lemma all_parts call (P : nat -> bool -> list graph_command -> text -> Prop) :
  (forall k cs t, P k true cs t -> P k false cs t) ->
  (forall k cs s c, commands_entry s = File c -> exists t, commands_entry (fst (run_prog (call k cs) s)) = File (c ++ t) /\
     (openable (fs_lock s) = true -> openable (fs_lock (fst (run_prog (call k cs) s))) = true) /\ P k (openable (fs_lock s)) cs t) ->
  forall L s c, commands_entry s = File c ->
  exists ts, commands_entry (all_run call L s) = File (c ++ concat ts) /\
    Forall2 (fun x t => P (fst x) (openable (fs_lock s)) (snd x) t) L ts.
Proof.
  intros HP HC. induction L as [|[k cs] L IH]; intros s c Ec.
  - exists []. cbn [all_run fold_left concat]. rewrite app_nil_r. split; [exact Ec|constructor].
  - destruct (HC k cs s c Ec) as (t & E1 & O1 & P1). destruct (IH _ _ E1) as (ts & E2 & F). exists (t :: ts).
    cbn [concat]. rewrite app_assoc. split; [exact E2|]. constructor; [exact P1|].
    clear -F O1 HP. induction F as [|x u L us Hx F IH]; constructor; [|exact IH]. clear IH F.
    destruct (openable (fs_lock s)); [now rewrite (O1 eq_refl) in Hx|].
    destruct (openable (fs_lock (fst (run_prog (call k cs) s)))); [now apply HP|exact Hx].
Qed.
(** Each of them is stored or not, as its own calls are granted; gc-add without refusals stores all of them. *)
Theorem C173_add : forall chunks a s0 s1, buffering chunks -> run_prog (gc_add chunks a) s0 = (s1, Success) ->
  exists L : list (nat * list graph_command), NoDup (map fst L) /\
    (forall c, commands_entry s0 = File c -> openable (fs_lock s0) = true ->
       commands_entry s1 = File (c ++ concat (map (fun x => commands_text (snd x)) L))) /\
    forall grs s c, commands_entry s = File c ->
      exists ts s', run_prog (r_gc_add grs chunks a) s = (s', Success) /\ commands_entry s' = File (c ++ concat ts) /\
        Forall2 (fun x t => (t = [] \/ t = commands_text (snd x)) /\ (may_not_store (grs (fst x)) -> t = []) /\
          (openable (fs_lock s) = true -> may_store (grs (fst x)) -> t = commands_text (snd x))) L ts.
Proof.
  intros chunks a s0 s1 B H. destruct (shape_add a) as [(L & ND & _ & HL)|N].
  2:{ exfalso. apply (N (fun _ => apply_graph_commands chunks) s0). change (snd (run_prog (gc_add chunks a) s0) = Success). now rewrite H. }
  assert (K : forall grs s c, commands_entry s = File c ->
      exists ts s', run_prog (r_gc_add grs chunks a) s = (s', Success) /\ commands_entry s' = File (c ++ concat ts) /\
        Forall2 (fun x t => (t = [] \/ t = commands_text (snd x)) /\ (may_not_store (grs (fst x)) -> t = []) /\
          (openable (fs_lock s) = true -> may_store (grs (fst x)) -> t = commands_text (snd x))) L ts).
  { intros grs s c Ec. unfold r_gc_add. rewrite HL.
    destruct (all_parts (fun k => r_apply (grs k) chunks) (fun k b cs t => (t = [] \/ t = commands_text cs) /\
      (may_not_store (grs k) -> t = []) /\ (b = true -> may_store (grs k) -> t = commands_text cs))) with (L := L) (s := s) (c := c)
      as (ts & E & F).
    - intros k cs t (H1 & H2 & H3). split; [exact H1|]. split; [exact H2|discriminate].
    - intros k cs s' c' E'. destruct (apply_parts (grs k) chunks cs s' c' B E') as (t & E1 & T1 & O1 & Y1 & N1).
      exists t. split; [exact E1|]. split; [exact O1|]. split; [exact T1|]. split; [exact N1|]. intros H1 H2. now apply Y1.
    - exact Ec.
    - exists ts, (all_run (fun k => r_apply (grs k) chunks) L s). split; [reflexivity|]. split; [exact E|exact F]. }
  exists L. split; [exact ND|]. split; [|exact K].
  intros c Ec Ho. destruct (K (fun _ => all_granted) s0 c Ec) as (ts & s' & E1 & E2 & F).
  change (r_gc_add (fun _ => all_granted) chunks a) with (gc_add chunks a) in E1. rewrite H in E1. injection E1 as <-. rewrite E2.
  do 3 f_equal. clear -F Ho. induction F as [|x t L ts (_ & _ & H) F IH]; [reflexivity|]. cbn [map]. rewrite IH.
  f_equal. apply H; [exact Ho|]. repeat split.
Qed.
Print Assumptions C173_add.

(** ** What is not so *)
(** gc-add reports the same whatever is refused ... *)
Lemma option_call_status A (values : option (list text)) f (c1 c2 : A -> prog (io unit)) (n1 n2 : prog exit) :
  (forall s t, snd (run_prog n1 s) = snd (run_prog n2 t)) ->
  forall s t, snd (run_prog (option_call values f c1 n1) s) = snd (run_prog (option_call values f c2 n2) t).
Proof.
  intros H s t. unfold option_call. destruct values as [vs|]; [|apply H]. destruct (f vs); [|reflexivity|reflexivity].
  rewrite !run_bind. apply H.
Qed.
Theorem C173_add_silent : forall grs grs' chunks a s t,
  snd (run_prog (r_gc_add grs chunks a) s) = snd (run_prog (r_gc_add grs' chunks a) t).
Proof.
  intros grs grs' chunks a. unfold r_gc_add, add_with. cbv zeta. do 6 apply option_call_status. reflexivity.
Qed.
Print Assumptions C173_add_silent.
(** ... so that success does not mean that anything is stored. *)
Definition nothing_granted : grants :=
  {| may_mkdir := false; may_lock := false; may_unlock := false; may_touch := false; may_open := true; may_read := true;
     may_append := false; may_create := false; may_remove := NotAtAll |}.
Definition add_one : add_args := {| a_vertex := Some [txt "1"]; a_reverse := false; a_edge := None; a_chain := None;
  a_cycle := None; a_star := None; a_clique := None |}.
Theorem C173_add_refuted : exists grs chunks a, buffering chunks /\ forall s,
  run_prog (r_gc_add grs chunks a) s = (s, Success) /\
  forall c, s = with_file c -> run_prog (r_gc_add (fun _ => all_granted) chunks a) s = (with_file (c ++ txt "AddVertex 1" ++ [10%N]), Success).
Proof.
  exists (fun _ => nothing_granted), (fun l => l), add_one. split; [intro; reflexivity|]. intro s. split.
  - rewrite (surjective_pairing (run_prog _ _)). apply f_equal2.
    + apply (C173_read_only nothing_granted (fun _ => nothing_granted) (fun _ => true) (fun l => l) id_order s g_new true [] add_one None None Init);
        [|intros _]; unfold read_only; auto 10.
    + reflexivity.
  - intros c ->. rewrite (surjective_pairing (run_prog _ _)). apply f_equal2; [|reflexivity].
    unfold r_gc_add, add_with, add_one, option_call. cbn [a_vertex a_edge a_chain a_cycle a_star a_clique].
    change (parse_all [txt "1"]) with (Done [1%N]). cbv iota. rewrite run_bind. cbn [run_prog fst].
    unfold r_apply. rewrite run_r_with_lock. cbv zeta. cbn [all_granted may_mkdir may_lock may_unlock may_append rooted set_root fs_root andb fs_lock with_file openable created r_add_commands].
    unfold rooted. cbn [all_granted may_mkdir set_root fs_root andb with_file].
    rewrite run_add_commands by (intro; reflexivity). reflexivity.
Qed.
Print Assumptions C173_add_refuted.
(** A gc-random that reports success has done all it should: none of its calls was refused in vain. *)
Lemma granted_clean gr s : snd (run_prog (r_clean gr) s) = IoOk tt ->
  run_prog (r_clean gr) s = run_prog clean s /\ fs_root (fst (run_prog (r_clean gr) s)) = true.
Proof.
  destruct gr as [m lk ul tc op rd ap cr rm], s as [[|] [|x|] [| |e]], m, lk, ul, rm; cbn; intro H; first [discriminate H|now split].
Qed.
Lemma granted_init gr s : fs_root s = true -> snd (run_prog (r_init gr) s) = IoOk tt -> run_prog (r_init gr) s = run_prog init s.
Proof.
  destruct gr as [m lk ul tc op rd ap cr rm], s as [[|] l [| |[|x|]]], m, tc; cbn; intros R H; first [discriminate R|discriminate H|reflexivity].
Qed.
Theorem C173_random : forall gr chunks g force answer s s', run_prog (r_gc_random gr chunks g force answer) s = (s', Success) ->
  run_prog (gc_random chunks g force answer) s = (s', Success).
Proof.
  intros gr chunks g force answer s s' H. unfold r_gc_random in H. unfold gc_random.
  destruct (negb force && negb (confirmed answer)); [exact H|]. rewrite run_bind in *.
  pose proof (granted_clean gr s) as Kc. destruct (run_prog (r_clean gr) s) as [s1 [[]|]]; cbn [fst snd] in *; [|discriminate H].
  destruct (Kc eq_refl) as [Ec Er]. rewrite <- Ec. cbn [fst snd]. rewrite run_bind in *.
  pose proof (granted_init gr s1) as Ki. destruct (run_prog (r_init gr) s1) as [s2 [[]|]]; cbn [fst snd] in *; [|discriminate H].
  rewrite <- (Ki Er eq_refl). cbn [fst snd]. unfold r_save in H. destruct (may_create gr); [exact H|discriminate H].
Qed.
Print Assumptions C173_random.
(** A gc-random that fails may have lost the graph. *)
Definition no_create : grants :=
  {| may_mkdir := true; may_lock := true; may_unlock := true; may_touch := true; may_open := true; may_read := true;
     may_append := true; may_create := false; may_remove := Everything |}.
Theorem C173_random_refuted : exists gr chunks, buffering chunks /\ forall g c answer,
  run_prog (r_gc_random gr chunks g true answer) (with_file c) = (with_file [], Failure).
Proof. exists no_create, (fun l => l). split; [intro; reflexivity|]. intros g c answer. reflexivity. Qed.
Print Assumptions C173_random_refuted.
(** A request that reports an error may be stored. *)
Definition no_unlock : grants :=
  {| may_mkdir := true; may_lock := true; may_unlock := false; may_touch := true; may_open := true; may_read := true;
     may_append := true; may_create := true; may_remove := Everything |}.
Theorem C173_error_refuted : exists gr chunks, buffering chunks /\ forall cs c, exists s',
  run_prog (r_apply gr chunks cs) (with_file c) = (s', IoErr) /\ commands_entry s' = File (c ++ commands_text cs) /\
  fs_lock s' = File [].
Proof.
  exists no_unlock, (fun l => l). split; [intro; reflexivity|]. intros cs c. eexists.
  split; [|split]; [unfold r_apply; rewrite run_r_with_lock; cbv zeta;
    cbn [no_unlock may_mkdir may_lock may_unlock may_append rooted set_root fs_root andb fs_lock with_file openable created r_add_commands];
    unfold rooted; cbn [no_unlock may_mkdir set_root fs_root andb with_file];
    rewrite run_add_commands by (intro; reflexivity); cbn [commands_entry set_lock fs_graph fst]; reflexivity| |]; reflexivity.
Qed.
Print Assumptions C173_error_refuted.

(** With everything granted these are the programs of Store.v; and a history with a refused removal of the lock, a refused
    append and a refused gc-build. *)
Example C173_case : forall nd chunks order cs g force answer,
  r_apply all_granted chunks cs = apply_graph_commands chunks cs /\
  (forall s, run_prog (r_gc_init all_granted) s = run_prog gc_init s) /\
  (forall s, run_prog (r_gc_build all_granted nd chunks order) s = run_prog (gc_build nd chunks order) s) /\
  (forall s, run_prog (r_gc_clean all_granted force answer) s = run_prog (gc_clean force answer) s) /\
  (forall s, run_prog (r_gc_random all_granted chunks g force answer) s = run_prog (gc_random chunks g force answer) s).
Proof.
  intros nd chunks order cs g force answer. split; [reflexivity|]. split; [reflexivity|]. split.
  - intro s. unfold r_gc_build, gc_build. rewrite !run_bind.
    assert (E : run_prog (r_load all_granted nd) s = run_prog (load_graph nd) s).
    { unfold r_load, load_graph. cbn [run_prog all_granted may_open may_read negb]. destruct (commands_entry s); reflexivity. }
    rewrite E. reflexivity.
  - assert (Hc : forall s, run_prog (r_clean all_granted) s = run_prog clean s).
    { intros [rt [|l|] [| |e]]; reflexivity. }
    split; intro s.
    + unfold r_gc_clean, gc_clean. destruct (negb force && negb (confirmed answer)); [reflexivity|].
      now rewrite !run_bind, Hc.
    + unfold r_gc_random, gc_random. destruct (negb force && negb (confirmed answer)); [reflexivity|].
      rewrite !run_bind, Hc. destruct (snd (run_prog clean s)); reflexivity.
Qed.
Example C173_case_history :
  history table empty_dir [Init; AddEdges [(1, 2)]]%N (with_file (txt "AddEdge 1 2" ++ [10%N])) /\
  refused_history table (with_file (txt "AddEdge 1 2" ++ [10%N]))
    [(AddVertices [3%N], Failure); (AddVertices [4%N], Failure); (Build, Failure); (AddVertices [5%N], Success)]
    (with_file (txt "AddEdge 1 2" ++ [10%N] ++ txt "AddVertex 3" ++ [10%N] ++ txt "AddVertex 5" ++ [10%N])).
Proof.
  assert (B : buffering (fun l => l)) by (intro; reflexivity).
  split.
  - eapply (h_cons _ _ _ _ _ _ (fun l => l) id_order B id_order_ok); [reflexivity|].
    eapply (h_cons _ _ _ _ _ _ (fun l => l) id_order B id_order_ok); [vm_compute; reflexivity|]. constructor.
  - eapply (rh_cons _ _ _ _ _ _ _ no_unlock (fun l => l) id_order B id_order_ok); [vm_compute; reflexivity|].
    eapply (rh_cons _ _ _ _ _ _ _ nothing_granted (fun l => l) id_order B id_order_ok); [vm_compute; reflexivity|].
    eapply (rh_cons _ _ _ _ _ _ _ no_create (fun l => l) id_order B id_order_ok); [vm_compute; reflexivity|].
    eapply (rh_cons _ _ _ _ _ _ _ all_granted (fun l => l) id_order B id_order_ok); [vm_compute; reflexivity|].
    exact (rh_nil _ _).
Qed.
