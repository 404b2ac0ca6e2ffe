(** * Property C176: whatever is refused, cut short, interleaved or stopped *)
From Coq Require Import String.
From Coq Require Import List NArith ZArith Bool Arith Lia.
From Verif Require Import Spec Base Graph GraphSpec GraphFacts Text Format FormatSpec TextFacts FormatFacts
  Store StoreSpec StoreFacts CrashFacts PropFormat PropStore Cli CliSpec CliFacts Disk DiskFacts Utf8 Utf8Spec PropUtf8 PropKill
  PropOnlyGrows PropDisk PropDiskMore Refuse Hostile PropRefuse.
Import ListNotations.
Open Scope N_scope.

(** ** What it means *)
(** A tool during which any call may be refused and any write cut short. *)
Inductive h_tool (nd : N -> bool) : prog exit -> Prop :=
| h_init gr : h_tool nd (r_gc_init gr)
| h_add gr cap d args : h_tool nd (h_gc_add gr cap d args)
| h_delete gr cap d vertex edge : h_tool nd (h_gc_delete gr cap d vertex edge)
| h_build gr cap d order : h_tool nd (h_gc_build gr nd cap d order)
| h_clean gr force answer : h_tool nd (r_gc_clean gr force answer)
| h_random gr cap d g force answer : h_tool nd (h_gc_random gr cap d g force answer).
(** Those that never replace the commands file. *)
Inductive h_grower (nd : N -> bool) : prog exit -> Prop :=
| hg_init gr : h_grower nd (r_gc_init gr)
| hg_add gr cap d args : h_grower nd (h_gc_add gr cap d args)
| hg_delete gr cap d vertex edge : h_grower nd (h_gc_delete gr cap d vertex edge)
| hg_query gr (f : graph -> exit) failed : h_grower nd (r_query gr nd f failed).
(** A history of requests, each of them complete or killed, with any refusals; the texts that the file grew by. *)
Inductive rough : fs -> list (list graph_command) -> fs -> Prop :=
| rough_nil s : rough s [] s
| rough_run s cs css gr cap d s1 s2 r : run_prog (h_apply gr cap d cs) s = (s1, r) -> rough s1 css s2 -> rough s (cs :: css) s2
| rough_kill s cs css gr cap d s1 s2 : crash (h_apply gr cap d cs) s s1 -> rough s1 css s2 -> rough s (cs :: css) s2.

(** ** Invariants of single steps *)
Section Keep.
  Variable I : fs -> Prop.
  Hypothesis I_root : forall s, I s -> I (set_root true s).
  Hypothesis I_lock : forall s, I s -> I (set_lock (created (fs_lock s)) s).
  Hypothesis I_free : forall s, I s -> I (set_lock Absent s).
  Hypothesis I_append : forall s c, I s -> I (append_chunk c s).

  Lemma keep_r_lock gr : keeps I (r_lock gr).
  Proof.
    constructor; [intros s H; destruct (may_mkdir gr); [now apply I_root|assumption]|]. intro s0. constructor; [|constructor].
    intros s H. destruct (_ && _); [now apply I_lock|assumption].
  Qed.
  Lemma keep_r_unlock gr : keeps I (r_unlock gr).
  Proof.
    constructor; [|constructor]. intros s H. destruct (may_unlock gr); [|assumption].
    destruct (fs_lock s); [assumption|now apply I_free|assumption].
  Qed.
  Lemma keep_r_with_lock A gr (block : prog (io A)) : keeps I block -> keeps I (r_with_lock gr block).
  Proof.
    intro H. apply keeps_bind; [apply keep_r_lock|]. intros [u|]; [|constructor]. apply keeps_bind; [assumption|].
    intro r. apply keeps_bind; [apply keep_r_unlock|]. intros [v|]; constructor.
  Qed.
  Lemma keep_appends cs : keeps I (append_chunks cs).
  Proof. induction cs as [|c cs IH]; cbn [append_chunks]; constructor; [intro s; apply I_append|]. intros _. assumption. Qed.
  Lemma keep_h_apply gr cap d cs : keeps I (h_apply gr cap d cs).
  Proof.
    apply keep_r_with_lock. unfold h_add_commands. destruct (may_append gr); [|constructor].
    constructor; [auto|]. intro s. destruct (commands_entry s); [constructor| |constructor].
    apply keeps_bind; [apply keep_appends|]. intro; constructor.
  Qed.
  Lemma keep_option A values (f : list text -> outcome A) call next : (forall a, keeps I (call a)) ->
    keeps I next -> keeps I (option_call values f call next).
  Proof.
    intros Hc Hn. unfold option_call. destruct values as [vs|]; [|assumption].
    destruct (f vs) as [a| |]; try constructor. apply keeps_bind; [apply Hc|]. intros _. assumption.
  Qed.
  Lemma keep_h_add gr cap d args : keeps I (h_gc_add gr cap d args).
  Proof. unfold h_gc_add, add_with. cbv zeta. repeat (apply keep_option; [intro; apply keep_h_apply|]). constructor. Qed.
  Lemma keep_h_delete gr cap d vertex edge : keeps I (h_gc_delete gr cap d vertex edge).
  Proof. unfold h_gc_delete. repeat (apply keep_option; [intro; apply keep_h_apply|]). constructor. Qed.
End Keep.

(** ** C176 *)
Lemma regular_root s : regular s -> regular (set_root true s). Proof. exact (fun H => H). Qed.
Lemma regular_lock s : regular s -> regular (set_lock (created (fs_lock s)) s).
Proof. destruct s as [r [|c|] g]; unfold regular; cbn; intuition discriminate. Qed.
Lemma regular_free s : regular s -> regular (set_lock Absent s).
Proof. destruct s as [r l g]; unfold regular; cbn; intuition discriminate. Qed.
Lemma regular_append s c : regular s -> regular (append_chunk c s).
Proof. destruct s as [r l [| |[|o|]]]; unfold regular, append_chunk; cbn; intuition discriminate. Qed.
Lemma regular_r_init gr : keeps regular (r_init gr).
Proof.
  constructor.
  - intros [r l [| |[|o|]]]; unfold regular; destruct (may_mkdir gr); cbn; intuition discriminate.
  - intro s0. constructor; [|constructor]. intros [r l [| |[|o|]]]; unfold regular; destruct (may_touch gr); cbn; intuition discriminate.
Qed.
Lemma regular_r_clean gr : keeps regular (r_clean gr).
Proof.
  apply (keep_r_with_lock _ regular_root regular_lock regular_free). constructor; [|constructor].
  intros [r l [| |[|o|]]]; unfold regular; destruct (may_remove gr); cbn; intuition discriminate.
Qed.
Lemma regular_h_save gr cap d g : keeps regular (h_save gr cap d g).
Proof.
  unfold h_save. destruct (may_create gr); [|constructor]. constructor.
  - intros [r l [| |[|o|]]]; unfold regular; cbn; intuition discriminate.
  - intro s. destruct (fs_graph s) as [| |[|o|]]; try constructor; (apply keeps_bind; [apply keeps_writes|]; intro; constructor).
Qed.
Lemma regular_h_tool nd p : h_tool nd p -> keeps regular p.
Proof.
  intros [gr|gr cap d args|gr cap d vertex edge|gr cap d order|gr force answer|gr cap d g force answer].
  - apply keeps_bind; [apply regular_r_init|]. intros []; constructor.
  - exact (keep_h_add _ regular_root regular_lock regular_free regular_append gr cap d args).
  - exact (keep_h_delete _ regular_root regular_lock regular_free regular_append gr cap d vertex edge).
  - apply keeps_bind; [constructor; [intros s H; exact H|constructor]|]. intros [[g|m]| |]; try apply keeps_ret.
    apply keeps_bind; [apply regular_h_save|]. intros []; constructor.
  - unfold r_gc_clean. destruct (_ && _); [constructor|]. apply keeps_bind; [apply regular_r_clean|]. intros []; constructor.
  - unfold h_gc_random. destruct (_ && _); [constructor|]. apply keeps_bind; [apply regular_r_clean|]. intros [u|]; [|constructor].
    apply keeps_bind; [apply regular_r_init|]. intros [u'|]; [|constructor].
    apply keeps_bind; [apply regular_h_save|]. intros []; constructor.
Qed.
(** Whatever was refused, in whatever interleaving, wherever the processes were stopped: once the operating system allows
    everything again, gc-init succeeds and keeps the commands file that is there; gc-clean and gc-init give the empty
    graph, without a lock. *)
Theorem C176_repair : forall nd ps s s' ps', Forall (h_tool nd) ps -> regular s -> isteps (s, ps) (s', ps') ->
  exists s1 s2 s3 c,
    run_prog gc_init s' = (s1, Success) /\ commands_entry s1 = File c /\
    (forall c', commands_entry s' = File c' -> c = c') /\
    (forall answer, run_prog (gc_clean true answer) s1 = (s2, Success)) /\ fs_graph s2 = NoGraph /\ fs_lock s2 = Absent /\
    run_prog gc_init s2 = (s3, Success) /\ fs_lock s3 = Absent /\ loads nd s3 g_new.
Proof.
  intros nd ps s s' ps' HT HR R.
  assert (H : regular s').
  { apply (keeps_isteps _ regular _ _ R); [|exact HR]. revert HT. apply Forall_impl, regular_h_tool. }
  apply (C111_repair nd [] s' s' []); [constructor|assumption|constructor].
Qed.
Print Assumptions C176_repair.

Lemma starts_h_grower nd c p : h_grower nd p -> keeps (starts c) p.
Proof.
  assert (S1 : forall s, starts c s -> starts c (set_root true s)) by (apply starts_act; now intros [r l g]).
  assert (S2 : forall s, starts c s -> starts c (set_lock (created (fs_lock s)) s)) by (apply (starts_act c (fun s => set_lock (created (fs_lock s)) s)); now intros [r l g]).
  assert (S3 : forall s, starts c s -> starts c (set_lock Absent s)) by (apply starts_act; now intros [r l g]).
  assert (S4 : forall s x, starts c s -> starts c (append_chunk x s)).
  { intros s x [t E]. exists (t ++ x). unfold append_chunk. rewrite E. unfold commands_entry in *.
    destruct s as [r l [| |e]]; cbn in *; try discriminate. now rewrite app_assoc. }
  intros [gr|gr cap d args|gr cap d vertex edge|gr f failed].
  - apply keeps_bind; [|intros []; constructor]. constructor.
    + intros s H. destruct (may_mkdir gr); [|assumption]. destruct s as [r l [| |e]], H as [t E]; try discriminate E. now exists t.
    + intro s0. constructor; [|constructor]. intros s H. destruct (may_touch gr); [now apply starts_open|assumption].
  - exact (keep_h_add _ S1 S2 S3 S4 gr cap d args).
  - exact (keep_h_delete _ S1 S2 S3 S4 gr cap d vertex edge).
  - apply keeps_bind; [constructor; [intros s H; exact H|constructor]|]. intro r. constructor.
Qed.
(** Without gc-build, gc-random and gc-clean nothing that was stored is ever lost. *)
Theorem C176_grows : forall nd ps s s' ps' c, Forall (h_grower nd) ps -> isteps (s, ps) (s', ps') ->
  commands_entry s = File c -> exists t, commands_entry s' = File (c ++ t).
Proof.
  intros nd ps s s' ps' c F R E. apply (keeps_isteps _ (starts c) _ _ R).
  - revert F. apply Forall_impl. intros p. apply starts_h_grower.
  - exists []. now rewrite app_nil_r.
Qed.
Print Assumptions C176_grows.

(** ** One request, complete or killed *)
Lemma run_is_crash A (p : prog A) : forall s, crash p s (fst (run_prog p s)).
Proof. induction p as [a|u k IH]; intro s; cbn [run_prog]; [constructor|]. constructor. apply IH. Qed.
Lemma crash_r_lock gr s s' : crash (r_lock gr) s s' -> fs_graph s' = fs_graph s.
Proof.
  intro H. apply crash_act in H. destruct H as [->|H]; [reflexivity|]. apply crash_act in H. destruct H as [->|H].
  - now destruct (may_mkdir gr).
  - apply crash_ret in H. subst s'. destruct (may_mkdir gr), (_ && _); reflexivity.
Qed.
Lemma crash_r_unlock gr s s' : crash (r_unlock gr) s s' -> fs_graph s' = fs_graph s.
Proof.
  intro H. apply crash_act in H. destruct H as [->|H]; [reflexivity|]. apply crash_ret in H. subst s'.
  destruct (may_unlock gr), (fs_lock s); reflexivity.
Qed.
Lemma entry_graph s s' : fs_graph s' = fs_graph s -> commands_entry s' = commands_entry s.
Proof. unfold commands_entry. now intros ->. Qed.
Lemma crash_h_add gr cap d cs s s' c : commands_entry s = File c -> crash (h_add_commands gr cap d cs) s s' ->
  exists p, prefix p (commands_text cs) /\ commands_entry s' = File (c ++ p).
Proof.
  intros E H. assert (Z : exists p, prefix p (commands_text cs) /\ commands_entry s = File (c ++ p)).
  { exists []. split; [now exists (commands_text cs)|]. now rewrite app_nil_r. }
  unfold h_add_commands in H. destruct (may_append gr).
  2:{ apply crash_ret in H. now subst s'. }
  unfold disk_add_commands in H. apply crash_act in H. destruct H as [->|H]; [assumption|]. rewrite E in H. cbv zeta in H.
  destruct (disk_writes_prefix cap d (add_pieces cs) 0 []) as (q & Q & _). rewrite concat_add_pieces in Q. cbn [app] in Q.
  apply commands_entry_dir in E as D.
  assert (X : exists n, s' = set_commands (File (c ++ concat (firstn n (fst (disk_writes cap d 0 [] (add_pieces cs)))))) s).
  { apply crash_bind in H. destruct H as [H|H].
    - exact (crash_append _ _ _ _ E H).
    - apply crash_ret in H. subst s'. destruct (crash_append _ _ _ _ E (run_is_crash _ (append_chunks (fst (disk_writes cap d 0 [] (add_pieces cs)))) s)) as (n & N0). now exists n. }
  destruct X as (n & ->). exists (concat (firstn n (fst (disk_writes cap d 0 [] (add_pieces cs))))). split; [|reflexivity].
  rewrite Q. destruct (concat_firstn_prefix (fst (disk_writes cap d 0 [] (add_pieces cs))) n) as (t & T).
  exists (t ++ q). rewrite T at 1. now rewrite <- app_assoc.
Qed.
(** A request, killed anywhere or complete: the commands file is as before, with the text of the request up to some
    character behind it. *)
Theorem C176_request : forall gr cap d cs s s' c, commands_entry s = File c -> crash (h_apply gr cap d cs) s s' ->
  exists p, prefix p (commands_text cs) /\ commands_entry s' = File (c ++ p).
Proof.
  intros gr cap d cs s s' c E H.
  assert (Z : forall u, commands_entry u = File c -> exists p, prefix p (commands_text cs) /\ commands_entry u = File (c ++ p)).
  { intros u U. exists []. split; [now exists (commands_text cs)|]. now rewrite app_nil_r. }
  unfold h_apply, r_with_lock in H. apply crash_bind in H. destruct H as [H|H].
  - apply Z. rewrite <- E. apply entry_graph. exact (crash_r_lock _ _ _ H).
  - pose proof (entry_graph _ _ (crash_r_lock _ _ _ (run_is_crash _ (r_lock gr) s))) as E1. rewrite E in E1.
    destruct (snd (run_prog (r_lock gr) s)) as [u|].
    2:{ apply crash_ret in H. subst s'. now apply Z. }
    apply crash_bind in H. destruct H as [H|H]; [exact (crash_h_add _ _ _ _ _ _ _ E1 H)|].
    destruct (crash_h_add _ _ _ _ _ _ _ E1 (run_is_crash _ (h_add_commands gr cap d cs) _)) as (p & P & E2).
    exists p. split; [assumption|]. rewrite <- E2. apply entry_graph.
    apply crash_bind in H. destruct H as [H|H]; [exact (crash_r_unlock _ _ _ H)|].
    assert (s' = fst (run_prog (r_unlock gr) (fst (run_prog (h_add_commands gr cap d cs) (fst (run_prog (r_lock gr) s)))))).
    { destruct (snd (run_prog (r_unlock gr) _)); now apply crash_ret in H. }
    subst s'. exact (crash_r_unlock _ _ _ (run_is_crash _ _ _)).
Qed.
Print Assumptions C176_request.
(** So after any history of such requests the file holds the beginnings of their texts, one behind the other. *)
Theorem C176_histories : forall s css s' c, rough s css s' -> commands_entry s = File c ->
  exists ps, Forall2 prefix ps (map commands_text css) /\ commands_entry s' = File (c ++ concat ps).
Proof.
  intros s css s' c H. revert c.
  assert (STEP : forall s cs css gr cap d s1 s2, crash (h_apply gr cap d cs) s s1 ->
    (forall c, commands_entry s1 = File c -> exists ps, Forall2 prefix ps (map commands_text css) /\ commands_entry s2 = File (c ++ concat ps)) ->
    forall c, commands_entry s = File c ->
    exists ps, Forall2 prefix ps (map commands_text (cs :: css)) /\ commands_entry s2 = File (c ++ concat ps)).
  { clear. intros s cs css gr cap d s1 s2 K IH c E. destruct (C176_request _ _ _ _ _ _ _ E K) as (p & P & E1).
    destruct (IH _ E1) as (ps & Q & E2). exists (p :: ps). split; [cbn [map]; now constructor|].
    cbn [concat]. now rewrite app_assoc. }
  induction H as [s|s cs css gr cap d s1 s2 r K H IH|s cs css gr cap d s1 s2 K H IH]; intros c E.
  - exists []. split; [constructor|]. cbn [concat]. now rewrite app_nil_r.
  - apply (STEP s cs css gr cap d s1 s2); [|assumption..]. pose proof (run_is_crash _ (h_apply gr cap d cs) s) as X. now rewrite K in X.
  - now apply (STEP s cs css gr cap d s1 s2).
Qed.
Print Assumptions C176_histories.
(** gc-build, likewise: the old file, or the new text up to some character; the old file if it may not create one. *)
Theorem C176_build : forall nd gr cap d order s s' c, commands_entry s = File c -> crash (h_gc_build gr nd cap d order) s s' ->
  s' = s \/ (may_create gr = true /\ exists g p, gcmd_read nd c = Done (Ok g) /\ commands_entry s' = File p /\ prefix p (gcmd_text (order g))).
Proof.
  intros nd gr cap d order s s' c E H. unfold h_gc_build in H. apply crash_bind in H. destruct H as [H|H].
  - left. unfold r_load in H. apply crash_act in H. destruct H as [->|H]; [reflexivity|]. now apply crash_ret in H.
  - unfold r_load in H. cbn [run_prog fst snd] in H. rewrite E in H.
    destruct (may_open gr), (may_read gr); cbn [negb] in H; try (left; now apply crash_ret in H).
    destruct (gcmd_read nd c) as [[g|m]| |] eqn:G; try (left; now apply crash_ret in H).
    unfold h_save in H. destruct (may_create gr); [|left; now apply crash_ret in H].
    destruct (C113_killed nd cap d order s s' c g E G) as [->|(p & P & Q)]; [|now left|].
    + unfold disk_build. apply crash_bind. right. rewrite run_load, E. cbn [fst snd]. rewrite G.
      apply crash_bind in H. apply crash_bind. destruct H as [H|H]; [now left|]. right.
      destruct (snd (run_prog (disk_save cap d (order g)) s)); apply crash_ret in H; now apply crash_ret.
    + right. split; [reflexivity|]. now exists g, p.
Qed.
Print Assumptions C176_build.
(** gc-add and gc-delete, complete: of each of their requests a beginning is stored, all of it or nothing as its own calls
    are granted and answered. *)
Lemma keeps_run A I (p : prog A) : keeps I p -> forall s, I s -> I (fst (run_prog p s)).
Proof. intro H. induction H as [a|upd k Hu Hk IH]; intros s Hs; cbn [run_prog]; [exact Hs|]. apply IH, Hu, Hs. Qed.
Lemma h_apply_parts gr cap d cs s c : commands_entry s = File c -> exists t,
  commands_entry (fst (run_prog (h_apply gr cap d cs) s)) = File (c ++ t) /\
  (openable (fs_lock s) = true -> openable (fs_lock (fst (run_prog (h_apply gr cap d cs) s))) = true) /\
  prefix t (commands_text cs) /\ (may_not_store gr -> t = []) /\
  (openable (fs_lock s) = true -> may_store gr -> working d -> t = commands_text cs).
Proof.
  intro E. destruct (C176_request gr cap d cs s _ c E (run_is_crash _ (h_apply gr cap d cs) s)) as (t & P & E').
  exists t. split; [exact E'|]. split; [|split; [exact P|]].
  - apply (keeps_run _ (fun s => openable (fs_lock s) = true)). apply keep_h_apply.
    + intros u H. exact H.
    + intros [r [| |] g] H; [reflexivity|reflexivity|exact H].
    + intros u H. reflexivity.
    + intros u x H. unfold append_chunk. destruct (commands_entry u); exact H.
  - assert (R : forall u u', fs_graph u = fs_graph u' -> commands_entry u = commands_entry u') by (intros; now apply entry_graph).
    assert (Er : forall l, commands_entry (set_lock l (rooted gr s)) = File c).
    { intro l. rewrite <- E. apply R. unfold rooted. now destruct (may_mkdir gr). }
    unfold h_apply in E'. rewrite run_r_with_lock in E'. cbv zeta in E'. split.
    + intro M. assert (Q : commands_entry (fst (run_prog (r_with_lock gr (h_add_commands gr cap d cs)) s)) = File c).
      { rewrite run_r_with_lock. cbv zeta. destruct (may_lock gr && _ && _) eqn:El.
        - unfold may_not_store in M. destruct M as [M|M]; [rewrite M in El; discriminate|]. unfold h_add_commands. rewrite M.
          cbn [run_prog fst snd]. destruct (may_unlock gr); [|apply Er].
          destruct (fs_lock (set_lock (created (fs_lock s)) (rooted gr s))); apply Er.
        - cbn [fst]. rewrite <- E. apply R. unfold rooted. now destruct (may_mkdir gr). }
      rewrite run_r_with_lock in Q. cbv zeta in Q. rewrite Q in E'. injection E' as E'.
      rewrite <- (app_nil_r c) in E' at 1. apply app_inv_head in E'. now symmetry.
    + intros Ho (M1 & M2 & M3) W. rewrite M2, Ho in E'. unfold rooted in E' at 1. rewrite M1 in E'. cbn [set_root fs_root andb] in E'.
      unfold h_add_commands in E'. rewrite M3 in E'. unfold disk_add_commands in E'. cbn [run_prog] in E'.
      rewrite (Er (created (fs_lock s))) in E'. cbv zeta in E'.
      destruct (disk_writes_working cap d (add_pieces cs) W 0 []) as [H1 H2]. rewrite concat_add_pieces in H2. cbn [app] in H2.
      rewrite run_bind, (run_append_chunks _ _ _ (Er _)), H2 in E'. cbn [run_prog fst snd] in E'.
      apply commands_entry_dir in E as D.
      assert (F : forall l, commands_entry (set_lock l (set_commands (File (c ++ commands_text cs)) (set_lock (created (fs_lock s)) (rooted gr s)))) =
        File (c ++ commands_text cs)).
      { intro l. unfold commands_entry, rooted. destruct s as [r l' g]. rewrite M1. cbn in D. subst g. reflexivity. }
      destruct (may_unlock gr); [destruct (fs_lock _)|]; cbn [fst] in E'.
      all: try (rewrite F in E'; injection E' as E'; apply app_inv_head in E'; now symmetry).
      all: change (commands_entry (set_lock (created (fs_lock s)) (set_commands (File (c ++ commands_text cs)) (set_lock (created (fs_lock s)) (rooted gr s)))) = File (c ++ t)) in E';
        rewrite F in E'; injection E' as E'; apply app_inv_head in E'; now symmetry.
Qed.
Definition stored_part (grs : nat -> grants) (ds : nat -> disk) (s : fs) (x : nat * list graph_command) (t : text) : Prop :=
  prefix t (commands_text (snd x)) /\ (may_not_store (grs (fst x)) -> t = []) /\
  (openable (fs_lock s) = true -> may_store (grs (fst x)) -> working (ds (fst x)) -> t = commands_text (snd x)).
Lemma h_parts grs cap ds L s c : commands_entry s = File c ->
  exists ts, commands_entry (all_run (fun k => h_apply (grs k) cap (ds k)) L s) = File (c ++ concat ts) /\ Forall2 (stored_part grs ds s) L ts.
Proof.
  intro E. apply (all_parts (fun k => h_apply (grs k) cap (ds k)) (fun k b cs t => prefix t (commands_text cs) /\ (may_not_store (grs k) -> t = []) /\
    (b = true -> may_store (grs k) -> working (ds k) -> t = commands_text cs))); [| |exact E].
  - intros k cs t (H1 & H2 & H3). split; [exact H1|]. split; [exact H2|discriminate].
  - intros k cs u c' E'. exact (h_apply_parts (grs k) cap (ds k) cs u c' E').
Qed.
Theorem C176_parts : forall p : (nat -> grants) -> nat -> (nat -> disk) -> prog exit,
  (exists a, p = fun grs cap ds => h_gc_add grs cap ds a) \/ (exists vertex edge, p = fun grs cap ds => h_gc_delete grs cap ds vertex edge) ->
  (forall grs cap ds s, snd (run_prog (p grs cap ds) s) <> Success) \/
  (exists L : list (nat * list graph_command), NoDup (map fst L) /\
    forall grs cap ds s c, commands_entry s = File c ->
      exists ts s', run_prog (p grs cap ds) s = (s', Success) /\ commands_entry s' = File (c ++ concat ts) /\
        Forall2 (stored_part grs ds s) L ts).
Proof.
  intros p Hp.
  assert (Hs : exists q, shape 0 q /\ forall grs cap ds, p grs cap ds = q (fun k => h_apply (grs k) cap (ds k))).
  { destruct Hp as [(a & ->)|(vertex & edge & ->)].
    - exists (fun call => add_with call a). split; [apply shape_add|reflexivity].
    - exists (fun call => option_call vertex parse_all (fun vs => call 0%nat (map RemoveVertex vs)) (
        option_call edge (fun vs => obind (parse_all vs) (fun l => obind (as_vertex_tuple l) expect))
          (fun es => call 1%nat (map (fun e => RemoveEdge (fst e) (snd e)) es)) (Ret Success))).
      split; [|reflexivity]. repeat (apply shape_option; cbv beta). left. exists []. repeat split; constructor. }
  destruct Hs as (q & [(L & ND & _ & HL)|N] & Hq); [right; exists L; split; [exact ND|]|left; intros; rewrite Hq; apply N].
  intros grs cap ds s c E. destruct (h_parts grs cap ds L s c E) as (ts & E1 & F).
  exists ts. eexists. split; [rewrite Hq; apply HL|]. now split.
Qed.
Print Assumptions C176_parts.
(** gc-build and gc-random do not hide a refusal: if they succeed, they would with the same refusals and a disk that takes everything. *)
Theorem C176_reported : forall nd gr cap d order g force answer chunks s,
  (snd (run_prog (h_gc_build gr nd cap d order) s) = Success -> snd (run_prog (r_gc_build gr nd chunks order) s) = Success) /\
  (snd (run_prog (h_gc_random gr cap d g force answer) s) = Success -> snd (run_prog (r_gc_random gr chunks g force answer) s) = Success).
Proof.
  intros nd gr cap d order g force answer chunks s.
  assert (W : forall cs off u, snd (run_prog (write_chunks off cs) u) = IoOk tt).
  { clear. induction cs as [|x cs IH]; intros off u; cbn [write_chunks run_prog]; [reflexivity|apply IH]. }
  assert (K : forall g u v, snd (run_prog (h_save gr cap d g) u) = IoOk v -> snd (run_prog (r_save gr chunks g) u) = IoOk tt).
  { clear -W. intros g u v. unfold h_save, r_save. destruct (may_create gr); [|discriminate]. unfold disk_save, save_graph_as_commands.
    cbn [run_prog]. destruct (fs_graph _) as [| |[| |]]; try discriminate; intros _; apply W. }
  split.
  - unfold h_gc_build, r_gc_build. rewrite !run_bind. destruct (snd (run_prog (r_load gr nd) s)) as [[h|m]| |]; try (intro H; exact H).
    rewrite !run_bind. cbn [run_prog snd]. destruct (snd (run_prog (h_save _ _ _ _) _)) eqn:Eh; [|discriminate]. intros _.
    now rewrite (K _ _ _ Eh).
  - unfold h_gc_random, r_gc_random. destruct (_ && _); [intro H; exact H|]. rewrite !run_bind.
    destruct (snd (run_prog (r_clean gr) s)); [|intro H; exact H]. rewrite !run_bind.
    destruct (snd (run_prog (r_init gr) _)); [|intro H; exact H]. rewrite !run_bind. cbn [run_prog snd].
    destruct (snd (run_prog (h_save _ _ _ _) _)) eqn:Eh; [|discriminate]. intros _. now rewrite (K _ _ _ Eh).
Qed.
Print Assumptions C176_reported.
(** A request that is cut short, another that may not even lock, and a third that is complete. *)
Example C176_case : exists s',
  rough (with_file []) [[AddVertex 1]; [AddVertex 2]; [AddVertex 3]] s' /\
  commands_entry s' = File (txt "AddVerAddVertex 3" ++ [10]) /\
  regular (with_file []) /\
  Forall (h_tool table) [h_gc_build all_granted table 4 (fun _ => Refused) id_order; r_gc_clean all_granted true []].
Proof.
  eexists. split; [|split; [|split]].
  - eapply (rough_run _ _ _ all_granted 4%nat (fun i => match i with O => Takes 6 | _ => Refused end)); [vm_compute; reflexivity|].
    eapply (rough_run _ _ _ {| may_mkdir := false; may_lock := false; may_unlock := false; may_touch := false; may_open := false;
      may_read := false; may_append := false; may_create := false; may_remove := NotAtAll |} 4%nat (fun _ => Refused)); [vm_compute; reflexivity|].
    eapply (rough_run _ _ _ all_granted 4%nat (fun _ => Takes 100)); [vm_compute; reflexivity|]. constructor.
  - vm_compute. reflexivity.
  - unfold regular. cbn. repeat split; discriminate.
  - constructor; [constructor|]. constructor; [constructor|constructor].
Qed.
(** gc-add -v 1 -e 2 3: the first request is cut short, the second may not append; then the other way round. *)
Example C176_parts_case :
  let a := {| a_vertex := Some [txt "1"]; a_reverse := false; a_edge := Some [txt "2"; txt "3"]; a_chain := None; a_cycle := None;
              a_star := None; a_clique := None |} in
  let short := fun i => match i with O => Takes 6 | _ => Refused end in
  let wide := fun _ : nat => Takes 100 in
  let two (A : Type) (x y : A) (k : nat) := match k with O => x | _ => y end in
  run_prog (h_gc_add (two _ all_granted nothing_granted) 4 (two _ short wide) a) (with_file []) = (with_file (txt "AddVer"), Success) /\
  run_prog (h_gc_add (two _ nothing_granted all_granted) 4 (two _ wide wide) a) (with_file []) = (with_file (txt "AddEdge 2 3" ++ [10]), Success).
Proof. split; vm_compute; reflexivity. Qed.
