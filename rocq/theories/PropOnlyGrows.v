(** * Property C157: without gc-build, gc-random and gc-clean the commands file only grows *)
From Coq Require Import String.
From Coq Require Import List NArith ZArith Bool Arith Lia Permutation.
From Verif Require Import Spec Base WalkFacts Graph GraphSpec GraphFacts Path
  Queue Iter Text Format FormatSpec TextFacts FormatFacts Store StoreSpec StoreFacts CrashFacts PropFormat PropStore
  Cli CliSpec CliFacts Query QuerySpec QueryFacts PropQuery Utf8 Utf8Spec Utf8Facts PropUtf8 PropKill Steps PropSteps.
Import ListNotations.
Open Scope N_scope.

(** gc-init (with [create_dir_all] in one step or in several), gc-add, gc-delete, and whatever loads the graph and
    prints: gc-desc and the query tools.  The writes of gc-add and gc-delete may be split in any way. *)
Definition grower (nd : N -> bool) (p : prog exit) : Prop := bystander nd p \/ p = gc_init \/ p = f_gc_init.

Definition starts (c : text) (s : fs) : Prop := exists t, commands_entry s = File (c ++ t).
Lemma starts_act c (upd : fs -> fs) : (forall s, commands_entry (upd s) = commands_entry s) -> forall s, starts c s -> starts c (upd s).
Proof. intros H s [t E]. exists t. now rewrite H. Qed.
Lemma starts_lock c A (p : prog (io A)) : keeps (starts c) p -> keeps (starts c) (with_lock p).
Proof.
  intro H. apply keeps_bind.
  { constructor; [apply starts_act; now intros [r l d]|]. intro s0. constructor; [|constructor].
    apply starts_act. intros [[] [|x|] d]; reflexivity. }
  intros [u|]; [|constructor]. apply keeps_bind; [assumption|]. intro r. apply keeps_bind; [|intros [u'|]; constructor].
  constructor; [|constructor]. apply starts_act. intros [rt [|x|] d]; reflexivity.
Qed.
Lemma starts_append c cs : keeps (starts c) (append_chunks cs).
Proof.
  induction cs as [|x cs IH]; cbn [append_chunks]; constructor; [|intro; exact IH].
  intros s [t E]. exists (t ++ x). unfold append_chunk. rewrite E. unfold commands_entry in *. destruct s as [r l [| |e]]; cbn in *; try discriminate.
  now rewrite app_assoc.
Qed.
Lemma starts_apply c chunks cs : keeps (starts c) (apply_graph_commands chunks cs).
Proof.
  apply starts_lock. constructor; [intros s H; exact H|]. intro s.
  destruct (commands_entry s); [constructor|apply starts_append|constructor].
Qed.
Lemma starts_option_call c A values (f : list text -> outcome A) call next : (forall a, keeps (starts c) (call a)) ->
  keeps (starts c) next -> keeps (starts c) (option_call values f call next).
Proof.
  intros Hc Hn. unfold option_call. destruct values as [vs|]; [|assumption].
  destruct (f vs) as [a| |]; try constructor. apply keeps_bind; [apply Hc|]. intros _. assumption.
Qed.
Lemma starts_open c s : starts c s -> starts c (match fs_graph s with GraphDir e => set_commands (created e) s | _ => s end).
Proof. destruct s as [r l [| |[|x|]]]; intros [t E]; try discriminate E; now exists t. Qed.
Lemma starts_mkdir c s : starts c s -> starts c (mkdir_graph s).
Proof. destruct s as [r l [| |e]]; intros [t E]; try discriminate E; now exists t. Qed.
Lemma starts_grower nd c p : grower nd p -> keeps (starts c) p.
Proof.
  assert (FO : keeps (starts c) f_open) by (constructor; [apply starts_open|constructor]).
  intros [[chunks args|chunks vertex edge|report]|[->| ->]].
  - unfold gc_add. repeat (apply starts_option_call; [intro; apply starts_apply|]). constructor.
  - unfold gc_delete. repeat (apply starts_option_call; [intro; apply starts_apply|]). constructor.
  - constructor; [auto|]. intro s. constructor.
  - apply keeps_bind; [|intros []; constructor]. constructor.
    + intros [r l [| |e]] [t E]; try discriminate E. now exists t.
    + intro s0. constructor; [apply starts_open|constructor].
  - apply keeps_bind; [|intros []; constructor]. constructor.
    + intros s H. destruct (fs_root s); [now apply starts_mkdir|assumption].
    + intro s. destruct (fs_root s); [exact FO|]. constructor; [|intro; constructor; [apply starts_mkdir|intro; exact FO]].
      apply starts_act. now intros [r l d].
Qed.
(** In every schedule, wherever the processes are stopped. *)
Theorem C157_grows : forall nd ps s s' ps' c, Forall (grower nd) ps -> isteps (s, ps) (s', ps') ->
  commands_entry s = File c -> exists t, commands_entry s' = File (c ++ t).
Proof.
  intros nd ps s s' ps' c F R E. apply (keeps_isteps _ (starts c) _ _ R).
  - revert F. apply Forall_impl. intros p. apply starts_grower.
  - exists []. now rewrite app_nil_r.
Qed.
Print Assumptions C157_grows.

(** ** What is read *)
Definition after (cs : list graph_command) (r : result (list graph_command)) : outcome (result (list graph_command)) :=
  Done (match r with Ok cs' => Ok (cs ++ cs') | Err m => Err m end).
Lemma read_lines_cut parse isc l : forall i ls',
  (forall m, read_lines parse isc i l = Done (Err m) -> read_lines parse isc i (l ++ ls') = Done (Err m)) /\
  (read_lines parse isc i l = Panic -> read_lines parse isc i (l ++ ls') = Panic) /\
  (forall cs, read_lines parse isc i l = Done (Ok cs) ->
     read_lines parse isc i (l ++ ls') = obind (read_lines parse isc (i + N.of_nat (length l)) ls') (after cs)).
Proof.
  induction l as [|x l IH]; intros i ls'.
  - split; [discriminate|]. split; [discriminate|]. intros cs [= <-]. cbn [app length N.of_nat]. rewrite N.add_0_r.
    destruct (read_lines parse isc i ls') as [[cs'|e]| |]; reflexivity.
  - cbn [app read_lines length]. destruct (IH (i + 1) ls') as (IH1 & IH2 & IH3).
    replace (i + N.of_nat (S (length l))) with (i + 1 + N.of_nat (length l)) by lia.
    destruct (negb _ && negb _); [|now split].
    destruct (parse x) as [[y|e]| |]; cbn [obind]; try (split; [trivial|]; split; [trivial|]; discriminate); try (split; [discriminate|]; split; discriminate).
    destruct (read_lines parse isc (i + 1) l) as [[cs0|e]| |] eqn:E; cbn [obind].
    + split; [discriminate|]. split; [discriminate|]. intros cs [= <-]. rewrite (IH3 cs0 eq_refl).
      destruct (read_lines parse isc _ ls') as [[cs'|e]| |]; reflexivity.
    + split; [|split; discriminate]. intros m [= ->]. now rewrite (IH1 m eq_refl).
    + split; [discriminate|]. split; [|discriminate]. intros _. now rewrite (IH2 eq_refl).
    + split; [discriminate|]. split; discriminate.
Qed.
Lemma read_lines_at parse isc ls : forall i m, read_lines parse isc i ls = Done (Err m) ->
  exists k msg, i < k /\ m = txt "Error at line " ++ show k ++ txt ": " ++ msg.
Proof.
  induction ls as [|x ls IH]; intros i m; cbn [read_lines]; [discriminate|]. destruct (negb _ && negb _).
  - destruct (parse x) as [[y|e]| |]; cbn [obind]; try discriminate.
    + destruct (read_lines parse isc (i + 1) ls) as [[cs|e]| |] eqn:E; cbn [obind]; try discriminate. intros [= ->].
      destruct (IH _ _ E) as (k & msg & Hk & ->). exists k, msg. split; [lia|reflexivity].
    + intros [= <-]. exists (i + 1), e. split; [lia|reflexivity].
  - intro H. destruct (IH _ _ H) as (k & msg & Hk & ->). exists k, msg. split; [lia|reflexivity].
Qed.
(** Commands that were stored stay the first ones, and an error that appears is in a later line; a file that could not be
    read stays so, with the same message. *)
Theorem C157_reads : forall nd ps s s' ps' c, digit_table nd -> Forall (grower nd) ps -> isteps (s, ps) (s', ps') ->
  commands_entry s = File c -> closed c -> exists c', commands_entry s' = File c' /\
  (forall m, gcmd_read_as_commands nd c = Done (Err m) -> gcmd_read_as_commands nd c' = Done (Err m)) /\
  (gcmd_read_as_commands nd c = Panic -> gcmd_read_as_commands nd c' = Panic) /\
  (forall cs r, gcmd_read_as_commands nd c = Done (Ok cs) -> gcmd_read_as_commands nd c' = Done r ->
     (exists cs', r = Ok (cs ++ cs')) \/
     (exists k d msg, N.of_nat (length (lines c)) < k /\ canonical_numeral d k /\
        r = Err (txt "Error at line " ++ d ++ txt ": " ++ msg))).
Proof.
  intros nd ps s s' ps' c T F R E Hc. destruct (C157_grows nd ps s s' ps' c F R E) as (t & E'). exists (c ++ t). split; [exact E'|].
  unfold gcmd_read_as_commands, read_as_commands. rewrite (lines_app_closed c t Hc).
  match goal with |- context [read_lines ?p ?i 0 (lines c)] => destruct (read_lines_cut p i (lines c) 0 (lines t)) as (K1 & K2 & K3) end.
  split; [exact K1|]. split; [exact K2|]. intros cs r H. rewrite (K3 cs H). cbn [N.add].
  match goal with |- context [obind ?x _] => destruct x as [[cs'|e]| |] eqn:Er end; cbn [obind after]; try discriminate.
  - intros [= <-]. left. now exists cs'.
  - intros [= <-]. right. destruct (read_lines_at _ _ _ _ _ Er) as (k & msg & Hk & ->).
    exists k, (show k), msg. split; [exact Hk|]. split; [apply show_spec|reflexivity].
Qed.
Print Assumptions C157_reads.

(** Refuted: whatever the commands file looks like, what it says stays and what is added is there.  When the last line has
    no line end, an addition that reports success changes that line: a stored vertex becomes an error, or the added vertex
    is part of a comment. *)
Theorem C157_open_line_refuted : exists c1 c2 m,
  isteps (with_file (txt "AddVertex 1"), [gc_add at_once add_one]) (with_file c1, [Ret Success]) /\
  gcmd_read_as_commands table (txt "AddVertex 1") = Done (Ok [AddVertex 1]) /\
  gcmd_read_as_commands table c1 = Done (Err (txt "Error at line 1: " ++ m)) /\
  isteps (with_file (txt "#mine"), [gc_add at_once add_one]) (with_file c2, [Ret Success]) /\
  gcmd_read_as_commands table (txt "#mine") = Done (Ok []) /\ gcmd_read_as_commands table c2 = Done (Ok []).
Proof.
  pose (sch := repeat 0%nat 12).
  exists (txt "AddVertex 1AddVertex 2" ++ [10]), (txt "#mineAddVertex 2" ++ [10]). eexists.
  split; [|split; [|split; [|split; [|split]]]].
  - pose proof (run_schedule_isteps _ sch (with_file (txt "AddVertex 1")) [gc_add at_once add_one]) as H. vm_compute in H |- *. exact H.
  - vm_compute. reflexivity.
  - vm_compute. reflexivity.
  - pose proof (run_schedule_isteps _ sch (with_file (txt "#mine")) [gc_add at_once add_one]) as H. vm_compute in H |- *. exact H.
  - vm_compute. reflexivity.
  - vm_compute. reflexivity.
Qed.
Print Assumptions C157_open_line_refuted.
(** Two gc-inits, an addition, a deletion and a reader at a file of two lines. *)
Definition two_lines : text := txt "AddVertex 1" ++ [10] ++ txt "AddEdge 1 2" ++ [10].
Example C157_case : Forall (grower table) [gc_init; gc_add at_once add_one; gc_delete at_once (Some [txt "1"]) None; f_gc_init;
    bind (load_graph table) (fun _ => Ret Success)] /\ commands_entry (with_file two_lines) = File two_lines /\ closed two_lines /\
  exists cs, gcmd_read_as_commands table two_lines = Done (Ok cs) /\ length cs = 2%nat.
Proof.
  split; [|split; [reflexivity|split; [right; now exists (txt "AddVertex 1" ++ [10] ++ txt "AddEdge 1 2")|]]].
  - constructor; [right; now left|]. constructor; [left; constructor|]. constructor; [left; constructor|].
    constructor; [right; now right|]. constructor; [left; apply (by_read table (fun _ => Success))|constructor].
  - eexists. split; [vm_compute; reflexivity|reflexivity].
Qed.
