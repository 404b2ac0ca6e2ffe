(** * Properties C100, C101 and C102: files as bytes *)
From Coq Require Import String.
From Coq Require Import List NArith Bool Arith Lia Permutation.
From Verif Require Import Spec Base Graph GraphSpec GraphFacts Text Format FormatSpec TextFacts FormatFacts
  Store StoreSpec StoreFacts CrashFacts PropFormat PropStore Cli Utf8 Utf8Spec Utf8Facts.
Import ListNotations.
Open Scope N_scope.

(** ** C100 *)
(** Decoding. *)
Theorem C100_decoding : forall bs t, from_utf8 bs = Some t <-> utf8 t bs.
Proof. apply from_utf8_spec. Qed.
Print Assumptions C100_decoding.
(** A file in UTF-8 is read as the text it stands for, so all that is said about
    reading a text is true of the bytes. *)
Theorem C100_reading : forall parse t bs, utf8 t bs ->
  read_bytes parse is_comment bs = read_as_commands parse is_comment t.
Proof. intros. now apply read_bytes_text. Qed.
Print Assumptions C100_reading.
(** Which files of bytes are read, and as what. *)
Theorem C100_accepted : forall nd bs cs, digit_table nd ->
  (gcmd_read_bytes nd bs = Done (Ok cs) <->
     exists t ls, utf8 t bs /\ file_lines t ls /\ reads (gcmd_line numeral) ls cs) /\
  (tgf_read_bytes nd bs = Done (Ok cs) <->
     exists t ls, utf8 t bs /\ file_lines t ls /\ reads (tgf_line (fun c => nd c = true) numeral) ls cs).
Proof.
  intros nd bs cs T.
  assert (R : forall (P Q : text -> graph_command -> Prop) ls xs, (forall l c, P l c -> Q l c) -> reads P ls xs -> reads Q ls xs).
  { intros P Q ls xs H. induction 1; [constructor|now apply reads_skip|apply reads_line; auto]. }
  assert (G : forall parse (acc : text -> graph_command -> Prop), (forall l c, parse l = Done (Ok c) <-> acc l c) ->
    (read_bytes parse is_comment bs = Done (Ok cs) <-> exists t ls, utf8 t bs /\ file_lines t ls /\ reads acc ls cs)).
  { intros parse acc Ha. split.
    - intro H. destruct (first_bad bs) as [(t & Ht)|(t & front & bad & rest & -> & Ht & Hc & Hn & Hl & Hd)].
      + rewrite (read_bytes_text _ _ t _ Ht) in H. apply C16_reader in H. destruct H as (ls & Hf & Hr).
        exists t, ls. split; [assumption|]. split; [assumption|]. revert Hr. apply R. intros l c. apply Ha.
      + rewrite (read_bytes_bad _ _ t) in H by assumption. unfold then_panic in H.
        now destruct (read_as_commands parse is_comment t) as [[?|?]| |].
    - intros (t & ls & Ht & Hf & Hr). rewrite (read_bytes_text _ _ t _ Ht). apply C16_reader. exists ls.
      split; [assumption|]. revert Hr. apply R. intros l c. apply Ha. }
  split; apply G; intros l c; [now apply gcmd_parse_ok|now apply tgf_parse_ok].
Qed.
Print Assumptions C100_accepted.
(** Loading and gc-build work on the bytes as they do on the text. *)
Theorem C100_programs : forall nd chunks order s t bs, commands_entry s = File bs -> utf8 t bs ->
  run_prog (load_graph_bytes nd) s = (s, snd (run_prog (load_graph nd) (set_commands (File t) s))) /\
  let build := run_prog (gc_build_bytes nd chunks order) s in
  let build' := run_prog (gc_build nd chunks order) (set_commands (File t) s) in
  snd build = snd build' /\
  (snd build = Success -> fst build = fst build') /\
  (snd build = Failure -> fst build = s).
Proof.
  intros nd chunks order s t bs Hc Hu. pose proof (commands_entry_dir _ _ Hc) as Hd.
  assert (E : run_prog (load_graph_bytes nd) s = (s, snd (run_prog (load_graph nd) (set_commands (File t) s)))).
  { rewrite run_load. unfold load_graph_bytes. cbn [run_prog]. rewrite Hc. cbn [snd commands_entry set_commands set_graph fs_graph].
    unfold gcmd_read_bytes, gcmd_read, read. now rewrite (read_bytes_text _ _ t _ Hu). }
  split; [assumption|]. cbn zeta. unfold gc_build_bytes, gc_build. rewrite !run_bind, E. cbn [fst snd]. rewrite run_load. cbn [fst snd].
  destruct (match commands_entry (set_commands (File t) s) with Absent => _ | File c => _ | Directory => _ end) as [[g|m]| |];
    [|repeat split; discriminate..].
  rewrite !run_bind. unfold save_graph_as_commands. cbn [run_prog]. rewrite Hd. cbn [fs_graph set_commands set_graph].
  rewrite !set_commands_twice.
  assert (G : forall x cs off, snd (run_prog (write_chunks off cs) x) = IoOk tt).
  { clear. intros x cs. revert x. induction cs as [|c cs IH]; intros x off; [reflexivity|]. apply IH. }
  rewrite !G. cbn [run_prog snd fst]. split; [reflexivity|]. split; [|discriminate]. intros _. reflexivity.
Qed.
Print Assumptions C100_programs.
(** A comment with an accent (195 169), a no-break space (194 160) and a digit of
    another script (217 161, U+0661) which is a digit for the regex only. *)
Example C100_case :
  utf8 (txt "# caf" ++ [233; 10] ++ txt "AddEdge 1" ++ [160] ++ txt "2" ++ [13; 10])
       (txt "# caf" ++ [195; 169; 10] ++ txt "AddEdge 1" ++ [194; 160] ++ txt "2" ++ [13; 10]) /\
  gcmd_read_bytes table (txt "# caf" ++ [195; 169; 10] ++ txt "AddEdge 1" ++ [194; 160] ++ txt "2" ++ [13; 10]) =
    Done (Ok [AddEdge 1 2]) /\
  from_utf8 [240; 159; 166; 128] = Some [129408] /\ from_utf8 [192; 128] = None /\ from_utf8 [237; 160; 128] = None.
Proof. split; [apply from_utf8_spec; reflexivity|]. vm_compute. repeat split. Qed.

(** ** C101 *)
(** A file that is not UTF-8 is not reported: the process panics, even when the
    bytes are in a comment. *)
Theorem C101_undecodable_refuted : forall nd, digit_table nd -> exists bs,
  ~ decodable bs /\
  gcmd_read_bytes nd bs = Panic /\ tgf_read_bytes nd bs = Panic.
Proof.
  intros nd T. exists (txt "# caf" ++ [233]). split; [|split; reflexivity].
  rewrite decodable_spec. vm_compute. congruence.
Qed.
Print Assumptions C101_undecodable_refuted.
(** What happens exactly: the lines before the first bad one are read as usual; an
    error or a panic there is what the caller sees; otherwise the bad line panics.
    In particular no such file is ever accepted. *)
Theorem C101_first_bad_line : forall parse bs, ~ decodable bs ->
  (exists t front bad rest, bs = front ++ bad ++ rest /\ utf8 t front /\ closed t /\
     no_lf bad /\ line_end rest /\ ~ decodable bad) /\
  forall t front bad rest, bs = front ++ bad ++ rest -> utf8 t front -> closed t ->
    no_lf bad -> line_end rest -> ~ decodable bad ->
    (forall cs, read_as_commands parse is_comment t = Done (Ok cs) -> read_bytes parse is_comment bs = Panic) /\
    (forall m, read_as_commands parse is_comment t = Done (Err m) -> read_bytes parse is_comment bs = Done (Err m)) /\
    (read_as_commands parse is_comment t = Panic -> read_bytes parse is_comment bs = Panic) /\
    (forall cs, read_bytes parse is_comment bs <> Done (Ok cs)).
Proof.
  intros parse bs H. split.
  - destruct (first_bad bs) as [?|?]; [contradiction|assumption].
  - intros t front bad rest -> Ht Hc Hn Hl Hd. rewrite (read_bytes_bad _ _ t) by assumption.
    unfold then_panic. destruct (read_as_commands parse is_comment t) as [[cs|m]| |]; repeat split; intros; congruence.
Qed.
Print Assumptions C101_first_bad_line.
Example C101_case : ~ decodable (txt "AddVertex 1" ++ [10; 255; 10]) /\
  gcmd_read_bytes table (txt "AddVertex 1" ++ [10; 255; 10]) = Panic /\
  gcmd_read_bytes table (txt "Add" ++ [10; 255; 10]) = Done (Err (txt "Error at line 1: Couldn't parse 'Add'")).
Proof. split; [rewrite decodable_spec; vm_compute; congruence|]. vm_compute. split; reflexivity. Qed.

(** ** C102 *)
(** The programs that change files, with the contents of files now bytes. *)
Inductive tool (nd : N -> bool) : prog exit -> Prop :=
| tool_init : tool nd gc_init
| tool_add chunks args : buffering chunks -> tool nd (gc_add chunks args)
| tool_delete chunks vertex edge : buffering chunks -> tool nd (gc_delete chunks vertex edge)
| tool_build chunks order : buffering chunks -> tool nd (gc_build_bytes nd chunks order)
| tool_clean force answer : tool nd (gc_clean force answer)
| tool_random chunks g force answer : buffering chunks -> tool nd (gc_random chunks g force answer).

Definition sound (P : list N -> Prop) (s : fs) : Prop := forall c, commands_entry s = File c -> P c.
(** Every step keeps [I]. *)
Inductive keeps {A} (I : fs -> Prop) : prog A -> Prop :=
| keeps_ret a : keeps I (Ret a)
| keeps_act upd k : (forall s, I s -> I (upd s)) -> (forall s, keeps I (k s)) -> keeps I (Act upd k).
(** Every step keeps a decodable file decodable, up to a step after which the file
    is ASCII; an ASCII file stays ASCII. *)
Inductive early {A} : prog A -> Prop :=
| early_ret a : early (Ret a)
| early_act upd k : keeps (sound ascii_text) (Act upd k) ->
    (forall s, sound decodable s -> sound decodable (upd s)) ->
    (forall s, early (k s) \/ sound ascii_text (upd s)) -> early (Act upd k).
Lemma early_keeps A (p : prog A) : early p -> keeps (sound ascii_text) p.
Proof. intros []; [constructor|assumption]. Qed.
Lemma keeps_bind A B I (p : prog A) (f : A -> prog B) : keeps I p -> (forall a, keeps I (f a)) -> keeps I (bind p f).
Proof. intros H Hf. induction H as [a|upd k Hu Hk IH]; cbn [bind]; [apply Hf|]. constructor; assumption. Qed.
Lemma early_bind A B (p : prog A) (f : A -> prog B) : early p -> (forall a, early (f a)) -> early (bind p f).
Proof.
  intros H Hf. induction p as [a|upd k IH]; cbn [bind]; [apply Hf|].
  inversion H as [|? ? H1 H2 H3]; subst. constructor.
  - apply (keeps_bind _ _ _ (Act upd k)); [assumption|]. intro a. now apply early_keeps.
  - assumption.
  - intro s. destruct (H3 s) as [Hk|Hs]; [left; now apply IH|now right].
Qed.
Lemma early_step A upd (k : fs -> prog A) : (forall P : list N -> Prop, P [] -> forall s, sound P s -> sound P (upd s)) ->
  (forall s, early (k s)) -> early (Act upd k).
Proof.
  intros Hu Hk. constructor.
  - constructor; [apply Hu; constructor|]. intro s. now apply early_keeps.
  - apply Hu. exists []. constructor.
  - intro s. now left.
Qed.
Lemma early_lock : early lock.
Proof.
  apply early_step; [intros P H0 s H; exact H|]. intro s0. apply early_step; [|intro; constructor].
  intros P H0 s H. destruct (fs_root s); exact H.
Qed.
Lemma early_unlock : early unlock.
Proof. apply early_step; [|intro; constructor]. intros P H0 s H. destruct (fs_lock s); exact H. Qed.
Lemma early_with_lock A (p : prog (io A)) : early p -> early (with_lock p).
Proof.
  intro H. apply early_bind; [apply early_lock|]. intros [u|]; [|constructor]. apply early_bind; [assumption|].
  intro r. apply early_bind; [apply early_unlock|]. intros [u'|]; constructor.
Qed.
Lemma early_init : early init.
Proof.
  apply early_step.
  - intros P H0 s H c. unfold commands_entry. destruct s as [rt l [| |e]]; cbn; try discriminate. apply H.
  - intro s0. apply early_step; [|intro; constructor].
    intros P H0 s H c. destruct s as [rt l [| |[|o|]]]; cbn; intro E; try discriminate; try (injection E as <-).
    + assumption.
    + now apply H.
Qed.
Lemma early_clean : early clean.
Proof.
  apply early_with_lock, early_step; [|intro; constructor].
  intros P H0 s H c. destruct s as [rt l [| |e]]; cbn; discriminate.
Qed.
Lemma ascii_show n : ascii_text (show n).
Proof.
  destruct (show_spec n) as ([_ F] & _). revert F. apply Forall_impl. intros c Hc. apply ascii09_range in Hc. lia.
Qed.
Lemma ascii_txt s : forallb (fun c => c <? 128) (txt s) = true -> ascii_text (txt s).
Proof. intro H. apply Forall_forall. intros c Hc. apply N.ltb_lt. revert c Hc. now apply forallb_forall. Qed.
Lemma ascii_app a b : ascii_text a -> ascii_text b -> ascii_text (a ++ b).
Proof. intros. apply Forall_app. now split. Qed.
Lemma ascii_line c : ascii_text (command_into_line c).
Proof. destruct c; cbn [command_into_line]; repeat apply ascii_app; try apply ascii_show; now apply ascii_txt. Qed.
Lemma ascii_lf : ascii_text [10].
Proof. constructor; [lia|constructor]. Qed.
Lemma ascii_concat l : Forall ascii_text l <-> ascii_text (concat l).
Proof.
  induction l as [|a l IH]; cbn [concat]; [split; constructor|]. unfold ascii_text in *. rewrite Forall_app, <- IH.
  split; [intro H; inversion H; auto|intros []; now constructor].
Qed.
Lemma ascii_chunks chunks ps : buffering chunks -> Forall ascii_text ps -> Forall ascii_text (chunks ps).
Proof. intros B H. apply ascii_concat. rewrite B. now apply ascii_concat. Qed.
Lemma ascii_add_pieces cs : Forall ascii_text (add_pieces cs).
Proof.
  apply Forall_forall. intros p Hp. unfold add_pieces in Hp. apply in_concat in Hp. destruct Hp as (l & Hl & Hp).
  apply in_map_iff in Hl. destruct Hl as (c & <- & _). destruct Hp as [<-|[<-|[]]]; [apply ascii_line|apply ascii_lf].
Qed.
Lemma ascii_save_pieces g : Forall ascii_text (save_pieces g).
Proof.
  apply Forall_forall. intros p Hp. unfold save_pieces in Hp. apply in_app_iff in Hp.
  destruct Hp as [Hp|Hp]; apply in_concat in Hp; destruct Hp as (l & Hl & Hp); apply in_map_iff in Hl; destruct Hl as (c & <- & _).
  - destruct Hp as [<-|[<-|[<-|[]]]]; [now apply ascii_txt|apply ascii_show|apply ascii_lf].
  - destruct Hp as [<-|[<-|[<-|[<-|[<-|[]]]]]]; [now apply ascii_txt|apply ascii_show|now apply ascii_txt|apply ascii_show|apply ascii_lf].
Qed.
Lemma sound_append (P : list N -> Prop) c s : (forall old, P old -> P (old ++ c)) -> sound P s -> sound P (append_chunk c s).
Proof.
  intros Hc H x. unfold append_chunk. destruct (commands_entry s) as [|old|] eqn:E; [apply H| |apply H].
  cbn. intros [= <-]. apply Hc. now apply H.
Qed.
Lemma early_append cs : Forall ascii_text cs -> early (append_chunks cs).
Proof.
  induction 1 as [|c cs Hc H IH]; cbn [append_chunks]; [constructor|]. constructor.
  - constructor; [|intro; now apply early_keeps]. intros s. apply sound_append. intros old Ho. now apply ascii_app.
  - intro s. apply sound_append. intros old (t & Ht). exists (t ++ c). apply utf8_app; [assumption|now apply utf8_ascii].
  - intro s. now left.
Qed.
Lemma early_apply chunks cs : buffering chunks -> early (apply_graph_commands chunks cs).
Proof.
  intro B. apply early_with_lock, early_step; [intros P _ s H; exact H|]. intro s.
  destruct (commands_entry s); [constructor| |constructor]. apply early_append, ascii_chunks, ascii_add_pieces. assumption.
Qed.
Lemma Forall_cut (P : N -> Prop) n l : Forall P l -> Forall P (firstn n l) /\ Forall P (skipn n l).
Proof. intro H. rewrite <- (firstn_skipn n l) in H. now apply Forall_app in H. Qed.
Lemma keeps_write cs : Forall ascii_text cs -> forall off, keeps (sound ascii_text) (write_chunks off cs).
Proof.
  induction 1 as [|c cs Hc H IH]; intro off; cbn [write_chunks]; [constructor|]. constructor; [|intro; apply IH].
  intros s Hs x. unfold write_chunk. destruct (commands_entry s) as [|old|] eqn:E; [apply Hs| |apply Hs].
  cbn. intros [= <-]. specialize (Hs old E). unfold write_at, ascii_text in *.
  apply Forall_app. split; [now apply Forall_cut|]. apply Forall_app. split.
  - apply Forall_forall. intros y Hy. apply repeat_spec in Hy. subst. lia.
  - apply Forall_app. split; [assumption|]. now apply Forall_cut.
Qed.
Lemma early_save chunks g : buffering chunks -> early (save_graph_as_commands chunks g).
Proof.
  intro B. unfold save_graph_as_commands.
  assert (Hw : forall off, keeps (sound ascii_text) (write_chunks off (chunks (save_pieces g)))) by
    (apply keeps_write, ascii_chunks, ascii_save_pieces; assumption).
  assert (Hu : forall P : list N -> Prop, P [] -> forall s, sound P s ->
     sound P (match fs_graph s with GraphDir Directory => s | GraphDir _ => set_commands (File []) s | _ => s end)).
  { intros P H0 s H c. destruct s as [rt l [| |[|o|]]]; cbn; intro E; try discriminate; now injection E as <-. }
  constructor.
  - constructor; [apply Hu; constructor|]. intro s. destruct (fs_graph s) as [| |[|o|]]; try constructor; apply Hw.
  - apply Hu. exists []. constructor.
  - intro s. destruct s as [rt l [| |[|o|]]]; cbn; try (left; constructor); right; intros c [= <-]; constructor.
Qed.
Lemma early_exit (p : prog (io unit)) : early p -> early (exit_of p).
Proof. intro H. apply early_bind; [assumption|]. intros []; constructor. Qed.
Lemma early_option_call A values (f : list text -> outcome A) call next : (forall a, early (call a)) -> early next ->
  early (option_call values f call next).
Proof.
  intros Hc Hn. unfold option_call. destruct values as [vs|]; [|assumption].
  destruct (f vs) as [a| |]; try constructor. apply early_bind; [apply Hc|]. intros _. assumption.
Qed.
Lemma early_load nd : early (load_graph_bytes nd).
Proof. apply early_step; [intros P _ s H; exact H|]. intro; constructor. Qed.
Lemma early_tool nd p : tool nd p -> early p.
Proof.
  intros [|chunks args B|chunks vertex edge B|chunks order B|force answer|chunks g force answer B].
  - apply early_bind; [apply early_init|]. intros []; constructor.
  - unfold gc_add. repeat (apply early_option_call; [intro; now apply early_apply|]). constructor.
  - unfold gc_delete. repeat (apply early_option_call; [intro; now apply early_apply|]). constructor.
  - apply early_bind; [apply early_load|]. intros [[g|m]| |]; try apply early_ret.
    apply early_bind; [now apply early_save|]. intros []; constructor.
  - unfold gc_clean. destruct (_ && _); [constructor|]. apply early_bind; [apply early_clean|]. intros []; constructor.
  - unfold gc_random. destruct (_ && _); [constructor|]. apply early_bind; [apply early_clean|]. intros [u|]; [|constructor].
    apply early_bind; [apply early_init|]. intros [u'|]; [|constructor].
    apply early_bind; [now apply early_save|]. intros []; constructor.
Qed.
(** Whatever runs, in any order of their steps and with any of them stopped
    anywhere, a file in UTF-8 stays one, and an ASCII file stays ASCII. *)
Theorem C102_stays_decodable : forall nd ps s s' ps', Forall (tool nd) ps -> isteps (s, ps) (s', ps') ->
  (sound decodable s -> sound decodable s') /\ (sound ascii_text s -> sound ascii_text s').
Proof.
  intros nd ps s s' ps' H R.
  assert (Hp : Forall early ps) by (revert H; apply Forall_impl, early_tool). clear H.
  assert (Da : forall x, sound ascii_text x -> sound decodable x).
  { intros x Hx c Hc. exists c. apply utf8_ascii. now apply Hx. }
  assert (Ga : forall c c' : fs * list (prog exit), isteps c c' -> Forall (keeps (sound ascii_text)) (snd c) -> sound ascii_text (fst c) -> sound ascii_text (fst c')).
  { clear. induction 1 as [c|c c' c'' (pre & upd & k & post & E1 & E2 & E3) _ IH]; intros F Hs; [assumption|].
    apply IH.
    - rewrite E1 in F. rewrite E3. apply Forall_app in F. destruct F as [F1 F2]. inversion F2 as [|? ? Hk F3]; subst.
      inversion Hk as [|? ? K1 K2]; subst. apply Forall_app. split; [assumption|]. now constructor.
    - rewrite E2. rewrite E1 in F. apply Forall_app in F. destruct F as [_ F2]. inversion F2 as [|? ? Hk F3]; subst.
      inversion Hk as [|? ? K1 K2]; subst. now apply K1. }
  assert (Fk : forall l : list (prog exit), Forall early l -> Forall (keeps (sound ascii_text)) l).
  { intros l. apply Forall_impl, early_keeps. }
  split.
  - assert (G : forall c c' : fs * list (prog exit), isteps c c' -> Forall early (snd c) -> sound decodable (fst c) -> sound decodable (fst c')).
    { induction 1 as [c|c c' c'' (pre & upd & k & post & E1 & E2 & E3) Hr IH]; intros F Hs; [assumption|].
      rewrite E1 in F. apply Forall_app in F. destruct F as [F1 F2]. inversion F2 as [|? ? Hk F3]; subst.
      inversion Hk as [|? ? K1 K2 K3]; subst. destruct (K3 (fst c)) as [He|Ha].
      - apply IH; [rewrite E3; apply Forall_app; split; [assumption|now constructor]|]. rewrite E2. now apply K2.
      - apply Da, (Ga _ _ Hr); [|now rewrite E2]. rewrite E3. apply Forall_app. split; [now apply Fk|].
        constructor; [|now apply Fk]. inversion K1 as [|? ? _ Kk]; subst. apply Kk. }
    intro Hs. now apply (G _ _ R).
  - intro Hs. apply (Ga _ _ R); [now apply Fk|assumption].
Qed.
Print Assumptions C102_stays_decodable.
(** The text programs are the byte programs on such files. *)
Theorem C102_ascii_bytes_are_text : forall nd c, ascii_text c -> gcmd_read_bytes nd c = gcmd_read_as_commands nd c.
Proof. intros nd c H. now apply read_bytes_text, utf8_ascii. Qed.
Print Assumptions C102_ascii_bytes_are_text.
Example C102_case : sound decodable (with_file [195; 169; 10]) /\
  Forall (tool table) [gc_build_bytes table bytewise id_order; gc_init; gc_clean true []].
Proof.
  split; [intros c [= <-]; rewrite decodable_spec; vm_compute; congruence|].
  repeat constructor. apply bytewise_ok.
Qed.
