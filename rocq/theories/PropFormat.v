(** * Properties C13-C20: the gcmd and tgf text formats *)
From Coq Require Import String.
From Coq Require Import List NArith Bool Arith Lia.
From Verif Require Import Spec Base Graph GraphSpec GraphFacts Text Format FormatSpec TextFacts FormatFacts.
Import ListNotations.
Open Scope N_scope.

(** A digit table with ASCII and Arabic-Indic digits, for the examples. *)
Definition table (c : N) : bool := ascii_digit c || ((1632 <=? c) && (c <=? 1641)).
Lemma table_ok : digit_table table.
Proof.
  split.
  - intros c Hc. unfold table. rewrite orb_true_iff, andb_true_iff, !N.leb_le, ascii_digit_09. split; [intros [?|?]; [assumption|lia]|tauto].
  - intros c H Hb. unfold table in H. rewrite orb_true_iff, andb_true_iff, !N.leb_le, ascii_digit_09, ascii09_range in H.
    unfold blank in Hb. cbn [In] in Hb. lia.
Qed.

(** ** C13 *)
Theorem C13_line_roundtrip : forall nd c, digit_table nd -> u64_command c ->
  gcmd_parse_line nd (command_into_line c) = Done (Ok c) /\
  command_into_line c <> [] /\ is_comment (command_into_line c) = false /\
  ~ In 10 (command_into_line c) /\ ~ In 13 (command_into_line c).
Proof.
  intros nd c T H. pose proof (gcmd_line_written c H) as G.
  split; [now apply gcmd_parse_ok|]. destruct (gcmd_line_shape _ _ _ G) as [H1 H2].
  split; [assumption|]. split.
  { apply not_true_iff_false. intro Hc. apply H2. right. now apply is_comment_spec. }
  split; [apply written_plain|].
  destruct c; cbn [command_into_line]; intro Hi;
    repeat (apply in_app_or in Hi; destruct Hi as [Hi|Hi]);
    try (apply show_chars in Hi; lia);
    cbn in Hi; repeat destruct Hi as [Hi|Hi]; try discriminate; destruct Hi.
Qed.
Print Assumptions C13_line_roundtrip.
Example C13_case : u64_command (AddEdge 18446744073709551615 0) /\
  command_into_line (AddEdge 18446744073709551615 0) = txt "AddEdge 18446744073709551615 0" /\
  gcmd_parse_line table (txt "AddEdge 18446744073709551615 0") = Done (Ok (AddEdge 18446744073709551615 0)).
Proof. split; [split; reflexivity|]. split; reflexivity. Qed.

(** The writer uses the one numeral without leading zeros. *)
Theorem C13_display : forall n s, canonical_numeral s n <-> s = show n.
Proof.
  intros n s. split; [|intros ->; apply show_spec]. intro H. eapply canonical_unique; [exact H|apply show_spec].
Qed.
Print Assumptions C13_display.

(** ** C14 *)
Theorem C14_gcmd_grammar : forall nd l, digit_table nd ->
  (forall c, gcmd_parse_line nd l = Done (Ok c) <-> gcmd_line numeral l c) /\
  (forall m, gcmd_parse_line nd l = Done (Err m) <->
     (forall c, ~ gcmd_line (digits nd) l c) /\ m = txt "Couldn't parse '" ++ l ++ txt "'").
Proof. intros nd l T. split; [intro; now apply gcmd_parse_ok|intro; now apply gcmd_parse_err]. Qed.
Print Assumptions C14_gcmd_grammar.
Example C14_case :
  gcmd_parse_line table (txt "RemoveEdge 007" ++ [9; 32; 12288] ++ txt "42") = Done (Ok (RemoveEdge 7 42)) /\
  gcmd_parse_line table (txt "AddVertex  7") = Done (Err (txt "Couldn't parse 'AddVertex  7'")) /\
  gcmd_parse_line table (txt "AddVertex 7 ") = Done (Err (txt "Couldn't parse 'AddVertex 7 '")) /\
  gcmd_parse_line table (txt "addvertex 7") = Done (Err (txt "Couldn't parse 'addvertex 7'")).
Proof. repeat split. Qed.

(** ** C15: "parsing never panics" is false: every id that is no u64 panics. *)
Theorem C15_parse_panics_refuted : forall nd k, digit_table nd -> ~ u64 k ->
  gcmd_parse_line nd (txt "AddVertex " ++ show k) = Panic /\
  tgf_parse_line nd (show k) = Panic.
Proof.
  intros nd k T Hk.
  assert (R : run (fun c => nd c = true) (show k)) by (apply run_ascii; [assumption|apply show_run]).
  assert (X : forall n, ~ numeral (show k) n).
  { intros n (_ & Hv & Hu). destruct (show_spec k) as (_ & Hd & _). congruence. }
  split.
  - apply gcmd_parse_panic; [assumption|]. split; [exists (AddVertex 0); constructor; apply R|].
    intros c H. inversion H as [d n Hn E|? ? ? E|? ? ? ? ? ? ? ? E|? ? ? ? ? ? ? ? E]; try discriminate E.
    subst. now apply X in Hn.
  - assert (L : vertex_label (fun c => nd c = true) []).
    { split; [apply label_nil|]. intros [|? ?] ? ? E; discriminate. }
    apply tgf_parse_panic; [assumption|]. split.
    + exists (AddVertex 0). rewrite <- (app_nil_r (show k)). constructor; [apply R|assumption].
    + intros c H. inversion H as [d1 w d2 l a b Ha Hw Hb Hl E|d l n Hn Hl E]; subst.
      * rewrite <- (app_nil_r (show k)) in E. apply (tgf_edge_vertex nd) in E; eauto using numeral_run.
      * rewrite <- (app_nil_r (show k)) in E. apply (tgf_vertex_split nd) in E; eauto using numeral_run.
        destruct E as [-> _]. now apply X in Hn.
Qed.
Print Assumptions C15_parse_panics_refuted.

(** Exactly the lines of the right shape whose digits are no u64 numeral
    (too large, or digits of another script) panic. *)
Theorem C15_panics_exactly : forall nd l, digit_table nd ->
  (gcmd_parse_line nd l = Panic <->
     (exists c, gcmd_line (digits nd) l c) /\ (forall c, ~ gcmd_line numeral l c)) /\
  (tgf_parse_line nd l = Panic <->
     (exists c, tgf_line (fun c => nd c = true) (digits nd) l c) /\
     (forall c, ~ tgf_line (fun c => nd c = true) numeral l c)) /\
  gcmd_parse_line nd l <> OutOfFuel /\ tgf_parse_line nd l <> OutOfFuel.
Proof.
  intros nd l T. split; [now apply gcmd_parse_panic|]. split; [now apply tgf_parse_panic|].
  split; [now apply gcmd_parse_fuel|now apply tgf_parse_fuel].
Qed.
Print Assumptions C15_panics_exactly.
Example C15_case : gcmd_parse_line table (txt "AddVertex 18446744073709551616") = Panic /\
  tgf_parse_line table (txt "18446744073709551616") = Panic /\
  gcmd_parse_line table (txt "AddVertex " ++ [1633]) = Panic.
Proof. vm_compute. repeat split. Qed.

(** ** C16 *)
Theorem C16_reader : forall parse content,
  (forall cs, read_as_commands parse is_comment content = Done (Ok cs) <->
     exists ls, file_lines content ls /\ reads (fun l c => parse l = Done (Ok c)) ls cs) /\
  (forall m, read_as_commands parse is_comment content = Done (Err m) <->
     exists pre l post cs msg d, file_lines content (pre ++ l :: post) /\
       reads (fun l c => parse l = Done (Ok c)) pre cs /\ ~ skipped l /\ parse l = Done (Err msg) /\
       canonical_numeral d (N.of_nat (length pre) + 1) /\
       m = txt "Error at line " ++ d ++ txt ": " ++ msg) /\
  (read_as_commands parse is_comment content = Panic <->
     exists pre l post cs, file_lines content (pre ++ l :: post) /\
       reads (fun l c => parse l = Done (Ok c)) pre cs /\ ~ skipped l /\ parse l = Panic) /\
  (forall g, read parse is_comment content = Done (Ok g) ->
     exists cs, read_as_commands parse is_comment content = Done (Ok cs) /\ built_by cs g).
Proof.
  intros parse content. split; [|split; [|split]].
  - intro cs. rewrite read_as_commands_ok. split.
    + intro H. exists (lines content). split; [apply file_lines_lines|exact H].
    + intros (ls & Hl & H). apply file_lines_fun in Hl. subst. exact H.
  - intro m. rewrite read_as_commands_err. split.
    + intros (pre & l & post & cs & msg & E & H1 & H2 & H3 & ->).
      exists pre, l, post, cs, msg, (show (N.of_nat (length pre) + 1)).
      split; [now apply file_lines_fun|]. split; [assumption|]. split; [assumption|]. split; [assumption|].
      split; [apply show_spec|reflexivity].
    + intros (pre & l & post & cs & msg & d & E & H1 & H2 & H3 & H4 & ->).
      exists pre, l, post, cs, msg. split; [symmetry; now apply file_lines_fun|].
      split; [assumption|]. split; [assumption|]. split; [assumption|]. do 2 f_equal.
      eapply canonical_unique; [exact H4|apply show_spec].
  - rewrite read_as_commands_panic. split.
    + intros (pre & l & post & cs & E & H). exists pre, l, post, cs. split; [now apply file_lines_fun|assumption].
    + intros (pre & l & post & cs & E & H). exists pre, l, post, cs. split; [symmetry; now apply file_lines_fun|assumption].
  - intros g H. unfold read in H.
    destruct (read_as_commands parse is_comment content) as [[cs|m]| |]; cbn [obind] in H; try discriminate.
    injection H as <-. exists cs. split; [reflexivity|apply built_by_apply].
Qed.
Print Assumptions C16_reader.
(** Every content has exactly one list of lines, so [C16_reader] covers every
    file. *)
Theorem C16_lines_unique : forall content, exists ls, forall ls', file_lines content ls' <-> ls' = ls.
Proof. intro s. exists (lines s). intro. apply file_lines_fun. Qed.
Print Assumptions C16_lines_unique.
(** A line of blanks only is not skipped and is an error in both formats. *)
Theorem C16_blank_line_is_error : forall nd l, digit_table nd -> run blank l ->
  ~ skipped l /\
  gcmd_parse_line nd l = Done (Err (txt "Couldn't parse '" ++ l ++ txt "'")) /\
  tgf_parse_line nd l = Done (Err (txt "Couldn't parse '" ++ l ++ txt "'")).
Proof.
  intros nd l T [H1 H2]. destruct l as [|x l]; [congruence|]. inversion H2 as [|? ? Hx Hl]; subst.
  split.
  { intros [?|(w & t & E & _)]; [discriminate|].
    assert (Hi : In 35 (x :: l)) by (rewrite E; apply in_or_app; right; now left).
    rewrite Forall_forall in H2. apply H2 in Hi. apply ws_blank in Hi. discriminate. }
  split.
  - apply gcmd_parse_err; [assumption|]. split; [|reflexivity]. intros c H.
    unfold blank in Hx. inversion H; subst; cbn [In] in Hx; lia.
  - apply tgf_parse_err; [assumption|]. split; [|reflexivity]. intros c H.
    assert (Hd : forall d r : text, run (fun c => nd c = true) d -> d ++ r = x :: l -> False).
    { intros d r [Hd1 Hd2] E. destruct d as [|y d]; [congruence|]. injection E as -> _.
      inversion Hd2 as [|? ? Hy]; subst. now apply (proj2 T) in Hy. }
    inversion H; eauto.
Qed.
Print Assumptions C16_blank_line_is_error.
Example C16_case :
  gcmd_read_as_commands table (txt "AddVertex 1" ++ [13; 10; 10] ++ txt "  # note" ++ [10] ++ txt "AddEdge 1 2")
    = Done (Ok [AddVertex 1; AddEdge 1 2]) /\
  gcmd_read_as_commands table (txt "AddVertex 1" ++ [10] ++ txt "#" ++ [10] ++ txt " " ++ [10] ++ txt "AddVertex 99999999999999999999")
    = Done (Err (txt "Error at line 3: Couldn't parse ' '")).
Proof. split; reflexivity. Qed.

(** ** C17 *)
Theorem C17_gcmd_roundtrip : forall nd g, digit_table nd -> built g -> u64_graph g ->
  exists g', gcmd_read nd (gcmd_text g) = Done (Ok g') /\ built g' /\ a_same (shown g') (shown g).
Proof.
  intros nd g T B U. exists (apply_commands (as_commands g) g_new).
  split; [now apply gcmd_roundtrip; [|apply built_wf|]|].
  split; [apply built_apply_commands, built_empty|]. apply as_commands_roundtrip. now apply built_wf.
Qed.
Print Assumptions C17_gcmd_roundtrip.

Definition sample : graph := apply_commands [AddEdge 3 1; AddEdge 1 1; AddVertex 18446744073709551615] g_new.
Lemma sample_built : built sample.
Proof. apply built_apply_commands, built_empty. Qed.
Lemma sample_u64 : u64_graph sample.
Proof.
  intros v H. apply vertices_In in H. cbn in H.
  repeat destruct H as [<-|H]; try reflexivity. destruct H.
Qed.
Example C17_case : built sample /\ u64_graph sample /\
  gcmd_text sample = txt "AddVertex 3" ++ [10] ++ txt "AddVertex 1" ++ [10] ++ txt "AddVertex 18446744073709551615" ++ [10] ++
    txt "AddEdge 3 1" ++ [10] ++ txt "AddEdge 1 1" ++ [10].
Proof. split; [apply sample_built|]. split; [apply sample_u64|]. vm_compute. reflexivity. Qed.

(** ** C18 *)
Theorem C18_append : forall nd content cs cs', digit_table nd -> closed content ->
  Forall u64_command cs' -> gcmd_read_as_commands nd content = Done (Ok cs) ->
  gcmd_read_as_commands nd (content ++ commands_text cs') = Done (Ok (cs ++ cs')) /\
  closed (content ++ commands_text cs').
Proof.
  intros nd content cs cs' T Hc Hu H. split; [|apply closed_app; [assumption|apply closed_commands]].
  apply read_as_commands_ok in H. apply read_as_commands_ok.
  rewrite lines_app_closed, lines_commands by assumption.
  apply reads_app; [assumption|]. now apply reads_commands.
Qed.
Print Assumptions C18_append.
(** Without the final line break the claim fails: the first appended command
    is glued to the last line. *)
Theorem C18_append_needs_line_break : forall nd, digit_table nd -> exists content cs cs' cs'',
  Forall u64_command cs' /\ gcmd_read_as_commands nd content = Done (Ok cs) /\
  gcmd_read_as_commands nd (content ++ commands_text cs') = Done (Ok cs'') /\ cs'' <> cs ++ cs'.
Proof.
  intros nd T. exists (txt "# note"), [], [AddVertex 7], [].
  split; [repeat constructor|].
  assert (Hs : forall l, l = txt "# note" \/ l = txt "# noteAddVertex 7" -> skipped l).
  { intros l [->| ->]; right; exists []; eexists; (split; [reflexivity|constructor]). }
  split; [apply read_as_commands_ok; apply reads_skip; [|constructor]; apply Hs; auto|].
  split; [|discriminate]. apply read_as_commands_ok. apply reads_skip; [|constructor]. apply Hs. auto.
Qed.
Print Assumptions C18_append_needs_line_break.
Example C18_case : closed (txt "AddVertex 1" ++ [10]) /\
  gcmd_read_as_commands table ((txt "AddVertex 1" ++ [10]) ++ commands_text [RemoveVertex 1; AddEdge 1 2]) =
    Done (Ok [AddVertex 1; RemoveVertex 1; AddEdge 1 2]).
Proof. split; [right; eauto|reflexivity]. Qed.

(** ** C19 *)
Theorem C19_tgf_roundtrip : forall nd g, digit_table nd -> built g -> u64_graph g ->
  exists g', tgf_read nd (tgf_text g) = Done (Ok g') /\ built g' /\ a_same (shown g') (shown g).
Proof.
  intros nd g T B U. exists (apply_commands (as_commands g) g_new).
  split; [now apply tgf_roundtrip; [|apply built_wf|]|].
  split; [apply built_apply_commands, built_empty|]. apply as_commands_roundtrip. now apply built_wf.
Qed.
Print Assumptions C19_tgf_roundtrip.
Example C19_case : built sample /\ u64_graph sample /\
  tgf_text sample = txt "3" ++ [10] ++ txt "1" ++ [10] ++ txt "18446744073709551615" ++ [10] ++
    txt "3 1" ++ [10] ++ txt "1 1" ++ [10].
Proof. split; [apply sample_built|]. split; [apply sample_u64|]. vm_compute. reflexivity. Qed.

(** ** C20: a vertex label that starts with a digit is read as an edge. *)
Theorem C20_label_refuted : forall nd, digit_table nd ->
  tgf_parse_line nd (txt "1 " ++ txt "2nd street") = Done (Ok (AddEdge 1 2)).
Proof.
  intros nd T. apply tgf_parse_ok; [assumption|].
  assert (Hn : forall n, u64 n -> numeral (show n) n) by (intros; now apply show_numeral).
  change (txt "1 " ++ txt "2nd street") with (show 1 ++ txt " " ++ show 2 ++ txt "nd street").
  constructor; try (apply Hn; reflexivity).
  - split; [discriminate|]. constructor; [|constructor]. apply ws_blank. reflexivity.
  - split; [now apply no_lf_txt|]. intros c t E Hd. injection E as <- _. apply (proj1 T) in Hd; [|reflexivity].
    apply ascii09_range in Hd. lia.
Qed.
Print Assumptions C20_label_refuted.
(** What is true: the parser reads exactly the grammar where a vertex label does
    not start with blanks and a digit. *)
Theorem C20_tgf_grammar : forall nd l, digit_table nd ->
  (forall c, tgf_parse_line nd l = Done (Ok c) <-> tgf_line (fun c => nd c = true) numeral l c) /\
  (forall m, tgf_parse_line nd l = Done (Err m) <->
     (forall c, ~ tgf_line (fun c => nd c = true) (digits nd) l c) /\ m = txt "Couldn't parse '" ++ l ++ txt "'").
Proof. intros nd l T. split; [intro; now apply tgf_parse_ok|intro; now apply tgf_parse_err]. Qed.
Print Assumptions C20_tgf_grammar.
(** In particular labels that do not start with a digit are ignored. *)
Theorem C20_labels_ignored : forall nd d1 d2 w w' l a b, digit_table nd ->
  numeral d1 a -> numeral d2 b -> run blank w -> run blank w' -> no_lf w -> no_lf w' -> no_lf l ->
  (forall c t, l = c :: t -> nd c = false /\ ~ blank c) ->
  tgf_parse_line nd (d1 ++ w ++ l) = Done (Ok (AddVertex a)) /\
  tgf_parse_line nd (d1 ++ w ++ d2 ++ w' ++ l) = Done (Ok (AddEdge a b)).
Proof.
  intros nd d1 d2 w w' l a b T H1 H2 Hw Hw' Nw Nw' Nl Hl.
  assert (Lw : forall w, run blank w -> no_lf w -> label (fun c => nd c = true) (w ++ l)).
  { intros x Hx Nx. split; [apply no_lf_app; now split|]. intros c t E.
    rewrite (run_head_blank nd T x l Hx c t E). discriminate. }
  split; apply tgf_parse_ok; try assumption; constructor; try assumption; [|now apply Lw].
  split; [now apply Lw|]. intros x c t E Hx Hc.
  assert (Hcb : ~ blank c) by now apply (proj2 T).
  apply (run_split blank) in E; [|apply Hw|apply Hx| |].
  - destruct E as [_ ->]. destruct (Hl c t eq_refl). congruence.
  - intros y u E'. now destruct (Hl y u E').
  - intros y u [= <- _]. assumption.
Qed.
Print Assumptions C20_labels_ignored.
Example C20_case :
  tgf_parse_line table (txt "12  main street 3") = Done (Ok (AddVertex 12)) /\
  tgf_parse_line table (txt "12 7 main street 3") = Done (Ok (AddEdge 12 7)).
Proof. split; reflexivity. Qed.
