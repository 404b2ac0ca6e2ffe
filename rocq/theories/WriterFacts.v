(** * Facts about the buffered writer and about what it leaves in the file when
      the process is killed *)
From Coq Require Import String.
From Coq Require Import List NArith Bool Arith Lia Permutation.
From Verif Require Import Spec Base Graph GraphSpec GraphFacts Text Format FormatSpec TextFacts FormatFacts
  Store StoreSpec StoreFacts CrashFacts Writer.
Import ListNotations.
Open Scope N_scope.

Lemma concat_flush buf : concat (flush_buf buf) = buf.
Proof. destruct buf; [reflexivity|]. cbn. now rewrite app_nil_r. Qed.

Lemma concat_buf_writes cap ps : forall buf, concat (buf_writes cap buf ps) = buf ++ concat ps.
Proof.
  induction ps as [|p ps IH]; intro buf; cbn [buf_writes concat].
  - rewrite concat_flush. now rewrite app_nil_r.
  - destruct (Nat.ltb_spec cap (length buf + length p)); cbv zeta; destruct (Nat.leb_spec cap (length p));
      rewrite ?concat_app, ?concat_flush; cbn [concat app]; rewrite IH; rewrite <- ?app_assoc; try reflexivity.
    (* not full, yet the piece fills the whole capacity: the buffer is empty *)
    destruct buf; [reflexivity|]. cbn in *. lia.
Qed.
Lemma buffered_ok cap : buffering (buffered cap).
Proof. intro ps. apply (concat_buf_writes cap ps []). Qed.

(** Every write call carries whole pieces. *)
Definition glue (gs : list (list text)) : list text := map (fun g => concat g : text) gs.
Lemma glue_app a b : glue (a ++ b) = glue a ++ glue b.
Proof. apply map_app. Qed.
Lemma glue_concat gs : concat (glue gs) = concat (concat gs).
Proof.
  induction gs as [|a l IH]; [reflexivity|]. cbn [glue map concat]. rewrite concat_app. apply f_equal2; [reflexivity|exact IH].
Qed.
Lemma glue_firstn n gs : firstn n (glue gs) = glue (firstn n gs).
Proof. apply firstn_map. Qed.
Lemma glue_cons a b : glue (a :: b) = concat a :: glue b.
Proof. reflexivity. Qed.
Lemma buf_writes_whole cap (ps : list text) : forall (buf : text) (bps : list text), buf = concat bps ->
  Forall (fun p : text => p <> []) (bps ++ ps) ->
  exists gs : list (list text), concat gs = bps ++ ps /\ glue gs = buf_writes cap buf ps.
Proof.
  assert (Hf : forall bps, Forall (fun p : text => p <> []) bps ->
            exists gs, concat gs = bps /\ glue gs = flush_buf (concat bps)).
  { intros [|x bps] F; [exists []; now split|]. exists [x :: bps]. rewrite glue_cons. cbn [concat glue map]. rewrite app_nil_r.
    split; [reflexivity|]. inversion F as [|? ? Hx]; subst. destruct x; [congruence|reflexivity]. }
  induction ps as [|p ps IH]; intros buf bps -> F; cbn [buf_writes].
  - rewrite app_nil_r in *. now apply Hf.
  - apply Forall_app in F. destruct F as [Fb Fp]. inversion Fp as [|? ? Hp Fps]; subst.
    destruct (Hf bps Fb) as (gb & Hgb & Wgb).
    destruct (Nat.ltb_spec cap (length (concat bps) + length p)) as [Hfull|Hfit]; cbv zeta;
      destruct (Nat.leb_spec cap (length p)) as [Hbig|Hsmall].
    + destruct (IH [] [] eq_refl Fps) as (gs & Hg & Wg). exists (gb ++ [p] :: gs).
      rewrite concat_app, glue_app. rewrite glue_cons. cbn [concat]. rewrite Hgb, Hg, Wgb, Wg, app_nil_r. now split.
    + destruct (IH p [p]) as (gs & Hg & Wg); [cbn; now rewrite app_nil_r|now constructor|].
      exists (gb ++ gs). rewrite concat_app, glue_app, Hgb, Hg, Wgb, Wg. now split.
    + assert (Hb : bps = []).
      { destruct bps as [|x bps]; [reflexivity|]. inversion Fb as [|? ? Hx]; subst.
        cbn in Hfit. rewrite app_length in Hfit. destruct x; [congruence|]. cbn in Hfit. lia. }
      clear gb Hgb Wgb. subst bps. cbn [concat app] in *.
      destruct (IH [] [] eq_refl Fps) as (gs & Hg & Wg). exists ([p] :: gs).
      rewrite glue_cons. cbn [concat]. rewrite Hg, Wg, app_nil_r. now split.
    + destruct (IH (concat bps ++ p) (bps ++ [p])) as (gs & Hg & Wg).
      * rewrite concat_app. cbn. now rewrite app_nil_r.
      * rewrite <- app_assoc. apply Forall_app. now split.
      * exists gs. rewrite Hg, <- app_assoc. now split.
Qed.
Lemma buffered_prefix cap ps n : Forall (fun p => p <> []) ps ->
  exists k, concat (firstn n (buffered cap ps)) = concat (firstn k ps).
Proof.
  intro F. destruct (buf_writes_whole cap ps [] [] eq_refl F) as (gs & Hg & Wg). unfold buffered. rewrite <- Wg.
  exists (length (concat (firstn n gs))). cbn [app] in Hg.
  rewrite glue_firstn, glue_concat. rewrite <- (firstn_skipn n gs), concat_app in Hg. rewrite <- Hg.
  rewrite firstn_app, firstn_all, Nat.sub_diag. cbn [firstn]. now rewrite app_nil_r.
Qed.
(** A text that fits is written at once. *)
Lemma buf_writes_small cap ps : forall buf, (length buf + length (concat ps) <= cap)%nat ->
  (forall p, In p ps -> length p < cap)%nat -> buf_writes cap buf ps = flush_buf (buf ++ concat ps).
Proof.
  induction ps as [|p ps IH]; intros buf Hl Hp; cbn [buf_writes concat].
  - now rewrite app_nil_r.
  - cbn [concat] in Hl. rewrite app_length in Hl.
    destruct (Nat.ltb_spec cap (length buf + length p)); [lia|]. cbv zeta.
    destruct (Nat.leb_spec cap (length p)) as [H1|_]; [specialize (Hp p (or_introl eq_refl)); lia|].
    cbn [app]. rewrite IH; [now rewrite <- app_assoc|rewrite app_length; lia|intros q Hq; apply Hp; now right].
Qed.

Lemma line_nonempty c : command_into_line c <> [].
Proof. destruct c; discriminate. Qed.
Lemma add_pieces_nonempty cs : Forall (fun p => p <> []) (add_pieces cs).
Proof.
  induction cs as [|c cs IH]; [constructor|]. unfold add_pieces. cbn [map concat app].
  constructor; [apply line_nonempty|]. constructor; [discriminate|exact IH].
Qed.
Lemma show_nonempty n : show n <> [].
Proof. apply show_run. Qed.
Lemma save_pieces_nonempty g : Forall (fun p => p <> []) (save_pieces g).
Proof.
  unfold save_pieces. apply Forall_app. split; apply Forall_concat, Forall_forall; intros l Hl;
    apply in_map_iff in Hl; destruct Hl as (x & <- & _); repeat constructor; try discriminate; apply show_nonempty.
Qed.
Lemma buffered_small cap cs : (length (commands_text cs) <= cap)%nat ->
  buffered cap (add_pieces cs) = flush_buf (commands_text cs).
Proof.
  intro H. unfold buffered. rewrite <- concat_add_pieces in *.
  assert (Hp : cs = [] \/ forall p, In p (add_pieces cs) -> (length p < cap)%nat).
  { destruct cs as [|c cs]; [now left|right]. intros p Hp.
    assert (Hc : (length p < length (concat (add_pieces (c :: cs))))%nat); [|lia].
    clear H. revert p Hp. induction (c :: cs) as [|x l IH]; intros p Hp; [destruct Hp|].
    unfold add_pieces in *. cbn [map concat app In] in *. fold (add_pieces l) in *. rewrite !app_length. cbn [length].
    pose proof (line_nonempty x). destruct Hp as [<-|[<-|Hp]]; [lia| |apply IH in Hp; lia].
    destruct (command_into_line x); [congruence|]. cbn. lia. }
  destruct Hp as [->|Hp]; [reflexivity|]. now rewrite buf_writes_small.
Qed.

(** ** What a prefix of the pieces reads as *)
Lemma firstn_add_pieces cs : forall k,
  (exists j, (j <= length cs)%nat /\ concat (firstn k (add_pieces cs)) = commands_text (firstn j cs)) \/
  (exists j x, nth_error cs j = Some x /\
     concat (firstn k (add_pieces cs)) = commands_text (firstn j cs) ++ command_into_line x).
Proof.
  induction cs as [|c cs IH]; intros k.
  - left. exists O. destruct k; now split.
  - destruct k as [|[|k]].
    + left. exists O. split; [cbn; lia|reflexivity].
    + right. exists O, c. split; [reflexivity|]. cbn. now rewrite app_nil_r.
    + unfold add_pieces. cbn [map concat app firstn]. fold (add_pieces cs).
      destruct (IH k) as [(j & Hj & E)|(j & x & Hj & E)]; rewrite E.
      * left. exists (S j). split; [cbn; lia|]. unfold commands_text, writeln. cbn [firstn map concat].
        now rewrite <- app_assoc.
      * right. exists (S j), x. split; [assumption|]. unfold commands_text, writeln. cbn [firstn map concat].
        now rewrite <- !app_assoc.
Qed.
Lemma firstn_S_nth {A} (l : list A) j x : nth_error l j = Some x -> firstn (S j) l = firstn j l ++ [x].
Proof.
  revert j. induction l as [|a l IH]; intros [|j] H; try discriminate.
  - now injection H as ->.
  - cbn in H. change (firstn (S (S j)) (a :: l)) with (a :: firstn (S j) l). now rewrite (IH j H).
Qed.
Section Reading.
  Variable nd : N -> bool.
  Hypothesis T : digit_table nd.

  Lemma read_whole content cs cs' k : closed content -> gcmd_read_as_commands nd content = Done (Ok cs) ->
    Forall u64_command cs' ->
    gcmd_read_as_commands nd (content ++ commands_text (firstn k cs')) = Done (Ok (cs ++ firstn k cs')).
  Proof.
    intros Hc Hr U. apply read_as_commands_ok in Hr. apply read_as_commands_ok.
    rewrite lines_app_closed, lines_commands by assumption. apply reads_app; [assumption|]. apply reads_commands; [assumption|].
    rewrite <- (firstn_skipn k cs') in U. now apply Forall_app in U.
  Qed.
  Lemma read_pieces content cs cs' n : closed content -> gcmd_read_as_commands nd content = Done (Ok cs) ->
    Forall u64_command cs' ->
    exists k, (k <= length cs')%nat /\
      gcmd_read_as_commands nd (content ++ concat (firstn n (add_pieces cs'))) = Done (Ok (cs ++ firstn k cs')).
  Proof.
    intros Hc Hr U. destruct (firstn_add_pieces cs' n) as [(j & Hj & ->)|(j & x & Hj & ->)].
    - exists j. split; [assumption|]. now apply read_whole.
    - assert (Hlt : (j < length cs')%nat) by (apply nth_error_Some; congruence).
      exists (S j). split; [lia|]. rewrite (firstn_S_nth _ _ _ Hj), app_assoc, (app_assoc cs).
      pose proof (read_whole content cs cs' j Hc Hr U) as Hw. apply read_as_commands_ok in Hw.
      apply read_as_commands_ok.
      assert (Hc2 : closed (content ++ commands_text (firstn j cs'))) by (apply closed_app; [assumption|apply closed_commands]).
      destruct (prefix_line_facts (command_into_line x) x) as [Hl Hs].
      { apply line_nonempty. }
      { exists []. now rewrite app_nil_r. }
      rewrite lines_app_closed, (lines_last (command_into_line x)) by (try assumption; apply line_nonempty).
      apply reads_one_more; [assumption|assumption|]. apply gcmd_parse_ok; [assumption|]. apply gcmd_line_written.
      rewrite Forall_forall in U. apply U. eapply nth_error_In; eauto.
  Qed.
End Reading.

(** ** gc-build *)
Lemma crash_build_writes nd chunks order s s' c : commands_entry s = File c ->
  crash (gc_build nd chunks order) s s' ->
  s' = s \/ exists g n, gcmd_read nd c = Done (Ok g) /\
              commands_entry s' = File (concat (firstn n (chunks (save_pieces (order g))))).
Proof.
  intros Hc H. unfold gc_build in H. apply crash_bind in H. destruct H as [H|H].
  - unfold load_graph in H. apply crash_act in H. destruct H as [->|H]; [tauto|]. apply crash_ret in H. tauto.
  - rewrite run_load, Hc in H. cbn [fst snd] in H.
    destruct (gcmd_read nd c) as [[g|m]| |]; try (apply crash_ret in H; tauto).
    assert (E : fs_graph s = GraphDir (File c)) by now apply commands_entry_dir.
    apply crash_bind in H. destruct H as [H|H].
    + unfold save_graph_as_commands in H. apply crash_act in H. destruct H as [->|H]; [tauto|].
      rewrite E in H. right. exists g.
      apply (crash_write _ (set_commands (File []) s) [] s' eq_refl) in H. destruct H as [n ->]. now exists n.
    + unfold save_graph_as_commands in H. cbn [run_prog] in H. rewrite E in H.
      pose proof (run_write_chunks (chunks (save_pieces (order g))) (set_commands (File []) s) [] eq_refl) as Hw.
      cbn [length app] in Hw. rewrite Hw in H. cbn [fst snd] in H. apply crash_ret in H. subst s'.
      right. exists g, (length (chunks (save_pieces (order g)))). split; [reflexivity|]. now rewrite firstn_all.
Qed.

(** The pieces of one line written by [save]. *)
Definition fine (c : graph_command) : list text :=
  match c with
  | AddVertex v => [txt "AddVertex "; show v; [10]]
  | AddEdge a b => [txt "AddEdge "; show a; txt " "; show b; [10]]
  | _ => []
  end.
Definition addition (c : graph_command) : Prop :=
  match c with AddVertex _ | AddEdge _ _ => True | _ => False end.
Lemma save_pieces_fine g : save_pieces g = concat (map fine (as_commands g)).
Proof.
  unfold save_pieces, as_commands. rewrite map_app, concat_app, !map_map. reflexivity.
Qed.
Lemma as_commands_additions g : Forall addition (as_commands g).
Proof.
  unfold as_commands. apply Forall_app. split; apply Forall_map, Forall_forall; intros; exact I.
Qed.
(** A line cut between two pieces, other than right before its line feed. *)
Inductive torn_line : text -> Prop :=
| torn_vertex : torn_line (txt "AddVertex ")
| torn_edge : torn_line (txt "AddEdge ")
| torn_first a : torn_line (txt "AddEdge " ++ show a)
| torn_space a : torn_line (txt "AddEdge " ++ show a ++ txt " ").
Lemma firstn_fine cs : Forall addition cs -> forall k,
  (exists j, (j <= length cs)%nat /\ concat (firstn k (concat (map fine cs))) = commands_text (firstn j cs)) \/
  (exists j x w, nth_error cs j = Some x /\ (w = command_into_line x \/ torn_line w) /\
     concat (firstn k (concat (map fine cs))) = commands_text (firstn j cs) ++ w).
Proof.
  induction cs as [|c cs IH]; intros F k.
  - left. exists O. destruct k; now split.
  - inversion F as [|? ? Hc F']; subst.
    assert (Hcons : forall k, concat (firstn k (concat (map fine cs))) = concat (firstn k (concat (map fine cs))) ->
      (exists j, (j <= length (c :: cs))%nat /\ command_into_line c ++ [10] ++ concat (firstn k (concat (map fine cs))) = commands_text (firstn j (c :: cs))) \/
      (exists j x w, nth_error (c :: cs) j = Some x /\ (w = command_into_line x \/ torn_line w) /\
         command_into_line c ++ [10] ++ concat (firstn k (concat (map fine cs))) = commands_text (firstn j (c :: cs)) ++ w)).
    { clear k. intros k _. destruct (IH F' k) as [(j & Hj & E)|(j & x & w & Hj & Hw & E)]; rewrite E.
      - left. exists (S j). split; [cbn; lia|]. unfold commands_text, writeln. cbn [firstn map concat]. now rewrite <- app_assoc.
      - right. exists (S j), x, w. split; [assumption|]. split; [assumption|]. unfold commands_text, writeln. cbn [firstn map concat].
        now rewrite <- !app_assoc. }
    assert (Hhere : forall w, w = command_into_line c \/ torn_line w ->
      exists j x w', nth_error (c :: cs) j = Some x /\ (w' = command_into_line x \/ torn_line w') /\
         w = commands_text (firstn j (c :: cs)) ++ w').
    { intros w Hw. exists O, c, w. split; [reflexivity|]. split; [assumption|reflexivity]. }
    destruct c as [v|v|a b|a b]; try contradiction; cbn [map fine concat app].
    + destruct k as [|[|[|k]]]; cbn [firstn concat].
      * left. exists O. split; [cbn; lia|reflexivity].
      * right. rewrite app_nil_r. apply Hhere. right. constructor.
      * right. rewrite app_nil_r. apply Hhere. left. reflexivity.
      * cbn [command_into_line] in Hcons. specialize (Hcons k eq_refl). rewrite <- app_assoc in Hcons. exact Hcons.
    + destruct k as [|[|[|[|[|k]]]]]; cbn [firstn concat].
      * left. exists O. split; [cbn; lia|reflexivity].
      * right. rewrite app_nil_r. apply Hhere. right. constructor.
      * right. rewrite app_nil_r. apply Hhere. right. constructor.
      * right. rewrite app_nil_r. apply Hhere. right. constructor.
      * right. rewrite app_nil_r. apply Hhere. left. reflexivity.
      * cbn [command_into_line] in Hcons. specialize (Hcons k eq_refl). rewrite <- !app_assoc in Hcons. exact Hcons.
Qed.
Section Torn.
  Variable nd : N -> bool.
  Hypothesis T : digit_table nd.
  Lemma digit_not_blank c : nd c = true -> blank c -> False.
  Proof. intros H Hb. now apply (proj2 T c). Qed.
  Lemma space_blank : blank 32.
  Proof. unfold blank. cbn [In]. tauto. Qed.
  Lemma torn_line_no w : torn_line w -> forall c, ~ gcmd_line (digits nd) w c.
  Proof.
    intros H c Hg. assert (Hx : forall l, gcmd_line (digits nd) l c -> l = w -> False); [|now apply (Hx w)].
    clear Hg. intros l Hg E.
    destruct Hg as [d n [Hd _]|d n [Hd _]|d1 w' d2 a0 b [Hd1 Hf1] [Hw Hfw] [Hd2 Hf2]|d1 w' d2 a0 b [Hd1 _] [Hw _] [Hd2 _]];
      destruct H as [| |a|a]; try discriminate E.
    - apply (app_inv_head (txt "AddVertex ") d []) in E. contradiction.
    - apply (app_inv_head (txt "AddEdge ") _ []) in E. destruct d1; [contradiction|discriminate].
    - apply app_inv_head in E. destruct w' as [|y w']; [contradiction|].
      destruct (show_run a) as [_ Hs]. rewrite <- E in Hs. apply Forall_app in Hs. destruct Hs as [_ Hs].
      inversion Hs; subst. inversion Hfw; subst. unfold ascii09, blank in *. cbn [In] in *. lia.
    - apply app_inv_head in E. destruct d2 as [|y d2] using rev_ind; [contradiction|]. rewrite !app_assoc in E.
      apply app_inj_tail in E. destruct E as [_ E]. apply Forall_app in Hf2. destruct Hf2 as [_ Hf2].
      apply Forall_inv in Hf2. rewrite E in Hf2. exact (digit_not_blank 32 Hf2 space_blank).
  Qed.
End Torn.

(** ** Reading what a killed gc-build leaves *)
Section BuildReading.
  Variable nd : N -> bool.
  Hypothesis T : digit_table nd.
  Lemma torn_line_facts w : torn_line w -> w <> [] /\ no_lf w /\ ~ skipped w.
  Proof.
    intro H. assert (Hp : exists c, w <> [] /\ prefix w (command_into_line c)).
    { destruct H as [| |a|a].
      - exists (AddVertex 0). split; [discriminate|]. exists (show 0). reflexivity.
      - exists (AddEdge 0 0). split; [discriminate|]. eexists. reflexivity.
      - exists (AddEdge a 0). split; [discriminate|]. exists (txt " " ++ show 0). cbn [command_into_line]. now rewrite <- !app_assoc.
      - exists (AddEdge a 0). split; [discriminate|]. exists (show 0). cbn [command_into_line]. now rewrite <- !app_assoc. }
    destruct Hp as (c & Hn & Hp). split; [assumption|]. now apply (prefix_line_facts w c).
  Qed.
  Lemma read_fine cs k : Forall addition cs -> Forall u64_command cs ->
    (exists j, (j <= length cs)%nat /\
       gcmd_read_as_commands nd (concat (firstn k (concat (map fine cs)))) = Done (Ok (firstn j cs))) \/
    (exists m, gcmd_read_as_commands nd (concat (firstn k (concat (map fine cs)))) = Done (Err m)).
  Proof.
    intros F U. destruct (firstn_fine cs F k) as [(j & Hj & ->)|(j & x & w & Hj & Hw & ->)].
    - left. exists j. split; [assumption|].
      apply (read_whole nd T [] [] cs j (or_introl eq_refl) eq_refl U).
    - assert (Hlt : (j < length cs)%nat) by (apply nth_error_Some; congruence).
      pose proof (read_whole nd T [] [] cs j (or_introl eq_refl) eq_refl U) as Hr. cbn [app] in Hr.
      apply read_as_commands_ok in Hr. destruct Hw as [-> |Hw].
      + left. exists (S j). split; [lia|]. rewrite (firstn_S_nth _ _ _ Hj). apply read_as_commands_ok.
        destruct (prefix_line_facts (command_into_line x) x) as [Hl Hs]; [apply line_nonempty|exists []; now rewrite app_nil_r|].
        rewrite lines_app_closed, (lines_last (command_into_line x)) by (try assumption; try apply line_nonempty; apply closed_commands).
        apply reads_one_more; [assumption|assumption|]. apply gcmd_parse_ok; [assumption|]. apply gcmd_line_written.
        rewrite Forall_forall in U. apply U. eapply nth_error_In; eauto.
      + right. destruct (torn_line_facts w Hw) as (Hn & Hl & Hs). eexists. apply read_as_commands_err.
        exists (lines (commands_text (firstn j cs))), w, [], (firstn j cs), (txt "Couldn't parse '" ++ w ++ txt "'").
        split; [rewrite lines_app_closed, (lines_last w) by (try assumption; apply closed_commands); reflexivity|].
        split; [assumption|]. split; [assumption|]. split; [|reflexivity].
        apply gcmd_parse_err; [assumption|]. split; [|reflexivity]. now apply torn_line_no.
  Qed.
End BuildReading.

(** The graph made by some of the additions. *)
Lemma additions_within (V : N -> Prop) (E : N -> N -> Prop) cs : Forall addition cs ->
  (forall v, In (AddVertex v) cs -> V v) -> (forall a b, In (AddEdge a b) cs -> E a b /\ V a /\ V b) ->
  forall s : aset, (forall v, aV s v -> V v) -> (forall a b, aE s a b -> E a b) ->
  (forall v, aV (fold_left a_step cs s) v -> V v) /\ (forall a b, aE (fold_left a_step cs s) a b -> E a b).
Proof.
  induction cs as [|c cs IH]; intros F HV HE s SV SE; [now split|]. inversion F as [|? ? Hc F']; subst.
  cbn [fold_left]. apply IH; [assumption|intros v Hv; apply HV; now right|intros a b Hab; apply HE; now right| |].
  - destruct c as [v|v|a b|a b]; try contradiction; cbn.
    + intros x [Hx| ->]; [now apply SV|]. apply HV. now left.
    + intros x [Hx|[-> | ->]]; [now apply SV|apply (HE a b)|apply (HE a b)]; now left.
  - destruct c as [v|v|a b|a b]; try contradiction; cbn; [assumption|].
    intros x y [Hx|[-> ->]]; [now apply SE|]. apply HE. now left.
Qed.
Lemma In_firstn {A} (x : A) n l : In x (firstn n l) -> In x l.
Proof. intro H. rewrite <- (firstn_skipn n l). apply in_or_app. now left. Qed.
Lemma part_within g j : wf g ->
  (forall v, contains_vertex (apply_commands (firstn j (as_commands g)) g_new) v = true -> contains_vertex g v = true) /\
  (forall e, contains_edge (apply_commands (firstn j (as_commands g)) g_new) e = true -> contains_edge g e = true).
Proof.
  intro W. set (cs := firstn j (as_commands g)).
  assert (S : a_same (shown (apply_commands cs g_new)) (a_run cs)) by apply refines, built_by_apply.
  assert (Hin : forall c, In c cs -> In c (as_commands g)) by (intros c; apply In_firstn).
  destruct (additions_within (fun v => contains_vertex g v = true) (fun a b => contains_edge g (a, b) = true) cs) with (s := a_empty) as [H1 H2].
  - pose proof (as_commands_additions g) as F. rewrite Forall_forall in *. auto.
  - intros v Hv. apply Hin in Hv. unfold as_commands in Hv. apply in_app_or in Hv.
    rewrite !in_map_iff in Hv. destruct Hv as [(x & [= ->] & Hx)|(x & Hx & _)]; [|discriminate].
    now apply (vertices_spec W).
  - intros a b Hab. apply Hin in Hab. unfold as_commands in Hab. apply in_app_or in Hab.
    rewrite !in_map_iff in Hab. destruct Hab as [(x & Hx & _)|([x y] & [= -> ->] & Hx)]; [discriminate|].
    assert (He : contains_edge g (a, b) = true) by (apply (contains_edge_hasE a b W), (edges_In a b W), Hx).
    split; [assumption|]. unfold contains_edge in He. destruct (contains_vertex g a), (contains_vertex g b); try discriminate; now split.
  - intros v [].
  - intros a b [].
  - split; [intros v Hv; apply H1; now apply (proj1 S)|intros [a b] He; apply H2; now apply (proj2 S)].
Qed.
