(** * Crashes and interleavings *)
From Coq Require Import String.
From Coq Require Import List NArith Bool Arith Lia Permutation.
From Verif Require Import Spec Base Graph GraphSpec GraphFacts Text Format FormatSpec TextFacts FormatFacts
  Store StoreSpec StoreFacts.
Import ListNotations.
Open Scope N_scope.

(** ** Crashes *)
Lemma crash_bind A B (p : prog A) (f : A -> prog B) s s' :
  crash (bind p f) s s' <-> crash p s s' \/ crash (f (snd (run_prog p s))) (fst (run_prog p s)) s'.
Proof.
  revert s. induction p as [a|upd k IH]; intro s; cbn [bind run_prog].
  - cbn [fst snd]. split; [tauto|]. intros [H|H]; [|assumption]. inversion H; subst. constructor.
  - split.
    + intro H. inversion H as [|? ? ? ? H']; subst; [left; constructor|].
      apply IH in H'. destruct H' as [H'|H']; [left; now constructor|now right].
    + intros [H|H].
      * inversion H as [|? ? ? ? H']; subst; [constructor|]. constructor. apply IH. now left.
      * constructor. apply IH. now right.
Qed.
Lemma crash_ret A (a : A) s s' : crash (Ret a) s s' <-> s' = s.
Proof. split; [intro H; now inversion H|intros ->; constructor]. Qed.
Lemma crash_act A upd (k : fs -> prog A) s s' : crash (Act upd k) s s' <-> s' = s \/ crash (k s) (upd s) s'.
Proof.
  split.
  - intro H. inversion H; subst; tauto.
  - intros [->|H]; now constructor.
Qed.

Lemma crash_append cs : forall s c s', commands_entry s = File c -> crash (append_chunks cs) s s' ->
  exists n, s' = set_commands (File (c ++ concat (firstn n cs))) s.
Proof.
  induction cs as [|x cs IH]; intros s c s' Hc H; cbn [append_chunks] in H.
  - apply crash_ret in H. subst. exists O. cbn. rewrite app_nil_r.
    symmetry. apply set_commands_same. now apply commands_entry_dir.
  - apply crash_act in H. destruct H as [->|H].
    + exists O. cbn. rewrite app_nil_r. symmetry. apply set_commands_same. now apply commands_entry_dir.
    + unfold append_chunk in H. rewrite Hc in H.
      apply (IH _ (c ++ x)) in H; [|reflexivity]. destruct H as [n ->].
      exists (S n). cbn [firstn concat]. now rewrite set_commands_twice, <- app_assoc.
Qed.
Lemma crash_append_conv cs n : forall s c, commands_entry s = File c ->
  crash (append_chunks cs) s (set_commands (File (c ++ concat (firstn n cs))) s).
Proof.
  revert n. induction cs as [|x cs IH]; intros n s c Hc; cbn [append_chunks].
  - apply crash_ret. rewrite firstn_nil. cbn. rewrite app_nil_r. apply set_commands_same. now apply commands_entry_dir.
  - destruct n as [|n]; apply crash_act.
    + left. cbn. rewrite app_nil_r. apply set_commands_same. now apply commands_entry_dir.
    + right. unfold append_chunk. rewrite Hc. cbn [firstn concat].
      pose proof (IH n (set_commands (File (c ++ x)) s) (c ++ x) eq_refl) as H.
      now rewrite set_commands_twice, <- app_assoc in H.
Qed.
Lemma concat_firstn_prefix (cs : list text) n : prefix (concat (firstn n cs)) (concat cs).
Proof. exists (concat (skipn n cs)). now rewrite <- concat_app, firstn_skipn. Qed.

(** What changes and what does not when [lock] is interrupted. *)
Lemma crash_lock s s' : crash lock s s' -> fs_graph s' = fs_graph s.
Proof.
  unfold lock. intro H. apply crash_act in H. destruct H as [->|H]; [reflexivity|].
  apply crash_act in H. destruct H as [->|H]; [reflexivity|]. apply crash_ret in H. subst. reflexivity.
Qed.
Lemma crash_unlock s s' : crash unlock s s' -> fs_graph s' = fs_graph s.
Proof.
  unfold unlock. intro H. apply crash_act in H. destruct H as [->|H]; [reflexivity|].
  apply crash_ret in H. subst. destruct (fs_lock s); reflexivity.
Qed.
(** Some of the write calls were made. *)
Lemma crash_apply_writes chunks cs s s' c : commands_entry s = File c ->
  crash (apply_graph_commands chunks cs) s s' ->
  exists n, commands_entry s' = File (c ++ concat (firstn n (chunks (add_pieces cs)))).
Proof.
  intros Hc H. unfold apply_graph_commands, with_lock in H.
  assert (Hnil : forall t, fs_graph t = fs_graph s -> exists n, commands_entry t = File (c ++ concat (firstn n (chunks (add_pieces cs))))).
  { intros t Ht. exists O. cbn [firstn concat]. rewrite app_nil_r. unfold commands_entry in *. now rewrite Ht. }
  apply crash_bind in H. destruct H as [H|H]; [now apply Hnil, crash_lock|].
  rewrite run_lock in H. destruct (openable (fs_lock s)); cbn [fst snd] in H.
  2:{ apply crash_ret in H. subst. now apply Hnil. }
  assert (Hcl : commands_entry (locked s) = File c) by exact Hc.
  apply crash_bind in H. destruct H as [H|H].
  - unfold add_commands in H. apply crash_act in H. destruct H as [->|H]; [now apply Hnil|].
    rewrite Hcl in H. apply (crash_append _ _ _ _ Hcl) in H. destruct H as [n ->]. now exists n.
  - unfold add_commands in H. cbn [run_prog] in H. rewrite Hcl, (run_append_chunks _ _ c Hcl) in H. cbn [fst snd] in H.
    exists (length (chunks (add_pieces cs))). rewrite firstn_all.
    assert (Hend : fs_graph s' = GraphDir (File (c ++ concat (chunks (add_pieces cs))))); [|unfold commands_entry; now rewrite Hend].
    apply crash_bind in H. destruct H as [H|H]; [now apply crash_unlock in H|].
    rewrite run_unlock in H.
    destruct (fs_lock (set_commands (File (c ++ concat (chunks (add_pieces cs)))) (locked s))); cbn [fst snd] in H;
      apply crash_ret in H; subst; reflexivity.
Qed.
Lemma crash_apply chunks cs s s' c : buffering chunks -> commands_entry s = File c ->
  crash (apply_graph_commands chunks cs) s s' ->
  exists p, commands_entry s' = File (c ++ p) /\ prefix p (commands_text cs).
Proof.
  intros B Hc H. destruct (crash_apply_writes chunks cs s s' c Hc H) as [n E].
  eexists. split; [exact E|]. rewrite <- concat_add_pieces, <- (B (add_pieces cs)). apply concat_firstn_prefix.
Qed.
(** Every byte prefix is a possible result. *)
Definition bytewise (ps : list text) : list text := map (fun c => [c]) (concat ps).
Lemma bytewise_ok : buffering bytewise.
Proof. intro ps. unfold bytewise. induction (concat ps) as [|c t IH]; [reflexivity|]. cbn. now rewrite IH. Qed.
Lemma bytewise_firstn n ps : concat (firstn n (bytewise ps)) = firstn n (concat ps).
Proof.
  unfold bytewise. revert n. induction (concat ps) as [|c t IH]; intros [|n]; cbn; try reflexivity. now rewrite IH.
Qed.
Lemma crash_apply_conv cs s c p : openable (fs_lock s) = true -> commands_entry s = File c ->
  prefix p (commands_text cs) ->
  exists s', crash (apply_graph_commands bytewise cs) s s' /\ commands_entry s' = File (c ++ p) /\ openable (fs_lock s') = true.
Proof.
  intros Hl Hc [q Hq]. exists (set_commands (File (c ++ p)) (locked s)).
  split; [|split; [reflexivity|cbn; now destruct (fs_lock s)]].
  unfold apply_graph_commands, with_lock. apply crash_bind. right. rewrite run_lock, Hl. cbn [fst snd].
  assert (Hcl : commands_entry (locked s) = File c) by exact Hc.
  apply crash_bind. left. unfold add_commands. apply crash_act. right. rewrite Hcl.
  replace p with (concat (firstn (length p) (bytewise (add_pieces cs)))).
  - now apply crash_append_conv.
  - rewrite bytewise_firstn, concat_add_pieces, Hq, firstn_app, firstn_all, Nat.sub_diag. cbn. apply app_nil_r.
Qed.

Lemma crash_write cs : forall s c s', commands_entry s = File c -> crash (write_chunks (length c) cs) s s' ->
  exists n, s' = set_commands (File (c ++ concat (firstn n cs))) s.
Proof.
  induction cs as [|x cs IH]; intros s c s' Hc H; cbn [write_chunks] in H.
  - apply crash_ret in H. subst. exists O. cbn. rewrite app_nil_r.
    symmetry. apply set_commands_same. now apply commands_entry_dir.
  - apply crash_act in H. destruct H as [->|H].
    + exists O. cbn. rewrite app_nil_r. symmetry. apply set_commands_same. now apply commands_entry_dir.
    + unfold write_chunk in H. rewrite Hc, write_at_end, <- app_length in H.
      apply (IH _ (c ++ x)) in H; [|reflexivity]. destruct H as [n ->].
      exists (S n). cbn [firstn concat]. now rewrite set_commands_twice, <- app_assoc.
Qed.
Lemma crash_build nd chunks order s s' c : buffering chunks -> commands_entry s = File c ->
  crash (gc_build nd chunks order) s s' ->
  s' = s \/ exists g p, gcmd_read nd c = Done (Ok g) /\ commands_entry s' = File p /\ prefix p (gcmd_text (order g)).
Proof.
  intros B Hc H. unfold gc_build in H. apply crash_bind in H. destruct H as [H|H].
  - unfold load_graph in H. apply crash_act in H. destruct H as [->|H]; [tauto|]. apply crash_ret in H. tauto.
  - rewrite run_load, Hc in H. cbn [fst snd] in H.
    destruct (gcmd_read nd c) as [[g|m]| |]; try (apply crash_ret in H; tauto).
    assert (E : fs_graph s = GraphDir (File c)) by now apply commands_entry_dir.
    apply crash_bind in H. destruct H as [H|H].
    + unfold save_graph_as_commands in H. apply crash_act in H. destruct H as [->|H]; [tauto|].
      rewrite E in H. right. exists g.
      apply (crash_write _ (set_commands (File []) s) [] s' eq_refl) in H. destruct H as [n ->].
      eexists. split; [reflexivity|]. split; [reflexivity|]. pose proof (concat_firstn_prefix (chunks (save_pieces (order g))) n) as Hp. rewrite (B (save_pieces (order g))), concat_save_pieces in Hp. exact Hp.
    + rewrite run_save, E in H by assumption. cbn [fst snd] in H. apply crash_ret in H. subst.
      right. exists g, (gcmd_text (order g)). split; [reflexivity|]. split; [reflexivity|].
      exists []. now rewrite app_nil_r.
Qed.
(** The file is empty right after [File::create]. *)
Lemma crash_build_empty nd chunks order s c g : commands_entry s = File c -> gcmd_read nd c = Done (Ok g) ->
  crash (gc_build nd chunks order) s (set_commands (File []) s).
Proof.
  intros Hc Hg. unfold gc_build. apply crash_bind. right. rewrite run_load, Hc, Hg. cbn [fst snd].
  assert (E : fs_graph s = GraphDir (File c)) by now apply commands_entry_dir.
  apply crash_bind. left. unfold save_graph_as_commands. apply crash_act. right. rewrite E. constructor.
Qed.

(** ** Prefixes of written commands *)
Lemma prefix_commands cs : forall p, prefix p (commands_text cs) ->
  exists k w, p = commands_text (firstn k cs) ++ w /\
    ((w = [] /\ (k <= length cs)%nat) \/ exists c, nth_error cs k = Some c /\ w <> [] /\ prefix w (command_into_line c)).
Proof.
  induction cs as [|c cs IH]; intros p [q Hq].
  - exists O, []. cbn in Hq. symmetry in Hq. apply app_eq_nil in Hq. destruct Hq as [-> _].
    split; [reflexivity|]. left. cbn. auto.
  - cbn [commands_text map concat] in Hq. unfold writeln in Hq.
    fold (commands_text cs) in Hq.
    assert (Hsplit : forall (a b p q : text), a ++ b = p ++ q -> (exists r, p = a ++ r /\ b = r ++ q) \/ (exists r, a = p ++ r /\ r <> [] )).
    { clear. induction a as [|x a IH]; intros b p q E.
      - left. exists p. now split.
      - destruct p as [|y p].
        + right. exists (x :: a). split; [reflexivity|discriminate].
        + injection E as <- E. destruct (IH _ _ _ E) as [(r & -> & ->)|(r & -> & Hr)].
          * left. now exists r.
          * right. now exists r. }
    change (concat (map (fun c => command_into_line c ++ [10]) cs)) with (commands_text cs) in Hq.
    destruct (Hsplit _ _ _ _ Hq) as [(r & -> & E)|(r & E & Hr)].
    + destruct (IH r) as (k & w & -> & Hw); [now exists q|].
      exists (S k), w. split.
      * cbn [firstn commands_text map concat]. unfold writeln. fold (commands_text (firstn k cs)). now rewrite <- !app_assoc.
      * destruct Hw as [[-> Hk]|Hw]; [left; split; [reflexivity|cbn; lia]|right; exact Hw].
    + exists O, p. split; [reflexivity|]. destruct p as [|x p]; [left; split; [reflexivity|lia]|].
      right. exists c. split; [reflexivity|]. split; [discriminate|].
      destruct r as [|y r] using rev_ind; [congruence|].
      rewrite app_assoc in E. apply app_inj_tail in E. destruct E as [E _]. now exists r.
Qed.

(** [m] is what is left of the numeral [n] after cutting its end. *)
Definition cut_numeral (m n : N) : Prop := exists d q, canonical_numeral (d ++ q) n /\ numeral d m.
Definition cut_command (c' c : graph_command) : Prop :=
  match c', c with
  | AddVertex m, AddVertex n | RemoveVertex m, RemoveVertex n => cut_numeral m n
  | AddEdge a m, AddEdge b n | RemoveEdge a m, RemoveEdge b n => a = b /\ cut_numeral m n
  | _, _ => False
  end.

Section Torn.
  Variable nd : N -> bool.
  Hypothesis T : digit_table nd.
  Local Notation isd := (fun c => nd c = true).

  Lemma show_isd n : run isd (show n).
  Proof. apply run_ascii; [assumption|apply show_run]. Qed.
  Lemma prefix_show_numeral d q n : u64 n -> run isd d -> show n = d ++ q -> exists m, numeral d m.
  Proof.
    intros U [Hd _] E. exists (decimal d).
    destruct (show_spec n) as ([_ Hr] & Hv & _). rewrite E in Hr, Hv. apply Forall_app in Hr. destruct Hr as [Hr _].
    split; [now split|]. split; [reflexivity|]. rewrite decimal_app in Hv.
    assert (1 <= 10 ^ N.of_nat (length q)) by (assert (10 ^ N.of_nat (length q) <> 0) by (apply N.pow_nonzero; lia); lia).
    unfold u64 in *. nia.
  Qed.
  Lemma blank_space : run blank (txt " ").
  Proof. split; [discriminate|]. constructor; [|constructor]. apply ws_blank. reflexivity. Qed.
  Lemma edge_digits d1 w d2 a b q : run isd d1 -> run blank w -> run isd d2 ->
    show a ++ txt " " ++ show b = (d1 ++ w ++ d2) ++ q -> d1 = show a /\ show b = d2 ++ q.
  Proof.
    intros H1 Hw H2 E. rewrite <- !app_assoc in E.
    apply (edge_split nd T) in E.
    - destruct E as (-> & _ & ->). now split.
    - apply show_isd.
    - assumption.
    - apply blank_space.
    - assumption.
    - apply (digit_head nd T). apply show_isd.
    - intros c t Ec. destruct d2 as [|x d2]; [destruct H2; congruence|]. injection Ec as -> _.
      destruct H2 as [_ H2]. inversion H2; subst. now apply (proj2 T).
  Qed.
  (** A torn line parses to nothing, or to a command with a shortened last id. *)
  Lemma torn_parse w c : u64_command c -> prefix w (command_into_line c) ->
    (exists m, gcmd_parse_line nd w = Done (Err m)) \/
    (exists c', gcmd_parse_line nd w = Done (Ok c') /\ cut_command c' c).
  Proof.
    intros U [q Hq].
    assert (Hcut : forall d q n m, show n = d ++ q -> numeral d m -> cut_numeral m n).
    { intros d q' n m E Hm. exists d, q'. split; [rewrite <- E; apply show_spec|assumption]. }
    pose proof (gcmd_view_parse nd T w) as V. generalize dependent (gcmd_parse_line nd w). intros r V.
    inversion V as [d H E1 E2|d H E1 E2|d1 w' d2 H1 Hw H2 E1 E2|d1 w' d2 H1 Hw H2 E1 E2|l' H E1 E2]; subst.
    - right. destruct c as [v|v|a b|a b]; cbn [command_into_line] in Hq; try discriminate Hq.
      rewrite <- app_assoc in Hq. apply app_inv_head in Hq.
      destruct (prefix_show_numeral d q v U H Hq) as [m Hm].
      exists (AddVertex m). split; [apply (one_id_ok nd T _ _ _ H); eauto|]. cbn. eauto.
    - right. destruct c as [v|v|a b|a b]; cbn [command_into_line] in Hq; try discriminate Hq.
      rewrite <- app_assoc in Hq. apply app_inv_head in Hq.
      destruct (prefix_show_numeral d q v U H Hq) as [m Hm].
      exists (RemoveVertex m). split; [apply (one_id_ok nd T _ _ _ H); eauto|]. cbn. eauto.
    - right. destruct c as [v|v|a b|a b]; cbn [command_into_line] in Hq; try discriminate Hq.
      rewrite <- app_assoc in Hq. apply app_inv_head in Hq. destruct U as [Ua Ub].
      destruct (edge_digits d1 w' d2 a b q H1 Hw H2 Hq) as [-> E].
      destruct (prefix_show_numeral d2 q b Ub H2 E) as [m Hm].
      exists (AddEdge a m). split.
      + apply (two_ids_ok nd T); [assumption|assumption|]. exists a, m. split; [now apply show_numeral|now split].
      + cbn. eauto.
    - right. destruct c as [v|v|a b|a b]; cbn [command_into_line] in Hq; try discriminate Hq.
      rewrite <- app_assoc in Hq. apply app_inv_head in Hq. destruct U as [Ua Ub].
      destruct (edge_digits d1 w' d2 a b q H1 Hw H2 Hq) as [-> E].
      destruct (prefix_show_numeral d2 q b Ub H2 E) as [m Hm].
      exists (RemoveEdge a m). split.
      + apply (two_ids_ok nd T); [assumption|assumption|]. exists a, m. split; [now apply show_numeral|now split].
      + cbn. eauto.
    - left. eauto.
  Qed.
  Lemma prefix_line_facts w c : w <> [] -> prefix w (command_into_line c) -> no_lf w /\ ~ skipped w.
  Proof.
    intros Hn [q Hq]. split.
    - destruct (written_plain c) as [H _]. rewrite Hq in H. apply no_lf_app in H. apply H.
    - assert (Hx : exists x t, w = x :: t /\ (x = 65 \/ x = 82)).
      { destruct w as [|x w]; [congruence|]. exists x, w. split; [reflexivity|].
        destruct c; cbn in Hq; injection Hq as <- _; auto. }
      destruct Hx as (x & t & -> & Hx). intros [E|(w' & u & E & Hw)]; [discriminate|].
      destruct Hw as [|y w' Hy Hw]; injection E as -> _; [lia|]. unfold blank in Hy. cbn [In] in Hy. lia.
  Qed.
  Lemma reads_one_more ls cs l : reads (accepts (gcmd_parse_line nd)) ls cs -> ~ skipped l ->
    (forall c, gcmd_parse_line nd l = Done (Ok c) -> reads (accepts (gcmd_parse_line nd)) (ls ++ [l]) (cs ++ [c])).
  Proof.
    intros H Hs c Hc. apply reads_app; [assumption|]. apply reads_line; [assumption|exact Hc|constructor].
  Qed.

  (** How a file reads after a prefix of [cs'] was appended to it. *)
  Lemma read_torn content cs cs' p : closed content -> gcmd_read_as_commands nd content = Done (Ok cs) ->
    Forall u64_command cs' -> prefix p (commands_text cs') ->
    exists k, (k <= length cs')%nat /\
      (gcmd_read_as_commands nd (content ++ p) = Done (Ok (cs ++ firstn k cs')) \/
       (exists c c', nth_error cs' k = Some c /\ cut_command c' c /\
          gcmd_read_as_commands nd (content ++ p) = Done (Ok (cs ++ firstn k cs' ++ [c']))) \/
       (exists m, (k < length cs')%nat /\ gcmd_read_as_commands nd (content ++ p) = Done (Err m))).
  Proof.
    intros Hc Hr U Hp. destruct (prefix_commands cs' p Hp) as (k & w & -> & Hw).
    assert (Uk : Forall u64_command (firstn k cs')).
    { rewrite <- (firstn_skipn k cs') in U. now apply Forall_app in U. }
    apply read_as_commands_ok in Hr.
    assert (Hk : reads (accepts (gcmd_parse_line nd)) (lines (content ++ commands_text (firstn k cs'))) (cs ++ firstn k cs')).
    { rewrite lines_app_closed, lines_commands by assumption. apply reads_app; [assumption|now apply reads_commands]. }
    assert (Hc2 : closed (content ++ commands_text (firstn k cs'))) by (apply closed_app; [assumption|apply closed_commands]).
    destruct Hw as [[-> Hk']|(c & Hn & Hw & Hpw)].
    - exists k. split; [assumption|]. left. apply read_as_commands_ok. rewrite app_nil_r. assumption.
    - assert (Hlt : (k < length cs')%nat) by (apply nth_error_Some; congruence).
      exists k. split; [lia|].
      destruct (prefix_line_facts w c Hw Hpw) as [Hl Hs].
      assert (Uc : u64_command c) by (rewrite Forall_forall in U; apply U; eapply nth_error_In; eauto).
      rewrite app_assoc.
      destruct (torn_parse w c Uc Hpw) as [[m Hm]|(c' & Hok & Hcut)].
      + right. right.
        exists (txt "Error at line " ++ show (N.of_nat (length (lines (content ++ commands_text (firstn k cs')))) + 1) ++ txt ": " ++ m).
        split; [assumption|]. apply read_as_commands_err.
        exists (lines (content ++ commands_text (firstn k cs'))), w, [], (cs ++ firstn k cs'), m.
        split; [rewrite lines_app_closed, (lines_last w) by assumption; reflexivity|]. now repeat split.
      + right. left. exists c, c'. split; [assumption|]. split; [assumption|]. apply read_as_commands_ok.
        rewrite lines_app_closed, (lines_last w) by assumption. rewrite (app_assoc cs). now apply reads_one_more.
  Qed.
End Torn.

(** ** Interleavings *)
Lemma isteps_trans A (a b c : fs * list (prog A)) : isteps a b -> isteps b c -> isteps a c.
Proof. induction 1; intro H2; [assumption|]. econstructor; eauto. Qed.
(** One process runs to its end while the others wait. *)
Lemma run_isteps A (p : prog A) : forall s pre post,
  isteps (s, pre ++ p :: post) (fst (run_prog p s), pre ++ Ret (snd (run_prog p s)) :: post).
Proof.
  induction p as [a|upd k IH]; intros s pre post; cbn [run_prog]; [constructor|].
  eapply is_step; [|apply IH]. exists pre, upd, k, post. repeat split.
Qed.
(** A schedule: which process moves next. *)
Fixpoint step_nth {A} (n : nat) (s : fs) (ps : list (prog A)) {struct n} : fs * list (prog A) :=
  match n with
  | O => match ps with Act upd k :: t => (upd s, k s :: t) | _ => (s, ps) end
  | S m => match ps with [] => (s, ps) | p :: t => let r := step_nth m s t in (fst r, p :: snd r) end
  end.
Fixpoint run_schedule {A} (l : list nat) (s : fs) (ps : list (prog A)) : fs * list (prog A) :=
  match l with
  | [] => (s, ps)
  | n :: t => let r := step_nth n s ps in run_schedule t (fst r) (snd r)
  end.
Lemma step_nth_isteps A n : forall s (ps : list (prog A)), isteps (s, ps) (step_nth n s ps).
Proof.
  assert (H : forall n s (ps : list (prog A)), step_nth n s ps = (s, ps) \/ istep (s, ps) (step_nth n s ps)).
  { clear n. intros n s ps. revert n. induction ps as [|p ps IH]; intro n; [destruct n; now left|].
    destruct n as [|n].
    - destruct p as [a|upd k]; [now left|]. right. exists [], upd, k, ps. repeat split.
    - assert (E : step_nth (S n) s (p :: ps) = (fst (step_nth n s ps), p :: snd (step_nth n s ps))) by reflexivity.
      rewrite E. destruct (IH n) as [E'|(pre & upd & k & post & E1 & E2 & E3)].
      + left. now rewrite E'.
      + right. cbn [fst snd] in *. exists (p :: pre), upd, k, post. split; [cbn; now rewrite E1|]. split; [exact E2|]. cbn. now rewrite E3. }
  intros s ps. destruct (H n s ps) as [->|Hs]; [constructor|]. econstructor; [exact Hs|constructor].
Qed.
Lemma run_schedule_isteps A l : forall s (ps : list (prog A)), isteps (s, ps) (run_schedule l s ps).
Proof.
  induction l as [|n l IH]; intros s ps; cbn [run_schedule]; [constructor|].
  eapply isteps_trans; [apply (step_nth_isteps A n)|]. cbn zeta. destruct (step_nth n s ps) as [s1 ps1]. apply IH.
Qed.

(** The part of [with_lock] after the lock was taken. *)
Definition section {A} (block : prog (io A)) : prog (io A) :=
  bind block (fun res => bind unlock (fun u => match u with IoErr => Ret IoErr | IoOk _ => Ret res end)).
Lemma both_inside A (b1 b2 : prog (io A)) s : openable (fs_lock s) = true ->
  exists s', isteps (s, [with_lock b1; with_lock b2]) (s', [section b1; section b2]) /\
    fs_graph s' = fs_graph s.
Proof.
  intro H.
  exists (fst (run_schedule [0%nat; 0%nat; 1%nat; 1%nat] s [with_lock b1; with_lock b2])).
  pose proof (run_schedule_isteps _ [0%nat; 0%nat; 1%nat; 1%nat] s [with_lock b1; with_lock b2]) as R.
  destruct s as [r [|l|] d]; try discriminate H; (split; [exact R|reflexivity]).
Qed.

(** ** Appending processes *)
(** A writer that gathers everything in one write. *)
Definition at_once (ps : list text) : list text := [concat ps].
Lemma at_once_ok : buffering at_once.
Proof. intro ps. cbn. apply app_nil_r. Qed.
(** The second step of [lock]. *)
Definition opening : prog (io unit) :=
  Act (fun s => if fs_root s then set_lock (created (fs_lock s)) s else s)
      (fun s => Ret (if fs_root s && openable (fs_lock s) then IoOk tt else IoErr)).
Definition calm (s : fs) (c : text) : Prop :=
  fs_root s = true /\ openable (fs_lock s) = true /\ fs_graph s = GraphDir (File c).
Definition texts (l : list (list graph_command)) : text := concat (map commands_text l).
Lemma texts_concat l : texts l = commands_text (concat l).
Proof.
  unfold texts, commands_text. induction l as [|x l IH]; [reflexivity|]. cbn [map concat].
  now rewrite map_app, concat_app, IH.
Qed.

Section Writers.
  Inductive phase := Early | Inside | Over.
  Definition after_opening (ch : list text -> list text) (cs : list graph_command) : io unit -> prog (io unit) :=
    fun r => match r with IoErr => Ret IoErr | IoOk _ => section (add_commands ch cs) end.
  (** A residual program, where it stands and the pieces it has left to write. *)
  Inductive wstage : phase * list text -> prog (io unit) -> Prop :=
  | w0 ch cs : wstage (Early, ch (add_pieces cs)) (apply_graph_commands ch cs)
  | w1 ch cs : wstage (Early, ch (add_pieces cs)) (bind opening (after_opening ch cs))
  | w2 ch cs : wstage (Inside, ch (add_pieces cs)) (section (add_commands ch cs))
  | w3 r : wstage (Inside, r) (section (append_chunks r))
  | w4 res : wstage (Over, []) (Ret res).

  (** What one step of a process does. *)
  Lemma wstage_step ph r upd k s c : calm s c -> wstage (ph, r) (Act upd k) ->
    (ph = Early /\ calm (upd s) c /\ fs_lock (upd s) = fs_lock s /\ wstage (Early, r) (k s)) \/
    (ph = Early /\ calm (upd s) c /\ fs_lock (upd s) <> Absent /\ wstage (Inside, r) (k s)) \/
    (ph = Inside /\ fs_lock (upd s) = fs_lock s /\ wstage (Inside, r) (k s) /\ calm (upd s) c) \/
    (ph = Inside /\ fs_lock (upd s) = fs_lock s /\ exists x r', r = x :: r' /\ wstage (Inside, r') (k s) /\ calm (upd s) (c ++ x)) \/
    (ph = Inside /\ r = [] /\ calm (upd s) c /\ fs_lock (upd s) = Absent /\
       exists res, k s = Ret res /\ (fs_lock s <> Absent -> res = IoOk tt)).
  Proof.
    intros (Hr & Hl & Hg) H. destruct s as [rt l d]. cbn in Hr, Hl, Hg. subst rt d.
    inversion H as [ch cs|ch cs|ch cs|r0|res]; subst.
    - left. split; [reflexivity|]. split; [destruct l; repeat split; try assumption; discriminate|].
      split; [reflexivity|]. apply w1.
    - right. left. split; [reflexivity|]. cbn in *.
      destruct l; try discriminate; (split; [repeat split|]); (split; [discriminate|apply w2]).
    - right. right. left. split; [reflexivity|]. cbn in *. split; [reflexivity|]. split; [apply w3|].
      destruct l; try discriminate; repeat split.
    - right. right. right. destruct r as [|x r].
      + right. split; [reflexivity|]. split; [reflexivity|]. cbn in *.
        match goal with E : Act _ _ = Act _ _ |- _ => injection E as <- <- end.
        destruct l; try discriminate; (split; [repeat split|]); (split; [reflexivity|]);
          eexists; (split; [reflexivity|]); [intro E; now elim E|reflexivity].
      + left. split; [reflexivity|]. cbn in *.
        match goal with E : Act _ _ = Act _ _ |- _ => injection E as <- <- end.
        split; [reflexivity|]. exists x, r. split; [reflexivity|]. split; [apply w3|].
        destruct l; try discriminate; repeat split.
  Qed.

  Definition winv (c : text) (ls : list (list text)) (x : fs * list (prog (io unit))) : Prop :=
    exists xs m, Forall2 wstage xs (snd x) /\ emits ls m (map snd xs) /\ calm (fst x) (c ++ concat m) /\
      (ls <> [] -> In (Ret (IoOk tt)) (snd x) \/ In Early (map fst xs) \/
         (fs_lock (fst x) <> Absent /\ In Inside (map fst xs))) /\
      (Forall (eq Over) (map fst xs) -> ls <> [] -> fs_lock (fst x) = Absent).

  Lemma Forall_mid A (P : A -> Prop) l x l' : Forall P (l ++ x :: l') -> P x.
  Proof. intro H. rewrite Forall_forall in H. apply H, in_or_app. right. now left. Qed.
  Lemma In_mid A (y x x' : A) l l' : In y (l ++ x :: l') -> y <> x -> In y (l ++ x' :: l').
  Proof. rewrite !in_app_iff. cbn. intuition congruence. Qed.

  Lemma winv_step c ls x y : winv c ls x -> istep x y -> winv c ls y.
  Proof.
    intros (xs & m & HF & Hm & Hs & Hi & Ho) (pre & upd & k & post & E1 & E2 & E3).
    destruct x as [s ps], y as [s' ps']. cbn [fst snd] in *. subst ps s' ps'.
    apply Forall2_app_inv_r in HF as (xa & xb & Ha & Hb & ->).
    inversion Hb as [|[ph r] p0 xc ps0 Hst Hc]; subst.
    rewrite !map_app in *. cbn [map fst snd] in *.
    assert (Hret : forall res, In (Ret (A := io unit) res) (pre ++ Act upd k :: post) ->
              In (Ret res) (pre ++ k s :: post)).
    { intros res Hin. eapply In_mid; [exact Hin|discriminate]. }
    assert (Hkeep : forall ph' r', wstage (ph', r') (k s) -> Forall2 wstage (xa ++ (ph', r') :: xc) (pre ++ k s :: post)).
    { intros ph' r' Hw. apply Forall2_app; [assumption|]. now constructor. }
    destruct (wstage_step ph r upd k s _ Hs Hst) as
      [(-> & H1 & H2 & H3)|[(-> & H1 & H2 & H3)|[(-> & H1 & H2 & H3)|[(-> & H1 & x & r' & -> & H2 & H3)|(-> & -> & H1 & H2 & res & H3 & H4)]]]].
    - exists (xa ++ (Early, r) :: xc), m. rewrite !map_app. cbn [map fst snd].
      split; [now apply Hkeep|]. split; [assumption|]. split; [assumption|]. split.
      + intros _. right. left. apply in_or_app. right. now left.
      + intro F. apply Forall_mid in F. discriminate.
    - exists (xa ++ (Inside, r) :: xc), m. rewrite !map_app. cbn [map fst snd].
      split; [now apply Hkeep|]. split; [assumption|]. split; [assumption|]. split.
      + intros _. right. right. split; [assumption|]. apply in_or_app. right. now left.
      + intro F. apply Forall_mid in F. discriminate.
    - exists (xa ++ (Inside, r) :: xc), m. rewrite !map_app. cbn [map fst snd].
      split; [now apply Hkeep|]. split; [assumption|]. split; [assumption|]. split.
      + intro Hne. rewrite H1. destruct (Hi Hne) as [H|H]; auto.
      + intro F. apply Forall_mid in F. discriminate.
    - exists (xa ++ (Inside, r') :: xc), (m ++ [x]). rewrite !map_app. cbn [map fst snd].
      split; [now apply Hkeep|]. split; [now constructor|].
      split; [rewrite concat_app; cbn [concat]; rewrite app_nil_r, app_assoc; exact H3|]. split.
      + intro Hne. rewrite H1. destruct (Hi Hne) as [H|H]; auto.
      + intro F. apply Forall_mid in F. discriminate.
    - exists (xa ++ (Over, []) :: xc), m. rewrite !map_app. cbn [map fst snd].
      split; [apply Hkeep; rewrite H3; constructor|]. split; [assumption|]. split; [assumption|]. split.
      + intro Hne. destruct (Hi Hne) as [H|[H|[Hf _]]]; auto.
        * right. left. eapply In_mid; [exact H|discriminate].
        * left. rewrite H3, (H4 Hf). apply in_or_app. right. now left.
      + intros _ _. assumption.
  Qed.
  Lemma winv_steps c ls x y : isteps x y -> winv c ls x -> winv c ls y.
  Proof. induction 1; intro; [assumption|]. eauto using winv_step. Qed.

  Lemma winv_init s c (ws : list ((list text -> list text) * list graph_command)) : calm s c ->
    winv c (map (fun w => fst w (add_pieces (snd w))) ws)
      (s, map (fun w => apply_graph_commands (fst w) (snd w)) ws).
  Proof.
    intro Hs. exists (map (fun w => (Early, fst w (add_pieces (snd w)))) ws), [].
    cbn [fst snd]. rewrite !map_map. cbn [fst snd]. split.
    { induction ws as [|w ws IH]; cbn [map]; [constructor|]. constructor; [apply w0|assumption]. }
    split; [constructor|]. split; [cbn; now rewrite app_nil_r|]. split.
    - intro Hne. right. left. destruct ws; [now elim Hne|]. now left.
    - intros F Hne. destruct ws; [now elim Hne|]. inversion F. discriminate.
  Qed.
  Lemma wstages_over xs ps : Forall2 wstage xs ps -> Forall (fun p => exists r, p = Ret r) ps ->
    Forall (eq Over) (map fst xs) /\ Forall (eq []) (map snd xs).
  Proof.
    induction 1 as [|x p xs ps Hw _ IH]; intro F; cbn [map]; [split; constructor|].
    inversion F as [|? ? [r ->] F']; subst. destruct (IH F') as [I1 I2].
    inversion Hw as [ch cs E E'|ch cs E E'|ch cs E E'|r0 E E'|res E E']; subst; try discriminate E'.
    - destruct r0; discriminate E'.
    - cbn [fst snd]. split; constructor; auto.
  Qed.
End Writers.

(** ** Writers that make at most one write each *)
Lemma emits_permutation ls m rs : emits ls m rs -> Permutation (m ++ concat rs) (concat ls).
Proof.
  induction 1 as [ls|ls m pre x r post H IH]; [reflexivity|]. rewrite <- IH, !concat_app. cbn [concat app].
  rewrite <- !app_assoc. apply Permutation_app_head. cbn [app]. apply Permutation_middle.
Qed.
Lemma commands_text_nil cs : commands_text cs = [] -> cs = [].
Proof. destruct cs as [|[v|v|a b|a b] cs]; [reflexivity|discriminate..]. Qed.
Lemma one_write_cases chunks cs : buffering chunks -> (length (chunks (add_pieces cs)) <= 1)%nat ->
  (cs = [] /\ chunks (add_pieces cs) = []) \/ chunks (add_pieces cs) = [commands_text cs].
Proof.
  intros B Hl. pose proof (B (add_pieces cs)) as E. rewrite concat_add_pieces in E.
  destruct (chunks (add_pieces cs)) as [|x [|y l]]; cbn in *; [|right; now rewrite app_nil_r in E; subst|lia].
  left. split; [now apply commands_text_nil|reflexivity].
Qed.
(** Of the texts of such writers, those written form a list of whole requests. *)
Lemma emits_whole (ws : list ((list text -> list text) * list graph_command)) m rs :
  Forall (fun w => buffering (fst w) /\ (length (fst w (add_pieces (snd w))) <= 1)%nat) ws ->
  emits (map (fun w => fst w (add_pieces (snd w))) ws) m rs ->
  exists written rest, Permutation (written ++ rest) (map snd ws) /\ concat m = texts written /\
    (Forall (eq []) rs -> rest = []).
Proof.
  intros F H. apply emits_permutation in H.
  assert (Hs : exists full none, Permutation (full ++ none) (map snd ws) /\ Forall (eq []) none /\
            concat (map (fun w => fst w (add_pieces (snd w))) ws) = map commands_text full).
  { clear H. induction F as [|w ws [B Hl] _ (full & none & Hp & Hn & E)]; [exists [], []; repeat split; constructor|].
    cbn [map concat]. destruct (one_write_cases _ _ B Hl) as [[E1 E2]|E2]; rewrite E2, E.
    - exists full, (snd w :: none). split; [rewrite <- Permutation_middle; now constructor|].
      split; [constructor; [now symmetry|assumption]|reflexivity].
    - exists (snd w :: full), none. split; [cbn; now constructor|]. split; [assumption|reflexivity]. }
  destruct Hs as (full & none & Hp & Hn & E). rewrite E in H.
  destruct (Permutation_map_inv _ _ H) as (l & El & Pl).
  symmetry in El. apply map_eq_app in El. destruct El as (l1 & l2 & -> & E1 & E2).
  exists (none ++ l1), l2. split.
  - rewrite <- Hp, Pl, <- app_assoc. apply Permutation_app_comm.
  - split.
    + unfold texts. rewrite map_app, concat_app, <- E1.
      replace (concat (map commands_text none)) with (@nil N); [reflexivity|].
      clear - Hn. induction Hn as [|x none <- _ IH]; [reflexivity|]. exact IH.
    + intro Fr. destruct l2 as [|x l2]; [reflexivity|]. exfalso.
      assert (Hr : concat rs = []) by (clear - Fr; induction Fr as [|x rs <- _ IH]; [reflexivity|exact IH]).
      rewrite Hr in E2. discriminate.
Qed.

(** An interrupted addition that makes at most one write. *)
Lemma crash_apply_lock chunks cs s s' c : openable (fs_lock s) = true -> commands_entry s = File c ->
  crash (apply_graph_commands chunks cs) s s' -> openable (fs_lock s') = true.
Proof.
  intros Hl Hc H. unfold apply_graph_commands, with_lock in H.
  assert (Hcr : openable (created (fs_lock s)) = true) by now destruct (fs_lock s).
  apply crash_bind in H. destruct H as [H|H].
  - unfold lock in H. apply crash_act in H. destruct H as [->|H]; [assumption|].
    apply crash_act in H. destruct H as [->|H]; [assumption|]. apply crash_ret in H. subst. exact Hcr.
  - rewrite run_lock, Hl in H. cbn [fst snd] in H. assert (Hcl : commands_entry (locked s) = File c) by exact Hc.
    apply crash_bind in H. destruct H as [H|H].
    + unfold add_commands in H. apply crash_act in H. destruct H as [->|H]; [exact Hcr|].
      rewrite Hcl in H. apply (crash_append _ _ _ _ Hcl) in H. destruct H as [n ->]. exact Hcr.
    + unfold add_commands in H. cbn [run_prog] in H. rewrite Hcl, (run_append_chunks _ _ c Hcl) in H. cbn [fst snd] in H.
      apply crash_bind in H. destruct H as [H|H].
      * unfold unlock in H. apply crash_act in H. destruct H as [->|H]; [exact Hcr|]. apply crash_ret in H. subst.
        cbn [set_commands set_graph fs_lock]. destruct (locked_file s Hl) as [x ->]. reflexivity.
      * rewrite run_unlock in H. cbn [set_commands set_graph fs_lock] in H. destruct (locked_file s Hl) as [x Ex].
        rewrite Ex in H. cbn [fst snd] in H. apply crash_ret in H. subst. reflexivity.
Qed.
Lemma crash_apply_once chunks cs s s' c : buffering chunks -> (length (chunks (add_pieces cs)) <= 1)%nat ->
  openable (fs_lock s) = true -> commands_entry s = File c ->
  crash (apply_graph_commands chunks cs) s s' ->
  openable (fs_lock s') = true /\
  (fs_graph s' = GraphDir (File c) \/ fs_graph s' = GraphDir (File (c ++ commands_text cs))).
Proof.
  intros B H1 Hl Hc H. split; [now apply (crash_apply_lock chunks cs s s' c)|].
  destruct (crash_apply_writes chunks cs s s' c Hc H) as [n E]. apply commands_entry_dir in E. rewrite E.
  destruct (one_write_cases chunks cs B H1) as [[_ ->]| ->].
  - left. destruct n; cbn; now rewrite app_nil_r.
  - destruct n as [|n]; cbn; [left; now rewrite app_nil_r|right].
    replace (firstn n []) with (@nil text) by now destruct n. cbn. now rewrite app_nil_r.
Qed.
