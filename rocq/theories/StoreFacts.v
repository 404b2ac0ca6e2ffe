(** * Facts about the file-system programs *)
From Coq Require Import String.
From Coq Require Import List NArith Bool Arith Lia Permutation.
From Verif Require Import Spec Base Graph GraphSpec GraphFacts Text Format FormatSpec TextFacts FormatFacts
  Store StoreSpec.
Import ListNotations.
Open Scope N_scope.

Lemma run_bind A B (p : prog A) (f : A -> prog B) s :
  run_prog (bind p f) s = run_prog (f (snd (run_prog p s))) (fst (run_prog p s)).
Proof. revert s. induction p as [a|upd k IH]; intro s; cbn [bind run_prog]; [reflexivity|]. apply IH. Qed.

Definition locked (s : fs) : fs := set_lock (created (fs_lock s)) (set_root true s).
Lemma run_lock s : run_prog lock s =
  if openable (fs_lock s) then (locked s, IoOk tt) else (set_root true s, IoErr).
Proof. destruct s as [r [|c|] d]; reflexivity. Qed.
Lemma run_unlock s : run_prog unlock s =
  match fs_lock s with File _ => (set_lock Absent s, IoOk tt) | _ => (s, IoErr) end.
Proof. destruct s as [r [|c|] d]; reflexivity. Qed.
Lemma run_with_lock A (block : prog (io A)) s : run_prog (with_lock block) s =
  if openable (fs_lock s) then
    let r := run_prog block (locked s) in
    match fs_lock (fst r) with
    | File _ => (set_lock Absent (fst r), snd r)
    | _ => (fst r, IoErr)
    end
  else (set_root true s, IoErr).
Proof.
  unfold with_lock. rewrite run_bind, run_lock. destruct (openable (fs_lock s)); [|reflexivity].
  cbn [fst snd]. rewrite run_bind, run_bind, run_unlock.
  destruct (run_prog block (locked s)) as [s1 r]. cbn [fst snd].
  destruct (fs_lock s1); reflexivity.
Qed.

Lemma run_init s : run_prog init s =
  match fs_graph s with
  | NotADir => (set_root true s, IoErr)
  | NoGraph => (set_commands (File []) (set_root true s), IoOk tt)
  | GraphDir e => (set_commands (created e) (set_root true s), if openable e then IoOk tt else IoErr)
  end.
Proof. destruct s as [r l [| |e]]; reflexivity. Qed.

Lemma commands_set e s : commands_entry (set_commands e s) = e.
Proof. reflexivity. Qed.
Lemma set_commands_twice e e' s : set_commands e (set_commands e' s) = set_commands e s.
Proof. reflexivity. Qed.
Lemma commands_entry_dir s c : commands_entry s = File c -> fs_graph s = GraphDir (File c).
Proof. unfold commands_entry. destruct (fs_graph s); congruence. Qed.
Lemma set_commands_same s e : fs_graph s = GraphDir e -> set_commands e s = s.
Proof. destruct s as [r l d]. cbn. now intros ->. Qed.

Lemma concat_add_pieces cs : concat (add_pieces cs) = commands_text cs.
Proof.
  unfold add_pieces, commands_text, writeln. induction cs as [|c cs IH]; [reflexivity|]. cbn [map concat app].
  now rewrite IH, <- app_assoc.
Qed.
Lemma concat_save_pieces g : concat (save_pieces g) = gcmd_text g.
Proof.
  unfold save_pieces, gcmd_text, writeln. rewrite concat_app. apply f_equal2.
  - induction (vertices g) as [|v l IH]; [reflexivity|]. cbn [map concat]. rewrite concat_app, IH. cbn [concat].
    now rewrite app_nil_r, <- !app_assoc.
  - induction (edges g) as [|e l IH]; [reflexivity|]. cbn [map concat]. rewrite concat_app, IH. cbn [concat].
    now rewrite app_nil_r, <- !app_assoc.
Qed.
Lemma run_append_chunks cs : forall s c, commands_entry s = File c ->
  run_prog (append_chunks cs) s = (set_commands (File (c ++ concat cs)) s, IoOk tt).
Proof.
  induction cs as [|x cs IH]; intros s c H; cbn [append_chunks run_prog concat].
  - rewrite app_nil_r. now rewrite set_commands_same by now apply commands_entry_dir.
  - unfold append_chunk. rewrite H. rewrite (IH _ (c ++ x)) by reflexivity.
    now rewrite set_commands_twice, <- app_assoc.
Qed.
Lemma run_add_commands chunks cs s : buffering chunks -> run_prog (add_commands chunks cs) s =
  match commands_entry s with
  | File c => (set_commands (File (c ++ commands_text cs)) s, IoOk tt)
  | _ => (s, IoErr)
  end.
Proof.
  intro B. unfold add_commands. cbn [run_prog]. destruct (commands_entry s) as [|c|] eqn:E; try reflexivity.
  rewrite (run_append_chunks _ s c E), (B (add_pieces cs)), concat_add_pieces. reflexivity.
Qed.
Definition released (s : fs) : fs := set_lock Absent (set_root true s).
Lemma locked_file s : openable (fs_lock s) = true -> exists c, fs_lock (locked s) = File c.
Proof. destruct s as [r [|c|] d]; cbn; intro; try discriminate; eauto. Qed.
Lemma run_apply chunks cs s : buffering chunks -> run_prog (apply_graph_commands chunks cs) s =
  if openable (fs_lock s) then
    match commands_entry s with
    | File c => (set_commands (File (c ++ commands_text cs)) (released s), IoOk tt)
    | _ => (released s, IoErr)
    end
  else (set_root true s, IoErr).
Proof.
  intro B. unfold apply_graph_commands. rewrite run_with_lock.
  destruct (openable (fs_lock s)) eqn:E; [|reflexivity]. cbn zeta.
  rewrite run_add_commands by assumption. destruct (locked_file s E) as [l Hl].
  change (commands_entry (locked s)) with (commands_entry s).
  destruct (commands_entry s) as [|c|]; cbn [fst snd set_commands set_graph fs_lock]; rewrite Hl; reflexivity.
Qed.

(** Writing from the start of an empty file. *)
Lemma write_at_end c old : write_at (length old) c old = old ++ c.
Proof.
  unfold write_at. rewrite firstn_all, Nat.sub_diag, skipn_all2 by lia. cbn. now rewrite app_nil_r.
Qed.
Lemma run_write_chunks cs : forall s c, commands_entry s = File c ->
  run_prog (write_chunks (length c) cs) s = (set_commands (File (c ++ concat cs)) s, IoOk tt).
Proof.
  induction cs as [|x cs IH]; intros s c H; cbn [write_chunks run_prog concat].
  - rewrite app_nil_r. now rewrite set_commands_same by now apply commands_entry_dir.
  - unfold write_chunk. rewrite H, write_at_end, <- app_length. rewrite (IH _ (c ++ x)) by reflexivity.
    now rewrite set_commands_twice, <- app_assoc.
Qed.
Lemma run_save chunks g s : buffering chunks -> run_prog (save_graph_as_commands chunks g) s =
  match fs_graph s with
  | GraphDir Directory => (s, IoErr)
  | GraphDir _ => (set_commands (File (gcmd_text g)) s, IoOk tt)
  | _ => (s, IoErr)
  end.
Proof.
  intro B. unfold save_graph_as_commands. cbn [run_prog]. destruct (fs_graph s) as [| |[|c|]] eqn:E; try reflexivity.
  - pose proof (run_write_chunks (chunks (save_pieces g)) (set_commands (File []) s) [] eq_refl) as H.
    rewrite (B (save_pieces g)), concat_save_pieces in H. exact H.
  - pose proof (run_write_chunks (chunks (save_pieces g)) (set_commands (File []) s) [] eq_refl) as H.
    rewrite (B (save_pieces g)), concat_save_pieces in H. exact H.
Qed.
Lemma run_load nd s : run_prog (load_graph nd) s =
  (s, match commands_entry s with
      | File c => gcmd_read nd c
      | Absent => Done (Err (txt "io error"))
      | Directory => Panic
      end).
Proof. reflexivity. Qed.
Lemma run_build nd chunks order s : buffering chunks -> run_prog (gc_build nd chunks order) s =
  match commands_entry s with
  | File c =>
    match gcmd_read nd c with
    | Done (Ok g) => (set_commands (File (gcmd_text (order g))) s, Success)
    | _ => (s, Failure)
    end
  | _ => (s, Failure)
  end.
Proof.
  intro B. unfold gc_build. rewrite run_bind, run_load. cbn [fst snd].
  destruct (commands_entry s) as [|c|] eqn:E; try reflexivity.
  destruct (gcmd_read nd c) as [[g|m]| |]; try reflexivity.
  rewrite run_bind, run_save by assumption. apply commands_entry_dir in E. rewrite E. reflexivity.
Qed.
Lemma run_clean s : run_prog clean s =
  if openable (fs_lock s) then
    match fs_graph s with
    | GraphDir _ => (set_graph NoGraph (released s), IoOk tt)
    | _ => (released s, IoErr)
    end
  else (set_root true s, IoErr).
Proof.
  unfold clean. rewrite run_with_lock. destruct (openable (fs_lock s)) eqn:E; [|reflexivity]. cbn zeta.
  destruct (locked_file s E) as [l Hl]. cbn [run_prog].
  change (fs_graph (locked s)) with (fs_graph s).
  destruct (fs_graph s) as [| |e]; cbn [fst snd set_graph fs_lock]; rewrite Hl; reflexivity.
Qed.

(** ** Commands read from a file have u64 ids *)
Lemma reads_u64 nd ls cs : digit_table nd ->
  reads (accepts (gcmd_parse_line nd)) ls cs -> Forall u64_command cs.
Proof.
  intros T. induction 1 as [|l ls cs Hs H IH|l ls c cs Hs Ha H IH]; [constructor|assumption|].
  constructor; [|assumption]. apply gcmd_parse_ok in Ha; [|assumption].
  inversion Ha; subst; cbn; unfold numeral in *; tauto.
Qed.
Lemma read_u64 nd s cs : digit_table nd -> gcmd_read_as_commands nd s = Done (Ok cs) -> Forall u64_command cs.
Proof. intros T H. apply read_as_commands_ok in H. now apply reads_u64 in H. Qed.

Lemma a_run_u64 cs : Forall u64_command cs -> forall v, aV (a_run cs) v -> u64 v.
Proof.
  unfold a_run. assert (H : forall s, (forall v, aV s v -> u64 v) -> Forall u64_command cs ->
    forall v, aV (fold_left a_step cs s) v -> u64 v).
  { clear. induction cs as [|c cs IH]; intros s Hs Hc; cbn [fold_left]; [assumption|].
    inversion Hc; subst. apply IH; [|assumption]. intros v Hv.
    destruct c; cbn in *; intuition (subst; auto). }
  intro Hc. apply H; [|assumption]. intros v [].
Qed.
Lemma built_by_u64 cs g : built_by cs g -> Forall u64_command cs -> u64_graph g.
Proof.
  intros B Hc v Hv. apply (a_run_u64 cs Hc). apply refines in B. now apply (proj1 B).
Qed.

Lemma gcmd_read_ok nd s g : gcmd_read nd s = Done (Ok g) <->
  exists cs, gcmd_read_as_commands nd s = Done (Ok cs) /\ g = apply_commands cs g_new.
Proof.
  unfold gcmd_read, read, gcmd_read_as_commands.
  destruct (read_as_commands (gcmd_parse_line nd) is_comment s) as [[cs|m]| |]; cbn [obind]; split;
    try discriminate; try (intros (? & ? & ?); congruence).
  intros [= <-]. eauto.
Qed.

(** ** Histories *)
Definition invocation_commands (i : invocation) : list graph_command :=
  match i with
  | Init | Build => []
  | AddVertices vids => map AddVertex vids
  | AddEdges es => map (fun e => AddEdge (fst e) (snd e)) es
  | RemoveVertices vids => map RemoveVertex vids
  | RemoveEdges es => map (fun e => RemoveEdge (fst e) (snd e)) es
  end.
Lemma fold_map A B C (f : A -> B) (h : C -> B -> C) l : forall s,
  fold_left h (map f l) s = fold_left (fun s a => h s (f a)) l s.
Proof. induction l as [|a l IH]; intro s; [reflexivity|]. cbn. apply IH. Qed.
Lemma invocation_commands_spec i s : fold_left a_step (invocation_commands i) s = a_invoke s i.
Proof. destruct i; cbn [invocation_commands a_invoke]; rewrite ?fold_map; reflexivity. Qed.
Lemma invocation_commands_u64 i : u64_invocation i -> Forall u64_command (invocation_commands i).
Proof.
  destruct i; cbn [invocation_commands u64_invocation]; intro H; try apply Forall_nil;
    apply Forall_map; (eapply Forall_impl; [|exact H]); intros x Hx; exact Hx.
Qed.

(** The directory holds a commands file that ends with a line break and reads as
    a list of commands with the abstract value [a]. *)
Definition holds (nd : N -> bool) (s : fs) (a : aset) : Prop :=
  openable (fs_lock s) = true /\
  exists c cs, fs_graph s = GraphDir (File c) /\ closed c /\
    gcmd_read_as_commands nd c = Done (Ok cs) /\ a_same (a_run cs) a.

Lemma holds_load nd s a : digit_table nd -> holds nd s a ->
  exists g, snd (run_prog (load_graph nd) s) = Done (Ok g) /\ built g /\ a_same (shown g) a.
Proof.
  intros T (_ & c & cs & E & _ & H & Ha). exists (apply_commands cs g_new).
  rewrite run_load. cbn [snd]. unfold commands_entry. rewrite E.
  split; [apply gcmd_read_ok; eauto|]. split; [apply built_apply_commands, built_empty|].
  eapply a_same_trans; [|exact Ha]. apply refines, built_by_apply.
Qed.
Lemma holds_apply nd chunks cs s a : digit_table nd -> buffering chunks -> Forall u64_command cs -> holds nd s a ->
  snd (run_prog (apply_graph_commands chunks cs) s) = IoOk tt /\
  holds nd (fst (run_prog (apply_graph_commands chunks cs) s)) (fold_left a_step cs a).
Proof.
  intros T B U (Hl & c & cs0 & E & Hc & Hr & Ha). rewrite run_apply, Hl by assumption.
  unfold commands_entry. rewrite E. cbn [fst snd]. split; [reflexivity|]. split; [reflexivity|].
  exists (c ++ commands_text cs), (cs0 ++ cs). split; [reflexivity|].
  split; [apply closed_app; [assumption|apply closed_commands]|]. split.
  - apply read_as_commands_ok in Hr. apply read_as_commands_ok.
    rewrite lines_app_closed, lines_commands by assumption. apply reads_app; [assumption|now apply reads_commands].
  - unfold a_run in *. rewrite fold_left_app. now apply a_run_app_same.
Qed.
Lemma holds_build nd chunks order s a : digit_table nd -> buffering chunks -> hash_order order -> holds nd s a ->
  snd (run_prog (gc_build nd chunks order) s) = Success /\
  holds nd (fst (run_prog (gc_build nd chunks order) s)) a.
Proof.
  intros T B O (Hl & c & cs0 & E & Hc & Hr & Ha). rewrite run_build by assumption.
  unfold commands_entry. rewrite E.
  assert (Eg : gcmd_read nd c = Done (Ok (apply_commands cs0 g_new))) by (apply gcmd_read_ok; eauto).
  rewrite Eg. cbn [fst snd]. split; [reflexivity|].
  set (g := apply_commands cs0 g_new).
  assert (Bg : built_by cs0 g) by apply built_by_apply.
  assert (Wg : wf g) by now apply (built_by_wf Bg).
  assert (Wo : wf (order g)) by (eapply wf_perm; [exact Wg|apply O]).
  assert (So : a_same (shown (order g)) (shown g)) by (apply shown_perm; [assumption|apply O]).
  assert (Uo : u64_graph (order g)).
  { intros v Hv. apply (built_by_u64 cs0 g Bg); [now apply (read_u64 nd c)|]. now apply (proj1 So). }
  split; [assumption|]. exists (gcmd_text (order g)), (as_commands (order g)).
  split; [reflexivity|]. rewrite gcmd_text_commands. split; [apply closed_commands|].
  split; [apply read_commands_text; [assumption|now apply as_commands_u64]|].
  eapply a_same_trans; [apply a_same_sym, (refines (built_by_apply (as_commands (order g))))|].
  eapply a_same_trans; [now apply as_commands_roundtrip|].
  eapply a_same_trans; [exact So|]. eapply a_same_trans; [|exact Ha]. now apply refines.
Qed.
