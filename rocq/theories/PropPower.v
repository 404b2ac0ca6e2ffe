(** * Power loss (C141) *)
From Coq Require Import String.
From Coq Require Import List NArith ZArith Bool Arith Lia Permutation.
From Verif Require Import Spec Base Graph GraphSpec GraphFacts
  Text Format FormatSpec TextFacts FormatFacts Store StoreSpec StoreFacts CrashFacts PropFormat PropStore Writer WriterFacts PropWriter Power.
Import ListNotations.
Open Scope N_scope.

(** ** A reported success can be lost, and gc-build can lose everything. *)
Theorem C141_success_lost_refuted : forall nd chunks order s g, digit_table nd -> buffering chunks -> hash_order order ->
  openable (fs_lock s) = true -> loads nd s g ->
  (exists s1, run_prog (invoke nd chunks order (AddVertices [7])) s = (s1, Success) /\
     power_loss nd buffering s [AddVertices [7]] s) /\
  (exists s1 s' g', run_prog (invoke nd chunks order Build) s = (s1, Success) /\
     power_loss nd buffering s [Build] s' /\ loads nd s' g' /\ forall v, contains_vertex g' v = false).
Proof.
  intros nd chunks order s g T B O Hl HL. split.
  - pose proof HL as HL'. unfold loads in HL'. rewrite run_load in HL'. injection HL' as Hr.
    destruct (commands_entry s) as [|c|] eqn:Ec; try discriminate.
    cbn [invoke]. unfold exit_of, add_vertices. rewrite run_bind, run_apply by assumption. rewrite Hl, Ec. cbn [fst snd run_prog].
    eexists. split; [reflexivity|constructor].
  - destruct (C28_build_crash_refuted nd chunks order s g HL) as (s' & g' & Hc & HL' & Hv).
    destruct (run_prog (gc_build nd chunks order) s) as [s1 r] eqn:E.
    destruct (proj1 (C23_build nd chunks order s s1 r T B O E) g HL) as (-> & _).
    exists s1, s', g'. split; [exact E|]. split; [|now split]. eapply pl_in; eassumption.
Qed.
Print Assumptions C141_success_lost_refuted.

(** ** What is kept: the invocations up to some moment, then at most a part of the next one *)
Lemma loads_more nd s c cs ds a b : commands_entry s = File c -> a_same (a_run cs) a ->
  gcmd_read_as_commands nd c = Done (Ok (cs ++ ds)) -> a_same (fold_left a_step ds a) b ->
  exists g, loads nd s g /\ a_same (shown g) b.
Proof.
  intros E Ha Hr Hb. exists (apply_commands (cs ++ ds) g_new). split.
  - unfold loads. rewrite run_load, E. f_equal. apply gcmd_read_ok. eauto.
  - eapply a_same_trans; [apply refines, built_by_apply|]. eapply a_same_trans; [|exact Hb].
    unfold a_run. rewrite fold_left_app. now apply a_run_app_same.
Qed.
Lemma crash_kept nd chunks order i s s' a : digit_table nd -> buffering chunks -> hash_order order ->
  u64_invocation i -> holds nd s a -> crash (invoke nd chunks order i) s s' ->
  (exists g, loads nd s' g /\ a_same (shown g) a) \/
  (i <> Build /\ exists k,
     ((exists g, loads nd s' g /\ a_same (shown g) (fold_left a_step (firstn k (invocation_commands i)) a)) \/
      (exists x x' g, nth_error (invocation_commands i) k = Some x /\ cut_command x' x /\ loads nd s' g /\
         a_same (shown g) (fold_left a_step (firstn k (invocation_commands i) ++ [x']) a)) \/
      (forall g, ~ loads nd s' g))) \/
  (i = Build /\ exists g p, a_same (shown g) a /\ commands_entry s' = File p /\ prefix p (gcmd_text g)).
Proof.
  intros T B O U Hh H.
  pose proof Hh as (Hl & c & cs & E & Hc & Hr & Ha).
  assert (Hce : commands_entry s = File c) by (unfold commands_entry; now rewrite E).
  assert (Hap : forall j, u64_invocation j ->
     crash (exit_of (apply_graph_commands chunks (invocation_commands j))) s s' ->
     exists k,
     ((exists g, loads nd s' g /\ a_same (shown g) (fold_left a_step (firstn k (invocation_commands j)) a)) \/
      (exists x x' g, nth_error (invocation_commands j) k = Some x /\ cut_command x' x /\ loads nd s' g /\
         a_same (shown g) (fold_left a_step (firstn k (invocation_commands j) ++ [x']) a)) \/
      (forall g, ~ loads nd s' g))).
  { clear H. intros j Uj H. apply invocation_commands_u64 in Uj. unfold exit_of in H. apply crash_bind in H. destruct H as [H|H].
    - destruct (C27_crash_append nd chunks (invocation_commands j) s s' c cs T B Hce Hc Hr Uj H)
        as (p & Hp & _ & k & _ & [R|[(x & x' & Hx & Hcut & R)|(m & _ & R)]]); exists k.
      + left. eapply loads_more; eauto using a_same_refl.
      + right; left. destruct (loads_more nd s' _ cs (firstn k (invocation_commands j) ++ [x']) a _ Hp Ha R (a_same_refl _)) as (g & H1 & H2).
        exists x, x', g. tauto.
      + right; right. intros g Hg. unfold loads in Hg. rewrite run_load, Hp in Hg. injection Hg as Hg.
        apply gcmd_read_ok in Hg. destruct Hg as (cs' & Hg & _). congruence.
    - destruct (holds_apply nd chunks (invocation_commands j) s a T B Uj Hh) as [H4 H3].
      rewrite H4 in H. apply crash_ret in H. subst s'. exists (length (invocation_commands j)). left. rewrite firstn_all.
      destruct (holds_load nd _ _ T H3) as (g & Hg & _ & Hs). exists g. split; [|exact Hs].
      unfold loads. rewrite run_load in Hg |- *. cbn [snd] in Hg. now rewrite Hg. }
  destruct i as [|vids|es|vids|es|]; cbn [invoke] in H.
  - left. assert (Hs : holds nd s' a).
    { destruct (holds_stop nd at_once order Init s s' a T at_once_ok) as [X|X]; try assumption; try discriminate.
      cbn. lia. }
    destruct (holds_load nd _ _ T Hs) as (g & Hg & _ & Hs'). exists g. split; [|exact Hs'].
    unfold loads. rewrite run_load in Hg |- *. cbn [snd] in Hg. now rewrite Hg.
  - right; left. split; [discriminate|]. now apply (Hap (AddVertices vids) U).
  - right; left. split; [discriminate|]. now apply (Hap (AddEdges es) U).
  - right; left. split; [discriminate|]. now apply (Hap (RemoveVertices vids) U).
  - right; left. split; [discriminate|]. now apply (Hap (RemoveEdges es) U).
  - destruct (holds_load nd _ _ T Hh) as (g & Hg & Hb & Hs).
    destruct (crash_build nd chunks order s s' c B Hce H) as [->|(g' & p & Hg' & Hp & Hpre)].
    + left. exists g. split; [|exact Hs]. unfold loads. rewrite run_load in Hg |- *. cbn [snd] in Hg. now rewrite Hg.
    + right; right. split; [reflexivity|]. rewrite run_load, Hce in Hg. cbn [snd] in Hg. rewrite Hg' in Hg. injection Hg as ->.
      exists (order g), p. split; [|now split]. eapply a_same_trans; [|exact Hs].
      apply shown_perm; [now apply built_wf|apply O].
Qed.
Theorem C141_kept : forall nd (W : (list text -> list text) -> Prop) s is s' a, digit_table nd -> (forall chunks, W chunks -> buffering chunks) ->
  Forall u64_invocation is -> holds nd s a -> power_loss nd W s is s' ->
  exists is1 is2, is = is1 ++ is2 /\
  (* the effect of the first invocations *)
  ((exists g, loads nd s' g /\ a_same (shown g) (fold_left a_invoke is1 a)) \/
  (* and of a part of the next one, its last id perhaps cut short, or nothing that can be loaded *)
   (exists i is3 k, is2 = i :: is3 /\ i <> Build /\
     ((exists g, loads nd s' g /\
         a_same (shown g) (fold_left a_step (firstn k (invocation_commands i)) (fold_left a_invoke is1 a))) \/
      (exists x x' g, nth_error (invocation_commands i) k = Some x /\ cut_command x' x /\ loads nd s' g /\
         a_same (shown g) (fold_left a_step (firstn k (invocation_commands i) ++ [x']) (fold_left a_invoke is1 a))) \/
      (forall g, ~ loads nd s' g))) \/
  (* or a part of what gc-build was writing *)
   (exists is3 g p, is2 = Build :: is3 /\ a_same (shown g) (fold_left a_invoke is1 a) /\
      commands_entry s' = File p /\ prefix p (gcmd_text g))).
Proof.
  intros nd W s is s' a T HW U Hh H. revert a U Hh.
  induction H as [s is|s i is s' chunks order Wc O Hc|s i is s' chunks order Wc O H IH]; intros a U Hh.
  - exists [], is. split; [reflexivity|]. left. cbn [fold_left].
    destruct (holds_load nd _ _ T Hh) as (g & Hg & _ & Hs). exists g. split; [|exact Hs].
    unfold loads. rewrite run_load in Hg |- *. cbn [snd] in Hg. now rewrite Hg.
  - inversion U as [|? ? Ui U']; subst. exists [], (i :: is). split; [reflexivity|]. cbn [fold_left].
    destruct (crash_kept nd chunks order i s s' a T (HW _ Wc) O Ui Hh Hc) as [X|[(Hi & k & X)|(-> & g & p & X)]].
    + now left.
    + right; left. exists i, is, k. tauto.
    + right; right. exists is, g, p. tauto.
  - inversion U as [|? ? Ui U']; subst.
    destruct (holds_invoke nd chunks order i s a T (HW _ Wc) O Ui Hh) as [_ Hh'].
    destruct (IH _ U' Hh') as (is1 & is2 & -> & X). exists (i :: is1), is2. split; [reflexivity|exact X].
Qed.
Print Assumptions C141_kept.

(** ** Without gc-build, and with each addition in one write call that the disk stores whole or not at
    all, what is kept is the effect of the first invocations of each period, and the tools go on
    working. *)
Lemma power_prefix nd (W : (list text -> list text) -> Prop) s is s' a : digit_table nd -> (forall chunks, W chunks -> buffering chunks) ->
  Forall (fun i => u64_invocation i /\ i <> Build /\
            forall chunks, W chunks -> (length (chunks (add_pieces (invocation_commands i))) <= 1)%nat) is ->
  holds nd s a -> power_loss nd W s is s' ->
  exists is1 is2, is = is1 ++ is2 /\ holds nd s' (fold_left a_invoke is1 a).
Proof.
  intros T HW U Hh H. revert a U Hh.
  induction H as [s is|s i is s' chunks order Wc O Hc|s i is s' chunks order Wc O H IH]; intros a U Hh.
  - now exists [], is.
  - inversion U as [|? ? (Ui & Hi & Hw) U']; subst.
    destruct (holds_stop nd chunks order i s s' a T (HW _ Wc) (Hw _ Wc) Hi Ui Hh Hc) as [X|X].
    + now exists [], (i :: is).
    + now exists [i], is.
  - inversion U as [|? ? (Ui & Hi & Hw) U']; subst.
    destruct (holds_invoke nd chunks order i s a T (HW _ Wc) O Ui Hh) as [_ Hh'].
    destruct (IH _ U' Hh') as (is1 & is2 & -> & X). exists (i :: is1), is2. split; [reflexivity|exact X].
Qed.
Theorem C141_periods : forall nd periods s s' a, digit_table nd ->
  Forall (Forall (fun i => u64_invocation i /\ i <> Build /\
            (N.of_nat (length (commands_text (invocation_commands i))) <= 8192)%N)) periods ->
  holds nd s a -> power_losses nd (eq (buffered default_capacity)) s periods s' ->
  exists kept, Forall2 (fun is ks => exists rest, is = ks ++ rest) periods kept /\
    (exists g, loads nd s' g /\ a_same (shown g) (fold_left a_invoke (concat kept) a)) /\
    forall i chunks order, u64_invocation i -> buffering chunks -> hash_order order ->
      snd (run_prog (invoke nd chunks order i) s') = Success.
Proof.
  intros nd periods s s' a T U Hh H.
  assert (X : exists kept, Forall2 (fun is ks => exists rest, is = ks ++ rest) periods kept /\
                holds nd s' (fold_left a_invoke (concat kept) a)).
  { revert a U Hh. induction H as [s|s is s1 rest s' H1 H2 IH]; intros a U Hh; [exists []; split; [constructor|exact Hh]|].
    inversion U as [|? ? U1 U2]; subst.
    destruct (power_prefix nd (eq (buffered default_capacity)) s is s1 a T) as (ks & r & -> & Hk).
    - intros ? <-. apply buffered_ok.
    - eapply Forall_impl; [|exact U1]. intros i (Ui & Hi & Hn). split; [assumption|]. split; [assumption|].
      intros ? <-. apply C97_small_one_write. unfold default_capacity. lia.
    - exact Hh.
    - exact H1.
    - destruct (IH _ U2 Hk) as (kept & F & Hk'). exists (ks :: kept). split.
      + constructor; [now exists r|exact F].
      + cbn [concat]. now rewrite fold_left_app. }
  destruct X as (kept & F & Hk). exists kept. split; [exact F|]. split.
  - destruct (holds_load nd _ _ T Hk) as (g & Hg & _ & Hs). exists g. split; [|exact Hs].
    unfold loads. rewrite run_load in Hg |- *. cbn [snd] in Hg. now rewrite Hg.
  - intros i chunks order Ui B O. now apply (holds_invoke nd chunks order i s' _ T B O Ui Hk).
Qed.
Print Assumptions C141_periods.

(** ** The length stored, the contents not: zeros in place of characters *)
Lemma chomp_In x l : In x l -> x <> 13 -> In x (chomp l).
Proof.
  intros H Hx. unfold chomp. destruct (rev l) as [|c t] eqn:E; [assumption|].
  destruct (c =? 13) eqn:Ec; [|assumption]. apply N.eqb_eq in Ec. subst c. apply in_rev in H. rewrite E in H.
  destruct H as [H|H]; [congruence|]. now apply -> in_rev.
Qed.
Lemma chomp_incl x l : In x (chomp l) -> In x l.
Proof.
  unfold chomp. destruct (rev l) as [|c t] eqn:E; [trivial|].
  destruct (c =? 13); [|trivial]. intro H. apply in_rev. rewrite E. right. now apply in_rev in H.
Qed.
Lemma lines_from_In x s : x <> 10 -> x <> 13 -> forall cur, In x cur \/ In x s ->
  exists l, In l (lines_from cur s) /\ In x l.
Proof.
  intros H10 H13. induction s as [|c s IH]; intros cur H; cbn [lines_from].
  - destruct H as [H|[]]. destruct cur as [|y cur]; [destruct H|]. exists (rev (y :: cur)). split; [now left|]. now apply -> in_rev.
  - destruct (c =? 10) eqn:Ec.
    + apply N.eqb_eq in Ec. subst c. destruct H as [H|[H|H]].
      * exists (chomp (rev cur)). split; [now left|]. apply chomp_In; [now apply -> in_rev|assumption].
      * congruence.
      * destruct (IH [] (or_intror H)) as (l & Hl & Hx). exists l. split; [now right|assumption].
    + apply IH. destruct H as [H|[H|H]]; [left; now right|left; now left|now right].
Qed.
Lemma lines_from_incl x s : forall cur l, In l (lines_from cur s) -> In x l -> In x cur \/ In x s.
Proof.
  induction s as [|c s IH]; intros cur l Hl Hx; cbn [lines_from] in Hl.
  - destruct cur as [|y cur]; [destruct Hl|]. destruct Hl as [<-|[]]. left. now apply in_rev in Hx.
  - destruct (c =? 10).
    + destruct Hl as [<-|Hl].
      * apply chomp_incl in Hx. left. now apply in_rev in Hx.
      * destruct (IH [] l Hl Hx) as [[]|H]. right. now right.
    + destruct (IH _ l Hl Hx) as [[H|H]|H]; [right; now left|now left|right; now right].
Qed.
Lemma reads_lines accepts ls cs : reads accepts ls cs -> forall l, In l ls -> skipped l \/ exists c, accepts l c.
Proof.
  induction 1 as [|l ls cs Hs H IH|l ls c cs Hs Ha H IH]; intros k Hk; [destruct Hk| |];
    destruct Hk as [<-|Hk]; eauto.
Qed.
Lemma zero_not_in_numeral d n : numeral d n -> ~ In 0 d.
Proof.
  intros ((_ & H) & _) Hin. rewrite Forall_forall in H. specialize (H 0 Hin). unfold ascii09 in H. cbn [In] in H. lia.
Qed.
Lemma zero_not_blank w : Forall blank w -> ~ In 0 w.
Proof. intros H Hin. rewrite Forall_forall in H. specialize (H 0 Hin). unfold blank in H. cbn [In] in H. lia. Qed.
Lemma zero_not_in_line l c : gcmd_line numeral l c -> ~ In 0 l.
Proof.
  intros H Hin. destruct H as [d n Hn|d n Hn|d1 w d2 a b Ha [_ Hw] Hb|d1 w d2 a b Ha [_ Hw] Hb];
    apply in_app_or in Hin; (destruct Hin as [Hin|Hin]; [cbn in Hin; lia|]).
  - now apply zero_not_in_numeral in Hn.
  - now apply zero_not_in_numeral in Hn.
  - apply in_app_or in Hin. destruct Hin as [Hin|Hin]; [now apply zero_not_in_numeral in Ha|].
    apply in_app_or in Hin. destruct Hin as [Hin|Hin]; [now apply zero_not_blank in Hw|now apply zero_not_in_numeral in Hb].
  - apply in_app_or in Hin. destruct Hin as [Hin|Hin]; [now apply zero_not_in_numeral in Ha|].
    apply in_app_or in Hin. destruct Hin as [Hin|Hin]; [now apply zero_not_blank in Hw|now apply zero_not_in_numeral in Hb].
Qed.
Lemma no_zero_read nd c cs : digit_table nd -> ~ In 35 c -> gcmd_read_as_commands nd c = Done (Ok cs) -> ~ In 0 c.
Proof.
  intros T H35 Hr H0. apply read_as_commands_ok in Hr.
  destruct (lines_from_In 0 c) with (cur := @nil N) as (l & Hl & Hx); [lia|lia|now right|].
  destruct (reads_lines _ _ _ Hr l Hl) as [[->|(w & t & -> & _)]|(x & Hp)].
  - destruct Hx.
  - destruct (lines_from_incl 35 c [] _ Hl) as [[]|X]; [|now apply H35].
    apply in_or_app. right. now left.
  - apply gcmd_parse_ok in Hp; [|assumption]. now apply zero_not_in_line in Hp.
Qed.
Lemma faded_prefix c c' : faded c c' -> ~ In 0 c' -> prefix c' c.
Proof.
  revert c. induction c' as [|x c' IH]; intros c [Hl Hn] H0; [now exists c|].
  destruct c as [|y c]; [cbn in Hl; lia|].
  destruct (Hn O x eq_refl) as [E|E].
  - exfalso. apply H0. left. auto.
  - cbn in E. injection E as <-. destruct (IH c) as [q ->]; [|intro H; apply H0; now right|now exists q].
    split; [cbn in Hl; lia|]. intros i z Hz. exact (Hn (S i) z Hz).
Qed.
(** A file without comments that has lost characters this way is refused, or is a beginning of the
    file; so the characters that are read were all written. *)
Theorem C141_faded : forall nd c c' cs, digit_table nd -> ~ In 35 c -> faded c c' ->
  gcmd_read_as_commands nd c' = Done (Ok cs) -> exists rest, c = c' ++ rest.
Proof.
  intros nd c c' cs T H35 F Hr. apply (faded_prefix c c' F). apply (no_zero_read nd c' cs T); [|assumption].
  intro H. apply In_nth_error in H. destruct H as [i Hi]. destruct (proj2 F i 35 Hi) as [X|X]; [discriminate|].
  apply H35. eapply nth_error_In; eauto.
Qed.
Print Assumptions C141_faded.
(** For the file the tools write, that is the first commands, the last id of the next perhaps cut short. *)
Theorem C141_faded_written : forall nd cs c' ds, digit_table nd -> Forall u64_command cs ->
  faded (commands_text cs) c' -> gcmd_read_as_commands nd c' = Done (Ok ds) ->
  exists k, ds = firstn k cs \/
    exists x x', nth_error cs k = Some x /\ cut_command x' x /\ ds = firstn k cs ++ [x'].
Proof.
  intros nd cs c' ds T U F Hr.
  assert (H35 : ~ In 35 (commands_text cs)).
  { intro H. destruct (lines_from_In 35 (commands_text cs)) with (cur := @nil N) as (l & Hl & Hx); [lia|lia|now right|].
    change (In l (lines (commands_text cs))) in Hl. rewrite lines_commands in Hl. apply in_map_iff in Hl. destruct Hl as (x & <- & Hc).
    rewrite Forall_forall in U. specialize (U x Hc). clear -Hx U.
    assert (D : forall n, ~ In 35 (show n)).
    { intros n Hin. destruct (show_spec n) as ((_ & Hf) & _). rewrite Forall_forall in Hf. specialize (Hf _ Hin).
      unfold ascii09 in Hf. cbn [In] in Hf. lia. }
    destruct x; cbn [command_into_line] in Hx;
      repeat match goal with
      | H : In 35 (show _) |- _ => now apply D in H
      | H : In 35 (_ ++ _) |- _ => apply in_app_or in H; destruct H as [H|H]
      | H : In 35 (txt _) |- _ => cbn in H; lia
      end. }
  destruct (C141_faded nd _ c' ds T H35 F Hr) as [q Hq].
  destruct (read_torn nd T [] [] cs c') as (k & _ & [R|[(x & x' & Hx & Hcut & R)|(m & _ & R)]]);
    [now left|reflexivity|assumption|now exists q| | |]; cbn [app] in R; rewrite Hr in R.
  - injection R as ->. exists k. now left.
  - injection R as ->. exists k. right. exists x, x'. tauto.
  - discriminate.
Qed.
Print Assumptions C141_faded_written.
(** With a comment in the file it is not: a comment that lost its line break takes the next command
    with it. *)
Theorem C141_comment_refuted : forall nd, digit_table nd -> exists c c',
  faded c c' /\ gcmd_read_as_commands nd c = Done (Ok [AddVertex 1]) /\
  gcmd_read_as_commands nd c' = Done (Ok []) /\ ~ exists rest, c = c' ++ rest.
Proof.
  intros nd T. exists (txt "# note" ++ [10] ++ txt "AddVertex 1" ++ [10]), (txt "# note" ++ [0] ++ txt "AddVertex 1" ++ [10]).
  split.
  - split; [apply Nat.le_refl|]. intros i x. do 19 (destruct i as [|i]; [cbn; intros [= <-]; auto|]). cbn.
    destruct i; discriminate.
  - assert (Hs : forall t, skipped (txt "# note" ++ t)).
    { intro t. right. exists [], (txt " note" ++ t). split; [reflexivity|constructor]. }
    split; [|split].
    + apply read_as_commands_ok. change (reads (accepts (gcmd_parse_line nd)) [txt "# note"; txt "AddVertex 1"] [AddVertex 1]).
      apply reads_skip; [exact (Hs [])|]. apply reads_line; [| |constructor].
      * apply (gcmd_line_shape numeral _ (AddVertex 1)). apply (gcmd_line_written (AddVertex 1)). reflexivity.
      * apply gcmd_parse_ok; [assumption|]. apply (gcmd_line_written (AddVertex 1)). reflexivity.
    + apply read_as_commands_ok. change (reads (accepts (gcmd_parse_line nd)) [txt "# note" ++ [0] ++ txt "AddVertex 1"] []).
      apply reads_skip; [apply Hs|constructor].
    + intros [r E]. discriminate E.
Qed.
Print Assumptions C141_comment_refuted.

Example C141_case : holds table (with_file []) a_empty /\
  Forall (fun i => u64_invocation i /\ i <> Build /\
            (N.of_nat (length (commands_text (invocation_commands i))) <= 8192)%N) [AddVertices [1]; AddEdges [(1, 2)]] /\
  power_losses table (eq (buffered default_capacity)) (with_file []) [[AddVertices [1]; AddEdges [(1, 2)]]]
    (with_file (txt "AddVertex 1" ++ [10])) /\
  faded (txt "AddVertex 12") [65; 100; 0].
Proof.
  split; [split; [reflexivity|]; exists [], []; split; [reflexivity|]; split; [now left|]; split; [reflexivity|apply a_same_refl]|].
  split; [repeat (constructor; [split; [repeat constructor|split; [discriminate|vm_compute; discriminate]]|]); constructor|].
  split.
  - eapply ps_period; [|constructor]. eapply (pl_later _ _ _ _ _ _ _ id_order); [reflexivity|apply id_order_ok|].
    cbn [invoke]. unfold exit_of, add_vertices. rewrite run_bind, run_apply by apply buffered_ok. cbn [fs_lock with_file openable].
    apply pl_here.
  - split; [cbn; lia|]. intros i x. do 3 (destruct i as [|i]; [cbn; intros [= <-]; auto|]). cbn. destruct i; discriminate.
Qed.
