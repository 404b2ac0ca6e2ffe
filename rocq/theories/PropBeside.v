(** * Additions made while gc-build runs (C119) *)
From Coq Require Import String.
From Coq Require Import List NArith Bool Arith Lia Permutation.
From Verif Require Import Spec Base Graph GraphSpec GraphFacts Text Format FormatSpec TextFacts FormatFacts
  Store StoreSpec StoreFacts CrashFacts WriterFacts PropFormat PropStore.
Import ListNotations.
Open Scope N_scope.

Definition suffix {A} (t l : list A) : Prop := exists p, l = p ++ t.

(** ** Ends of command texts *)
Lemma suffix_cases A (a b t : list A) : suffix t (a ++ b) -> suffix t b \/ exists u, suffix u a /\ u <> [] /\ t = u ++ b.
Proof.
  intros [p E]. destruct (le_lt_dec (length a) (length p)) as [H|H].
  - left. exists (skipn (length a) p). apply (f_equal (skipn (length a))) in E.
    rewrite skipn_app, skipn_all, Nat.sub_diag in E. cbn in E. rewrite E, skipn_app.
    replace (length a - length p)%nat with 0%nat by lia. reflexivity.
  - right. exists (skipn (length p) a). split; [exists (firstn (length p) a); symmetry; apply firstn_skipn|]. split.
    + intro E0. apply (f_equal (@length A)) in E0. rewrite skipn_length in E0. cbn in E0. lia.
    + apply (f_equal (skipn (length p))) in E. rewrite !skipn_app, skipn_all, Nat.sub_diag in E. cbn in E. rewrite <- E.
      replace (length p - length a)%nat with 0%nat by lia. reflexivity.
Qed.
Lemma suffix_snoc A (u l : list A) x : suffix u (l ++ [x]) -> u <> [] -> exists v, suffix v l /\ u = v ++ [x].
Proof.
  intros [p E] Hu. destruct (@exists_last _ u Hu) as (v & y & ->). rewrite app_assoc in E. apply app_inj_tail in E as [-> <-].
  exists v. split; [now exists p|reflexivity].
Qed.
(** The end of the text of some commands: whole lines after at most one cut line. *)
Lemma text_suffix cs : forall t, suffix t (commands_text cs) -> exists cs1 cs2, cs = cs1 ++ cs2 /\
  (t = commands_text cs2 \/
   exists c v, t = v ++ [10] ++ commands_text cs2 /\ suffix v (command_into_line c) /\ v <> command_into_line c).
Proof.
  induction cs as [|c cs IH]; intros t Ht.
  - destruct Ht as [p E]. symmetry in E. apply app_eq_nil in E as [_ ->]. exists [], []. split; [reflexivity|]. now left.
  - change (commands_text (c :: cs)) with (writeln (command_into_line c) ++ commands_text cs) in Ht.
    destruct (suffix_cases _ _ _ _ Ht) as [H|(u & Hu & Hn & ->)].
    + destruct (IH t H) as (cs1 & cs2 & -> & H'). exists (c :: cs1), cs2. split; [reflexivity|exact H'].
    + destruct (suffix_snoc _ _ _ _ Hu Hn) as (v & Hv & ->).
      destruct (list_eq_dec N.eq_dec v (command_into_line c)) as [->|Hne].
      * exists [], (c :: cs). split; [reflexivity|]. left. reflexivity.
      * exists [c], cs. split; [reflexivity|]. right. exists c, v. rewrite <- app_assoc. now split.
Qed.
Lemma line_tail c x : In x (tl (command_into_line c)) -> x <> 65 /\ x <> 82 /\ x <> 35.
Proof.
  assert (S : forall n, In x (show n) -> x <> 65 /\ x <> 82 /\ x <> 35) by (intros n Hn; apply show_chars in Hn; lia).
  assert (L : forall l, forallb (fun c => negb ((c =? 65) || (c =? 82) || (c =? 35))) l = true -> In x l -> x <> 65 /\ x <> 82 /\ x <> 35).
  { intros l Hl Hx. rewrite forallb_forall in Hl. apply Hl in Hx. apply negb_true_iff in Hx. rewrite !orb_false_iff, !N.eqb_neq in Hx. tauto. }
  assert (E : forall k r, txt k <> [] -> tl (txt k ++ r) = tl (txt k) ++ r) by (intros k r Hk; destruct (txt k); [congruence|reflexivity]).
  destruct c as [a|a|a b|a b]; cbn [command_into_line]; rewrite E by discriminate; intros H;
    repeat match type of H with In _ (_ ++ _) => apply in_app_or in H; destruct H as [H|H] end; try (now apply (S _ H)); (eapply L; [|exact H]); reflexivity.
Qed.
(** A line that lacks its beginning is no command. *)
Lemma cut_line c v : suffix v (command_into_line c) -> v <> command_into_line c ->
  plain v /\ (v <> [] -> ~ skipped v /\ forall num d, ~ gcmd_line num v d).
Proof.
  intros [p E] Hne.
  assert (Hv : exists h q, command_into_line c = h :: q ++ v).
  { destruct p as [|h q]; [now elim Hne|]. now exists h, q. }
  destruct Hv as (h & q & Hq).
  assert (Hp : plain v).
  { destruct (written_plain c) as [W1 W2]. split.
    - intro H. apply W1. rewrite E. apply in_or_app. now right.
    - intros x Hx. apply (W2 (p ++ x)). now rewrite E, Hx, app_assoc. }
  split; [exact Hp|]. intro Hnil.
  assert (Hc : forall x, In x v -> x <> 65 /\ x <> 82 /\ x <> 35).
  { intros x Hx. assert (Hi : In x (tl (command_into_line c))) by (rewrite Hq; cbn [tl]; apply in_or_app; now right).
    exact (line_tail c x Hi). }
  destruct v as [|x v]; [congruence|]. split.
  - intros [Hs|(w & t & Hs & _)]; [discriminate|]. destruct (Hc 35) as (_ & _ & H); [|congruence].
    rewrite Hs. apply in_or_app. right. now left.
  - intros num d Hl. destruct (Hc x (or_introl eq_refl)) as (H1 & H2 & _).
    assert (Hx : forall l, gcmd_line num l d -> exists y t, l = y :: t /\ (y = 65 \/ y = 82)).
    { intros l H. inversion H; subst; cbn [txt map list_ascii_of_string app]; eauto. }
    destruct (Hx _ Hl) as (y & t & Ey & Hy). injection Ey as -> _. destruct Hy; congruence.
Qed.

(** ** gc-build and additions at work *)
(** A text written at its place over what was appended meanwhile. *)
Lemma write_over (x y t : text) : write_at (length x) y (x ++ t) = (x ++ y) ++ skipn (length y) t.
Proof.
  unfold write_at. rewrite firstn_app, firstn_all, Nat.sub_diag. cbn [firstn]. rewrite app_nil_r.
  rewrite app_length. replace (length x - (length x + length t))%nat with 0%nat by lia. cbn [repeat app].
  rewrite <- app_assoc. do 2 f_equal. rewrite skipn_app. replace (length x + length y - length x)%nat with (length y) by lia.
  rewrite skipn_all2 by lia. reflexivity.
Qed.
Lemma suffix_skipn A (t l : list A) n : suffix t l -> suffix (skipn n t) l.
Proof. intros [p ->]. exists (p ++ firstn n t). now rewrite <- app_assoc, firstn_skipn. Qed.
Lemma suffix_app A (t l x : list A) : suffix t l -> suffix (t ++ x) (l ++ x).
Proof. intros [p ->]. exists p. now rewrite app_assoc. Qed.

Section Beside.
  Variable nd : N -> bool.
  Variable chunks : list text -> list text.
  Variable order : graph -> graph.
  Variable c0 : text.
  Variable ls : list (list text).
  Hypothesis B : buffering chunks.

  (** The rest of gc-build once the graph is read. *)
  Definition to_write (p : prog (io unit)) : prog exit :=
    bind p (fun w => Ret (match w with IoOk _ => Success | IoErr => Failure end)).
  (** How far gc-build is: the pieces appended before the reading, between reading and
      truncation, and after it, and what the file holds. *)
  Inductive progress (m : list text) : prog exit -> text -> Prop :=
  | pr_start : progress m (gc_build nd chunks order) (c0 ++ concat m)
  | pr_read m1 m2 g : m = m1 ++ m2 -> gcmd_read nd (c0 ++ concat m1) = Done (Ok g) ->
      progress m (to_write (save_graph_as_commands chunks (order g))) (c0 ++ concat m)
  | pr_failed m1 m2 : m = m1 ++ m2 -> (forall g, gcmd_read nd (c0 ++ concat m1) <> Done (Ok g)) ->
      progress m (Ret Failure) (c0 ++ concat m)
  | pr_writing m1 m2 m3 g x rest t : m = m1 ++ m2 ++ m3 -> gcmd_read nd (c0 ++ concat m1) = Done (Ok g) ->
      gcmd_text (order g) = x ++ concat rest -> suffix t (concat m3) ->
      progress m (to_write (write_chunks (length x) rest)) (x ++ t).
  Definition system (cfg : fs * list (prog exit)) : Prop :=
    exists ws w xs m c, snd cfg = map exit_of ws ++ [w] /\ Forall2 wstage xs ws /\ emits ls m (map snd xs) /\
      calm (fst cfg) c /\ progress m w c.

  Lemma progress_append m w c x : progress m w c -> progress (m ++ [x]) w (c ++ x).
  Proof.
    intros [|m1 m2 g E H|m1 m2 E H|m1 m2 m3 g y rest t E H1 H2 H3];
      rewrite <- ?app_assoc; try (replace (concat m ++ x) with (concat (m ++ [x])) by (rewrite concat_app; cbn; now rewrite app_nil_r)).
    - constructor.
    - apply (pr_read _ m1 (m2 ++ [x])); [now rewrite E, <- app_assoc|assumption].
    - apply (pr_failed _ m1 (m2 ++ [x])); [now rewrite E, <- app_assoc|assumption].
    - apply (pr_writing _ m1 m2 (m3 ++ [x]) g); try assumption.
      + now rewrite E, <- !app_assoc.
      + rewrite concat_app. cbn [concat]. rewrite app_nil_r. now apply suffix_app.
  Qed.
  Lemma progress_step m c s upd k : calm s c -> progress m (Act upd k) c ->
    exists c', calm (upd s) c' /\ progress m (k s) c'.
  Proof.
    intros (Hr & Hl & Hg) H. remember (Act upd k) as w eqn:Ew. destruct H as [|m1 m2 g E H|m1 m2 E H|m1 m2 m3 g x rest t E H1 H2 H3].
    - unfold gc_build, load_graph in Ew. cbn [bind] in Ew. injection Ew as <- <-. exists (c0 ++ concat m). split; [now repeat split|].
      unfold commands_entry. rewrite Hg. destruct (gcmd_read nd (c0 ++ concat m)) as [[g|msg]| |] eqn:Eg;
        [apply (pr_read m m [] g); [now rewrite app_nil_r|assumption]|..];
        apply (pr_failed m m []); try (now rewrite app_nil_r); congruence.
    - unfold to_write, save_graph_as_commands in Ew. cbn [bind] in Ew. injection Ew as <- <-. exists ([] ++ []). rewrite Hg.
      split; [now repeat split|]. apply (pr_writing m m1 m2 [] g [] (chunks (save_pieces (order g)))).
      + now rewrite app_nil_r.
      + assumption.
      + rewrite B, concat_save_pieces. reflexivity.
      + now exists [].
    - discriminate Ew.
    - destruct rest as [|y rest]; [discriminate Ew|]. cbn [to_write write_chunks bind] in Ew. injection Ew as <- <-.
      exists ((x ++ y) ++ skipn (length y) t). split.
      + unfold write_chunk, commands_entry. rewrite Hg, write_over. now repeat split.
      + rewrite <- app_length. apply (pr_writing m m1 m2 m3 g); try assumption; [rewrite <- app_assoc; exact H2|now apply suffix_skipn].
  Qed.

  Lemma system_step cfg cfg' : system cfg -> istep cfg cfg' -> system cfg'.
  Proof.
    destruct cfg as [s ps], cfg' as [s' ps']. intros (ws & w & xs & m & c & E & HF & Hm & Hc & Hp) (pre & upd & k & post & E1 & E2 & E3).
    cbn [fst snd] in *. rewrite E in E1. subst s' ps'.
    destruct post as [|z post] using rev_ind.
    - apply app_inj_tail in E1 as [<- ->]. destruct (progress_step m c s upd k Hc Hp) as (c' & Hc' & Hp').
      exists ws, (k s), xs, m, c'. exact (conj eq_refl (conj HF (conj Hm (conj Hc' Hp')))).
    - clear IHpost. change (pre ++ Act upd k :: post ++ [z]) with (pre ++ (Act upd k :: post) ++ [z]) in E1.
      rewrite app_assoc in E1. apply app_inj_tail in E1 as [E1 <-].
      apply map_eq_app in E1 as (wa & wb & -> & <- & Eb). destruct wb as [|p wb]; [discriminate Eb|]. cbn [map] in Eb. injection Eb as Ep <-.
      destruct p as [r|upd0 k0]; [discriminate Ep|]. cbn [exit_of bind] in Ep. injection Ep as -> <-.
      apply Forall2_app_inv_r in HF as (xa & xb & Ha & Hb & ->). inversion Hb as [|[ph r] p0 xc ps0 Hst Hc0]; subst.
      rewrite !map_app in Hm. cbn [map fst snd] in Hm.
      assert (Hk : forall ph' r' m' c', wstage (ph', r') (k0 s) -> emits ls m' (map snd (xa ++ (ph', r') :: xc)) -> calm (upd s) c' ->
        progress m' w c' -> system (upd s, map exit_of wa ++ exit_of (k0 s) :: map exit_of wb ++ [w])).
      { intros ph' r' m' c' H1 H2 H3 H4. exists (wa ++ k0 s :: wb), w, (xa ++ (ph', r') :: xc), m', c'. cbn [fst snd].
        split; [rewrite map_app; cbn [map]; now rewrite <- app_assoc|]. split; [apply Forall2_app; [assumption|now constructor]|].
        exact (conj H2 (conj H3 H4)). }
      destruct (wstage_step ph r upd k0 s c Hc Hst) as
        [(-> & H1 & H2 & H3)|[(-> & H1 & H2 & H3)|[(-> & H1 & H2 & H3)|[(-> & H1 & x & r' & -> & H2 & H3)|(-> & -> & H1 & H2 & res & H3 & H4)]]]].
      + apply (Hk Early r m c); try assumption. now rewrite map_app.
      + apply (Hk Inside r m c); try assumption. now rewrite map_app.
      + apply (Hk Inside r m c); try assumption. now rewrite map_app.
      + apply (Hk Inside r' (m ++ [x]) (c ++ x)); try assumption; [|now apply progress_append]. rewrite map_app. cbn [map snd]. now constructor.
      + apply (Hk Over [] m c); try assumption; [rewrite H3; constructor|now rewrite map_app].
  Qed.
  Lemma system_steps cfg cfg' : isteps cfg cfg' -> system cfg -> system cfg'.
  Proof. induction 1; intro; [assumption|]. eauto using system_step. Qed.
End Beside.

(** Writers with one write each: the pieces are whole requests. *)
Lemma emits_requests (ws : list ((list text -> list text) * list graph_command)) m rs :
  Forall (fun w => buffering (fst w) /\ (length (fst w (add_pieces (snd w))) <= 1)%nat) ws ->
  emits (map (fun w => fst w (add_pieces (snd w))) ws) m rs ->
  exists none written rest, Permutation (none ++ written ++ rest) (map snd ws) /\ Forall (eq []) none /\
    m = map commands_text written /\ (Forall (eq []) rs -> rest = []).
Proof.
  intros F H. apply emits_permutation in H.
  assert (Hs : exists full none, Permutation (none ++ full) (map snd ws) /\ Forall (eq []) none /\
            concat (map (fun w => fst w (add_pieces (snd w))) ws) = map commands_text full).
  { clear H. induction F as [|w ws [B Hl] _ (full & none & Hp & Hn & E)]; [exists [], []; repeat split; constructor|].
    cbn [map concat]. destruct (one_write_cases _ _ B Hl) as [[E1 E2]|E2]; rewrite E2, E.
    - exists full, (snd w :: none). split; [cbn; now constructor|].
      split; [constructor; [now symmetry|assumption]|reflexivity].
    - exists (snd w :: full), none. split; [rewrite <- Permutation_middle; now constructor|]. split; [assumption|reflexivity]. }
  destruct Hs as (full & none & Hp & Hn & E). rewrite E in H.
  destruct (Permutation_map_inv _ _ H) as (l & El & Pl).
  symmetry in El. apply map_eq_app in El. destruct El as (l1 & l2 & -> & E1 & E2).
  exists none, l1, l2. split; [rewrite <- Hp, Pl; reflexivity|]. split; [assumption|]. split; [now symmetry|].
  intro Fr. destruct l2 as [|x l2]; [reflexivity|]. exfalso.
  assert (Hr : concat rs = []) by (clear - Fr; induction Fr as [|x rs <- _ IH]; [reflexivity|exact IH]).
  rewrite Hr in E2. discriminate.
Qed.
Lemma concat_none (l : list (list graph_command)) : Forall (eq []) l -> concat l = [].
Proof. induction 1 as [|x l <- _ IH]; [reflexivity|exact IH]. Qed.

(** Reading a text of whole lines followed by the end of such a text. *)
Lemma read_tail nd content cs late t : digit_table nd -> closed content -> gcmd_read_as_commands nd content = Done (Ok cs) ->
  Forall u64_command late -> suffix t (commands_text late) ->
  (exists cs1 cs2, late = cs1 ++ cs2 /\ gcmd_read_as_commands nd (content ++ t) = Done (Ok (cs ++ cs2))) \/
  (exists msg, gcmd_read_as_commands nd (content ++ t) = Done (Err msg)).
Proof.
  intros T Hc Hr U Ht. destruct (text_suffix late t Ht) as (cs1 & cs2 & -> & Hcase).
  apply Forall_app in U as [_ U]. destruct Hcase as [->|(c & v & -> & Hs & Hv)].
  - left. exists cs1, cs2. split; [reflexivity|]. now apply C18_append.
  - destruct (cut_line c v Hs Hv) as [[Hlf Hcr] Hno]. destruct v as [|x v].
    + left. exists cs1, cs2. split; [reflexivity|]. cbn [app]. change (10 :: commands_text cs2) with ([10] ++ commands_text cs2). rewrite app_assoc. apply C18_append; try assumption.
      * right. now exists content.
      * apply read_as_commands_ok in Hr. apply read_as_commands_ok. rewrite lines_app_closed by assumption.
        rewrite <- (app_nil_r cs). apply reads_app; [exact Hr|]. change (lines [10]) with [@nil N].
        constructor; [now left|constructor].
    + right. destruct Hno as [Hsk Hnl]; [discriminate|].
      assert (Hpe : gcmd_parse_line nd (x :: v) = Done (Err (parse_error (x :: v)))) by (apply gcmd_parse_err; [assumption|]; split; [intros d; apply Hnl|reflexivity]).
      eexists. apply read_as_commands_err. exists (lines content), (x :: v), (lines (commands_text cs2)), cs, (parse_error (x :: v)).
      split; [rewrite lines_app_closed, lines_cons by assumption; now rewrite chomp_plain|].
      split; [now apply read_as_commands_ok in Hr|]. split; [exact Hsk|]. split; [exact Hpe|reflexivity].
Qed.

(** ** C119 *)
(** Any number of one-write additions and removals beside one gc-build, any schedule.  When all have
    ended, gc-build has succeeded and the requests fall into three groups: the early ones are in the
    rewritten file, the lost ones are gone, and of the late ones the text is kept from some byte on.  The
    file is readable, and then holds a list of whole last commands of the late requests, or reading it is
    reported as an error. *)
Theorem C119_build_beside_additions : forall nd (ws : list ((list text -> list text) * list graph_command)) chunks order s c cs s' ps,
  digit_table nd -> buffering chunks -> hash_order order ->
  fs_root s = true -> openable (fs_lock s) = true -> fs_graph s = GraphDir (File c) ->
  closed c -> gcmd_read_as_commands nd c = Done (Ok cs) ->
  Forall (fun w => buffering (fst w) /\ (length (fst w (add_pieces (snd w))) <= 1)%nat) ws ->
  Forall (Forall u64_command) (map snd ws) ->
  isteps (s, map (fun w => exit_of (apply_graph_commands (fst w) (snd w))) ws ++ [gc_build nd chunks order]) (s', ps) ->
  Forall (fun p => exists r, p = Ret r) ps ->
  exists early lost late g x t, Permutation (early ++ lost ++ late) (map snd ws) /\
    (exists qs, ps = qs ++ [Ret Success]) /\
    gcmd_read nd (c ++ commands_text (concat early)) = Done (Ok g) /\
    a_same (shown g) (a_run (cs ++ concat early)) /\
    x = gcmd_text (order g) /\ suffix t (commands_text (concat late)) /\
    commands_entry s' = File (x ++ t) /\
    ((exists g' cs1 cs2, loads nd s' g' /\ concat late = cs1 ++ cs2 /\ a_same (shown g') (a_run (cs ++ concat early ++ cs2))) \/
     (exists msg, snd (run_prog (load_graph nd) s') = Done (Err msg))).
Proof.
  intros nd ws chunks order s c cs s' ps T B O Hr Hl Hg Hc Hread One U H F.
  set (ls := map (fun w => fst w (add_pieces (snd w))) ws) in *.
  assert (I : system nd chunks order c ls (s, map (fun w => exit_of (apply_graph_commands (fst w) (snd w))) ws ++ [gc_build nd chunks order])).
  { destruct (winv_init s c ws (conj Hr (conj Hl Hg))) as (xs & m & H1 & H2 & H3 & _).
    exists (map (fun w => apply_graph_commands (fst w) (snd w)) ws), (gc_build nd chunks order), xs, m, (c ++ concat m).
    cbn [fst snd] in *. split; [now rewrite map_map|]. split; [assumption|]. split; [exact H2|]. split; [assumption|constructor]. }
  apply (system_steps nd chunks order c ls B _ _ H) in I. destruct I as (qs & w & xs & m & c' & E & HF & Hm & Hcalm & Hp).
  cbn [fst snd] in *. subst ps. apply Forall_app in F as [Fq Fw]. inversion Fw as [|? ? [r ->] _]; subst.
  assert (Fq' : Forall (fun p => exists r, p = Ret r) qs).
  { clear - Fq. induction qs as [|q qs IH]; [constructor|]. cbn [map] in Fq. inversion Fq as [|? ? [e He] Fq']; subst. constructor; [|now apply IH].
    destruct q as [e'|]; [eauto|discriminate He]. }
  destruct (wstages_over xs qs HF Fq') as [_ Hov].
  destruct (emits_requests ws m _ One Hm) as (none & w & rest & Hperm & Hnone & Em & Hrest).
  rewrite (Hrest Hov), app_nil_r in Hperm. clear rest Hrest.
  assert (Uw : Forall (Forall u64_command) w).
  { rewrite Forall_forall in *. intros x Hx. apply U. eapply Permutation_in; [exact Hperm|]. apply in_or_app. now right. }
  assert (Rd : forall m1 m2, m = m1 ++ m2 -> exists w1 w2, w = w1 ++ w2 /\ m1 = map commands_text w1 /\ m2 = map commands_text w2 /\
     gcmd_read_as_commands nd (c ++ concat m1) = Done (Ok (cs ++ concat (none ++ w1))) /\ concat m1 = commands_text (concat (none ++ w1))).
  { intros m1 m2 E. rewrite Em in E. apply map_eq_app in E as (w1 & w2 & -> & <- & <-). exists w1, w2.
    assert (Et : concat (map commands_text w1) = commands_text (concat (none ++ w1))).
    { rewrite concat_app, (concat_none none Hnone). cbn [app]. apply (texts_concat w1). }
    do 3 (split; [reflexivity|]). split; [|exact Et]. rewrite Et.
    apply C18_append; try assumption. rewrite concat_app, (concat_none none Hnone). cbn [app].
    apply Forall_app in Uw as [Uw _]. now apply Forall_concat. }
  remember (Ret r) as p eqn:Ep. destruct Hp as [|m1 m2 g E H1|m1 m2 E H1|m1 m2 m3 g x rest t E H1 H2 H3]; try discriminate Ep.
  - exfalso. destruct (Rd m1 m2 E) as (w1 & w2 & _ & _ & _ & Hrd & _). apply (H1 (apply_commands (cs ++ concat (none ++ w1)) g_new)).
    apply gcmd_read_ok. eauto.
  - destruct rest as [|y rest]; [|discriminate Ep]. cbn [to_write write_chunks bind] in Ep. injection Ep as <-.
    cbn [concat] in H2. rewrite app_nil_r in H2. subst x.
    destruct (Rd m1 (m2 ++ m3) E) as (w1 & w2 & Ew & E1 & E2 & Hrd & Et). symmetry in E2. apply map_eq_app in E2 as (wl & w3 & -> & <- & <-).
    assert (Hbg : built_by (cs ++ concat (none ++ w1)) g).
    { assert (Eg : gcmd_read nd (c ++ concat m1) = Done (Ok (apply_commands (cs ++ concat (none ++ w1)) g_new))) by (apply gcmd_read_ok; eauto).
      rewrite H1 in Eg. injection Eg as ->. apply built_by_apply. }
    assert (Sg : a_same (shown g) (a_run (cs ++ concat (none ++ w1)))) by now apply refines.
    change (concat (map commands_text w3)) with (texts w3) in H3. rewrite texts_concat in H3.
    exists (none ++ w1), wl, w3, g, (gcmd_text (order g)), t. split; [rewrite <- app_assoc; subst w; exact Hperm|].
    split; [eauto|]. split; [rewrite <- Et; exact H1|]. split; [exact Sg|]. split; [reflexivity|]. split; [exact H3|].
    destruct Hcalm as (_ & _ & Hgr). assert (Ec : commands_entry s' = File (gcmd_text (order g) ++ t)) by (unfold commands_entry; now rewrite Hgr).
    split; [exact Ec|].
    assert (Wg : wf g) by now apply (built_by_wf Hbg).
    assert (Wo : wf (order g)) by (eapply wf_perm; [exact Wg|apply O]).
    assert (So : a_same (shown (order g)) (shown g)) by (apply shown_perm; [assumption|apply O]).
    assert (Uo : u64_graph (order g)).
    { intros x Hx. apply (built_by_u64 _ g Hbg); [now apply (read_u64 nd (c ++ concat m1))|]. now apply (proj1 So). }
    assert (Hnew : gcmd_read_as_commands nd (gcmd_text (order g)) = Done (Ok (as_commands (order g)))).
    { rewrite gcmd_text_commands. apply read_commands_text; [assumption|]. now apply as_commands_u64. }
    assert (Hcl : closed (gcmd_text (order g))) by (rewrite gcmd_text_commands; apply closed_commands).
    assert (U3 : Forall u64_command (concat w3)).
    { subst w. apply Forall_app in Uw as [_ Uw]. apply Forall_app in Uw as [_ Uw]. now apply Forall_concat. }
    destruct (read_tail nd _ _ (concat w3) t T Hcl Hnew U3 H3) as [(cs1 & cs2 & E3 & Hrt)|(msg & Hrt)].
    + left. exists (apply_commands (as_commands (order g) ++ cs2) g_new), cs1, cs2. split.
      { unfold loads. rewrite run_load, Ec. f_equal. apply gcmd_read_ok. eauto. }
      split; [assumption|].
      assert (Bx : built_by (as_commands (order g) ++ cs2) (apply_commands (as_commands (order g) ++ cs2) g_new)) by apply built_by_apply.
      eapply a_same_trans; [exact (refines Bx)|]. rewrite app_assoc. unfold a_run. rewrite (fold_left_app _ (as_commands (order g)) cs2), (fold_left_app _ (cs ++ concat (none ++ w1)) cs2). apply a_run_app_same.
      eapply a_same_trans; [apply a_same_sym, (refines (built_by_apply (as_commands (order g))))|].
      eapply a_same_trans; [now apply as_commands_roundtrip|]. eapply a_same_trans; [exact So|exact Sg].
    + right. exists msg. rewrite run_load, Ec. cbn [snd]. unfold gcmd_read, read. unfold gcmd_read_as_commands in Hrt. rewrite Hrt. reflexivity.
Qed.
Print Assumptions C119_build_beside_additions.
(** Expected but false: gc-build and an addition that both report success leave a readable graph. *)
Theorem C119_readable_refuted : forall nd order, digit_table nd -> hash_order order ->
  exists s', isteps (with_file (commands_text [AddVertex 1]), [exit_of (add_vertices at_once [2345]); gc_build nd at_once order])
    (s', [Ret Success; Ret Success]) /\
  commands_entry s' = File (commands_text [AddVertex 1] ++ txt "45" ++ [10]) /\
  snd (run_prog (load_graph nd) s') = Done (Err (txt "Error at line 2: Couldn't parse '45'")).
Proof.
  intros nd order T O. set (s := with_file (commands_text [AddVertex 1])). set (add := exit_of (add_vertices at_once [2345])).
  assert (Eg : gcmd_read nd (commands_text [AddVertex 1]) = Done (Ok (apply_commands [AddVertex 1] g_new))).
  { apply gcmd_read_ok. exists [AddVertex 1]. split; [|reflexivity]. apply (read_commands_text nd T [AddVertex 1]). repeat constructor. }
  set (g := apply_commands [AddVertex 1] g_new) in *.
  assert (Eo : order g = g) by (specialize (O g); cbn in O |- *; now apply Permutation_length_1_inv in O).
  set (rest := fun p => bind p (fun w : io unit => Ret (match w with IoOk _ => Success | IoErr => Failure end))).
  assert (S1 : isteps (s, [add; gc_build nd at_once order]) (s, [add; rest (save_graph_as_commands at_once g)])).
  { eapply is_step; [|constructor]. eexists [add], _, _, []. split; [reflexivity|]. split; [reflexivity|].
    cbn [fst snd app]. unfold s at 1. cbn [commands_entry with_file fs_graph bind]. rewrite Eg, Eo. reflexivity. }
  assert (S2 : isteps (s, [add; rest (save_graph_as_commands at_once g)])
     (set_commands (File []) s, [add; rest (write_chunks 0 (at_once (save_pieces g)))])).
  { eapply is_step; [|constructor]. eexists [add], _, _, []. split; [reflexivity|]. split; reflexivity. }
  assert (S3 : isteps (set_commands (File []) s, [add; rest (write_chunks 0 (at_once (save_pieces g)))])
     (set_commands (File (commands_text [AddVertex 2345])) s, [Ret Success; rest (write_chunks 0 (at_once (save_pieces g)))])).
  { pose proof (run_isteps _ add (set_commands (File []) s) [] [rest (write_chunks 0 (at_once (save_pieces g)))]) as H. exact H. }
  exists (set_commands (File (commands_text [AddVertex 1] ++ txt "45" ++ [10])) s). split; [|split; [reflexivity|]].
  - eapply isteps_trans; [exact S1|]. eapply isteps_trans; [exact S2|]. eapply isteps_trans; [exact S3|].
    pose proof (run_isteps _ (rest (write_chunks 0 (at_once (save_pieces g)))) (set_commands (File (commands_text [AddVertex 2345])) s) [Ret Success] []) as H.
    exact H.
  - rewrite run_load. cbn [snd commands_entry set_commands set_graph fs_graph with_file s].
    match goal with |- gcmd_read nd ?c = _ => assert (Er : gcmd_read_as_commands nd c = Done (Err (txt "Error at line 2: Couldn't parse '45'"))) end.
    { apply read_as_commands_err. exists [command_into_line (AddVertex 1)], (txt "45"), [], [AddVertex 1], (parse_error (txt "45")).
      split; [reflexivity|]. split; [apply (reads_commands nd T [AddVertex 1]); repeat constructor|].
      destruct (cut_line (AddVertex 2345) (txt "45")) as [_ Hn]; [now exists (txt "AddVertex 23")|discriminate|].
      destruct Hn as [Hn1 Hn2]; [discriminate|]. split; [exact Hn1|]. split; [|reflexivity].
      apply gcmd_parse_err; [exact T|]. split; [intro d; apply Hn2|reflexivity]. }
    unfold gcmd_read, read. unfold gcmd_read_as_commands in Er. rewrite Er. reflexivity.
Qed.
Print Assumptions C119_readable_refuted.
(** Four additions: one before gc-build reads, one between its reading and its truncation, one before it
    writes, and one at the end; the end of the third and all of the first and the last are kept. *)
Example C119_case :
  let ws := [(at_once, [AddVertex 2]); (at_once, [AddVertex 3]); (at_once, [AddVertex 100; AddEdge 4 5; AddEdge 40000 5]); (at_once, [AddEdge 1 6])] in
  closed (commands_text [AddVertex 1]) /\ gcmd_read_as_commands table (commands_text [AddVertex 1]) = Done (Ok [AddVertex 1]) /\
  Forall (fun w => buffering (fst w) /\ (length (fst w (add_pieces (snd w))) <= 1)%nat) ws /\
  Forall (Forall u64_command) (map snd ws) /\
  exists s' ps, isteps (with_file (commands_text [AddVertex 1]),
      map (fun w => exit_of (apply_graph_commands (fst w) (snd w))) ws ++ [gc_build table at_once id_order]) (s', ps) /\
    Forall (fun p => exists r, p = Ret r) ps /\
    commands_entry s' = File (commands_text [AddVertex 1; AddVertex 2] ++ txt "5" ++ [10] ++ commands_text [AddEdge 40000 5; AddEdge 1 6]).
Proof.
  cbv zeta. split; [apply closed_commands|]. split; [reflexivity|].
  split; [repeat constructor; try apply at_once_ok|]. split; [repeat constructor|].
  set (s := with_file (commands_text [AddVertex 1])).
  set (ps := map _ _ ++ _).
  set (sch := (repeat 0 5 ++ [4] ++ repeat 1 5 ++ [4] ++ repeat 2 5 ++ [4] ++ repeat 3 5)%nat).
  exists (fst (run_schedule sch s ps)), (snd (run_schedule sch s ps)). split.
  - pose proof (run_schedule_isteps _ sch s ps) as H. destruct (run_schedule sch s ps) as [a b]. exact H.
  - split; [|reflexivity]. vm_compute. repeat constructor; eauto.
Qed.
