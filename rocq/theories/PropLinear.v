(** * Property C159: calls of several users at once are explained by one order of whole requests *)
From Coq Require Import String.
From Coq Require Import List NArith ZArith Bool Arith Lia Permutation.
From Verif Require Import Spec Base WalkFacts Graph GraphSpec GraphFacts Path
  Queue Iter Text Format FormatSpec TextFacts FormatFacts Store StoreSpec StoreFacts CrashFacts PropFormat PropStore
  Writer WriterFacts PropWriter Reader ReaderFacts Steps Clients LinearSpec.
Import ListNotations.
Open Scope N_scope.

(** ** Events *)
Lemma events_app i l l' : events i (l ++ l') = events i l ++ events i l'.
Proof. unfold events. now rewrite filter_app, map_app. Qed.
Lemma events_same i e : events i [(i, e)] = [e].
Proof. unfold events. cbn [filter fst]. now rewrite Nat.eqb_refl. Qed.
Lemma events_other i j e : i <> j -> events j [(i, e)] = [].
Proof. intro H. unfold events. cbn [filter fst]. apply Nat.eqb_neq in H. now rewrite H. Qed.
Lemma fits_length os es ans : fits os es ans -> length os = length ans /\ length es = length ans.
Proof. induction 1 as [|os es ans o e a _ [I1 I2] _ _]; [now split|]. rewrite !app_length. cbn. lia. Qed.

(** ** The state of the directory *)
Definition has_file (s : fs) (t : text) : Prop := fs_graph s = GraphDir (File t).
(** No commands file yet, or one with the given text; nothing of the wrong kind in the way. *)
Definition world (s : fs) (m : option text) : Prop :=
  openable (fs_lock s) = true /\
  match m with
  | None => fs_graph s = NoGraph \/ (fs_graph s = GraphDir Absent /\ fs_root s = true)
  | Some t => fs_root s = true /\ has_file s t
  end.
(** Nothing disappears. *)
Definition later (s s' : fs) : Prop :=
  (fs_root s = true -> fs_root s' = true) /\ (fs_graph s <> NoGraph -> fs_graph s' <> NoGraph) /\
  (forall t, has_file s t -> exists x, has_file s' (t ++ x)).
Lemma later_refl s : later s s.
Proof. split; [auto|]. split; [auto|]. intros t H. exists []. now rewrite app_nil_r. Qed.
Lemma later_graph s s' : (fs_root s = true -> fs_root s' = true) -> fs_graph s' = fs_graph s -> later s s'.
Proof.
  intros H E. split; [assumption|]. unfold has_file. rewrite E. split; [auto|]. intros t Ht. exists []. now rewrite app_nil_r.
Qed.

(** ** Where a call stands *)
Section Stages.
  Variable s : fs.
  Inductive ustage (ch : list text -> list text) (cs : list graph_command) : list event -> prog (io unit) -> Prop :=
  | u0 : ustage ch cs [] (apply_graph_commands ch cs)
  | u1 : ustage ch cs [] (bind opening (after_opening ch cs))
  | u2 : ustage ch cs [] (section (add_commands ch cs))
  | u3 : (exists t, has_file s t) -> ustage ch cs [] (section (append_chunks [commands_text cs]))
  | u4 : ustage ch cs [Stored cs] (section (append_chunks []))
  | u5 : ustage ch cs [Refused cs] (section (Ret IoErr))
  | u6 r : ustage ch cs [Stored cs] (Ret r)
  | u7 : ustage ch cs [Refused cs] (Ret IoErr).
  Inductive istage : list event -> prog (io unit) -> Prop :=
  | i0 : istage [] f_init
  | i1 : istage [] (Act (set_root true) (fun _ => Act mkdir_graph (fun _ => f_open)))
  | i2 : fs_root s = true -> istage [] (Act mkdir_graph (fun _ => f_open))
  | i3 : fs_graph s <> NoGraph -> istage [] f_open
  | i4 : istage [Made] (Ret (IoOk tt)).
  Inductive stage (nd : N -> bool) : request -> list event -> prog answer -> Prop :=
  | s_setup ex p : istage ex p -> stage nd SetUp ex (bind p (fun r => Ret (AMade r)))
  | s_update chunks cs ex p : ustage chunks cs ex p -> stage nd (Update chunks cs) ex (bind p (fun r => Ret (AStored r)))
  | s_ask : stage nd Ask [] (serve nd Ask)
  | s_asked r : stage nd Ask [Saw r] (Ret (ARead r))
  | s_slow takes fuel : stage nd (AskSlowly takes fuel) [] (serve nd (AskSlowly takes fuel))
  | s_reading takes fuel n seg t : has_file s t -> prefix seg t ->
      stage nd (AskSlowly takes fuel) [] (bind (read_rest nd takes n [] seg) (fun r => Ret (ARead r)))
  | s_read takes fuel r : stage nd (AskSlowly takes fuel) [Saw r] (Ret (ARead r)).
End Stages.
Lemma stage_later s s' nd o ex p : later s s' -> stage s nd o ex p -> stage s' nd o ex p.
Proof.
  intros (L1 & L2 & L3) H. destruct H as [ex p H|chunks cs ex p H| | | |takes fuel n seg t Ht [q Hq]|]; try (constructor; fail).
  - constructor. destruct H; constructor; auto.
  - constructor. destruct H as [| | |[t Ht]| | | |]; constructor. destruct (L3 _ Ht) as [x Hx]. eauto.
  - destruct (L3 _ Ht) as [x Hx]. apply s_reading with (t := t ++ x); [assumption|]. exists (q ++ x). rewrite Hq. now rewrite app_assoc.
Qed.
Definition at_work (nd : N -> bool) (s : fs) (os : list request) (es : list event) (c : client) : Prop :=
  match current c with
  | None => exists begun, os = begun ++ todo c /\ fits begun es (answers c)
  | Some p => exists begun o es1 extra, os = begun ++ o :: todo c /\ es = es1 ++ extra /\ fits begun es1 (answers c) /\
      stage s nd o extra p
  end.
Lemma stage_event s nd o ex p : stage s nd o ex p -> ex = [] \/ exists e, ex = [e] /\ made_by o e.
Proof.
  intros [ex0 p0 []|chunks cs ex0 p0 []| | | | |]; auto; right; eexists; (split; [reflexivity|constructor]).
Qed.
Lemma at_work_fits nd s os es c : at_work nd s os es c -> client_fits os es c.
Proof.
  unfold at_work, client_fits. destruct (current c) as [p|]; [|auto].
  intros (begun & o & es1 & extra & H1 & H2 & H3 & H4). exists begun, o, es1, extra. repeat (split; [assumption|]).
  eapply stage_event, H4.
Qed.
Lemma at_work_later nd s s' os es c : later s s' -> at_work nd s os es c -> at_work nd s' os es c.
Proof.
  intro HL. unfold at_work. destruct (current c) as [p|]; [|auto].
  intros (begun & o & es1 & extra & H1 & H2 & H3 & H4). exists begun, o, es1, extra. repeat (split; [assumption|]).
  eapply stage_later; eassumption.
Qed.

(** A request that reaches the file in one write. *)
Definition small (o : request) : Prop :=
  match o with
  | Update chunks cs => buffering chunks /\ (length (chunks (add_pieces cs)) <= 1)%nat /\ Forall u64_command cs
  | SetUp | Ask | AskSlowly _ _ => True
  end.

Section Linear.
  Variable nd : N -> bool.
  Hypothesis T : digit_table nd.
  Variable log : option (list graph_command).
  Variable oss : list (list request).
  Hypothesis Sm : Forall (Forall small) oss.

  Definition reads_as (m : option text) (l : option (list graph_command)) : Prop :=
    match m, l with
    | Some t, Some l => closed t /\ gcmd_read_as_commands nd t = Done (Ok l)
    | None, None => True
    | _, _ => False
    end.
  (** What one step does to the text, and its event. *)
  Inductive effect : option text -> list event -> option text -> Prop :=
  | e_none m : effect m [] m
  | e_made : effect None [Made] (Some [])
  | e_made_again t : effect (Some t) [Made] (Some t)
  | e_stored t cs : Forall u64_command cs -> effect (Some t) [Stored cs] (Some (t ++ commands_text cs))
  | e_refused cs : effect None [Refused cs] None
  | e_saw t : effect (Some t) [Saw (gcmd_read nd t)] (Some t)
  | e_saw_none e : effect None [Saw (Done (Err e))] None.
  Lemma effect_legal m ev m' l es : effect m ev m' -> reads_as m l -> legal log es l ->
    exists l', reads_as m' l' /\ legal log (es ++ ev) l'.
  Proof.
    intros E R Hl. destruct E as [m| |t|t cs U|cs|t|e]; destruct l as [l|]; try contradiction.
    - exists (Some l). now rewrite app_nil_r.
    - exists None. now rewrite app_nil_r.
    - exists (Some []). split; [|now constructor]. split; [now left|reflexivity].
    - exists (Some l). split; [assumption|now constructor].
    - destruct R as [Hc Hr]. destruct (C18_append nd t l cs T Hc U Hr) as [K1 K2].
      exists (Some (l ++ cs)). split; [now split|now constructor].
    - exists None. split; [exact R|now constructor].
    - exists (Some l). split; [assumption|]. destruct R as [Hc Hr].
      assert (Rg : gcmd_read nd t = Done (Ok (apply_commands l g_new))) by (apply gcmd_read_ok; eauto). rewrite Rg.
      apply l_saw; [exact Hl|]. apply refines, built_by_apply.
    - exists None. split; [exact R|now constructor].
  Qed.

  Lemma ustage_step s m ch cs ex upd k : world s m -> small (Update ch cs) -> ustage s ch cs ex (Act upd k) ->
    exists m' ev, (length ev <= 1)%nat /\ world (upd s) m' /\ later s (upd s) /\ effect m ev m' /\
      ustage (upd s) ch cs (ex ++ ev) (k s).
  Proof.
    intros [Hl Hm] (B & Len & U) H. destruct s as [rt lk d]. cbn in Hl.
    remember (Act upd k) as q eqn:Eq. destruct H as [| | |[t Ht]| | | |]; try discriminate Eq.
    - injection Eq as <- <-. exists m, []. split; [cbn; lia|]. split; [|split; [|split; [constructor|]]].
      + split; [exact Hl|]. destruct m as [t|]; cbn in *; tauto.
      + now apply later_graph.
      + apply u1.
    - injection Eq as <- <-. cbn [fs_root fs_lock]. destruct rt; cbn [andb].
      + rewrite Hl. exists m, []. split; [cbn; lia|]. split; [|split; [now apply later_graph|split; [constructor|]]].
        * split; [now destruct lk|]. destruct m as [t|]; cbn in *; tauto.
        * apply u2.
      + destruct m as [t|]; [destruct Hm; discriminate|]. exists None, [Refused cs]. split; [cbn; lia|].
        split; [split; [exact Hl|exact Hm]|]. split; [now apply later_graph|]. split; [constructor|]. apply u7.
    - injection Eq as <- <-. destruct m as [t|].
      + destruct Hm as [Hr Ht]. unfold has_file in Ht. cbn in Hr, Ht. subst rt d. cbn [commands_entry fs_graph bind].
        destruct (one_write_cases _ _ B Len) as [[-> E]|E]; rewrite E.
        * exists (Some t), [Stored []]. split; [cbn; lia|]. split; [now split|]. split; [apply later_refl|].
          split; [|apply u4]. pose proof (e_stored t [] (Forall_nil _)) as X. cbn in X. now rewrite app_nil_r in X.
        * exists (Some t), []. split; [cbn; lia|]. split; [now split|]. split; [apply later_refl|]. split; [constructor|].
          apply u3. now exists t.
      + exists None, [Refused cs]. split; [cbn; lia|]. split; [now split|]. split; [apply later_refl|]. split; [constructor|].
        replace (match commands_entry {| fs_root := rt; fs_lock := lk; fs_graph := d |} with File _ => append_chunks (ch (add_pieces cs)) | _ => Ret IoErr end)
          with (@Ret (io unit) IoErr); [apply u5|]. cbn in Hm. destruct Hm as [-> |[-> _]]; reflexivity.
    - injection Eq as <- <-. unfold has_file in Ht. cbn in Ht. subst d.
      destruct m as [t'|]; [|destruct Hm as [Hm|[Hm _]]; discriminate Hm].
      destruct Hm as [Hr Hm]. unfold has_file in Hm. cbn in Hr, Hm. injection Hm as <-. subst rt.
      exists (Some (t ++ commands_text cs)), [Stored cs]. split; [cbn; lia|]. split; [now split|]. split; [|split; [now constructor|apply u4]].
      split; [auto|]. split; [cbn; discriminate|]. intros t0 H0. unfold has_file in H0. cbn in H0. injection H0 as <-.
      now exists (commands_text cs).
    - injection Eq as <- <-. exists m, []. split; [cbn; lia|].
      split; [|split; [now destruct lk; apply later_graph|split; [constructor|]]].
      + split; [now destruct lk|]. destruct m as [t|]; destruct lk; cbn in *; tauto.
      + cbn [app]. destruct lk; cbn; apply u6.
    - injection Eq as <- <-. exists m, []. split; [cbn; lia|].
      split; [|split; [now destruct lk; apply later_graph|split; [constructor|]]].
      + split; [now destruct lk|]. destruct m as [t|]; destruct lk; cbn in *; tauto.
      + cbn [app]. destruct lk; cbn; apply u7.
  Qed.
  Lemma mkdir_world s m : world s m -> fs_root s = true ->
    world (mkdir_graph s) m /\ later s (mkdir_graph s) /\ fs_graph (mkdir_graph s) <> NoGraph.
  Proof.
    intros [Hl Hm] Hr. destruct s as [rt lk d]. cbn in Hl, Hr. subst rt. destruct d as [| |e]; cbn [mkdir_graph fs_graph].
    - split; [|split].
      + split; [exact Hl|]. destruct m as [t|]; [destruct Hm; discriminate|]. right. now split.
      + split; [auto|]. split; [intros _; discriminate|]. discriminate.
      + discriminate.
    - destruct m as [t|]; [destruct Hm; discriminate|destruct Hm as [Hm|[Hm _]]; discriminate Hm].
    - split; [now split|]. split; [apply later_refl|discriminate].
  Qed.
  Lemma istage_step s m ex upd k : world s m -> istage s ex (Act upd k) ->
    exists m' ev, (length ev <= 1)%nat /\ world (upd s) m' /\ later s (upd s) /\ effect m ev m' /\
      istage (upd s) (ex ++ ev) (k s).
  Proof.
    intros W H. remember (Act upd k) as q eqn:Eq. destruct H as [| |Hr|Hd|]; try discriminate Eq.
    - injection Eq as <- <-. exists m, []. split; [cbn; lia|]. destruct (fs_root s) eqn:Er.
      + destruct (mkdir_world s m W Er) as (W' & Lt & Hd). repeat (split; [assumption||constructor|]). now apply i3.
      + split; [assumption|]. split; [apply later_refl|]. split; [constructor|]. apply i1.
    - injection Eq as <- <-. exists m, []. split; [cbn; lia|]. destruct W as [Hl Hm]. destruct s as [rt lk d]. cbn in *.
      split; [|split; [now apply later_graph|split; [constructor|now apply i2]]].
      split; [exact Hl|]. destruct m as [t|]; cbn in *; tauto.
    - injection Eq as <- <-. exists m, []. split; [cbn; lia|]. destruct (mkdir_world s m W Hr) as (W' & Lt & Hd).
      repeat (split; [assumption||constructor|]). now apply i3.
    - injection Eq as <- <-. destruct W as [Hl Hm]. destruct s as [rt lk d]. cbn in Hl, Hd. destruct m as [t|].
      + destruct Hm as [Hr Ht]. unfold has_file in Ht. cbn in Hr, Ht. subst rt d. exists (Some t), [Made]. split; [cbn; lia|].
        split; [now split|]. split; [apply later_refl|]. split; [constructor|]. apply i4.
      + destruct Hm as [Hm|[Hm Hr]]; cbn in Hm; [contradiction|]. cbn in Hr. subst rt d. exists (Some []), [Made]. split; [cbn; lia|].
        split; [now split|]. split; [|split; [constructor|apply i4]]. split; [auto|]. split; [cbn; discriminate|]. discriminate.
  Qed.

  Lemma rest_step takes n seg : read_rest nd takes (S n) [] seg =
    Act (fun s => s) (fun s =>
      match firstn (S (takes [] seg)) (skipn (length seg) (match commands_entry s with File c => c | _ => [] end)) with
      | [] => if ends_line seg || negb (is_ok (read_pieces nd [seg])) then Ret (read_pieces nd [seg])
              else read_rest nd takes n [seg] []
      | new => if is_ok (read_pieces nd [complete (seg ++ new)]) then read_rest nd takes n [] (seg ++ new)
               else Ret (read_pieces nd [complete (seg ++ new)])
      end).
  Proof. reflexivity. Qed.
  Lemma stage_step s m l o ex upd k : world s m -> reads_as m l -> small o -> stage s nd o ex (Act upd k) ->
    exists m' ev, (length ev <= 1)%nat /\ world (upd s) m' /\ later s (upd s) /\ effect m ev m' /\
      stage (upd s) nd o (ex ++ ev) (k s).
  Proof.
    intros W R So H.
    inversion H as [ex0 p Hi E1 E2 E3|ch cs ex0 p Hu E1 E2 E3|E1 E2 E3|r E1 E2 E3|takes fuel E1 E2 E3|takes fuel n seg t Ht Hp E1 E2 E3|takes fuel r E1 E2 E3];
      subst o ex.
    - destruct p as [res|upd' k']; cbn [bind] in E3; [discriminate E3|]. injection E3 as Eu Ek. subst upd' k.
      destruct (istage_step _ _ _ _ _ W Hi) as (m' & ev & H1 & H2 & H3 & H4 & H5). exists m', ev.
      repeat (split; [assumption|]). now constructor.
    - destruct p as [res|upd' k']; cbn [bind] in E3; [discriminate E3|]. injection E3 as Eu Ek. subst upd' k.
      destruct (ustage_step _ _ _ _ _ _ _ W So Hu) as (m' & ev & H1 & H2 & H3 & H4 & H5). exists m', ev.
      repeat (split; [assumption|]). now constructor.
    - subst upd k. destruct m as [t|].
      + assert (Eg : commands_entry s = File t) by (destruct W as (_ & _ & Hg); unfold commands_entry; now rewrite Hg).
        rewrite Eg. exists (Some t), [Saw (gcmd_read nd t)]. split; [cbn; lia|]. split; [exact W|]. split; [apply later_refl|].
        split; [constructor|]. apply s_asked.
      + assert (Eg : commands_entry s = Absent) by (destruct W as (_ & [Hg|[Hg _]]); unfold commands_entry; now rewrite Hg).
        rewrite Eg. eexists None, [Saw _]. split; [cbn; lia|]. split; [exact W|]. split; [apply later_refl|].
        split; [constructor|]. apply s_asked.
    - subst upd k. destruct m as [t|].
      + assert (Eg : commands_entry s = File t) by (destruct W as (_ & _ & Hg); unfold commands_entry; now rewrite Hg).
        rewrite Eg. exists (Some t), []. split; [cbn; lia|]. split; [exact W|]. split; [apply later_refl|]. split; [constructor|].
        apply s_reading with (t := t); [apply W|]. now exists t.
      + assert (Eg : commands_entry s = Absent) by (destruct W as (_ & [Hg|[Hg _]]); unfold commands_entry; now rewrite Hg).
        rewrite Eg. eexists None, [Saw _]. split; [cbn; lia|]. split; [exact W|]. split; [apply later_refl|].
        split; [constructor|]. apply s_read.
    - destruct n as [|n]; [discriminate E3|]. rewrite rest_step in E3.
      pose proof (f_equal (fun p => match p with Act u _ => u s | Ret _ => s end) E3) as Eu.
      pose proof (f_equal (fun p => match p with Act _ f => f s | Ret _ => p end) E3) as Ek.
      cbn [bind] in Eu, Ek. rewrite <- Eu, <- Ek. clear Eu Ek E3.
      destruct m as [t'|]; [|exfalso; unfold has_file in Ht; destruct W as (_ & [Hg|[Hg _]]); rewrite Ht in Hg; discriminate Hg].
      assert (t' = t) by (destruct W as (_ & _ & Hg); unfold has_file in *; rewrite Ht in Hg; now injection Hg). subst t'.
      assert (Eg : commands_entry s = File t) by (unfold commands_entry; now rewrite Ht).
      destruct l as [l|]; [|contradiction]. destruct R as [Hc Hr]. rewrite Eg. set (g := apply_commands l g_new).
      assert (Rg : gcmd_read nd t = Done (Ok g)) by (apply gcmd_read_ok; eauto).
      pose proof (firstn_skipn_prefix seg t (S (takes [] seg)) Hp) as Hp'.
      destruct (firstn (S (takes [] seg)) (skipn (length seg) t)) as [|x new] eqn:En.
      + assert (Es : seg = t).
        { destruct Hp as [q ->]. rewrite skipn_app, skipn_all, Nat.sub_diag in En. cbn [app skipn] in En.
          destruct q; [now rewrite app_nil_r|discriminate En]. }
        subst seg. rewrite read_pieces_one. apply ends_line_closed in Hc as Hc'. rewrite Hc'. cbn [orb bind].
        exists (Some t), [Saw (gcmd_read nd t)]. split; [cbn; lia|]. split; [exact W|]. split; [apply later_refl|].
        split; [constructor|]. apply s_read.
      + assert (Ok' : is_ok (read_pieces nd [complete (seg ++ x :: new)]) = true).
        { destruct (is_ok (read_pieces nd [complete (seg ++ x :: new)])) eqn:Eb; [reflexivity|exfalso].
          destruct (complete_split (seg ++ x :: new)) as (q & Eq & _). destruct Hp' as [q' Eq'].
          rewrite Eq, <- app_assoc in Eq'. pose proof (read_pieces_bad nd _ (q ++ q') (complete_closed _) Eb) as B.
          rewrite <- Eq', Rg in B. rewrite <- B in Eb. discriminate Eb. }
        rewrite Ok'. exists (Some t), []. split; [cbn; lia|]. split; [exact W|]. split; [apply later_refl|]. split; [constructor|].
        apply s_reading with (t := t); assumption.
  Qed.
  Lemma stage_end s o ex a : stage s nd o ex (Ret a) -> a <> ARead OutOfFuel -> exists e, ex = [e] /\ made_by o e /\ answered e a.
  Proof.
    intros H Ha.
    inversion H as [ex0 p Hi E1 E2 E3|ch cs ex0 p Hu E1 E2 E3|E1 E2 E3|r E1 E2 E3|takes fuel E1 E2 E3|takes fuel n seg t Ht Hp E1 E2 E3|takes fuel r E1 E2 E3];
      subst o ex.
    - destruct p as [res|]; [|discriminate E3]. cbn in E3. injection E3 as <-. remember (Ret res) as q eqn:Eq.
      destruct Hi; try discriminate Eq. injection Eq as <-. exists Made. split; [reflexivity|]. split; constructor.
    - destruct p as [res|]; [|discriminate E3]. cbn in E3. injection E3 as <-. remember (Ret res) as q eqn:Eq.
      destruct Hu; try discriminate Eq; injection Eq as <-; eexists; (split; [reflexivity|]); split; constructor.
    - subst. eexists; (split; [reflexivity|]); split; constructor.
    - exfalso. destruct n as [|n]; cbn [read_rest bind] in E3; [|discriminate E3]. injection E3 as <-. now elim Ha.
    - subst. eexists; (split; [reflexivity|]); split; constructor.
  Qed.

  Definition linv (m : option text) (x : fs * list client) (L : list (nat * event)) : Prop :=
    (exists l, legal log (map snd L) l /\ world (fst x) m /\ reads_as m l) /\
    length (snd x) = length oss /\ Forall (fun e => (fst e < length oss)%nat) L /\
    forall i os c, nth_error oss i = Some os -> nth_error (snd x) i = Some c -> at_work nd (fst x) os (events i L) c.

  Lemma linv_explained m x L : linv m x L -> explained nd log oss x L.
  Proof.
    intros ((l & H1 & (_ & H2) & H3) & H4 & HF & H5). split.
    - exists l. split; [assumption|]. destruct m as [t|], l as [l|]; try contradiction; unfold agrees, commands_entry.
      + destruct H2 as [_ ->]. exists t. split; [reflexivity|apply H3].
      + destruct H2 as [->|[-> _]]; reflexivity.
    - split; [assumption|]. split; [assumption|]. intros. eapply at_work_fits; eauto.
  Qed.

  Lemma nth_mid A (pre post : list A) c j : nth_error (pre ++ c :: post) j =
    if Nat.eqb j (length pre) then Some c else nth_error (pre ++ c :: post) j.
  Proof.
    destruct (Nat.eqb_spec j (length pre)) as [->|]; [|reflexivity].
    rewrite nth_error_app2, Nat.sub_diag by lia. reflexivity.
  Qed.
  Lemma nth_other A (pre post : list A) c c' j : j <> length pre ->
    nth_error (pre ++ c :: post) j = nth_error (pre ++ c' :: post) j.
  Proof.
    intro H. destruct (Nat.lt_ge_cases j (length pre)) as [Hl|Hl].
    - now rewrite !nth_error_app1.
    - rewrite !nth_error_app2 by lia. destruct (j - length pre)%nat eqn:E; [lia|reflexivity].
  Qed.
  Lemma events_own i l : events i (map (pair i) l) = l.
  Proof.
    unfold events. induction l as [|e l IH]; [reflexivity|]. cbn [map filter fst]. rewrite Nat.eqb_refl. cbn [map snd].
    now rewrite IH.
  Qed.
  Lemma events_foreign i j l : i <> j -> events j (map (pair i) l) = [].
  Proof.
    intro H. apply Nat.eqb_neq in H. unfold events. induction l as [|e l IH]; [reflexivity|]. cbn [map filter fst].
    now rewrite H.
  Qed.
  (** The user at work. *)
  Lemma linv_user m s pre c post L : linv m (s, pre ++ c :: post) L ->
    exists os, nth_error oss (length pre) = Some os /\ Forall small os /\ at_work nd s os (events (length pre) L) c.
  Proof.
    intros (_ & H2 & _ & H3). cbn [fst snd] in *. destruct (nth_error oss (length pre)) as [os|] eqn:Ho.
    - exists os. split; [reflexivity|]. split.
      + rewrite Forall_forall in Sm. apply Sm. eapply nth_error_In; eassumption.
      + apply (H3 _ _ _ Ho). now rewrite nth_mid, Nat.eqb_refl.
    - apply nth_error_None in Ho. rewrite app_length in H2. cbn in H2. lia.
  Qed.
  (** Replacing one user, with the events of this step. *)
  Lemma linv_replace m m' s s' pre c c' post L ev os : linv m (s, pre ++ c :: post) L ->
    effect m ev m' -> world s' m' -> later s s' ->
    nth_error oss (length pre) = Some os -> at_work nd s' os (events (length pre) L ++ ev) c' ->
    linv m' (s', pre ++ c' :: post) (L ++ map (pair (length pre)) ev).
  Proof.
    intros ((l & Hl & _ & Hr) & H2 & HF & H3) He Hw Hlt Ho H. cbn [fst snd] in *. split.
    { destruct (effect_legal _ _ _ _ _ He Hr Hl) as (l' & R' & L'). exists l'.
      rewrite map_app, map_map. cbn [snd fst]. rewrite map_id. auto. }
    cbn [fst snd]. split; [rewrite <- H2, !app_length; reflexivity|]. split.
    { apply Forall_app. split; [assumption|]. apply Forall_map, Forall_forall. intros e _. cbn [fst].
      rewrite <- H2, app_length. cbn. lia. }
    intros i os' d Ho' Hd. rewrite events_app. destruct (Nat.eq_dec i (length pre)) as [->|Hne].
    - rewrite nth_mid, Nat.eqb_refl in Hd. injection Hd as <-. rewrite events_own. congruence.
    - rewrite (nth_other _ pre post c' c) in Hd by assumption. rewrite events_foreign, app_nil_r by congruence.
      apply (at_work_later nd s s'); [assumption|]. eauto.
  Qed.
  Lemma linv_step m x y L : linv m x L -> cstep nd x y -> exists m' l, (length l <= 1)%nat /\ linv m' y (L ++ l).
  Proof.
    intros H St. destruct St as [s pre a o rest post|s pre a upd k rest post|s pre a r rest post Hend];
      destruct (linv_user _ _ _ _ _ _ H) as (os & Ho & So & W);
      pose proof H as ((l & Hl & Hw & Hr) & _); cbn [fst snd] in *.
    - unfold at_work in W. cbn [current todo answers] in W. destruct W as (begun & -> & F).
      exists m, (map (pair (length pre)) []). split; [cbn; lia|].
      eapply linv_replace; try eassumption; [constructor|apply later_refl|].
      exists begun, o, (events (length pre) L), []. repeat (split; [reflexivity||assumption|]). cbn [current].
      destruct o as [|chunks cs| |takes fuel]; constructor; constructor.
    - unfold at_work in W. cbn [current todo answers] in W.
      destruct W as (begun & o & es1 & extra & Eo & Ee & F & G).
      assert (So' : small o) by (rewrite Eo, Forall_forall in So; apply So, in_or_app; right; now left).
      destruct (stage_step _ _ _ _ _ _ _ Hw Hr So' G) as (m' & ev & K1 & K2 & K3 & K4 & K5).
      exists m', (map (pair (length pre)) ev). split; [now rewrite map_length|].
      eapply linv_replace; try eassumption.
      exists begun, o, es1, (extra ++ ev). rewrite Ee, app_assoc. now repeat (split; [reflexivity||assumption|]).
    - unfold at_work in W. cbn [current todo answers] in W.
      destruct W as (begun & o & es1 & extra & Eo & Ee & F & G).
      exists m, (map (pair (length pre)) []). split; [cbn; lia|].
      eapply linv_replace; try eassumption; [constructor|apply later_refl|].
      destruct (stage_end _ _ _ _ G Hend) as (e & -> & M & A).
      exists (begun ++ [o]). cbn [todo answers]. rewrite Eo, <- app_assoc. split; [reflexivity|].
      rewrite app_nil_r, Ee. now constructor.
  Qed.
  Lemma linv_start s m : world s m -> reads_as m log -> linv m (s, map (Client [] None) oss) [].
  Proof.
    intros H1 H2. split; [exists log; split; [constructor|auto]|]. cbn [fst snd]. split; [apply map_length|]. split; [constructor|].
    intros i os c Ho Hc. rewrite nth_error_map, Ho in Hc. injection Hc as <-. exists []. split; [reflexivity|constructor].
  Qed.
End Linear.

(** ** The theorem *)

(** Where the users may begin: a commands file that can be read and ends with a line break, or none yet; the lock file is
    absent or left behind by a killed process. *)
Definition beginning (nd : N -> bool) (s : fs) (log : option (list graph_command)) : Prop :=
  openable (fs_lock s) = true /\
  match log with
  | Some l => fs_root s = true /\ exists c, fs_graph s = GraphDir (File c) /\ closed c /\ gcmd_read_as_commands nd c = Done (Ok l)
  | None => fs_graph s = NoGraph \/ (fs_root s = true /\ fs_graph s = GraphDir Absent)
  end.
(** Any number of users; every update reaches the file in one write.  At every moment of every run there is an order of whole
    requests that explains what everybody has been told so far, and later orders extend earlier ones, by at most one
    event at a time.  Killed processes are included: a run may stop choosing a user at any point. *)
Theorem C159_linearizable : forall nd log oss s (run : nat -> fs * list client) n, digit_table nd ->
  Forall (Forall small) oss -> beginning nd s log ->
  run 0%nat = (s, map (Client [] None) oss) -> (forall t, (t < n)%nat -> cstep nd (run t) (run (S t))) ->
  exists L, L 0%nat = [] /\ (forall t, (t <= n)%nat -> explained nd log oss (run t) (L t)) /\
    forall t, (t < n)%nat -> exists l, L (S t) = L t ++ l /\ (length l <= 1)%nat.
Proof.
  intros nd log oss s run n T Sm HB H0 Hs.
  assert (HI : exists L, L 0%nat = [] /\ (forall t, (t <= n)%nat -> exists m, linv nd log oss m (run t) (L t)) /\
    forall t, (t < n)%nat -> exists l, L (S t) = L t ++ l /\ (length l <= 1)%nat).
  { induction n as [|n IH].
    - exists (fun _ => []). split; [reflexivity|]. split; [|intros; lia]. intros t Ht. replace t with 0%nat by lia.
      rewrite H0. destruct HB as [B1 B2]. destruct log as [l|].
      + destruct B2 as (B2 & c & B3 & B4 & B5). exists (Some c). apply linv_start; [split; [assumption|now split]|now split].
      + exists None. apply linv_start; [|exact I]. split; [assumption|]. tauto.
    - destruct IH as (L & L0 & I1 & I2); [intros t Ht; apply Hs; lia|].
      destruct (I1 n (le_n n)) as (m & Hm).
      destruct (linv_step nd T log oss Sm m _ _ (L n) Hm (Hs n (Nat.lt_succ_diag_r n))) as (m' & l & Hl & HI).
      exists (fun t => if Nat.leb t n then L t else L n ++ l). split; [exact L0|]. split.
      + intros t Ht. destruct (Nat.leb_spec t n) as [Hle|Hgt]; [now apply I1|]. exists m'. now replace t with (S n) by lia.
      + intros t Ht. destruct (Nat.leb_spec t n) as [Hle|Hgt]; [|lia]. destruct (Nat.leb_spec (S t) n) as [Hle'|Hgt'].
        * apply I2. lia.
        * replace t with n by lia. eauto. }
  destruct HI as (L & L0 & I1 & I2). exists L. split; [assumption|]. split; [|assumption].
  intros t Ht. destruct (I1 t Ht) as [m Hm]. eapply linv_explained; eauto.
Qed.
Print Assumptions C159_linearizable.

Lemma client_fits_length os es c : client_fits os es c ->
  (length (answers c) <= length es)%nat /\ (length es <= length os - length (todo c))%nat.
Proof.
  unfold client_fits. destruct (current c).
  - intros (b & o & es1 & ex & -> & -> & F & E). apply fits_length in F. rewrite !app_length. cbn [length].
    destruct E as [->|(e & -> & _)]; cbn [length]; lia.
  - intros (b & -> & F). apply fits_length in F. rewrite !app_length. lia.
Qed.
Lemma position_in i k p l l' : position i k p (l ++ l') -> (k < length (events i l))%nat -> (p < length l)%nat.
Proof.
  intros (l1 & e & l2 & E & <- & <-) H. destruct (Nat.lt_ge_cases (length l1) (length l)) as [|Hge]; [assumption|exfalso].
  assert (Ep : l1 = l ++ skipn (length l) l1).
  { rewrite <- (firstn_skipn (length l) l1) at 1. f_equal.
    apply (f_equal (firstn (length l))) in E. rewrite !firstn_app in E.
    rewrite firstn_all, Nat.sub_diag, firstn_O, app_nil_r in E.
    replace (length l - length l1)%nat with 0%nat in E by lia. rewrite firstn_O, app_nil_r in E. congruence. }
  rewrite Ep, events_app, app_length in H. lia.
Qed.
Lemma position_out i k p l l' : position i k p (l ++ l') -> (length (events i l) <= k)%nat -> (length l <= p)%nat.
Proof.
  intros (l1 & e & l2 & E & <- & <-) H. destruct (Nat.lt_ge_cases (length l1) (length l)) as [Hlt|]; [exfalso|assumption].
  assert (Ep : l = l1 ++ (i, e) :: skipn (S (length l1)) l).
  { rewrite <- (firstn_skipn (S (length l1)) l) at 1.
    apply (f_equal (firstn (S (length l1)))) in E. rewrite !firstn_app in E.
    replace (S (length l1) - length l)%nat with 0%nat in E by lia. rewrite firstn_O, app_nil_r in E.
    rewrite E, firstn_all2 by lia. replace (S (length l1) - length l1)%nat with 1%nat by lia. cbn [firstn].
    now rewrite <- app_assoc. }
  rewrite Ep, events_app, app_length in H. unfold events at 2 in H. cbn [filter fst] in H. rewrite Nat.eqb_refl in H.
  cbn in H. lia.
Qed.

(** Real time: a request answered by moment [t] comes before every request that had not been started by then, in
    every order that extends an explanation of moment [t]. *)
Theorem C159_real_time : forall nd log oss x L l i j os os' c c' k m p q, explained nd log oss x L ->
  nth_error oss i = Some os -> nth_error (snd x) i = Some c -> (k < length (answers c))%nat ->
  nth_error oss j = Some os' -> nth_error (snd x) j = Some c' -> (length os' - length (todo c') <= m)%nat ->
  position i k p (L ++ l) -> position j m q (L ++ l) -> (p < q)%nat.
Proof.
  intros nd log oss x L l i j os os' c c' k m p q (_ & _ & _ & H) Hi Hc Hk Hj Hc' Hm Hp Hq.
  destruct (client_fits_length _ _ _ (H _ _ _ Hi Hc)) as [A1 _].
  destruct (client_fits_length _ _ _ (H _ _ _ Hj Hc')) as [_ A2].
  apply position_in in Hp; [|lia]. apply position_out in Hq; [|lia]. lia.
Qed.
Print Assumptions C159_real_time.

(** The tools' own writer (an 8 KiB buffer): a request whose text has at most 8192 bytes reaches the file in one write. *)
Theorem C159_small : forall cs, (N.of_nat (length (commands_text cs)) <= 8192)%N -> Forall u64_command cs ->
  small (Update (buffered default_capacity) cs).
Proof.
  intros cs H U. split; [apply buffered_ok|]. split; [|assumption]. apply C97_small_one_write.
  change default_capacity with (N.to_nat 8192). lia.
Qed.
Print Assumptions C159_small.

(** ** Concrete runs *)
Definition client_step (nd : N -> bool) (s : fs) (c : client) : option (fs * client) :=
  match c with
  | Client a None (o :: rest) => Some (s, Client a (Some (serve nd o)) rest)
  | Client a None [] => None
  | Client a (Some (Act upd k)) rest => Some (upd s, Client a (Some (k s)) rest)
  | Client a (Some (Ret (ARead OutOfFuel))) rest => None
  | Client a (Some (Ret r)) rest => Some (s, Client (a ++ [r]) None rest)
  end.
Fixpoint pick (nd : N -> bool) (i : nat) (s : fs) (cs : list client) : option (fs * list client) :=
  match cs, i with
  | [], _ => None
  | c :: cs, O => match client_step nd s c with Some (s', c') => Some (s', c' :: cs) | None => None end
  | c :: cs, S i => match pick nd i s cs with Some (s', cs') => Some (s', c :: cs') | None => None end
  end.
Lemma pick_cstep nd i : forall s cs y, pick nd i s cs = Some y -> cstep nd (s, cs) y.
Proof.
  assert (H : forall cs i s s' cs' pre, pick nd i s cs = Some (s', cs') -> cstep nd (s, pre ++ cs) (s', pre ++ cs')).
  { intro cs. induction cs as [|c cs IH]; intros j s s' cs' pre E; [destruct j; discriminate E|]. destruct j as [|j]; cbn [pick] in E.
    - destruct c as [a [[[r|r|[r| |]]|upd k]|] [|o rest]]; cbn [client_step] in E; try discriminate E; injection E as <- <-;
        constructor; discriminate.
    - destruct (pick nd j s cs) as [[s1 cs1]|] eqn:E1; [|discriminate E]. injection E as <- <-.
      pose proof (IH j s s1 cs1 (pre ++ [c]) E1) as K. now rewrite <- !app_assoc in K. }
  intros s cs [s' cs'] E. exact (H cs i s s' cs' [] E).
Qed.
Definition play (nd : N -> bool) (x : fs * list client) (l : list nat) : fs * list client :=
  fold_left (fun x i => match pick nd i (fst x) (snd x) with Some y => y | None => x end) l x.
Lemma play_app nd x l l' : play nd x (l ++ l') = play nd (play nd x l) l'.
Proof. apply fold_left_app. Qed.
(** Every step of the plan is a step. *)
Fixpoint playable (nd : N -> bool) (x : fs * list client) (l : list nat) : bool :=
  match l with
  | [] => true
  | i :: l => match pick nd i (fst x) (snd x) with Some y => playable nd y l | None => false end
  end.
Lemma playable_app nd l l' : forall x, playable nd x (l ++ l') = playable nd x l && playable nd (play nd x l) l'.
Proof.
  induction l as [|i l IH]; intro x; [reflexivity|]. cbn [app playable]. unfold play. cbn [fold_left].
  destruct (pick nd i (fst x) (snd x)) as [y|]; [apply IH|reflexivity].
Qed.
Lemma play_run nd l : forall x, playable nd x l = true -> forall t, (t < length l)%nat ->
  cstep nd (play nd x (firstn t l)) (play nd x (firstn (S t) l)).
Proof.
  induction l as [|i l IH]; intros x H t Ht; [cbn in Ht; lia|]. cbn [playable] in H.
  destruct (pick nd i (fst x) (snd x)) as [y|] eqn:E; [|discriminate H]. destruct t as [|t].
  - cbn [firstn play fold_left]. unfold play. cbn [fold_left]. rewrite E. destruct x. now apply pick_cstep in E.
  - change (firstn (S t) (i :: l)) with (i :: firstn t l). change (firstn (S (S t)) (i :: l)) with (i :: firstn (S t) l).
    unfold play. cbn [fold_left]. rewrite E. apply (IH y H t). cbn in Ht. lia.
Qed.

(** ** A failed status of an update says nothing *)
Definition two_adding : list (list request) :=
  [[Update (buffered default_capacity) [AddVertex 1]]; [Update (buffered default_capacity) [AddVertex 2]; Ask]].
Definition together : list nat := [0; 1; 0; 1; 0; 1; 0; 0; 0; 0; 1; 1; 1; 1; 1; 1; 1]%nat.
Lemma one_write_each nd chunks cs1 cs2 w1 w2 r : chunks (add_pieces cs1) = [w1] -> chunks (add_pieces cs2) = [w2] ->
  gcmd_read nd (w1 ++ w2) = Done r ->
  let x := (with_file [], map (Client [] None) [[Update chunks cs1]; [Update chunks cs2; Ask]]) in
  playable nd x together = true /\ play nd x together =
    (with_file (w1 ++ w2), [Client [AStored (IoOk tt)] None []; Client [AStored IoErr; ARead (Done r)] None []]).
Proof.
  intros E1 E2 E3 x. change together with ((([0; 1; 0; 1; 0; 1; 0] ++ [0; 0; 0; 1]) ++ [1; 1; 1; 1; 1]) ++ [1])%nat%list.
  rewrite !playable_app, !play_app.
  assert (P1 : playable nd x [0; 1; 0; 1; 0; 1; 0]%nat = true) by reflexivity. rewrite P1.
  let y := eval cbn in (play nd x [0; 1; 0; 1; 0; 1; 0]%nat) in change (play nd x [0; 1; 0; 1; 0; 1; 0]%nat) with y.
  rewrite E1.
  match goal with |- context [play nd ?x [0; 0; 0; 1]%nat] =>
    change (playable nd x [0; 0; 0; 1]%nat) with true;
    let y := eval cbn in (play nd x [0; 0; 0; 1]%nat) in change (play nd x [0; 0; 0; 1]%nat) with y end.
  rewrite E2.
  match goal with |- context [play nd ?x [1; 1; 1; 1; 1]%nat] =>
    change (playable nd x [1; 1; 1; 1; 1]%nat) with true;
    let y := eval cbn -[gcmd_read app] in (play nd x [1; 1; 1; 1; 1]%nat) in change (play nd x [1; 1; 1; 1; 1]%nat) with y end.
  rewrite E3. split; reflexivity.
Qed.
Lemma first_small : buffered default_capacity (add_pieces [AddVertex 1]) = [txt "AddVertex 1" ++ [10]].
Proof. vm_compute. reflexivity. Qed.
(** Both additions are stored, the second is told of a failure (its lock file had been removed), and its author then
    reads the graph with its vertex. *)
Theorem C159_status_refuted : forall nd, digit_table nd -> exists run n g,
  run 0%nat = (with_file [], map (Client [] None) two_adding) /\
  (forall t, (t < n)%nat -> cstep nd (run t) (run (S t))) /\
  snd (run n) = [Client [AStored (IoOk tt)] None []; Client [AStored IoErr; ARead (Done (Ok g))] None []] /\
  aV (shown g) 1 /\ aV (shown g) 2.
Proof.
  intros nd T. set (g := apply_commands [AddVertex 1; AddVertex 2] g_new).
  assert (Rg : gcmd_read nd ((txt "AddVertex 1" ++ [10]) ++ txt "AddVertex 2" ++ [10]) = Done (Ok g)).
  { apply gcmd_read_ok. exists [AddVertex 1; AddVertex 2]. split; [|reflexivity]. apply read_as_commands_ok.
    change (lines _) with (map command_into_line [AddVertex 1; AddVertex 2]). apply reads_commands; [assumption|].
    repeat constructor. }
  pose proof (one_write_each nd (buffered default_capacity) _ _ _ _ _ first_small small_writes Rg) as [P E].
  exists (fun t => play nd (with_file [], map (Client [] None) two_adding) (firstn t together)), (length together), g.
  split; [reflexivity|]. split.
  - apply play_run. exact P.
  - rewrite firstn_all. unfold two_adding. rewrite E. split; [reflexivity|].
    split; apply (refines (built_by_apply [AddVertex 1; AddVertex 2])); [left; now right|now right].
Qed.
Print Assumptions C159_status_refuted.

(** ** Larger requests have no explanation *)
Lemma fits_one os es ans : fits os es ans -> forall o a, os = [o] -> ans = [a] ->
  exists e, es = [e] /\ made_by o e /\ answered e a.
Proof.
  intros [|os' es' ans' o' e' a' H M A] o a Eo Ea; [discriminate Eo|].
  change [o] with ([] ++ [o]) in Eo. change [a] with ([] ++ [a]) in Ea. apply app_inj_tail in Eo, Ea.
  destruct Eo as [-> ->], Ea as [-> ->]. apply fits_length in H. destruct es'; [|cbn in H; lia]. exists e'. auto.
Qed.
Definition stored (e : event) : list graph_command := match e with Stored cs => cs | _ => [] end.
Lemma legal_log log es log' : legal log es log' -> forall l, log = Some l -> log' = Some (l ++ concat (map stored es)).
Proof.
  induction 1 as [log|log es _ IH|log es l' _ IH|log es l' cs _ IH|log es cs _ IH|log es l' g _ IH|log es m _ IH]; intros l E;
    try discriminate (IH l E); try (specialize (IH l E); injection IH as ->; rewrite map_app, concat_app; cbn; rewrite app_nil_r).
  - cbn. now rewrite app_nil_r.
  - reflexivity.
  - now rewrite app_assoc.
  - reflexivity.
Qed.
Lemma legal_saw log es log' : legal log es log' -> forall l, log = Some l -> forall l1 r l2, es = l1 ++ Saw r :: l2 ->
  exists g, r = Done (Ok g) /\ a_same (shown g) (a_run (l ++ concat (map stored l1))).
Proof.
  induction 1 as [log|log es H IH|log es l' H IH|log es l' cs H IH|log es cs H IH|log es l' g H IH Hg|log es m H IH]; intros l El l1 r l2 E;
    [destruct l1; discriminate E|..];
    (destruct l2 as [|y l2 _] using rev_ind; [apply app_inj_tail in E; destruct E as [-> E]|
      change (Saw r :: l2 ++ [y]) with ((Saw r :: l2) ++ [y]) in E; rewrite app_assoc in E; apply app_inj_tail in E;
      destruct E as [E _]; eauto]); try discriminate E.
  - injection E as <-. exists g. split; [reflexivity|]. pose proof (legal_log _ _ _ H _ El) as X. injection X as ->. exact Hg.
  - discriminate (legal_log _ _ _ H _ El).
Qed.
Lemma events_first l : Forall (fun e => (fst e < 2)%nat) l -> events 1 l = [] -> map snd l = events 0 l.
Proof.
  induction 1 as [|[i e] l Hi _ IH]; intro E; [reflexivity|]. cbn [fst] in Hi. unfold events in *. cbn [filter fst map snd] in *.
  destruct i as [|[|i]]; cbn [Nat.eqb] in *; [cbn [map snd]; now rewrite (IH E)|discriminate E|lia].
Qed.
Lemma no_middle nd chunks cs s p g L :
  explained nd (Some []) [[Update chunks cs]; [Ask]] (s, [Client [] (Some p) []; Client [ARead (Done (Ok g))] None []]) L ->
  a_same (shown g) (a_run []) \/ a_same (shown g) (a_run cs).
Proof.
  intros ((log' & Hl & _) & _ & HF & H). cbn [fst snd length] in *.
  pose proof (H 0%nat _ _ eq_refl eq_refl) as H0. pose proof (H 1%nat _ _ eq_refl eq_refl) as H1. clear H.
  unfold client_fits in H0, H1. cbn [current todo answers] in *.
  destruct H1 as (b & Eb & F1). rewrite app_nil_r in Eb. subst b.
  destruct (fits_one _ _ _ F1 _ _ eq_refl eq_refl) as (e & E1 & M & A). inversion A; subst. clear A M F1.
  destruct H0 as (b & o & es1 & extra & Eb & E0 & F0 & X).
  destruct b as [|o' b]; [|destruct b; discriminate Eb]. injection Eb as <-.
  apply fits_length in F0. destruct es1; [|cbn in F0; lia]. cbn [app] in E0. clear F0.
  assert (Hin : In (1%nat, Saw (Done (Ok g))) L).
  { assert (Hi : In (Saw (Done (Ok g))) (events 1 L)) by (rewrite E1; now left). unfold events in Hi.
    apply in_map_iff in Hi. destruct Hi as ([i e] & Ee & Hi). apply filter_In in Hi. destruct Hi as [Hi Ei].
    cbn in Ee, Ei. apply Nat.eqb_eq in Ei. now subst. }
  apply in_split in Hin. destruct Hin as (l1 & l2 & ->).
  rewrite map_app in Hl. cbn [map snd] in Hl. destruct (legal_saw _ _ _ Hl _ eq_refl _ _ _ eq_refl) as (g' & Eg & Hg).
  injection Eg as <-. cbn [app] in Hg. apply Forall_app in HF. destruct HF as [HF _].
  change ((1%nat, Saw (Done (Ok g))) :: l2) with ([(1%nat, Saw (Done (Ok g)))] ++ l2) in E0, E1.
  rewrite !events_app in E0, E1. rewrite events_same in E1. rewrite events_other in E0 by discriminate. cbn [app] in E0, E1.
  assert (N1 : events 1 l1 = []) by (destruct (events 1 l1) as [|? [|]]; [reflexivity|discriminate E1..]).
  rewrite (events_first _ HF N1) in Hg. destruct (events 0 l1) as [|e0 es0]; [left; exact Hg|].
  destruct X as [->|(e & -> & M)]; [discriminate E0|]. injection E0 as -> E0.
  destruct es0; [|discriminate E0]. inversion M; subst; cbn in Hg; [right; now rewrite app_nil_r in Hg|left; exact Hg].
Qed.

Definition overtaking : list nat := [0; 0; 0; 0; 0; 1; 1; 1]%nat.
Definition writer_reader chunks cs : fs * list client := (with_file [], map (Client [] None) [[Update chunks cs]; [Ask]]).
Lemma two_writes nd chunks cs w1 w2 r : chunks (add_pieces cs) = [w1; w2] -> gcmd_read nd w1 = Done r ->
  playable nd (writer_reader chunks cs) overtaking = true /\
  exists s p, play nd (writer_reader chunks cs) overtaking =
    (s, [Client [] (Some p) []; Client [ARead (Done r)] None []]).
Proof.
  intros E1 E2. change overtaking with (([0; 0; 0; 0] ++ [0; 1; 1]) ++ [1])%nat%list.
  rewrite !playable_app, !play_app. change (playable nd (writer_reader chunks cs) [0; 0; 0; 0]%nat) with true.
  let y := eval cbn in (play nd (writer_reader chunks cs) [0; 0; 0; 0]%nat) in
    change (play nd (writer_reader chunks cs) [0; 0; 0; 0]%nat) with y.
  rewrite E1.
  match goal with |- context [play nd ?x [0; 1; 1]%nat] =>
    change (playable nd x [0; 1; 1]%nat) with true;
    let y := eval cbn -[gcmd_read app] in (play nd x [0; 1; 1]%nat) in change (play nd x [0; 1; 1]%nat) with y end.
  cbn [app]. rewrite E2. split; [reflexivity|]. eexists _, _. reflexivity.
Qed.
Lemma read_first_write nd : digit_table nd ->
  gcmd_read nd first_write = Done (Ok (apply_commands (filling ++ [AddVertex 10000]) g_new)).
Proof.
  intro T. apply gcmd_read_ok. exists (filling ++ [AddVertex 10000]). split; [|reflexivity]. apply read_as_commands_ok.
  unfold first_write. rewrite lines_app_closed, lines_commands by apply closed_commands.
  pose proof large_u64 as U. unfold large in U. apply Forall_app in U. destruct U as [U _].
  apply reads_app; [now apply reads_commands|].
  change (lines (txt "AddVertex 10000")) with (map command_into_line [AddVertex 10000]). apply reads_commands; [assumption|].
  repeat constructor.
Qed.
Lemma other_vertices v cs : Forall (fun c => exists x, c = AddVertex x /\ v <> x) cs -> forall a,
  aV (fold_left a_step cs a) v -> aV a v.
Proof.
  induction 1 as [|c cs (x & -> & Hx) _ IH]; intros a H; [exact H|]. cbn [fold_left] in H. apply IH in H.
  cbn in H. destruct H as [H|H]; [contradiction||exact H..].
Qed.
Lemma last_vertex cs v : aV (a_run (cs ++ [AddVertex v])) v.
Proof. unfold a_run. rewrite fold_left_app. now right. Qed.
(** A request of 483 vertices takes two writes: a reader in between is told of a graph that no order of whole requests
    explains. *)
Theorem C159_large_refuted : forall nd, digit_table nd -> exists run n,
  run 0%nat = (with_file [], map (Client [] None) [[Update (buffered default_capacity) large]; [Ask]]) /\
  (forall t, (t < n)%nat -> cstep nd (run t) (run (S t))) /\
  forall L, ~ explained nd (Some []) [[Update (buffered default_capacity) large]; [Ask]] (run n) L.
Proof.
  intros nd T. destruct (two_writes nd _ _ _ _ _ large_writes (read_first_write nd T)) as (P & s & p & E).
  exists (fun t => play nd (writer_reader (buffered default_capacity) large) (firstn t overtaking)), (length overtaking).
  split; [reflexivity|]. split; [now apply play_run|]. intro L. rewrite firstn_all, E. intro X.
  apply no_middle in X.
  pose proof (refines (built_by_apply (filling ++ [AddVertex 10000]))) as [RV _].
  destruct X as [[X _]|[X _]].
  - apply (proj1 (X 10000)). apply RV, last_vertex.
  - assert (H3 : aV (a_run (filling ++ [AddVertex 10000])) 3).
    { apply RV, X. unfold large. change [AddVertex 10000; AddVertex 3] with ([AddVertex 10000] ++ [AddVertex 3]). rewrite app_assoc.
      apply last_vertex. }
    apply (other_vertices 3) in H3; [exact H3|]. apply Forall_app. split.
    + apply Forall_forall. intros y Hy. apply repeat_spec in Hy. exists 100000. split; [exact Hy|discriminate].
    + constructor; [|constructor]. exists 10000. split; [reflexivity|discriminate].
Qed.
Print Assumptions C159_large_refuted.

Example C159_case : let x := (with_file [], map (Client [] None) two_adding) in
  Forall (Forall small) two_adding /\ beginning table (fst x) (Some []) /\
  play table x (firstn 0 together) = x /\
  (forall t, (t < length together)%nat -> cstep table (play table x (firstn t together)) (play table x (firstn (S t) together))) /\
  (0 < length (answers (nth 0 (snd (play table x (firstn 10 together))) (Client [] None []))))%nat /\
  (length (nth 1 two_adding []) - length (todo (nth 1%nat (snd (play table x (firstn 10 together))) (Client [] None []))) <= 1)%nat.
Proof.
  cbn zeta. split.
  { repeat apply Forall_cons; try apply Forall_nil; try exact I; apply C159_small;
      try (apply N.leb_le; vm_compute; reflexivity); repeat constructor. }
  split; [split; [reflexivity|]; split; [reflexivity|]; exists []; split; [reflexivity|]; split; [now left|reflexivity]|].
  split; [reflexivity|]. split; [apply play_run; vm_compute; reflexivity|].
  split; vm_compute; lia.
Qed.
(** A reader that takes four characters per call while a vertex is added after its second call. *)
Example C159_slow_case : let oss := [[Update (buffered default_capacity) [AddVertex 2]]; [AskSlowly (fun _ _ => 3%nat) 20]] in
  let x := (with_file (txt "AddVertex 1" ++ [10]), map (Client [] None) oss) in
  let plan := [1; 1; 1; 1; 0; 0; 0; 0; 0; 0; 0; 1; 1; 1; 1; 1; 1]%nat in
  Forall (Forall small) oss /\ playable table x plan = true /\
  exists g, snd (play table x plan) = [Client [AStored (IoOk tt)] None []; Client [ARead (Done (Ok g))] None []] /\
    aV (shown g) 1 /\ aV (shown g) 2.
Proof.
  cbn zeta. split.
  { repeat apply Forall_cons; try apply Forall_nil; try exact I. apply C159_small;
      try (apply N.leb_le; vm_compute; reflexivity); repeat constructor. }
  split; [vm_compute; reflexivity|]. eexists. split; [vm_compute; reflexivity|]. split; vm_compute; reflexivity.
Qed.
