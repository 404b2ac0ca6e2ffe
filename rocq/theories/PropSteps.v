(** * Directories made and removed call by call (C123, C124) *)
From Coq Require Import String.
From Coq Require Import List NArith Bool Arith Lia Permutation.
From Verif Require Import Spec Base Graph GraphSpec GraphFacts Text Format FormatSpec TextFacts FormatFacts
  Store StoreSpec StoreFacts CrashFacts Writer WriterFacts Utf8 Cli PropFormat PropStore PropWriter PropGraph PropCli PropUtf8 PropKill Steps.
Import ListNotations.

(** ** C123: alone, and killed *)
Lemma run_f_init s : run_prog f_init s = run_prog init s.
Proof. destruct s as [[|] l [| |e]]; reflexivity. Qed.
Lemma run_f_remove tolerant s : run_prog (f_remove tolerant) s =
  match fs_graph s with GraphDir _ => (set_graph NoGraph s, IoOk tt) | _ => (s, IoErr) end.
Proof. destruct s as [r l [| |[|c|]]]; reflexivity. Qed.
Lemma run_f_clean tolerant s : run_prog (f_clean tolerant) s = run_prog clean s.
Proof.
  unfold f_clean, clean. rewrite !run_with_lock. destruct (openable (fs_lock s)); [|reflexivity]. cbn zeta.
  rewrite run_f_remove. cbn [run_prog fst snd]. destruct (fs_graph (locked s)); reflexivity.
Qed.

(** Left alone, the programs do what the coarser ones do. *)
Theorem C123_same_runs : forall tolerant chunks g force answer s,
  run_prog f_gc_init s = run_prog gc_init s /\
  run_prog (f_gc_clean tolerant force answer) s = run_prog (gc_clean force answer) s /\
  run_prog (f_gc_random tolerant chunks g force answer) s = run_prog (gc_random chunks g force answer) s.
Proof.
  intros tolerant chunks g force answer s. unfold f_gc_init, gc_init, f_gc_clean, gc_clean, f_gc_random, gc_random. split; [|split].
  - now rewrite !run_bind, run_f_init.
  - destruct (_ && _); [reflexivity|]. now rewrite !run_bind, run_f_clean.
  - destruct (_ && _); [reflexivity|]. rewrite !run_bind, run_f_clean. destruct (snd (run_prog clean s)); [|reflexivity].
    rewrite !run_bind, run_f_init. reflexivity.
Qed.
Print Assumptions C123_same_runs.

Lemma crash_f_remove tolerant s s' : crash (f_remove tolerant) s s' ->
  fs_root s' = fs_root s /\ fs_lock s' = fs_lock s /\
  (fs_graph s' = fs_graph s \/ (exists e, fs_graph s = GraphDir e) /\ (fs_graph s' = GraphDir Absent \/ fs_graph s' = NoGraph)).
Proof.
  intro H. unfold f_remove, f_rmdir in H. destruct s as [r l [| |[|c|]]]; cbn [fs_graph] in H;
  repeat (first [apply crash_act in H; destruct H as [->|H]; [cbn; eauto 9|cbn [fs_graph set_commands set_graph] in H]
               |apply crash_ret in H; subst s'; cbn; eauto 9]).
Qed.
Lemma crash_f_clean tolerant s s' : crash (f_clean tolerant) s s' ->
  fs_graph s' = fs_graph s \/ (exists e, fs_graph s = GraphDir e) /\ (fs_graph s' = GraphDir Absent \/ fs_graph s' = NoGraph).
Proof.
  unfold f_clean, with_lock. intro H. apply crash_bind in H. destruct H as [H|H]; [left; now apply crash_lock|].
  rewrite run_lock in H. destruct (openable (fs_lock s)) eqn:E; cbn [fst snd] in H.
  2:{ apply crash_ret in H. subst. now left. }
  apply crash_bind in H. destruct H as [H|H].
  - apply crash_f_remove in H. destruct H as (_ & _ & H). exact H.
  - assert (G : forall u w, crash (bind unlock (fun v => match v with IoErr => Ret IoErr | IoOk _ => Ret (w : io unit) end)) u s' -> fs_graph s' = fs_graph u).
    { intros u w Hc. apply crash_bind in Hc. destruct Hc as [Hc|Hc]; [now apply crash_unlock|].
      rewrite run_unlock in Hc. destruct (fs_lock u); cbn [fst snd] in Hc; apply crash_ret in Hc; now subst s'. }
    apply G in H. rewrite H, run_f_remove. change (fs_graph (locked s)) with (fs_graph s).
    destruct (fs_graph s) eqn:Eg; cbn [fst]; [left; exact Eg|left; exact Eg|right; split; [eauto|now right]].
Qed.
Lemma crash_f_init s s' : crash f_init s s' ->
  fs_lock s' = fs_lock s /\ (fs_graph s' = fs_graph s \/ fs_graph s = NoGraph /\ fs_graph s' = GraphDir Absent \/
    (fs_graph s = NoGraph \/ fs_graph s = GraphDir Absent) /\ fs_graph s' = GraphDir (File [])).
Proof.
  intro H. unfold f_init, f_open, mkdir_graph in H. destruct s as [[|] l [| |[|c|]]]; cbn [fs_graph fs_root] in H;
  repeat (first [apply crash_act in H; destruct H as [->|H]; [cbn; eauto 9|cbn [fs_graph set_commands set_graph set_root fs_root] in H]
               |apply crash_ret in H; subst s'; cbn; eauto 9]).
Qed.

(** A killed gc-clean leaves the graph as it was, or no graph, or, between the two, an empty graph
    directory; the last two every reader reports, and the next gc-clean finishes the work. *)
Theorem C123_killed_clean : forall nd tolerant force answer s s', crash (f_gc_clean tolerant force answer) s s' ->
  fs_graph s' = fs_graph s \/
  ((exists e, fs_graph s = GraphDir e) /\ (fs_graph s' = GraphDir Absent \/ fs_graph s' = NoGraph) /\
   (exists m, run_prog (load_graph nd) s' = (s', Done (Err m))) /\
   (fs_graph s' = GraphDir Absent -> openable (fs_lock s') = true -> forall a, exists s2,
      run_prog (f_gc_clean tolerant true a) s' = (s2, Success) /\ fs_graph s2 = NoGraph /\ fs_lock s2 = Absent)).
Proof.
  intros nd tolerant force answer s s' H. unfold f_gc_clean in H. destruct (_ && _); [apply crash_ret in H; subst; now left|].
  apply crash_bind in H.
  assert (G : fs_graph s' = fs_graph s \/ (exists e, fs_graph s = GraphDir e) /\ (fs_graph s' = GraphDir Absent \/ fs_graph s' = NoGraph)).
  { destruct H as [H|H]; [now apply crash_f_clean in H|]. apply crash_ret in H. subst s'. rewrite run_f_clean, run_clean.
    destruct (openable (fs_lock s)); [|now left]. destruct (fs_graph s) eqn:Eg; cbn [fst]; [left; exact Eg|left; exact Eg|right; split; [eauto|now right]]. }
  destruct G as [G|[G1 G2]]; [now left|]. right. split; [assumption|]. split; [assumption|]. split.
  - eexists. rewrite run_load. unfold commands_entry. destruct G2 as [-> | ->]; reflexivity.
  - intros Ea Ho a. rewrite (proj1 (proj2 (C123_same_runs tolerant (fun x => x) g_new true a s'))). unfold gc_clean. cbn [negb andb].
    rewrite run_bind, run_clean, Ho, Ea. eexists. split; [reflexivity|]. split; reflexivity.
Qed.
Print Assumptions C123_killed_clean.
(** Refuted: all or nothing. *)
Theorem C123_all_or_nothing_refuted : forall tolerant c answer s, openable (fs_lock s) = true -> fs_graph s = GraphDir (File c) ->
  exists s', crash (f_gc_clean tolerant true answer) s s' /\ fs_graph s' = GraphDir Absent.
Proof.
  intros tolerant c answer s Ho Eg. exists (set_commands Absent (locked s)). split; [|reflexivity].
  unfold f_gc_clean. cbn [negb andb]. apply crash_bind. left. unfold f_clean, with_lock. apply crash_bind. right.
  rewrite run_lock, Ho. cbn [fst snd]. apply crash_bind. left. unfold f_remove. apply crash_later.
  change (fs_graph (locked s)) with (fs_graph s). rewrite Eg. apply crash_later.
  change (fs_graph (locked s)) with (fs_graph s). rewrite Eg. apply crash_now.
Qed.
Print Assumptions C123_all_or_nothing_refuted.

(** A killed gc-random: as in C110. *)
Theorem C123_killed_random : forall nd tolerant cap g force answer s s', digit_table nd -> built g -> u64_graph g ->
  crash (f_gc_random tolerant (buffered cap) g force answer) s s' ->
  fs_graph s' = fs_graph s \/
  (exists m, run_prog (load_graph nd) s' = (s', Done (Err m))) \/
  exists g', loads nd s' g' /\
    (forall v, contains_vertex g' v = true -> contains_vertex g v = true) /\
    (forall e, contains_edge g' e = true -> contains_edge g e = true).
Proof.
  intros nd tolerant cap g force answer s s' T Bg Ug H.
  assert (Hno : fs_graph s' = NoGraph \/ fs_graph s' = GraphDir Absent ->
            exists m, run_prog (load_graph nd) s' = (s', Done (Err m))).
  { intro E. eexists. rewrite run_load. unfold commands_entry. destruct E as [-> | ->]; reflexivity. }
  assert (Hempty : fs_graph s' = GraphDir (File []) -> exists g', loads nd s' g' /\
    (forall v, contains_vertex g' v = true -> contains_vertex g v = true) /\
    (forall e, contains_edge g' e = true -> contains_edge g e = true)).
  { intro E. exists g_new. split; [unfold loads; rewrite run_load; unfold commands_entry; now rewrite E|]. split; [discriminate|].
    intros [a b]. discriminate. }
  pose proof (fun H' => C110_killed_random nd cap g force answer s s' T Bg Ug H') as C110. unfold gc_random in C110.
  unfold f_gc_random in H. destruct (negb force && negb (confirmed answer)); [apply crash_ret in H; subst; now left|].
  apply crash_bind in H. destruct H as [H|H].
  { apply crash_f_clean in H as [H|[_ [H|H]]]; auto. }
  rewrite run_f_clean in H. destruct (snd (run_prog clean s)) as [u|] eqn:Er.
  2:{ apply C110. apply crash_bind. right. rewrite Er. exact H. }
  apply crash_bind in H. destruct H as [H|H].
  - apply crash_f_init in H. destruct H as (_ & H).
    assert (Ec : fs_graph (fst (run_prog clean s)) = NoGraph).
    { rewrite run_clean in Er |- *. destruct (openable (fs_lock s)); [|discriminate]. destruct (fs_graph s); [discriminate..|reflexivity]. }
    rewrite Ec in H. destruct H as [H|[[_ H]|[_ H]]]; auto.
  - rewrite run_f_init in H. apply C110. apply crash_bind. right. rewrite Er. apply crash_bind. right. exact H.
Qed.
Print Assumptions C123_killed_random.

(** Any number of programs in any interleaving, stopped anywhere: the directory can be repaired. *)
Inductive f_tool (nd : N -> bool) : prog exit -> Prop :=
| ft_coarse p : tool nd p -> f_tool nd p
| ft_init : f_tool nd f_gc_init
| ft_clean tolerant force answer : f_tool nd (f_gc_clean tolerant force answer)
| ft_random tolerant chunks g force answer : buffering chunks -> f_tool nd (f_gc_random tolerant chunks g force answer).
Lemma keeps_f_open : keeps regular f_open.
Proof. constructor; [|constructor]. intros [r l [| |[|c|]]]; unfold regular; cbn; intuition discriminate. Qed.
Lemma keeps_f_init : keeps regular f_init.
Proof.
  assert (M : forall s, regular s -> regular (mkdir_graph s)).
  { intros [r l [| |e]]; unfold regular; cbn; intuition discriminate. }
  constructor.
  - intros s H. destruct (fs_root s); auto.
  - intro s. destruct (fs_root s); [apply keeps_f_open|]. constructor; [intros s1 H; exact H|]. intro s1.
    constructor; [exact M|]. intro. apply keeps_f_open.
Qed.
Lemma keeps_f_clean tolerant : keeps regular (f_clean tolerant).
Proof.
  apply keeps_with_lock.
  assert (R : keeps regular f_rmdir) by (constructor; [|constructor]; intros [r l [| |[|c|]]]; unfold regular; cbn; intuition discriminate).
  constructor; [intros s H; exact H|]. intro s. destruct (fs_graph s) as [| |[|c|]]; try exact R; constructor.
  - intros [r l [| |[|c'|]]]; unfold regular; cbn; intuition discriminate.
  - intro s1. destruct (fs_graph s1) as [| |[|c'|]]; try destruct tolerant; try exact R; constructor.
  - intros [r l [| |[|c'|]]]; unfold regular; cbn; intuition discriminate.
  - intro s1. destruct (fs_graph s1) as [| |[|c'|]]; try destruct tolerant; try exact R; constructor.
Qed.
Lemma keeps_f_tool nd p : f_tool nd p -> keeps regular p.
Proof.
  intros [p' H| |tolerant force answer|tolerant chunks g force answer B].
  - now apply (keeps_tool nd).
  - apply keeps_bind; [apply keeps_f_init|]. intros []; constructor.
  - unfold f_gc_clean. destruct (_ && _); [constructor|]. apply keeps_bind; [apply keeps_f_clean|]. intros []; constructor.
  - unfold f_gc_random. destruct (_ && _); [constructor|]. apply keeps_bind; [apply keeps_f_clean|]. intros [u|]; [|constructor].
    apply keeps_bind; [apply keeps_f_init|]. intros [u'|]; [|constructor].
    apply keeps_bind; [apply keeps_save|]. intros []; constructor.
Qed.
Theorem C123_repair : forall nd tolerant ps s s' ps', Forall (f_tool nd) ps -> regular s -> isteps (s, ps) (s', ps') ->
  exists s1 s2 s3 c,
    run_prog f_gc_init s' = (s1, Success) /\ commands_entry s1 = File c /\
    (forall c', commands_entry s' = File c' -> c = c') /\
    (forall answer, run_prog (f_gc_clean tolerant true answer) s1 = (s2, Success)) /\ fs_graph s2 = NoGraph /\ fs_lock s2 = Absent /\
    run_prog f_gc_init s2 = (s3, Success) /\ fs_lock s3 = Absent /\ loads nd s3 g_new.
Proof.
  intros nd tolerant ps s s' ps' HT HR R.
  assert (H : regular s').
  { apply (keeps_isteps _ regular _ _ R); [|exact HR]. revert HT. apply Forall_impl, keeps_f_tool. }
  destruct (C111_repair nd [] s' s' [] (Forall_nil _) H (is_refl _)) as (s1 & s2 & s3 & c & H1 & H2 & H3 & H4 & H5 & H6 & H7 & H8).
  exists s1, s2, s3, c.
  pose proof (fun x a => C123_same_runs tolerant (fun x => x) g_new true a x) as Same.
  rewrite (proj1 (Same s' [])), (proj1 (Same s2 [])). refine (conj H1 (conj H2 (conj H3 (conj _ (conj H5 (conj H6 (conj H7 H8))))))).
  intro a. rewrite (proj1 (proj2 (Same s1 a))). apply H4.
Qed.
Print Assumptions C123_repair.
(** A gc-random killed with the new directory made and the commands file not yet made, where there had been a graph. *)
Example C123_case : exists s', crash (f_gc_random false at_once g_new true []) (with_file (txt "AddVertex 1")) s' /\
  fs_graph s' = GraphDir Absent /\ fs_lock s' = Absent /\
  Forall (f_tool table) [f_gc_random false at_once g_new true []; f_gc_clean true true []; f_gc_init] /\
  regular (with_file (txt "AddVertex 1")).
Proof.
  eexists. split; [|split; [|split; [|split]]].
  - unfold f_gc_random. cbn [negb andb]. apply crash_bind. right. cbv. apply crash_later, crash_now.
  - reflexivity.
  - reflexivity.
  - constructor; [apply ft_random; exact at_once_ok|]. constructor; [apply ft_clean|]. constructor; [apply ft_init|constructor].
  - unfold regular; cbn; intuition discriminate.
Qed.

(** ** C124: gc-clean beside other programs *)
(** Programs that neither make nor remove the graph directory or the commands file. *)
Inductive bystander (nd : N -> bool) : prog exit -> Prop :=
| by_add chunks args : bystander nd (gc_add chunks args)
| by_delete chunks vertex edge : bystander nd (gc_delete chunks vertex edge)
| by_read report : bystander nd (bind (load_graph nd) (fun r => Ret (report r))).
(** gc-clean that was forced or confirmed. *)
Definition cleaner (p : prog exit) : Prop :=
  exists tolerant force answer, p = f_gc_clean tolerant force answer /\ (force = true \/ confirmed answer = true).

Inductive shape := SNone | SFile | SAbsent | SOther.
Definition shape_of (s : fs) : shape :=
  match fs_graph s with NoGraph => SNone | GraphDir (File _) => SFile | GraphDir Absent => SAbsent | _ => SOther end.
Definition room (s : fs) : Prop := fs_root s = true /\ openable (fs_lock s) = true.
Inductive steady {A} : prog A -> Prop :=
| steady_ret a : steady (Ret a)
| steady_act upd k : (forall s, room s -> room (upd s)) -> (forall s, shape_of (upd s) = shape_of s) ->
    (forall s, steady (k s)) -> steady (Act upd k).
Lemma steady_bind A B (p : prog A) (f : A -> prog B) : steady p -> (forall a, steady (f a)) -> steady (bind p f).
Proof. induction 1 as [a|upd k H1 H2 _ IH]; intro H; cbn [bind]; [apply H|]. constructor; auto. Qed.
Lemma steady_apply chunks cs : steady (apply_graph_commands chunks cs).
Proof.
  assert (L : steady lock).
  { constructor; [now intros [r l d] [_ H]|now intros [r l [| |[|c|]]]|]. intro s0. constructor; [| |constructor].
    - intros [[|] [|c|] d] [H1 H2]; cbn in *; try discriminate; now split.
    - now intros [[|] l [| |[|c|]]]. }
  assert (U : steady unlock).
  { constructor; [| |constructor]; [intros [r [|c|] d] [H1 H2]; cbn in *; try discriminate; now split|now intros [r [|c|] [| |[|c'|]]]]. }
  apply steady_bind; [exact L|]. intros [u|]; [|constructor]. apply steady_bind.
  - constructor; [auto|auto|]. intro s. destruct (commands_entry s); try constructor. generalize (chunks (add_pieces cs)).
    induction l as [|x l IH]; cbn [append_chunks]; constructor; [| |intro; exact IH].
    + intros [r lk [| |[|c'|]]] H; exact H.
    + now intros [r lk [| |[|c'|]]].
  - intro r. apply steady_bind; [exact U|]. intros [u'|]; constructor.
Qed.
Lemma steady_option_call A (vs : option (list text)) (f : list text -> outcome A) (call : A -> prog (io unit)) next :
  (forall a, steady (call a)) -> steady next -> steady (option_call vs f call next).
Proof.
  intros Hc Hn. unfold option_call. destruct vs as [v|]; [|assumption].
  destruct (f v) as [a| |]; try constructor. apply steady_bind; [apply Hc|]. intros _. assumption.
Qed.
Lemma bystander_steady nd p : bystander nd p -> steady p.
Proof.
  intros [chunks args|chunks vertex edge|report].
  - unfold gc_add. repeat (apply steady_option_call; [intro; apply steady_apply|]). constructor.
  - unfold gc_delete. repeat (apply steady_option_call; [intro; apply steady_apply|]). constructor.
  - constructor; [auto|auto|]. intro s. constructor.
Qed.

Definition status (r : io unit) : prog exit := Ret (match r with IoOk _ => Success | IoErr => Failure end).
Definition unlinking (tolerant : bool) : prog (io unit) :=
  Act (fun s => match fs_graph s with GraphDir (File _) => set_commands Absent s | _ => s end) (fun s =>
    match fs_graph s with
    | GraphDir (File _) => f_rmdir
    | GraphDir Directory => Ret IoErr
    | _ => if tolerant then f_rmdir else Ret IoErr
    end).
Inductive cphase := By | Start | Unlink | Rmdir | Fin.
Inductive cstage : cphase -> prog exit -> Prop :=
| cs_by p : steady p -> cstage By p
| cs_0 t : cstage Start (bind (with_lock (f_remove t)) status)
| cs_1 t : cstage Start (bind (bind opening (fun r => match r with IoErr => Ret IoErr | IoOk _ => section (f_remove t) end)) status)
| cs_2 t : cstage Start (bind (section (f_remove t)) status)
| cs_3 t : cstage Unlink (bind (section (unlinking t)) status)
| cs_4 : cstage Rmdir (bind (section f_rmdir) status)
| cs_5 r : cstage Fin (bind (section (Ret r)) status)
| cs_6 e : cstage Fin (Ret e).
Inductive cmove : shape -> cphase -> shape -> cphase -> Prop :=
| m_stay sh ph : cmove sh ph sh ph
| m_file : cmove SFile Start SFile Unlink
| m_bare : cmove SAbsent Start SAbsent Rmdir
| m_none : cmove SNone Start SNone Fin
| m_unlink : cmove SFile Unlink SAbsent Rmdir
| m_gone sh ph : sh <> SFile -> ph = Rmdir \/ ph = Fin -> cmove sh Unlink sh ph
| m_rmdir : cmove SAbsent Rmdir SNone Fin
| m_late sh : sh <> SAbsent -> cmove sh Rmdir sh Fin.
Lemma cstage_step ph upd k s : room s -> shape_of s <> SOther -> cstage ph (Act upd k) ->
  room (upd s) /\ exists ph', cstage ph' (k s) /\ cmove (shape_of s) ph (shape_of (upd s)) ph' /\ (ph = By <-> ph' = By).
Proof.
  intros [Hr Hl] Ho H. inversion H as [p Hs|t|t|t|t| |r|e]; subst.
  - inversion Hs as [|? ? H1 H2 H3]; subst. split; [apply H1; now split|]. exists By. split; [now constructor|].
    rewrite H2. split; [constructor|tauto].
  - split; [now split|]. exists Start. split; [apply cs_1|]. split; [constructor|tauto].
  - destruct s as [rt l d]. cbn in Hr, Hl. subst rt. destruct l; try discriminate; (split; [now split|]);
      exists Start; (split; [apply cs_2|]); (split; [constructor|tauto]).
  - destruct s as [rt l [| |[|c|]]]; cbn in *; try now elim Ho.
    + split; [now split|]. exists Fin. split; [apply (cs_5 IoErr)|]. split; [constructor|intuition discriminate].
    + split; [now split|]. exists Rmdir. split; [apply cs_4|]. split; [constructor|intuition discriminate].
    + split; [now split|]. exists Unlink. split; [apply (cs_3 t)|]. split; [constructor|intuition discriminate].
  - try match goal with E : Act _ _ = Act _ _ |- _ => injection E as <- <- end.
    destruct s as [rt l [| |[|c|]]]; cbn [fs_graph set_commands set_graph shape_of] in *; try now elim Ho.
    + split; [now split|]. destruct t; [exists Rmdir; split; [apply cs_4|]|exists Fin; split; [apply (cs_5 IoErr)|]];
        (split; [apply m_gone; [discriminate|tauto]|intuition discriminate]).
    + split; [now split|]. destruct t; [exists Rmdir; split; [apply cs_4|]|exists Fin; split; [apply (cs_5 IoErr)|]];
        (split; [apply m_gone; [discriminate|tauto]|intuition discriminate]).
    + split; [now split|]. exists Rmdir. split; [apply cs_4|]. split; [apply m_unlink|intuition discriminate].
  - destruct s as [rt l [| |[|c|]]]; cbn [fs_graph set_commands set_graph shape_of] in *; try now elim Ho.
    + split; [now split|]. exists Fin. split; [apply (cs_5 IoErr)|]. split; [now apply m_late|intuition discriminate].
    + split; [now split|]. exists Fin. split; [apply (cs_5 (IoOk tt))|]. split; [apply m_rmdir|intuition discriminate].
    + split; [now split|]. exists Fin. split; [apply (cs_5 IoErr)|]. split; [now apply m_late|intuition discriminate].
  - try match goal with E : Act _ _ = Act _ _ |- _ => injection E as <- <- end.
    destruct s as [rt [|l|] d]; try discriminate Hl; (split; [now split|]); exists Fin;
      (split; [cbn; apply cs_6|]); (split; [constructor|tauto]).
Qed.

Lemma Forall2_len A B (R : A -> B -> Prop) l l' : Forall2 R l l' -> length l = length l'.
Proof. induction 1; cbn; congruence. Qed.
Definition by_phase (ph : cphase) : bool := match ph with By => true | _ => false end.
Definition cinv (bys : list bool) (x : fs * list (prog exit)) : Prop :=
  exists phs, Forall2 cstage phs (snd x) /\ map by_phase phs = bys /\ room (fst x) /\ shape_of (fst x) <> SOther /\
    (In Rmdir phs \/ In Fin phs -> shape_of (fst x) <> SFile) /\
    (shape_of (fst x) = SAbsent -> In Unlink phs \/ In Fin phs -> In Rmdir phs).
Lemma cinv_step bys x y : cinv bys x -> istep x y -> cinv bys y.
Proof.
  intros (phs & HF & Hb & Hr & Ho & H1 & H2) (pre & upd & k & post & E1 & E2 & E3).
  destruct x as [s ps], y as [s' ps']. cbn [fst snd] in *. subst ps s' ps'.
  apply Forall2_app_inv_r in HF as (xa & xb & Ha & Hc & ->). inversion Hc as [|ph p0 xc ps0 Hst Hd]; subst.
  destruct (cstage_step ph upd k s Hr Ho Hst) as (Hr' & ph' & Hst' & Hm & Hby).
  exists (xa ++ ph' :: xc). cbn [fst snd]. split; [apply Forall2_app; [assumption|now constructor]|].
  split. { rewrite !map_app. cbn [map]. do 2 f_equal. destruct ph, ph'; intuition discriminate. }
  split; [assumption|].
  assert (IN : forall q q', In q (xa ++ q' :: xc) <-> q = q' \/ In q (xa ++ xc)).
  { intros q q'. rewrite !in_app_iff. cbn. intuition congruence. }
  rewrite IN in H1, H2. rewrite IN in H1, H2. rewrite IN in H2. rewrite !IN.
  remember (shape_of s) as sh eqn:Esh. remember (shape_of (upd s)) as sh' eqn:Esh'. clear Esh Esh'.
  destruct Hm as [sh ph| | | | |sh ph Hn Hp| |sh Hn].
  - split; [assumption|]. split; assumption.
  - split; [discriminate|]. split; [|discriminate]. intros [[?|?]|[?|?]]; try discriminate; tauto.
  - split; [discriminate|]. split; [discriminate|tauto].
  - split; [discriminate|]. split; discriminate.
  - split; [discriminate|]. split; [discriminate|tauto].
  - split; [assumption|]. split; [tauto|]. intros -> Hx. destruct Hp as [-> | ->]; [tauto|].
    destruct (H2 eq_refl) as [?|?]; [tauto|discriminate|tauto].
  - split; [discriminate|]. split; discriminate.
  - split; [assumption|]. split; [|intros; contradiction]. intro. tauto.
Qed.
Lemma cinv_steps bys x y : isteps x y -> cinv bys x -> cinv bys y.
Proof. induction 1; intro; [assumption|]. eauto using cinv_step. Qed.
Lemma cinv_start nd ps s : Forall (fun p => bystander nd p \/ cleaner p) ps -> room s -> shape_of s <> SOther ->
  exists bys, cinv bys (s, ps) /\ Forall2 (fun b p => b = false <-> cleaner p) bys ps.
Proof.
  intros H Hr Ho.
  assert (G : exists phs, Forall2 (fun ph p => cstage ph p /\ ((ph = Start /\ cleaner p) \/ (ph = By /\ ~ cleaner p))) phs ps).
  { induction H as [|p ps Hp _ (phs & IH)]; [exists []; constructor|].
    assert (D : cleaner p \/ ~ cleaner p).
    { destruct Hp as [Hp|Hp]; [|now left]. right. intros (t & f & a & -> & Hf).
      assert (E : f_gc_clean t f a = bind (with_lock (f_remove t)) status).
      { unfold f_gc_clean. destruct Hf as [-> | ->]; [reflexivity|]. rewrite andb_false_r. reflexivity. }
      rewrite E in Hp. apply bystander_steady in Hp.
      pose (s1 := {| fs_root := true; fs_lock := File []; fs_graph := GraphDir (File []) |}).
      inversion Hp as [|u1 k1 _ _ K1]; subst. specialize (K1 s1). cbn in K1.
      inversion K1 as [|u2 k2 _ _ K2]; subst. specialize (K2 s1). cbn in K2.
      inversion K2 as [|u3 k3 _ _ K3]; subst. specialize (K3 s1). cbn in K3.
      inversion K3 as [|u4 k4 _ K4 _]; subst. specialize (K4 s1). discriminate K4. }
    destruct D as [D|D].
    - exists (Start :: phs). constructor; [|assumption]. split; [|now left].
      destruct D as (t & f & a & -> & Hf).
      replace (f_gc_clean t f a) with (bind (with_lock (f_remove t)) status); [apply cs_0|].
      unfold f_gc_clean. destruct Hf as [-> | ->]; [reflexivity|]. rewrite andb_false_r. reflexivity.
    - exists (By :: phs). constructor; [|assumption]. split; [|now right]. constructor. destruct Hp; [|contradiction].
      now apply (bystander_steady nd). }
  destruct G as (phs & G). exists (map by_phase phs).
  assert (N : forall ph, In ph phs -> ph = Start \/ ph = By).
  { clear -G. induction G as [|ph p phs ps [_ Hp] _ IH]; intros q Hq; [easy|]. destruct Hq as [<-|Hq]; [tauto|auto]. }
  split.
  - exists phs. cbn [fst snd]. split.
    { clear -G. induction G as [|ph p phs ps [Hp _] _ IH]; constructor; auto. }
    split; [reflexivity|]. split; [assumption|]. split; [assumption|].
    split; [intros [K|K]|intros _ [K|K]]; apply N in K; intuition discriminate.
  - clear -G. induction G as [|ph p phs ps [_ Hp] _ IH]; constructor; [|assumption].
    destruct Hp as [[-> Hp]|[-> Hp]]; cbn; intuition discriminate.
Qed.

(** Any number of additions, removals, reads and gc-cleans in any interleaving.  Once one gc-clean has
    finished, with whatever status, the commands file is gone; once all have finished, so is the directory. *)
Theorem C124_clean_beside : forall nd ps s s' ps', Forall (fun p => bystander nd p \/ cleaner p) ps ->
  fs_root s = true -> openable (fs_lock s) = true -> (exists c, fs_graph s = GraphDir (File c)) ->
  isteps (s, ps) (s', ps') ->
  (forall i p e, nth_error ps i = Some p -> cleaner p -> nth_error ps' i = Some (Ret e) -> commands_entry s' = Absent) /\
  (Exists cleaner ps -> (forall p, In p ps' -> exists e, p = Ret e) -> fs_graph s' = NoGraph).
Proof.
  intros nd ps s s' ps' F Hr Hl (c & Hg) R.
  assert (Ho : shape_of s <> SOther) by (unfold shape_of; rewrite Hg; discriminate).
  destruct (cinv_start nd ps s F (conj Hr Hl) Ho) as (bys & I & HB).
  apply (cinv_steps _ _ _ R) in I. destruct I as (phs & HF & <- & Hr' & Ho' & H1 & H2). cbn [fst snd] in *.
  assert (NTH : forall i p e, nth_error ps i = Some p -> cleaner p -> nth_error ps' i = Some (Ret e) -> In Fin phs).
  { clear -HF HB. intros i p e Hp Hc He. revert i ps phs HB HF Hp He. induction ps' as [|q ps' IH]; intros [|i] ps phs HB HF Hp He; try discriminate He.
    - injection He as ->. inversion HF as [|ph p0 phs0 ps0 Hst _]; subst. inversion HB as [|b q bs qs Hb _]; subst.
      cbn in Hp. injection Hp as ->. apply Hb in Hc. left.
      inversion Hst as [p1 H E1 E2|t E1 E2|t E1 E2|t E1 E2|t E1 E2|E1 E2|r E1 E2|e0 E1 E2]; subst; try discriminate E2; [discriminate Hc|reflexivity].
    - inversion HF as [|ph p0 phs0 ps0 _ HF']; subst. inversion HB as [|b q' bs qs _ HB']; subst. right. now apply (IH i qs phs0). }
  split.
  - intros i p e Hp Hc He. pose proof (NTH i p e Hp Hc He) as K. specialize (H1 (or_intror K)).
    unfold shape_of in Ho', H1. unfold commands_entry. destruct (fs_graph s') as [| |[|o|]]; congruence.
  - intros Hex Hall. apply Exists_exists in Hex. destruct Hex as (p & Hin & Hc). apply In_nth_error in Hin. destruct Hin as (i & Hi).
    assert (Hret : exists e, nth_error ps' i = Some (Ret e)).
    { assert (L : length ps' = length ps).
      { clear - HF HB. apply Forall2_len in HF, HB. rewrite map_length in HB. congruence. }
      destruct (nth_error ps' i) as [q|] eqn:E.
      - apply nth_error_In in E as E'. destruct (Hall q E') as (e & ->). eauto.
      - apply nth_error_None in E. assert (i < length ps)%nat by (apply nth_error_Some; congruence). lia. }
    destruct Hret as (e & He). pose proof (NTH i p e Hi Hc He) as K. specialize (H1 (or_intror K)).
    assert (NR : ~ In Rmdir phs).
    { clear - HF Hall. induction HF as [|ph q phs ps' Hst _ IH]; [easy|]. intros [->|K].
      - destruct (Hall q (or_introl eq_refl)) as (e & ->). inversion Hst.
      - apply IH; [intros; apply Hall; now right|assumption]. }
    unfold shape_of in Ho', H1, H2. destruct (fs_graph s') as [| |[|o|]]; try congruence.
    elim NR. apply H2; auto.
Qed.
Print Assumptions C124_clean_beside.

(** Refuted: a gc-clean that reports failure has left the graph as it was.  Beside one gc-add, gc-clean reports
    failure after it has removed everything; beside one gc-init, gc-clean reports failure, gc-init success,
    and the graph is now empty. *)
Definition some_graph : fs := with_file (txt "AddVertex 1").
Definition add_one : add_args :=
  {| a_vertex := Some [txt "2"]; a_edge := None; a_chain := None; a_cycle := None; a_star := None; a_clique := None;
     a_reverse := false |}.
Theorem C124_failure_refuted : forall tolerant,
  (exists s' e, isteps (some_graph, [f_gc_clean tolerant true []; gc_add at_once add_one]) (s', [Ret Failure; Ret e]) /\ fs_graph s' = NoGraph) /\
  (exists s', isteps (some_graph, [f_gc_clean tolerant true []; f_gc_init]) (s', [Ret Failure; Ret Success]) /\ fs_graph s' = GraphDir (File [])).
Proof.
  intro tolerant. split.
  - pose (ps := [f_gc_clean tolerant true []; gc_add at_once add_one]).
    pose (sch := [0; 0; 1; 1; 0; 0; 0; 1; 1; 0]%nat).
    exists (fst (run_schedule sch some_graph ps)), Success.
    pose proof (run_schedule_isteps _ sch some_graph ps) as H. split; [exact H|reflexivity].
  - pose (ps := [f_gc_clean tolerant true []; f_gc_init]).
    pose (sch := [0; 0; 0; 0; 1; 1; 0; 0]%nat).
    exists (fst (run_schedule sch some_graph ps)).
    pose proof (run_schedule_isteps _ sch some_graph ps) as H. split; [exact H|reflexivity].
Qed.
Print Assumptions C124_failure_refuted.
(** Two gc-cleans, an addition and a reader. *)
Example C124_case : Forall (fun p => bystander table p \/ cleaner p)
    [f_gc_clean true true []; gc_add at_once add_one; f_gc_clean false false (txt "yes"); bind (load_graph table) (fun _ => Ret Success)] /\
  fs_root some_graph = true /\ openable (fs_lock some_graph) = true /\ (exists c, fs_graph some_graph = GraphDir (File c)).
Proof.
  split; [|split; [reflexivity|split; [reflexivity|now eexists]]].
  constructor; [right; exists true, true, []; split; [reflexivity|now left]|].
  constructor; [left; constructor|].
  constructor; [right; exists false, false, (txt "yes"); split; [reflexivity|now right]|].
  constructor; [left; apply (by_read table (fun _ => Success))|constructor].
Qed.
