(** * Property C161: users that make the graph themselves *)
From Coq Require Import String.
From Coq Require Import List NArith ZArith Bool Arith Lia Permutation.
From Verif Require Import Spec Base WalkFacts Graph GraphSpec GraphFacts Path
  Queue Iter Text Format FormatSpec TextFacts FormatFacts Store StoreSpec StoreFacts CrashFacts PropFormat PropStore
  Writer WriterFacts PropWriter Reader ReaderFacts Steps Clients LinearSpec PropLinear.
Import ListNotations.
Open Scope N_scope.

(** ** Orders of events *)
Lemma legal_app log es es' log' : legal log (es ++ es') log' -> exists l, legal log es l /\ legal l es' log'.
Proof.
  revert log'. induction es' as [|e es' IH] using rev_ind; intros log' H.
  - rewrite app_nil_r in H. exists log'. split; [assumption|constructor].
  - rewrite app_assoc in H. remember ((es ++ es') ++ [e]) as x eqn:Ex.
    destruct H as [log|log es0 H|log es0 l H|log es0 l cs H|log es0 cs H|log es0 l g H Hg|log es0 m H];
      try (symmetry in Ex; now apply app_eq_nil in Ex as [_ Ex]);
      apply app_inj_tail in Ex; destruct Ex as [-> <-]; apply IH in H; destruct H as (l1 & H1 & H2); exists l1;
      (split; [assumption|]); now constructor.
Qed.
Lemma legal_some log es log' : legal log es log' -> (exists l, log = Some l) \/ In Made es -> exists l', log' = Some l'.
Proof.
  induction 1 as [log|log es H IH|log es l H IH|log es l cs H IH|log es cs H IH|log es l g H IH Hg|log es m H IH]; eauto.
  - now intros [Hl|[]].
  - intros [Hl|Hl]; apply IH; [now left|]. right. apply in_app_or in Hl. destruct Hl as [Hl|[Hl|[]]]; [assumption|discriminate Hl].
  - intros [Hl|Hl]; apply IH; [now left|]. right. apply in_app_or in Hl. destruct Hl as [Hl|[Hl|[]]]; [assumption|discriminate Hl].
Qed.
Lemma legal_unrefused log es log' : legal log es log' -> (exists l, log = Some l) -> forall cs, ~ In (Refused cs) es.
Proof.
  induction 1 as [log|log es H IH|log es l H IH|log es l cs H IH|log es cs H IH|log es l g H IH Hg|log es m H IH];
    intros Hl cs' Hin; [destruct Hin|..]; apply in_app_or in Hin; (destruct Hin as [Hin|[Hin|[]]]; [now apply (IH Hl cs')|]); try discriminate Hin.
  destruct (legal_some _ _ _ H (or_introl Hl)) as [l' E]. discriminate E.
Qed.
Lemma legal_nothing log es log' : legal log es log' -> log' = None -> forall e es', es = es' ++ [e] ->
  (exists cs, e = Refused cs) \/ exists m, e = Saw (Done (Err m)).
Proof.
  destruct 1 as [log|log es H|log es l H|log es l cs H|log es cs H|log es l g H Hg|log es m H]; intros En e es' E; try discriminate En.
  - destruct es'; discriminate E.
  - apply app_inj_tail in E. destruct E as [_ <-]. left. now exists cs.
  - apply app_inj_tail in E. destruct E as [_ <-]. right. now exists m.
Qed.
Lemma fits_nth os es ans : fits os es ans -> forall k a, nth_error ans k = Some a ->
  exists o e, nth_error os k = Some o /\ nth_error es k = Some e /\ made_by o e /\ answered e a.
Proof.
  induction 1 as [|os es ans o e a H IH M A]; intros k a' Hk; [destruct k; discriminate Hk|].
  apply fits_length in H. destruct H as [H1 H2]. destruct (Nat.lt_ge_cases k (length ans)) as [Hl|Hl].
  - rewrite nth_error_app1 in Hk by assumption. destruct (IH k a' Hk) as (o' & e' & E1 & E2 & K). exists o', e'.
    rewrite !nth_error_app1 by lia. auto.
  - rewrite nth_error_app2 in Hk by assumption. destruct (k - length ans)%nat as [|d] eqn:D; [|destruct d; discriminate Hk].
    injection Hk as <-. exists o, e. rewrite !nth_error_app2 by lia. replace (k - length os)%nat with 0%nat by lia.
    replace (k - length es)%nat with 0%nat by lia. auto.
Qed.
Lemma client_nth os es c k a : client_fits os es c -> nth_error (answers c) k = Some a ->
  exists o e, nth_error os k = Some o /\ nth_error es k = Some e /\ made_by o e /\ answered e a.
Proof.
  unfold client_fits. intros H Hk. destruct (current c).
  - destruct H as (b & o' & es1 & ex & -> & -> & F & _). destruct (fits_nth _ _ _ F k a Hk) as (o & e & E1 & E2 & K).
    exists o, e. rewrite !nth_error_app1 by (apply nth_error_Some; congruence). auto.
  - destruct H as (b & -> & F). destruct (fits_nth _ _ _ F k a Hk) as (o & e & E1 & E2 & K).
    exists o, e. rewrite nth_error_app1 by (apply nth_error_Some; congruence). auto.
Qed.
Lemma events_position i L : forall k e, nth_error (events i L) k = Some e ->
  exists l1 l2, L = l1 ++ (i, e) :: l2 /\ length (events i l1) = k.
Proof.
  induction L as [|[j e'] L IH]; intros k e H; [destruct k; discriminate H|]. unfold events in H. cbn [filter fst] in H.
  destruct (Nat.eqb_spec j i) as [->|Hne].
  - destruct k as [|k]; cbn in H.
    + injection H as ->. now exists [], L.
    + destruct (IH k e H) as (l1 & l2 & -> & E). exists ((i, e') :: l1), l2. split; [reflexivity|].
      unfold events. cbn [filter fst]. rewrite Nat.eqb_refl. cbn [map length]. unfold events in E. now rewrite E.
  - destruct (IH k e H) as (l1 & l2 & -> & E). exists ((j, e') :: l1), l2. split; [reflexivity|].
    unfold events. cbn [filter fst]. apply Nat.eqb_neq in Hne. now rewrite Hne.
Qed.
Lemma longer_prefix A (l l' l1 : list A) x l2 : l ++ l' = l1 ++ x :: l2 -> (length l <= length l1)%nat -> exists r, l1 = l ++ r.
Proof.
  revert l1. induction l as [|y l IH]; intros l1 E H; [now exists l1|]. destruct l1 as [|z l1]; [cbn in H; lia|].
  injection E as -> E. destruct (IH l1 E) as [r ->]; [cbn in H; lia|]. now exists r.
Qed.

(** ** The theorems *)
Definition holds_commands (nd : N -> bool) (s : fs) (cs : list graph_command) : Prop :=
  exists f l1 l2, commands_entry s = File f /\ gcmd_read_as_commands nd f = Done (Ok (l1 ++ cs ++ l2)).
Section Run.
  Variable nd : N -> bool.
  Variable log : option (list graph_command).
  Variable oss : list (list request).
  Variable s : fs.
  Variable run : nat -> fs * list client.
  Variable n : nat.
  Hypothesis T : digit_table nd.
  Hypothesis Sm : Forall (Forall small) oss.
  Hypothesis HB : beginning nd s log.
  Hypothesis H0 : run 0%nat = (s, map (Client [] None) oss).
  Hypothesis Hs : forall t, (t < n)%nat -> cstep nd (run t) (run (S t)).

  Lemma orders : exists L, (forall t, (t <= n)%nat -> explained nd log oss (run t) (L t)) /\
    forall t, (t <= n)%nat -> exists l, L n = L t ++ l.
  Proof.
    destruct (C159_linearizable nd log oss s run n T Sm HB H0 Hs) as (L & _ & H1 & H2). exists L. split; [assumption|].
    intros t Ht. replace t with (n - (n - t))%nat by lia. assert (Hd : (n - t <= n)%nat) by lia. revert Hd.
    generalize (n - t)%nat as d. intro d. clear t Ht. induction d as [|d IH]; intro Hd.
    - exists []. now rewrite Nat.sub_0_r, app_nil_r.
    - destruct IH as [l El]; [lia|]. destruct (H2 (n - S d)%nat) as (l' & E & _); [lia|].
      replace (S (n - S d)) with (n - d)%nat in E by lia. exists (l' ++ l). rewrite El, E. now rewrite app_assoc.
  Qed.
  Lemma client_of t i c : (t <= n)%nat -> nth_error (snd (run t)) i = Some c -> exists os, nth_error oss i = Some os.
  Proof.
    intros Ht Hc. destruct orders as (L & H1 & _). destruct (H1 t Ht) as (_ & E & _). destruct (nth_error oss i) eqn:Eo; [eauto|].
    apply nth_error_None in Eo. assert (i < length (snd (run t)))%nat by (apply nth_error_Some; congruence). lia.
  Qed.
  (** A stored request is in the file from then on. *)
  Lemma stored_holds t L i cs : (t <= n)%nat -> explained nd log oss (run t) L -> In (i, Stored cs) L -> holds_commands nd (fst (run t)) cs.
  Proof.
    intros Ht ((log' & Hl & Ha) & _) Hin. apply (in_map snd) in Hin. cbn [snd] in Hin. apply in_split in Hin. destruct Hin as (l1 & l2 & E).
    rewrite E in Hl. change (Stored cs :: l2) with ([Stored cs] ++ l2) in Hl. apply legal_app in Hl. destruct Hl as (x & _ & Hl).
    apply legal_app in Hl. destruct Hl as (y & Hy & Hl).
    remember [Stored cs] as q eqn:Eq. change [Stored cs] with ([] ++ [Stored cs]) in Eq.
    destruct Hy as [lg|lg es H|lg es l H|lg es l cs' H|lg es cs' H|lg es l g H Hg|lg es m H]; try discriminate Eq;
      apply app_inj_tail in Eq; destruct Eq as [-> Eq]; try discriminate Eq. injection Eq as ->.
    pose proof (legal_log _ _ _ Hl _ eq_refl) as X. subst log'. destruct Ha as (f & E1 & E2).
    exists f, l, (concat (map stored l2)). split; [assumption|]. now rewrite E2, app_assoc.
  Qed.
End Run.

(** However the calls of several users mix, and whoever is killed: gc-init never fails.  Once some gc-init has been answered,
    the commands file is there to stay, every update started after that is stored, and every query started after that gets a
    graph. *)
Theorem C161_after_init : forall nd log oss s run n, digit_table nd -> Forall (Forall small) oss -> beginning nd s log ->
  run 0%nat = (s, map (Client [] None) oss) -> (forall t, (t < n)%nat -> cstep nd (run t) (run (S t))) ->
  forall t i c k r, (t <= n)%nat -> nth_error (snd (run t)) i = Some c -> nth_error (answers c) k = Some (AMade r) ->
  r = IoOk tt /\ (exists f, commands_entry (fst (run n)) = File f) /\
  forall j os c' m o c'' a, nth_error oss j = Some os -> nth_error (snd (run t)) j = Some c' ->
    (length os - length (todo c') <= m)%nat -> nth_error os m = Some o ->
    nth_error (snd (run n)) j = Some c'' -> nth_error (answers c'') m = Some a ->
    match o with
    | SetUp => a = AMade (IoOk tt)
    | Update _ cs => holds_commands nd (fst (run n)) cs
    | Ask | AskSlowly _ _ => exists g, a = ARead (Done (Ok g))
    end.
Proof.
  intros nd log oss s run n T Sm HB H0 Hs t i c k r Ht Hc Hk.
  destruct (orders nd log oss s run n T Sm HB H0 Hs) as (L & HX & HL).
  destruct (client_of nd log oss s run n T Sm HB H0 Hs t i c Ht Hc) as (osi & Hoi).
  destruct (HL t Ht) as (ext & Eext). pose proof (HX t Ht) as Xt. pose proof (HX n (le_n n)) as Xn.
  destruct (client_nth _ _ _ _ _ (proj2 (proj2 (proj2 Xt)) _ _ _ Hoi Hc) Hk) as (o0 & e0 & _ & He0 & _ & A0).
  inversion A0; subst. clear A0. split; [reflexivity|].
  assert (Hmade : In Made (map snd (L t))).
  { apply events_position in He0. destruct He0 as (l1 & l2 & -> & _). rewrite map_app. apply in_or_app. right. now left. }
  split.
  - destruct Xn as ((log' & Hl & Ha) & _). rewrite Eext, map_app in Hl.
    destruct (legal_some _ _ _ Hl) as [l' ->]; [right; apply in_or_app; now left|]. destruct Ha as (f & E & _). eauto.
  - intros j os c' m o c'' a Hj Hc' Hm Hom Hc'' Ha.
    destruct (client_nth _ _ _ _ _ (proj2 (proj2 (proj2 Xn)) _ _ _ Hj Hc'') Ha) as (o1 & e & Ho1 & He & M & A).
    rewrite Hom in Ho1. injection Ho1 as <-.
    destruct (events_position _ _ _ _ He) as (l1 & l2 & El & Ek).
    destruct (client_fits_length _ _ _ (proj2 (proj2 (proj2 Xt)) _ _ _ Hj Hc')) as [_ A2].
    assert (Hp : (length (L t) <= length l1)%nat).
    { apply (position_out j m _ (L t) ext); [|lia]. exists l1, e, l2. split; [congruence|]. now split. }
    rewrite Eext in El. destruct (longer_prefix _ _ _ _ _ _ El Hp) as (mid & E1). rewrite Eext, El in Xn.
    assert (Hst : exists x, (exists l, x = Some l) /\ exists log', legal x (e :: map snd l2) log').
    { destruct Xn as ((log' & Hl & _) & _). rewrite map_app in Hl. apply legal_app in Hl. destruct Hl as (x & Hx & Hl).
      exists x. split; [|eauto]. apply (legal_some _ _ _ Hx). right. rewrite E1, map_app. apply in_or_app. now left. }
    destruct Hst as (x & Hx & log' & Hl).
    destruct o as [|chunks cs| |takes fuel].
    + inversion M; subst. now inversion A.
    + inversion M; subst e.
      * apply (stored_holds nd log oss run n n _ j cs (le_n n) Xn). apply in_or_app. right. now left.
      * exfalso. apply (legal_unrefused _ _ _ Hl Hx cs). now left.
    + inversion M; subst. inversion A; subst. destruct Hx as [l ->].
      destruct (legal_saw _ _ _ Hl _ eq_refl [] _ _ eq_refl) as (g & -> & _). now exists g.
    + inversion M; subst. inversion A; subst. destruct Hx as [l ->].
      destruct (legal_saw _ _ _ Hl _ eq_refl [] _ _ eq_refl) as (g & -> & _). now exists g.
Qed.
Print Assumptions C161_after_init.

(** An update reported as done is in the file at every later moment, whether or not anybody has called gc-init by then;
    and before anything was made every update fails and every query gets an error. *)
Theorem C161_reported : forall nd log oss s run n, digit_table nd -> Forall (Forall small) oss -> beginning nd s log ->
  run 0%nat = (s, map (Client [] None) oss) -> (forall t, (t < n)%nat -> cstep nd (run t) (run (S t))) ->
  (forall t i c os k chunks cs, (t <= n)%nat -> nth_error (snd (run t)) i = Some c -> nth_error oss i = Some os ->
     nth_error (answers c) k = Some (AStored (IoOk tt)) -> nth_error os k = Some (Update chunks cs) ->
     holds_commands nd (fst (run n)) cs) /\
  (forall t i c k a, (t <= n)%nat -> commands_entry (fst (run t)) = Absent ->
     nth_error (snd (run t)) i = Some c -> nth_error (answers c) k = Some a ->
     a = AStored IoErr \/ exists e, a = ARead (Done (Err e))).
Proof.
  intros nd log oss s run n T Sm HB H0 Hs. destruct (orders nd log oss s run n T Sm HB H0 Hs) as (L & HX & HL). split.
  - intros t i c os k chunks cs Ht Hc Hos Hk Ho. destruct (HL t Ht) as (ext & Eext). pose proof (HX t Ht) as Xt.
    destruct (client_nth _ _ _ _ _ (proj2 (proj2 (proj2 Xt)) _ _ _ Hos Hc) Hk) as (o & e & Ho' & He & M & A).
    rewrite Ho in Ho'. injection Ho' as <-. inversion M; subst e; [|inversion A].
    apply (stored_holds nd log oss run n n (L n) i cs (le_n n) (HX n (le_n n))). rewrite Eext. apply in_or_app. left.
    apply events_position in He. destruct He as (l1 & l2 & -> & _). apply in_or_app. right. now left.
  - intros t i c k a Ht Ea Hc Hk. pose proof (HX t Ht) as Xt.
    destruct (client_of nd log oss s run n T Sm HB H0 Hs t i c Ht Hc) as (os & Hos).
    destruct (client_nth _ _ _ _ _ (proj2 (proj2 (proj2 Xt)) _ _ _ Hos Hc) Hk) as (o & e & _ & He & _ & A).
    destruct Xt as ((log' & Hl & Hag) & _). destruct log' as [l|]; [destruct Hag as (f & E & _); congruence|].
    apply events_position in He. destruct He as (l1 & l2 & El & _). rewrite El, map_app in Hl. cbn [map snd] in Hl.
    change (e :: map snd l2) with ([e] ++ map snd l2) in Hl. apply legal_app in Hl. destruct Hl as (x & Hx & Hl).
    apply legal_app in Hl. destruct Hl as (y & Hy & Hl).
    assert (y = None).
    { destruct y as [y|]; [|reflexivity]. destruct (legal_some _ _ _ Hl) as [z Hz]; [left; eauto|discriminate Hz]. }
    subst y. destruct (legal_nothing _ _ _ Hy eq_refl e [] eq_refl) as [[cs ->]|[m ->]]; inversion A; subst; [now left|right; now exists m].
Qed.
Print Assumptions C161_reported.

(** Nothing there, not even the directory: the second user is too early with an addition, then both make the graph, call by
    call in turn. *)
Definition empty_place : fs := {| fs_root := false; fs_lock := Absent; fs_graph := NoGraph |}.
Definition settlers : list (list request) :=
  [[SetUp; Update at_once [AddVertex 1]; Ask]; [Update at_once [AddVertex 2]; SetUp; AskSlowly (fun _ _ => 3%nat) 20]].
Definition settling : list nat := [0; 0; 1; 1; 1; 1; 1; 1; 0; 1; 0; 1; 0; 1; 0; 1; 0; 1; 0; 1; 0; 1; 0; 1; 0; 0; 0; 0; 0; 0]%nat.
Example C161_case : let x := (empty_place, map (Client [] None) settlers) in
  Forall (Forall small) settlers /\ beginning table empty_place None /\ playable table x settling = true /\
  exists g g', snd (play table x settling) =
    [Client [AMade (IoOk tt); AStored (IoOk tt); ARead (Done (Ok g))] None [];
     Client [AStored IoErr; AMade (IoOk tt); ARead (Done (Ok g'))] None []] /\
    commands_entry (fst (play table x settling)) = File (txt "AddVertex 1" ++ [10]).
Proof.
  cbn zeta. split; [|split; [split; [reflexivity|now left]|split; [vm_compute; reflexivity|eexists _, _; vm_compute; split; reflexivity]]].
  assert (Sm : forall v, v < 18446744073709551616 -> small (Update at_once [AddVertex v])).
  { intros v Hv. split; [apply at_once_ok|]. split; [cbn; lia|]. constructor; [exact Hv|constructor]. }
  repeat apply Forall_cons; try apply Forall_nil; try exact I; now apply Sm.
Qed.
