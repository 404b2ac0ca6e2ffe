(** * Facts about reading in several calls *)
From Coq Require Import String.
From Coq Require Import List NArith Bool Arith Lia Permutation.
From Verif Require Import Spec Base Graph GraphSpec GraphFacts Text Format FormatSpec TextFacts FormatFacts
  Store StoreSpec StoreFacts CrashFacts Reader.
Import ListNotations.
Open Scope N_scope.

(** ** Text *)
Lemma complete_split s : exists q, s = complete s ++ q /\ no_lf q.
Proof.
  unfold complete. assert (H : forall r, exists q, r = q ++ drop_begun r /\ no_lf q).
  { induction r as [|c r (q & E & Hq)]; [exists []; split; [reflexivity|intros []]|]. cbn [drop_begun].
    destruct (N.eqb_spec c 10) as [->|Hc]; [exists []; split; [reflexivity|intros []]|].
    exists (c :: q). split; [cbn; now rewrite <- E|]. intros [E'|H]; [congruence|now apply Hq]. }
  destruct (H (rev s)) as (q & E & Hq). exists (rev q). split.
  - rewrite <- rev_app_distr, <- E. now rewrite rev_involutive.
  - intro Hi. apply Hq. now apply in_rev.
Qed.
Lemma complete_closed s : closed (complete s).
Proof.
  unfold complete. induction (rev s) as [|c r IH]; [now left|]. cbn [drop_begun].
  destruct (N.eqb_spec c 10) as [->|Hc]; [|assumption]. right. exists (rev r). reflexivity.
Qed.
Lemma ends_line_closed s : ends_line s = true <-> closed s.
Proof.
  unfold ends_line, closed. destruct (rev s) as [|c r] eqn:E.
  - split; [left|reflexivity]. apply (f_equal (@rev _)) in E. now rewrite rev_involutive in E.
  - apply (f_equal (@rev _)) in E. rewrite rev_involutive in E. cbn [rev] in E. subst s. split.
    + intro H. apply N.eqb_eq in H. subst c. right. eauto.
    + intros [H|[p H]]; [now destruct (rev r)|]. apply app_inj_tail in H as [_ ->]. reflexivity.
Qed.

(** ** A bad line decides *)
Section Read.
  Variable nd : N -> bool.
  Let parse := gcmd_parse_line nd.
  Definition good {A} (r : outcome (result A)) : Prop := exists a, r = Done (Ok a).
  Lemma is_ok_good A (r : outcome (result A)) : is_ok r = true <-> good r.
  Proof.
    split; [|intros [a ->]; reflexivity]. destruct r as [[a|m]| |]; try discriminate. intros _. now exists a.
  Qed.
  Lemma read_lines_bad l1 l2 : forall i, is_ok (read_lines parse is_comment i l1) = false ->
    read_lines parse is_comment i (l1 ++ l2) = read_lines parse is_comment i l1.
  Proof.
    induction l1 as [|l l1 IH]; intros i H; [discriminate|]. cbn [app read_lines] in *.
    destruct (negb _ && negb _); [|now apply IH]. destruct (parse l) as [[c|m]| |]; cbn [obind] in *; try reflexivity.
    rewrite IH; [reflexivity|]. destruct (read_lines parse is_comment (i + 1) l1) as [[cs|m]| |]; cbn in *; congruence.
  Qed.
  Lemma read_pieces_ok segs : is_ok (read_pieces nd segs) = is_ok (read_lines parse is_comment 0 (flat_map lines segs)).
  Proof. unfold read_pieces. fold parse. now destruct (read_lines parse is_comment 0 (flat_map lines segs)) as [[cs|m]| |]. Qed.
  Lemma read_pieces_one c : read_pieces nd [c] = gcmd_read nd c.
  Proof. unfold read_pieces, gcmd_read, read, read_as_commands. cbn [flat_map]. now rewrite app_nil_r. Qed.
  Lemma read_pieces_bad p q : closed p -> is_ok (read_pieces nd [p]) = false -> gcmd_read nd (p ++ q) = read_pieces nd [p].
  Proof.
    intros Hp H. rewrite <- read_pieces_one. rewrite read_pieces_ok in H. unfold read_pieces. cbn [flat_map] in *. rewrite app_nil_r in *.
    rewrite lines_app_closed by assumption. fold parse. rewrite read_lines_bad by exact H. rewrite ?app_nil_r. reflexivity.
  Qed.
  Lemma list_snoc (l : list text) : l = [] \/ exists l' z, l = l' ++ [z].
  Proof. destruct l as [|a l]; [now left|]. right. destruct (@exists_last _ (a :: l)) as (l' & z & E); [discriminate|]. eauto. Qed.
  Lemma two_ids_fuel f l : two_ids f l <> OutOfFuel.
  Proof. unfold two_ids, parse_id. destruct l as [|a [|b [|]]]; try discriminate. destruct (parse_u64 a), (parse_u64 b); discriminate. Qed.
  Lemma read_pieces_fuel segs : read_pieces nd segs <> OutOfFuel.
  Proof.
    assert (Hp : forall l, parse l <> OutOfFuel).
    { intro l. unfold parse, gcmd_parse_line, one_id, two_ids, parse_id.
      repeat match goal with |- context [match ?x with _ => _ end] => destruct x end; discriminate. }
    assert (H : forall ls i, read_lines parse is_comment i ls <> OutOfFuel).
    { induction ls as [|l ls IH]; intro i; cbn [read_lines]; [discriminate|]. destruct (negb _ && negb _); [|apply IH].
      specialize (Hp l). destruct (parse l) as [[c|m]| |]; cbn [obind]; try discriminate; [|congruence].
      specialize (IH (i + 1)). destruct (read_lines parse is_comment (i + 1) ls); cbn [obind]; congruence. }
    unfold read_pieces. specialize (H (flat_map lines segs) 0). fold parse. destruct (read_lines parse is_comment 0 (flat_map lines segs)); cbn [obind]; congruence.
  Qed.
End Read.

(** ** Schedules *)
Lemma isteps_snoc A (a b : fs * list (prog A)) (P : fs * list (prog A) -> Prop) : isteps a b -> P a ->
  (forall x y, isteps a x -> P x -> istep x y -> P y) -> P b.
Proof.
  intro H. revert P. induction H as [c|c c' c'' H H' IH]; intros P Ha Hs; [assumption|].
  apply IH; [apply (Hs c); [constructor|assumption|assumption]|]. intros x y Hx. apply Hs. now apply is_step with c'.
Qed.

(** Programs that only append to the commands file. *)
Inductive appending {A} : prog A -> Prop :=
| ap_ret a : appending (Ret a)
| ap_act upd k :
    (forall s c, commands_entry s = File c -> exists d, commands_entry (upd s) = File (c ++ d)) ->
    (forall s c, commands_entry s = File c -> appending (k s)) -> appending (Act upd k).
Lemma appending_bind A B (p : prog A) (f : A -> prog B) : appending p -> (forall a, appending (f a)) -> appending (bind p f).
Proof. induction 1 as [a|upd k H1 H2 IH]; intro Hf; cbn [bind]; [apply Hf|]. constructor; [assumption|]. intros s c Hc. now apply (IH s c). Qed.
Lemma appending_chunks cs : appending (append_chunks cs).
Proof.
  induction cs as [|c cs IH]; cbn [append_chunks]; constructor; [|intros; exact IH].
  intros s old H. exists c. unfold append_chunk. rewrite H. reflexivity.
Qed.
Lemma same_entry (upd : fs -> fs) : (forall s, commands_entry (upd s) = commands_entry s) ->
  forall s c, commands_entry s = File c -> exists d, commands_entry (upd s) = File (c ++ d).
Proof. intros H s c Hc. exists []. now rewrite H, app_nil_r. Qed.
Lemma appending_apply chunks cs : appending (apply_graph_commands chunks cs).
Proof.
  unfold apply_graph_commands, with_lock. apply appending_bind.
  - unfold lock. constructor; [now apply same_entry|]. intros s c H. constructor; [|intros; constructor].
    apply same_entry. intro s'. destruct (fs_root s'); reflexivity.
  - intros [u|]; [|constructor]. apply appending_bind.
    + unfold add_commands. constructor; [now apply same_entry|]. intros s c H. rewrite H. apply appending_chunks.
    + intro r. apply appending_bind; [|intros [?|]; constructor]. unfold unlock. constructor; [|intros; constructor].
      apply same_entry. intro s'. destruct (fs_lock s'); reflexivity.
Qed.
Lemma appending_writer chunks cs : appending (as_writer (apply_graph_commands chunks cs)).
Proof. apply appending_bind; [apply appending_apply|]. intro; constructor. Qed.

(** Programs that leave the file system alone. *)
Inductive silent {A} : prog A -> Prop :=
| si_ret a : silent (Ret a)
| si_act upd k : (forall s, upd s = s) -> (forall s, silent (k s)) -> silent (Act upd k).
Lemma silent_bind A B (p : prog A) (f : A -> prog B) : silent p -> (forall a, silent (f a)) -> silent (bind p f).
Proof. induction 1 as [a|upd k H1 H2 IH]; intro Hf; cbn [bind]; [apply Hf|]. constructor; [assumption|]. intro s. now apply IH. Qed.
Lemma silent_rest nd takes n : forall segs seg, silent (read_rest nd takes n segs seg).
Proof.
  induction n as [|n IH]; intros segs seg; cbn [read_rest]; [constructor|]. constructor; [reflexivity|]. intro s. cbv zeta.
  destruct (firstn _ _); [destruct (_ || _)|destruct (is_ok _)]; try apply IH; constructor.
Qed.
Lemma silent_load nd takes n : silent (load_stepwise nd takes n).
Proof. constructor; [reflexivity|]. intro s. destruct (commands_entry s); [constructor|apply silent_rest|constructor]. Qed.

Lemma bind_act A B (p : prog A) (f : A -> prog B) upd k : (forall a, exists b, f a = Ret b) -> bind p f = Act upd k ->
  exists k', p = Act upd k' /\ forall s, k s = bind (k' s) f.
Proof.
  intros Hf. destruct p as [a|u k']; cbn [bind]; intro H; [destruct (Hf a) as [b Hb]; congruence|].
  injection H as <- <-. now exists k'.
Qed.
(** A silent process beside writers: the writers do what they do without it. *)
Lemma without_reader s q ws cfg : silent q -> isteps (s, q :: map as_writer ws) cfg ->
  exists q' ws', cfg = (fst cfg, q' :: map as_writer ws') /\ silent q' /\ isteps (s, ws) (fst cfg, ws').
Proof.
  intros Hq H. apply (isteps_snoc _ _ _ (fun cfg => exists q' ws', cfg = (fst cfg, q' :: map as_writer ws') /\ silent q' /\ isteps (s, ws) (fst cfg, ws')) H).
  - exists q, ws. split; [reflexivity|]. split; [assumption|constructor].
  - intros [s1 ps1] [s2 ps2] _ (q' & ws' & E & Hq' & Hs) (pre & upd & k & post & E1 & E2 & E3). cbn [fst snd] in *.
    injection E as ->. destruct pre as [|p pre]; cbn [app] in E1.
    + injection E1 as -> <-. inversion Hq' as [|? ? Hu Hk]; subst. exists (k s1), ws'. rewrite Hu. split; [reflexivity|]. split; [apply Hk|assumption].
    + injection E1 as <- E1. apply map_eq_app in E1 as (w1 & w2 & -> & <- & E1). apply map_eq_cons in E1 as (p & w3 & -> & E1 & <-).
      apply bind_act in E1 as (k' & -> & Hk); [|intro; eauto]. subst. exists q', (w1 ++ k' s1 :: w3).
      split; [|split; [assumption|]].
      * rewrite map_app. cbn [map]. now rewrite Hk.
      * apply (isteps_trans _ _ _ _ Hs). eapply is_step; [|constructor]. exists w1, upd, k', w3. now repeat split.
Qed.

(** ** What a reader has seen *)
Section Reader.
  Variable nd : N -> bool.
  Variable takes : list text -> text -> nat.
  Variable fuel : nat.
  Variable s0 : fs.
  Variable ps0 : list proc.
  Variable c0 : text.
  Variable M : nat.
  Let start : fs * list proc := (s0, as_reader (load_stepwise nd takes fuel) :: ps0).
  Hypothesis H0 : commands_entry s0 = File c0.
  Hypothesis Hap : Forall appending ps0.
  Hypothesis HM : forall cfg c, isteps start cfg -> commands_entry (fst cfg) = File c -> (length c <= M)%nat.
  Hypothesis Hfuel : (2 * M < fuel)%nat.

  (** Every piece but the last ended, within a line, where the file ended at some
      earlier time. *)
  Definition broken (segs : list text) (cfg : fs * list proc) : Prop :=
    forall a seg b, segs = a ++ seg :: b -> ~ closed seg /\
      exists m, isteps start m /\ isteps m cfg /\ commands_entry (fst m) = File (concat (a ++ [seg])).
  Definition answer (r : outcome (result graph)) (cfg : fs * list proc) : Prop :=
    exists m c segs seg, isteps start m /\ isteps m cfg /\ commands_entry (fst m) = File c /\ broken segs m /\
      r = read_pieces nd (segs ++ [seg]) /\
      (concat segs ++ seg = c \/ (closed seg /\ prefix (concat segs ++ seg) c /\ is_ok r = false)).
  Inductive phase (cfg : fs * list proc) : proc -> Prop :=
  | ph_start : phase cfg (as_reader (load_stepwise nd takes fuel))
  | ph_rest n segs seg c : commands_entry (fst cfg) = File c -> prefix (concat segs ++ seg) c -> broken segs cfg ->
      (2 * (M - length (concat segs ++ seg)) + (if ends_line seg then 0 else 1) < n)%nat ->
      phase cfg (as_reader (read_rest nd takes n segs seg))
  | ph_end r : answer r cfg -> phase cfg (Ret (inr r)).

  Definition content (s : fs) : text := match commands_entry s with File c => c | _ => [] end.
  (** The step [read_rest] takes. *)
  Definition advance (n : nat) (segs : list text) (seg c : text) : prog (outcome (result graph)) :=
    match firstn (S (takes segs seg)) (skipn (length (concat segs ++ seg)) c) with
    | [] =>
      if ends_line seg || negb (is_ok (read_pieces nd (segs ++ [seg]))) then Ret (read_pieces nd (segs ++ [seg]))
      else read_rest nd takes n (segs ++ [seg]) []
    | new =>
      if is_ok (read_pieces nd (segs ++ [complete (seg ++ new)])) then read_rest nd takes n segs (seg ++ new)
      else Ret (read_pieces nd (segs ++ [complete (seg ++ new)]))
    end.
  Lemma rest_eq n segs seg : as_reader (read_rest nd takes (S n) segs seg) =
    Act (fun s => s) (fun s => as_reader (advance n segs seg (content s))).
  Proof. reflexivity. Qed.
  Lemma broken_later segs cfg cfg' : broken segs cfg -> isteps cfg cfg' -> broken segs cfg'.
  Proof.
    intros H Hs a seg b E. destruct (H a seg b E) as (H1 & m & H2 & H3 & H4). split; [assumption|].
    exists m. split; [assumption|]. split; [now apply isteps_trans with cfg|assumption].
  Qed.
  Lemma phase_later cfg cfg' p c d : phase cfg p -> isteps cfg cfg' -> commands_entry (fst cfg) = File c ->
    commands_entry (fst cfg') = File (c ++ d) -> phase cfg' p.
  Proof.
    intros Hph Hs Hc Hd. destruct Hph as [|n segs seg c' Hc' Hp Hb Hn|r Hr].
    - constructor.
    - rewrite Hc in Hc'. injection Hc' as <-. apply ph_rest with (c ++ d); [assumption| |exact (broken_later _ _ _ Hb Hs)|assumption].
      destruct Hp as [q ->]. exists (q ++ d). now rewrite <- app_assoc.
    - apply ph_end. destruct Hr as (m & c' & segs & seg & R1 & R2 & R3). exists m, c', segs, seg. split; [assumption|].
      split; [|assumption]. now apply isteps_trans with cfg.
  Qed.
  Lemma phase_ret cfg r : phase cfg (Ret (inr r)) -> answer r cfg.
  Proof.
    intro H. remember (Ret (inr r)) as p eqn:Ep. destruct H as [|n segs seg c1 Hc1 Hp Hb Hn|r' Hr'].
    - discriminate Ep.
    - destruct n as [|n]; [lia|]. rewrite rest_eq in Ep. discriminate Ep.
    - injection Ep as ->. assumption.
  Qed.
  Lemma firstn_skipn_prefix (p c : text) n : prefix p c -> prefix (p ++ firstn n (skipn (length p) c)) c.
  Proof.
    intros [q ->]. rewrite skipn_app, Nat.sub_diag, skipn_all. cbn [app skipn]. exists (skipn n q).
    now rewrite <- app_assoc, firstn_skipn.
  Qed.

  Lemma reader_phase cfg : isteps start cfg ->
    exists p ps c, snd cfg = p :: ps /\ Forall appending ps /\ commands_entry (fst cfg) = File c /\ phase cfg p.
  Proof.
    intro H. apply (isteps_snoc _ _ _ (fun cfg => exists p ps c, snd cfg = p :: ps /\ Forall appending ps /\
      commands_entry (fst cfg) = File c /\ phase cfg p) H).
    - exists (as_reader (load_stepwise nd takes fuel)), ps0, c0. split; [reflexivity|]. split; [assumption|]. split; [assumption|]. constructor.
    - intros [s1 ps1] [s2 ps2] Hx (p & ps & c & E & Ha & Hc & Hph) Hst.
      assert (Hxy : isteps (s1, ps1) (s2, ps2)) by (eapply is_step; [exact Hst|constructor]).
      destruct Hst as (pre & upd & k & post & E1 & E2 & E3). cbn [fst snd] in *.
      rewrite E in E1. destruct pre as [|p' pre]; cbn [app] in E1.
      + injection E1 as -> <-. subst s2 ps2.
        remember (Act upd k) as p eqn:Ep. destruct Hph as [|n segs seg c' Hc' Hp Hb Hn|r Hr].
        * cbn [as_reader load_stepwise bind] in Ep. injection Ep as <- <-. cbv beta in *. exists (as_reader (read_rest nd takes fuel [] [])), ps, c. rewrite Hc.
          split; [reflexivity|]. split; [assumption|]. split; [first [assumption|reflexivity]|]. apply ph_rest with c; [assumption|now exists c| |cbn; lia].
          intros [|? ?] seg b Eb; discriminate.
        * cbn [fst] in Hc'. rewrite Hc in Hc'. injection Hc' as <-.
          destruct n as [|n]; [discriminate Ep|]. rewrite rest_eq in Ep. injection Ep as <- <-. cbn [app] in *.
          assert (Hcs : content s1 = c) by (unfold content; now rewrite Hc). rewrite Hcs in *. unfold advance in Hxy |- *.
          set (new := firstn (S (takes segs seg)) (skipn (length (concat segs ++ seg)) c)).
          assert (Hp' : prefix ((concat segs ++ seg) ++ new) c) by now apply firstn_skipn_prefix.
          assert (Hlen : (length c <= M)%nat) by (apply (HM (s1, ps1)); assumption).
          assert (Ans : forall r segs' seg', r = read_pieces nd (segs' ++ [seg']) -> broken segs' (s1, ps1) ->
             (concat segs' ++ seg' = c \/ (closed seg' /\ prefix (concat segs' ++ seg') c /\ is_ok r = false)) ->
             isteps (s1, ps1) (s1, Ret (inr r) :: ps) ->
             exists p qs c1, Ret (inr r) :: ps = p :: qs /\ Forall appending qs /\ commands_entry s1 = File c1 /\ phase (s1, Ret (inr r) :: ps) p).
          { intros r segs' seg' Er Hb' Hcase Hto. exists (Ret (inr r)), ps, c. split; [reflexivity|]. split; [assumption|].
            split; [assumption|]. apply ph_end. exists (s1, ps1), c, segs', seg'. now repeat (split; [assumption|]). }
          fold new in Hxy |- *. destruct new as [|x new'] eqn:En.
          -- rewrite app_nil_r in Hp'.
             assert (Hall : concat segs ++ seg = c).
             { destruct Hp as [q Hq]. unfold new in En. rewrite Hq, skipn_app, Nat.sub_diag, skipn_all in En. destruct q as [|y q]; [|discriminate].
               rewrite Hq, app_nil_r. reflexivity. }
             match type of Hxy with context [if ?b then _ else _] => destruct b eqn:Ee end.
             ++ apply (Ans _ segs seg); [reflexivity|assumption|now left|exact Hxy].
             ++ apply orb_false_iff in Ee as [Ee Eo]. exists (as_reader (read_rest nd takes n (segs ++ [seg]) [])), ps, c.
                split; [reflexivity|]. split; [assumption|]. split; [first [assumption|reflexivity]|]. apply ph_rest with c.
                ** assumption.
                ** exists []. rewrite concat_app. cbn [concat]. now rewrite !app_nil_r.
                ** intros a sg b Eb. destruct (list_snoc b) as [->|(b' & z & ->)].
                   --- apply app_inj_tail in Eb as [<- <-]. split; [intro Hcl; apply ends_line_closed in Hcl; congruence|].
                       exists (s1, ps1). split; [assumption|]. split; [exact Hxy|]. cbn [fst]. rewrite concat_app. cbn [concat].
                       rewrite app_nil_r, Hall. assumption.
                   --- change (sg :: b' ++ [z]) with ((sg :: b') ++ [z]) in Eb. rewrite app_assoc in Eb. apply app_inj_tail in Eb as [Eb _].
                       exact (broken_later _ _ _ Hb Hxy a sg b' Eb).
                ** rewrite Ee in Hn. rewrite concat_app. cbn [concat]. rewrite !app_nil_r. cbn [ends_line rev]. lia.
          -- match type of Hxy with context [if ?b then _ else _] => destruct b eqn:Eo end.
             ++ exists (as_reader (read_rest nd takes n segs (seg ++ x :: new'))), ps, c.
                split; [reflexivity|]. split; [assumption|]. split; [first [assumption|reflexivity]|]. apply ph_rest with c.
                ** assumption.
                ** now rewrite app_assoc.
                ** exact (broken_later _ _ _ Hb Hxy).
                ** assert (length ((concat segs ++ seg) ++ x :: new') <= length c)%nat.
                   { destruct Hp' as [q ->]. rewrite (app_length _ q). lia. }
                   rewrite (app_assoc (concat segs)). rewrite app_length in H1 |- *. cbn [length] in *.
                   destruct (ends_line (seg ++ x :: new')), (ends_line seg); lia.
             ++ apply (Ans _ segs (complete (seg ++ x :: new'))); [reflexivity|assumption| |exact Hxy].
                right. split; [apply complete_closed|]. split; [|assumption]. destruct (complete_split (seg ++ x :: new')) as (q & Eq & _).
                destruct Hp' as [q' ->]. exists (q ++ q'). rewrite <- app_assoc with (l := concat segs). rewrite Eq at 1. now rewrite <- !app_assoc.
        * discriminate Ep.
      + injection E1 as <- E1. rewrite E1 in Ha. apply Forall_app in Ha as [Ha1 Ha2]. inversion Ha2 as [|? ? Ha3 Ha4]; subst.
        inversion Ha3 as [|? ? Hu Hk]; subst. destruct (Hu s1 c Hc) as [d Hd]. exists p, (pre ++ k s1 :: post), (c ++ d).
        split; [reflexivity|]. split; [apply Forall_app; split; [assumption|]; constructor; [now apply (Hk s1 c)|assumption]|]. split; [assumption|].
        now apply (phase_later (s1, p :: pre ++ Act upd k :: post) _ p c d).
  Qed.
End Reader.
