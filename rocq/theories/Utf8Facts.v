(** * Lemmas on decoding and on reading bytes *)
From Coq Require Import List NArith Bool Lia ZifyBool.
From Verif Require Import Base Graph Text Format FormatSpec TextFacts FormatFacts Utf8 Utf8Spec.
Import ListNotations.
Open Scope N_scope.

Ltac rng := unfold cont, between, scalar in *; cbn zeta in *; lia.
Lemma from_utf8_1 a r : a < 128 -> from_utf8 (a :: r) = option_map (cons a) (from_utf8 r).
Proof. intro H. apply N.ltb_lt in H. cbn [from_utf8]. now rewrite H. Qed.
Lemma from_utf8_encodes c e bs : encodes c e -> from_utf8 (e ++ bs) = option_map (cons c) (from_utf8 bs).
Proof.
  intros [a Ha|w x H1 H2|w x y H1 H2 c0 H3 H4|w x y z H1 H2 H3 c0 H4 H5]; cbn [app].
  - now apply from_utf8_1.
  - cbn [from_utf8]. replace (192 + w <? 128) with false by lia.
    replace (between 194 223 (192 + w)) with true by rng. replace (cont (128 + x)) with true by rng.
    f_equal. f_equal. lia.
  - subst c0. cbn [from_utf8]. replace (224 + w <? 128) with false by lia.
    replace (between 194 223 (224 + w)) with false by rng. replace (between 224 239 (224 + w)) with true by rng.
    replace (cont (128 + y)) with true by rng. rewrite andb_true_r.
    destruct (N.eqb_spec (224 + w) 224) as [E|E].
    + replace (between 160 191 (128 + x)) with true by rng. f_equal. f_equal. lia.
    + destruct (N.eqb_spec (224 + w) 237) as [E'|E'].
      * replace (between 128 159 (128 + x)) with true by rng. f_equal. f_equal. lia.
      * replace (cont (128 + x)) with true by rng. f_equal. f_equal. lia.
  - subst c0. cbn [from_utf8]. replace (240 + w <? 128) with false by lia.
    replace (between 194 223 (240 + w)) with false by rng. replace (between 224 239 (240 + w)) with false by rng.
    replace (between 240 244 (240 + w)) with true by rng.
    replace (cont (128 + y)) with true by rng. replace (cont (128 + z)) with true by rng. rewrite !andb_true_r.
    destruct (N.eqb_spec (240 + w) 240) as [E|E].
    + replace (between 144 191 (128 + x)) with true by rng. f_equal. f_equal. lia.
    + destruct (N.eqb_spec (240 + w) 244) as [E'|E'].
      * replace (between 128 143 (128 + x)) with true by rng. f_equal. f_equal. lia.
      * replace (cont (128 + x)) with true by rng. f_equal. f_equal. lia.
Qed.
Lemma utf8_decode t bs : utf8 t bs -> from_utf8 bs = Some t.
Proof.
  induction 1 as [|c e t bs He H IH]; [reflexivity|]. rewrite (from_utf8_encodes _ _ _ He), IH. reflexivity.
Qed.
(** One character at a time. *)
Lemma from_utf8_step a r t : from_utf8 (a :: r) = Some t ->
  exists c e r' t', a :: r = e ++ r' /\ t = c :: t' /\ encodes c e /\ from_utf8 r' = Some t'.
Proof.
  assert (Hm : forall c o, option_map (cons c) o = Some t -> exists t', t = c :: t' /\ o = Some t').
  { intros c [u|] E; [|discriminate]. injection E as <-. eauto. }
  cbn [from_utf8]. destruct (N.ltb_spec a 128) as [H|H].
  { intro E. apply Hm in E. destruct E as (t' & -> & E). exists a, [a], r, t'. split; [reflexivity|]. split; [reflexivity|].
    split; [now constructor|assumption]. }
  destruct r as [|b r1]; [discriminate|]. destruct (between 194 223 a) eqn:E1.
  { destruct (cont b) eqn:E2; [|discriminate]. intro E. apply Hm in E. destruct E as (t' & -> & E).
    exists ((a - 192) * 64 + (b - 128)), [a; b], r1, t'. split; [reflexivity|]. split; [reflexivity|]. split; [|assumption].
    replace a with (192 + (a - 192)) at 2 by rng. replace b with (128 + (b - 128)) at 2 by rng. constructor; rng. }
  destruct r1 as [|c r2]; [discriminate|]. destruct (between 224 239 a) eqn:E2.
  { destruct (_ && cont c) eqn:E3; [|discriminate]. apply andb_true_iff in E3. destruct E3 as [E3 E4].
    assert (Hc : cont b = true /\ (a = 224 -> 160 <= b) /\ (a = 237 -> b <= 159)).
    { destruct (N.eqb_spec a 224); [|destruct (N.eqb_spec a 237)]; rng. }
    clear E3. destruct Hc as (Hc & H1 & H2). intro E. apply Hm in E. destruct E as (t' & -> & E).
    eexists _, [a; b; c], r2, t'. split; [reflexivity|]. split; [reflexivity|]. split; [|assumption].
    replace (((a - 224) * 64 + (b - 128)) * 64 + (c - 128)) with ((a - 224) * 4096 + (b - 128) * 64 + (c - 128)) by lia.
    replace a with (224 + (a - 224)) at 2 by rng. replace b with (128 + (b - 128)) at 2 by rng.
    replace c with (128 + (c - 128)) at 2 by rng. constructor; rng. }
  destruct r2 as [|d r3]; [discriminate|]. destruct (between 240 244 a) eqn:E3; [|discriminate].
  destruct (_ && cont c && cont d) eqn:E4; [|discriminate]. apply andb_true_iff in E4. destruct E4 as [E4 E6].
  apply andb_true_iff in E4. destruct E4 as [E4 E5].
  assert (Hc : cont b = true /\ (a = 240 -> 144 <= b) /\ (a = 244 -> b <= 143)).
  { destruct (N.eqb_spec a 240); [|destruct (N.eqb_spec a 244)]; rng. }
  clear E4. destruct Hc as (Hc & H1 & H2). intro E. apply Hm in E. destruct E as (t' & -> & E).
  eexists _, [a; b; c; d], r3, t'. split; [reflexivity|]. split; [reflexivity|]. split; [|assumption].
  replace ((((a - 240) * 64 + (b - 128)) * 64 + (c - 128)) * 64 + (d - 128))
    with ((a - 240) * 262144 + (b - 128) * 4096 + (c - 128) * 64 + (d - 128)) by lia.
  replace a with (240 + (a - 240)) at 2 by rng. replace b with (128 + (b - 128)) at 2 by rng.
  replace c with (128 + (c - 128)) at 2 by rng. replace d with (128 + (d - 128)) at 2 by rng. constructor; rng.
Qed.
Lemma encodes_len c e : encodes c e -> (1 <= length e)%nat.
Proof. intros []; cbn; lia. Qed.
Lemma from_utf8_spec bs t : from_utf8 bs = Some t <-> utf8 t bs.
Proof.
  split; [|apply utf8_decode].
  assert (G : forall n bs t, (length bs <= n)%nat -> from_utf8 bs = Some t -> utf8 t bs).
  { induction n as [|n IH]; intros bs0 t0 Hn E.
    - destruct bs0; [|cbn in Hn; lia]. injection E as <-. constructor.
    - destruct bs0 as [|a r]; [injection E as <-; constructor|].
      destruct (from_utf8_step a r t0 E) as (c & e & r' & t' & Er & -> & He & E').
      rewrite Er in *. constructor; [assumption|]. apply IH; [|assumption].
      pose proof (encodes_len _ _ He). rewrite app_length in Hn. lia. }
  now apply (G (length bs)).
Qed.
Lemma decodable_spec bs : decodable bs <-> from_utf8 bs <> None.
Proof.
  split.
  - intros (t & H) E. apply from_utf8_spec in H. congruence.
  - intro H. destruct (from_utf8 bs) as [t|] eqn:E; [|congruence]. exists t. now apply from_utf8_spec.
Qed.

Lemma utf8_app t bs u cs : utf8 t bs -> utf8 u cs -> utf8 (t ++ u) (bs ++ cs).
Proof. induction 1 as [|c e t bs He H IH]; intro Hu; cbn [app]; [assumption|]. rewrite <- app_assoc. constructor; auto. Qed.
Lemma utf8_ascii t : ascii_text t -> utf8 t t.
Proof. induction 1 as [|c t Hc H IH]; [constructor|]. apply (utf8_cons c [c] t t); [now constructor|assumption]. Qed.

(** The line feed is only found as itself. *)
Lemma encodes_lf c e : encodes c e -> c = 10 /\ e = [10] \/ c <> 10 /\ ~ In 10 e.
Proof.
  intros [a Ha|w x H1 H2|w x y H1 H2 c0 H3 H4|w x y z H1 H2 H3 c0 H4 H5].
  - destruct (N.eq_dec a 10) as [->|Hn]; [now left|]. right. split; [assumption|]. intros [H|[]]. congruence.
  - right. split; [lia|]. cbn [In]. lia.
  - right. split; [subst c0; lia|]. cbn [In]. lia.
  - right. split; [subst c0; lia|]. cbn [In]. lia.
Qed.
Lemma raw_from_app cur e s : ~ In 10 e -> raw_from cur (e ++ s) = raw_from (rev e ++ cur) s.
Proof.
  revert cur. induction e as [|a e IH]; intros cur H; [reflexivity|]. cbn [app raw_from].
  assert (a <> 10) by (intros ->; apply H; now left). apply N.eqb_neq in H0. rewrite H0.
  rewrite IH by (intro; apply H; now right). cbn [rev]. rewrite <- app_assoc. reflexivity.
Qed.
Lemma raw_utf8 t bs : utf8 t bs -> forall cur cbs, utf8 (rev cur) (rev cbs) ->
  Forall2 utf8 (raw_from cur t) (raw_from cbs bs).
Proof.
  induction 1 as [|c e t bs He H IH]; intros cur cbs Hc.
  - destruct cur as [|a cur], cbs as [|b cbs]; cbn [raw_from].
    + constructor.
    + exfalso. assert (E : rev (b :: cbs) = []) by now inversion Hc.
      apply (f_equal (@length N)) in E. rewrite rev_length in E. discriminate.
    + exfalso. destruct (rev (a :: cur)) as [|x l] eqn:E.
      * apply (f_equal (@length N)) in E. rewrite rev_length in E. discriminate.
      * inversion Hc as [|? e ? ? He Hu E1 E2]. apply encodes_len in He. destruct e; [cbn in He; lia|discriminate].
    + constructor; [assumption|constructor].
  - destruct (encodes_lf _ _ He) as [[-> ->]|[Hn Hi]].
    + cbn [raw_from app]. change (10 =? 10) with true. cbv iota. constructor; [|apply IH; constructor].
      cbn [rev]. apply utf8_app; [assumption|]. apply (utf8_cons 10 [10] [] []); [|constructor]. constructor. lia.
    + rewrite raw_from_app by assumption. cbn [raw_from]. apply N.eqb_neq in Hn. rewrite Hn. apply IH.
      cbn [rev]. rewrite rev_app_distr, rev_involutive. apply utf8_app; [assumption|].
      rewrite <- (app_nil_r e). constructor; [assumption|constructor].
Qed.

(** Dropping the line ends from the raw lines gives the lines. *)
Lemma strip_plain l : ~ In 10 l -> strip_end l = l.
Proof.
  intro H. unfold strip_end. destruct (rev l) as [|c t] eqn:E; [reflexivity|].
  destruct (N.eqb_spec c 10) as [->|]; [|reflexivity]. exfalso. apply H, in_rev. rewrite E. now left.
Qed.
Lemma strip_lf l : strip_end (l ++ [10]) = chomp l.
Proof. unfold strip_end. rewrite rev_app_distr. cbn [rev app]. change (10 =? 10) with true. cbv iota. now rewrite rev_involutive. Qed.
Lemma strip_raw s : forall cur, ~ In 10 cur -> map strip_end (raw_from cur s) = lines_from cur s.
Proof.
  induction s as [|c s IH]; intros cur H; cbn [raw_from lines_from].
  - destruct cur as [|a cur]; [reflexivity|]. cbn [map]. rewrite strip_plain; [reflexivity|]. now rewrite <- in_rev.
  - destruct (N.eqb_spec c 10) as [->|Hc].
    + cbn [map rev]. rewrite strip_lf, IH by (intros []). reflexivity.
    + apply IH. intros [E|E]; [now apply Hc|contradiction].
Qed.

Lemma read_raw_lines parse ic ls raws : Forall2 utf8 ls raws -> forall i,
  read_raw parse ic i raws = read_lines parse ic i (map strip_end ls).
Proof.
  induction 1 as [|l raw ls raws H Hr IH]; intro i; [reflexivity|]. cbn [read_raw map read_lines].
  rewrite (utf8_decode _ _ H). cbn zeta. destruct (_ && _); [|apply IH].
  destruct (parse (strip_end l)) as [[c|m]| |]; cbn [obind]; try reflexivity. now rewrite IH.
Qed.
Lemma read_bytes_text parse ic t bs : utf8 t bs -> read_bytes parse ic bs = read_as_commands parse ic t.
Proof.
  intro H. unfold read_bytes, read_as_commands, raw_lines, lines.
  rewrite (read_raw_lines parse ic (raw_from [] t)) by (apply raw_utf8; [assumption|constructor]).
  now rewrite strip_raw by (intros []).
Qed.

(** ** The first line that is not UTF-8 *)
Definition then_panic {A} (o : outcome (result A)) : outcome (result A) :=
  match o with Done (Ok _) => Panic | _ => o end.
Lemma read_raw_bad parse ic ls raws bad rest : Forall2 utf8 ls raws -> from_utf8 bad = None -> forall i,
  read_raw parse ic i (raws ++ bad :: rest) = then_panic (read_lines parse ic i (map strip_end ls)).
Proof.
  intros H Hb. induction H as [|l raw ls raws H Hr IH]; intro i; cbn [app read_raw map read_lines].
  - now rewrite Hb.
  - rewrite (utf8_decode _ _ H). cbn zeta. destruct (_ && _); [|apply IH].
    destruct (parse (strip_end l)) as [[c|m]| |]; cbn [obind]; try reflexivity. rewrite IH.
    now destruct (read_lines parse ic (i + 1) (map strip_end ls)) as [[cs|m]| |].
Qed.
Lemma raw_closed p : forall cur s, raw_from cur (p ++ [10] ++ s) = raw_from cur (p ++ [10]) ++ raw_from [] s.
Proof.
  induction p as [|c p IH]; intros cur s; cbn [app raw_from].
  - change (10 =? 10) with true. reflexivity.
  - destruct (c =? 10); [cbn [app]; f_equal|]; apply IH.
Qed.
Lemma raw_lines_closed p s : closed p -> raw_lines (p ++ s) = raw_lines p ++ raw_lines s.
Proof. intros [->|(q & ->)]; [reflexivity|]. unfold raw_lines. rewrite <- app_assoc. apply raw_closed. Qed.
Lemma closed_bytes t bs : utf8 t bs -> closed t -> closed bs.
Proof.
  intros H [->|(p & ->)].
  - inversion H. now left.
  - right. revert bs H. induction p as [|c p IH]; intros bs H; inversion H as [|? e ? bs' He H']; subst.
    + inversion H'; subst. inversion He; subst; try lia. now exists [].
    + destruct (IH _ H') as (q & ->). exists (e ++ q). now rewrite <- app_assoc.
Qed.
Lemma bad_lf bad : from_utf8 bad = None -> from_utf8 (bad ++ [10]) = None.
Proof.
  intro H. destruct (from_utf8 (bad ++ [10])) as [t|] eqn:E; [|reflexivity]. exfalso.
  apply from_utf8_spec in E.
  assert (G : forall t bs, utf8 t bs -> forall b, bs = b ++ [10] -> decodable b).
  { clear. induction 1 as [|c e t bs He Hu IH]; intros b Eb; [destruct b; discriminate|].
    destruct bs as [|x bs].
    - rewrite app_nil_r in Eb. destruct (encodes_lf _ _ He) as [[_ ->]|[_ Hi]].
      + destruct b as [|y [|z b]]; try discriminate. exists []. constructor.
      + exfalso. apply Hi. rewrite Eb. apply in_app_iff. right. now left.
    - destruct (@exists_last _ (x :: bs)) as (q & z & Eq); [discriminate|]. rewrite Eq in *.
      rewrite app_assoc in Eb. apply app_inj_tail in Eb. destruct Eb as [Eb ->].
      destruct (IH q eq_refl) as (u & Hq). exists (c :: u). rewrite <- Eb. now constructor. }
  destruct (G t _ E bad eq_refl) as (u & Hu). apply from_utf8_spec in Hu. congruence.
Qed.
Lemma raw_bad_head bad rest : no_lf bad -> bad <> [] -> line_end rest -> from_utf8 bad = None ->
  exists b r, raw_lines (bad ++ rest) = b :: r /\ from_utf8 b = None.
Proof.
  intros Hn Hb Hl Hf. unfold raw_lines. rewrite raw_from_app by assumption. rewrite app_nil_r.
  destruct Hl as [->|(r & ->)]; cbn [app raw_from].
  - destruct (rev bad) as [|x l] eqn:E.
    + apply (f_equal (@rev N)) in E. rewrite rev_involutive in E. contradiction.
    + exists (rev (x :: l)), []. split; [reflexivity|]. now rewrite <- E, rev_involutive.
  - change (10 =? 10) with true. cbv iota. eexists _, _. split; [reflexivity|]. cbn [rev]. rewrite rev_involutive. now apply bad_lf.
Qed.
Lemma read_bytes_bad parse ic t front bad rest : utf8 t front -> closed t -> no_lf bad -> line_end rest ->
  ~ decodable bad -> read_bytes parse ic (front ++ bad ++ rest) = then_panic (read_as_commands parse ic t).
Proof.
  intros H Hc Hn Hl Hd.
  assert (Hf : from_utf8 bad = None).
  { destruct (from_utf8 bad) as [u|] eqn:E; [|reflexivity]. destruct Hd. exists u. now apply from_utf8_spec. }
  assert (Hb : bad <> []) by (intros ->; discriminate).
  unfold read_bytes, read_as_commands, lines. rewrite raw_lines_closed by now apply (closed_bytes t).
  destruct (raw_bad_head bad rest Hn Hb Hl Hf) as (b & r & -> & Hfb).
  rewrite (read_raw_bad parse ic (raw_from [] t)); [|apply raw_utf8; [assumption|constructor]|assumption].
  now rewrite strip_raw by (intros []).
Qed.
(** Every file that is not UTF-8 has such a line. *)
Lemma split_lf (s : list N) : no_lf s \/ exists l r, s = l ++ [10] ++ r /\ no_lf l.
Proof.
  induction s as [|c s [IH|(l & r & -> & IH)]].
  - left. intros [].
  - destruct (N.eq_dec c 10) as [->|Hc].
    + right. exists [], s. split; [reflexivity|]. intros [].
    + left. intros [E|E]; [now apply Hc|contradiction].
  - destruct (N.eq_dec c 10) as [->|Hc].
    + right. exists [], (l ++ [10] ++ r). split; [reflexivity|]. intros [].
    + right. exists (c :: l), r. split; [reflexivity|]. intros [E|E]; [now apply Hc|contradiction].
Qed.
Lemma closed_app p q : closed p -> closed q -> closed (p ++ q).
Proof.
  intros [->|(p' & ->)] [->|(q' & ->)].
  - now left.
  - right. now exists q'.
  - right. exists p'. now rewrite app_nil_r.
  - right. exists ((p' ++ [10]) ++ q'). now rewrite app_assoc.
Qed.
Lemma first_bad bs : decodable bs \/ exists t front bad rest, bs = front ++ bad ++ rest /\
  utf8 t front /\ closed t /\ no_lf bad /\ line_end rest /\ ~ decodable bad.
Proof.
  assert (D : forall b, decodable b \/ ~ decodable b).
  { intro b. rewrite decodable_spec. destruct (from_utf8 b); [left; discriminate|right; congruence]. }
  assert (G : forall n bs, (length bs <= n)%nat -> decodable bs \/ exists t front bad rest, bs = front ++ bad ++ rest /\
    utf8 t front /\ closed t /\ no_lf bad /\ line_end rest /\ ~ decodable bad).
  { induction n as [|n IH]; intros s Hn.
    - destruct s; [|cbn in Hn; lia]. left. exists []. constructor.
    - destruct (split_lf s) as [H|(l & r & -> & H)].
      + destruct (D s) as [Hd|Hd]; [now left|]. right. exists [], [], s, []. rewrite app_nil_r.
        refine (conj eq_refl (conj utf8_nil (conj (or_introl eq_refl) (conj H (conj (or_introl eq_refl) Hd))))).
      + destruct (D l) as [(u & Hu)|Hd].
        * assert (Hlf : utf8 [10] [10]) by (apply (utf8_cons 10 [10] [] []); [constructor; lia|constructor]).
          pose proof (utf8_app _ _ _ _ Hu Hlf) as Hu'.
          destruct (IH r) as [(v & Hv)|(t & front & bad & rest & -> & Ht & Hc & Hb & He & Hd)].
          { rewrite !app_length in Hn. cbn in Hn. lia. }
          { left. exists ((u ++ [10]) ++ v). rewrite app_assoc. now apply utf8_app. }
          right. exists ((u ++ [10]) ++ t), ((l ++ [10]) ++ front), bad, rest.
          split; [now rewrite <- !app_assoc|]. split; [now apply utf8_app|]. split; [|now split].
          apply closed_app; [right; now exists u|assumption].
        * right. exists [], [], l, ([10] ++ r).
          refine (conj eq_refl (conj utf8_nil (conj (or_introl eq_refl) (conj H (conj _ Hd))))). right. now exists r. }
  now apply (G (length bs)).
Qed.
