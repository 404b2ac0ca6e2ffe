(** * Facts about numerals, lines and the matcher *)
From Coq Require Import String.
From Coq Require Import List NArith Bool Arith Lia.
From Verif Require Import Base Graph Text FormatSpec.
Import ListNotations.
Open Scope N_scope.

(** ** Classes *)
Lemma ws_blank c : ws c = true <-> blank c.
Proof.
  unfold ws, blank. rewrite !orb_true_iff, !andb_true_iff, !N.eqb_eq, !N.leb_le. cbn [In].
  split; [|intuition lia].
  intros H.
  repeat match goal with H : _ \/ _ |- _ => destruct H as [H|H] end; try lia.
Qed.
Lemma ascii_digit_09 c : ascii_digit c = true <-> ascii09 c.
Proof. unfold ascii_digit, ascii09. rewrite andb_true_iff, !N.leb_le. cbn [In]. lia. Qed.
Lemma ascii09_range c : ascii09 c <-> 48 <= c <= 57.
Proof. unfold ascii09. cbn [In]. lia. Qed.

(** ** Decimal numerals *)
Lemma decimal_app a b : decimal (a ++ b) = decimal a * 10 ^ N.of_nat (length b) + decimal b.
Proof.
  induction a as [|c a IH]; cbn [decimal app]; [lia|].
  rewrite IH, app_length, Nat2N.inj_add, N.pow_add_r. lia.
Qed.
Lemma decimal_bound s : Forall ascii09 s -> decimal s < 10 ^ N.of_nat (length s).
Proof.
  induction s as [|c s IH]; intro H; cbn [decimal length]; [reflexivity|].
  inversion H as [|? ? Hc Hs]; subst. apply ascii09_range in Hc.
  rewrite Nat2N.inj_succ, N.pow_succ_r'. specialize (IH Hs).
  assert (c - 48 <= 9) by lia.
  assert ((c - 48) * 10 ^ N.of_nat (length s) <= 9 * 10 ^ N.of_nat (length s)) by (apply N.mul_le_mono_r; lia).
  lia.
Qed.

Lemma parse_digits_spec s : forall acc n, acc < u64_limit ->
  (parse_digits acc s = Some n <->
   Forall ascii09 s /\ acc * 10 ^ N.of_nat (length s) + decimal s = n /\ n < u64_limit).
Proof.
  induction s as [|c s IH]; intros acc n Ha; cbn [parse_digits decimal length].
  - cbn [N.of_nat]. rewrite N.pow_0_r. split.
    + intros [= <-]. split; [constructor|]. lia.
    + intros (_ & H & _). f_equal. lia.
  - destruct (ascii_digit c) eqn:Ec.
    + rewrite ascii_digit_09 in Ec. pose proof (proj1 (ascii09_range c) Ec) as Hr.
      rewrite Nat2N.inj_succ, N.pow_succ_r'.
      destruct (N.ltb_spec (acc * 10 + (c - 48)) u64_limit) as [Hl|Hl].
      * rewrite IH by assumption. split.
        -- intros (H1 & H2 & H3). split; [now constructor|]. split; [|assumption]. rewrite <- H2. lia.
        -- intros (H1 & H2 & H3). inversion H1; subst. split; [assumption|]. split; [lia|assumption].
      * split; [discriminate|]. intros (H1 & H2 & H3). exfalso.
        assert (Hp : 1 <= 10 ^ N.of_nat (length s)) by (apply N.lt_pred_le, N.lt_le_trans with 1; [reflexivity|];
          change 1 with (10 ^ 0) at 1; apply N.pow_le_mono_r; lia).
        assert ((acc * 10 + (c - 48)) * 1 <= (acc * 10 + (c - 48)) * 10 ^ N.of_nat (length s))
          by (apply N.mul_le_mono_l; assumption).
        lia.
    + split; [discriminate|]. intros (H1 & _). inversion H1 as [|? ? Hc]; subst.
      apply ascii_digit_09 in Hc. congruence.
Qed.

Lemma parse_u64_spec s n : parse_u64 s = Some n <->
  exists d, (s = d \/ s = [43] ++ d) /\ numeral d n.
Proof.
  unfold parse_u64, numeral, run, u64. change 18446744073709551616 with u64_limit.
  assert (H0 : 0 < u64_limit) by reflexivity.
  destruct s as [|c t].
  - split; [discriminate|]. intros (d & [<-|H] & [Hd _] & _); [congruence|discriminate].
  - destruct (N.eqb_spec c 43) as [->|Hc].
    + split.
      * intro H. exists t. split; [now right|].
        destruct t as [|c' t']; [discriminate|].
        apply parse_digits_spec in H; [|assumption]. destruct H as (H1 & H2 & H3).
        repeat split; try assumption; discriminate.
      * intros (d & [<-|H] & [Hd1 Hd2] & Hv & Hn).
        -- inversion Hd2 as [|? ? Hc]; subst. apply ascii09_range in Hc. lia.
        -- injection H as ->. destruct d as [|c' d']; [congruence|].
           apply parse_digits_spec; [assumption|]. split; [assumption|]. split; [lia|assumption].
    + split.
      * intro H. exists (c :: t). split; [now left|].
        apply parse_digits_spec in H; [|assumption]. destruct H as (H1 & H2 & H3).
        repeat split; try assumption; discriminate.
      * intros (d & [<-|H] & [Hd1 Hd2] & Hv & Hn).
        -- apply parse_digits_spec; [assumption|]. split; [assumption|]. split; [lia|assumption].
        -- injection H as -> _. congruence.
Qed.

(** On a run of table digits, the parser accepts exactly the numerals. *)
Lemma parse_u64_digits nd s n : digit_table nd -> run (fun c => nd c = true) s ->
  (parse_u64 s = Some n <-> numeral s n).
Proof.
  intros [Ha _] [Hr1 Hr2]. rewrite parse_u64_spec. split.
  - intros (d & [-> | ->] & Hn); [assumption|]. exfalso.
    cbn [app] in Hr2. inversion Hr2 as [|? ? Hc]; subst. apply Ha in Hc; [|reflexivity].
    apply ascii09_range in Hc. lia.
  - intro Hn. exists s. tauto.
Qed.

Lemma show_from_spec fuel : forall n acc, n < 10 ^ N.of_nat (S fuel) ->
  exists ds, show_from fuel n acc = ds ++ acc /\ canonical_numeral ds n.
Proof.
  induction fuel as [|f IH]; intros n acc Hn; cbn [show_from].
  - change (N.of_nat 1) with 1 in Hn. rewrite N.pow_1_r in Hn.
    exists [48 + n mod 10]. rewrite N.mod_small by assumption. split; [reflexivity|].
    repeat split; [discriminate| |cbn [decimal length N.of_nat]; rewrite N.pow_0_r; lia|].
    + constructor; [|constructor]. apply ascii09_range. lia.
    + cbn [hd]. intros H. do 2 f_equal. lia.
  - assert (Hm : n mod 10 < 10) by (apply N.mod_lt; lia).
    pose proof (N.div_mod n 10 ltac:(lia)) as Hd.
    destruct (N.eqb_spec (n / 10) 0) as [Hz|Hz].
    + exists [48 + n mod 10]. split; [reflexivity|].
      repeat split; [discriminate| |cbn [decimal length N.of_nat]; rewrite N.pow_0_r; lia|].
      * constructor; [|constructor]. apply ascii09_range. lia.
      * cbn [hd]. intros H. do 2 f_equal. lia.
    + destruct (IH (n / 10) ((48 + n mod 10) :: acc)) as (ds & E & [Hr1 Hr2] & Hv & Hh).
      { apply N.div_lt_upper_bound; [lia|]. now rewrite <- N.pow_succ_r', <- Nat2N.inj_succ. }
      exists (ds ++ [48 + n mod 10]). split; [now rewrite E, <- app_assoc|].
      split; [split|split].
      * destruct ds; discriminate.
      * apply Forall_app. split; [assumption|]. constructor; [|constructor]. apply ascii09_range. generalize dependent (n mod 10). intros; lia.
      * rewrite decimal_app. cbn [decimal length N.of_nat]. change (10 ^ 0) with 1. change (10 ^ 1) with 10. rewrite Hv. clear - Hd Hm. generalize dependent (n mod 10). generalize (n / 10). intros; lia.
      * destruct ds as [|c ds]; [congruence|]. cbn [hd app]. intro Hc. exfalso.
        specialize (Hh Hc). injection Hh as -> ->. cbn in Hv. lia.
Qed.
Lemma show_spec n : canonical_numeral (show n) n.
Proof.
  unfold show. destruct (show_from_spec (N.size_nat n) n []) as (ds & E & H).
  - destruct n as [|p]; [reflexivity|].
    apply N.lt_trans with (2 ^ N.of_nat (N.size_nat (N.pos p))).
    + pose proof (N.size_gt (N.pos p)) as Hg.
      replace (N.of_nat (N.size_nat (N.pos p))) with (N.size (N.pos p)); [assumption|].
      cbn. clear. induction p; cbn; rewrite ?IHp; lia.
    + apply N.le_lt_trans with (10 ^ N.of_nat (N.size_nat (N.pos p))).
      * apply N.pow_le_mono_l. lia.
      * apply N.pow_lt_mono_r; lia.
  - rewrite E, app_nil_r. assumption.
Qed.
Lemma show_run n : run ascii09 (show n).
Proof. apply show_spec. Qed.
Lemma show_numeral n : u64 n -> numeral (show n) n.
Proof. intro H. destruct (show_spec n) as (H1 & H2 & _). now split; [|split]. Qed.

Lemma canonical_unique s t n : canonical_numeral s n -> canonical_numeral t n -> s = t.
Proof.
  intros ([Hs1 Hs2] & Hvs & Hhs) ([Ht1 Ht2] & Hvt & Hht).
  assert (same_len : forall a b, Forall ascii09 a -> Forall ascii09 b -> length a = length b ->
    decimal a = decimal b -> a = b).
  { clear. induction a as [|c a IH]; intros [|d b] Ha Hb Hl Hv; cbn [length] in Hl; try discriminate; [reflexivity|].
    injection Hl as Hl. inversion Ha as [|? ? Hc Ha']; subst. inversion Hb as [|? ? Hd Hb']; subst.
    pose proof (decimal_bound _ Ha'). pose proof (decimal_bound _ Hb').
    cbn [decimal] in Hv. pose proof Hl as Hl2. rewrite Hl in *. clear Hl. rename Hl2 into Hl. apply ascii09_range in Hc, Hd.
    assert (E : c - 48 = d - 48) by nia.
    f_equal; [lia|]. apply IH; try assumption. nia. }
  assert (shorter : forall a b, run ascii09 a -> run ascii09 b -> (hd 0 b = 48 -> b = [48]) ->
    (length a < length b)%nat -> decimal a < decimal b).
  { clear. intros a b [Ha1 Ha2] [Hb1 Hb2] Hh Hl. destruct b as [|d b]; [congruence|].
    apply N.lt_le_trans with (10 ^ N.of_nat (length a)); [now apply decimal_bound|].
    inversion Hb2 as [|? ? Hd Hb']; subst. apply ascii09_range in Hd.
    assert (Hd' : d <> 48).
    { intro. subst. specialize (Hh eq_refl). injection Hh as ->. destruct a; cbn in Hl; [congruence|lia]. }
    cbn [decimal]. cbn [length] in Hl.
    apply N.le_trans with (10 ^ N.of_nat (length b)); [apply N.pow_le_mono_r; lia|]. nia. }
  apply same_len; try assumption; [|congruence].
  destruct (Nat.lt_trichotomy (length s) (length t)) as [H|[H|H]]; [|assumption|];
    [pose proof (shorter s t)|pose proof (shorter t s)]; unfold run in *; firstorder; lia.
Qed.

(** ** Lines *)
Lemma chomp_plain l : (forall p, l <> p ++ [13]) -> chomp l = l.
Proof.
  intro H. unfold chomp. destruct (rev l) as [|c t] eqn:E; [reflexivity|].
  destruct (N.eqb_spec c 13) as [->|]; [|reflexivity].
  exfalso. apply (H (rev t)). rewrite <- (rev_involutive l), E. reflexivity.
Qed.
Lemma chomp_cr l : chomp (l ++ [13]) = l.
Proof. unfold chomp. rewrite rev_app_distr. cbn. apply rev_involutive. Qed.
Lemma chomp_cases l : (chomp l = l /\ forall p, l <> p ++ [13]) \/ l = chomp l ++ [13].
Proof.
  destruct (rev l) as [|c t] eqn:E.
  - left. apply (f_equal (@rev _)) in E. rewrite rev_involutive in E. subst. split; [reflexivity|].
    intros [|? ?]; discriminate.
  - apply (f_equal (@rev _)) in E. rewrite rev_involutive in E. cbn in E.
    destruct (N.eq_dec c 13) as [->|Hc].
    + right. rewrite E at 2. rewrite chomp_cr. assumption.
    + left. assert (H : forall p, l <> p ++ [13]).
      { intros p ->. apply app_inj_tail in E. destruct E. congruence. }
      split; [now apply chomp_plain|assumption].
Qed.

Lemma lines_from_app l : forall cur t, no_lf l -> lines_from cur (l ++ t) = lines_from (rev l ++ cur) t.
Proof.
  induction l as [|c l IH]; intros cur t H; [reflexivity|]. cbn [app lines_from].
  destruct (N.eqb_spec c 10) as [->|]; [exfalso; apply H; now left|].
  rewrite IH by (intro; apply H; now right). cbn [rev]. now rewrite <- app_assoc.
Qed.
Lemma lines_cons l t : no_lf l -> lines (l ++ [10] ++ t) = chomp l :: lines t.
Proof.
  intro H. unfold lines. rewrite lines_from_app by assumption. rewrite app_nil_r. cbn [app lines_from].
  change (10 =? 10) with true. cbn iota. now rewrite rev_involutive.
Qed.
Lemma lines_last l : no_lf l -> l <> [] -> lines l = [l].
Proof.
  intros H H'. unfold lines. rewrite <- (app_nil_r l), lines_from_app, !app_nil_r by assumption.
  cbn [lines_from]. destruct (rev l) eqn:E.
  - apply (f_equal (@rev _)) in E. rewrite rev_involutive in E. contradiction.
  - rewrite <- E, rev_involutive. reflexivity.
Qed.
(** Every text is a line followed by a line feed, or a last line. *)
Lemma first_line (s : text) : no_lf s \/ exists l t, s = l ++ [10] ++ t /\ no_lf l.
Proof.
  induction s as [|c s IH]; [left; intros []|].
  destruct (N.eq_dec c 10) as [->|Hc]; [right; exists [], s; split; [reflexivity|intros []]|].
  destruct IH as [H|(l & t & -> & H)].
  - left. intros [E|?]; [congruence|now apply H].
  - right. exists (c :: l), t. split; [reflexivity|]. intros [E|?]; [congruence|now apply H].
Qed.

Lemma file_lines_lines s : file_lines s (lines s).
Proof.
  remember (length s) as n eqn:En. revert s En.
  induction n as [n IH] using lt_wf_ind. intros s ->.
  destruct (first_line s) as [H|(l & t & -> & H)].
  - destruct s as [|c s]; [constructor|]. rewrite lines_last; [|assumption|discriminate].
    apply fl_last; [discriminate|assumption].
  - rewrite lines_cons by assumption.
    assert (Ht : file_lines t (lines t)).
    { apply (IH (length t)); [|reflexivity]. rewrite !app_length. cbn. lia. }
    destruct (chomp_cases l) as [[E Hp]|E].
    + rewrite E. now apply fl_lf.
    + rewrite E at 1. rewrite <- app_assoc. apply fl_crlf; [|assumption].
      intro Hi. apply H. rewrite E. apply in_or_app. now left.
Qed.
Lemma file_lines_fun s ls : file_lines s ls <-> ls = lines s.
Proof.
  split; [|intros ->; apply file_lines_lines].
  induction 1 as [|l Hl Hn|l t ls Hn Hp _ IH|l t ls Hn _ IH].
  - reflexivity.
  - now rewrite lines_last.
  - rewrite lines_cons, chomp_plain by assumption. now rewrite IH.
  - change (l ++ [13; 10] ++ t) with (l ++ ([13] ++ ([10] ++ t))). rewrite app_assoc, lines_cons, chomp_cr.
    + now rewrite IH.
    + intros Hi. apply in_app_or in Hi. destruct Hi as [?|[?|[]]]; [now apply Hn|discriminate].
Qed.

Lemma closed_tail l t : closed (l ++ [10] ++ t) -> closed t.
Proof.
  intros [H|[p H]]; [destruct l; discriminate|].
  destruct t as [|c t] using rev_ind; [now left|]. right.
  rewrite !app_assoc in H. apply app_inj_tail in H. destruct H as [_ ->]. now exists t.
Qed.
Lemma lines_app_closed a b : closed a -> lines (a ++ b) = (lines a ++ lines b)%list.
Proof.
  remember (length a) as n eqn:En. revert a En.
  induction n as [n IH] using lt_wf_ind. intros a -> Hc.
  destruct (first_line a) as [H|(l & t & -> & H)].
  - destruct Hc as [->|[p ->]]; [reflexivity|]. exfalso. apply H, in_or_app. right. now left.
  - rewrite <- !app_assoc, !lines_cons by assumption.
    rewrite (IH (length t)); [reflexivity| |reflexivity|now apply closed_tail in Hc].
    rewrite !app_length. cbn. lia.
Qed.
Lemma lines_writelns ls : Forall (fun l => no_lf l /\ forall p, l <> p ++ [13]) ls ->
  lines (concat (map (fun l => l ++ [10]) ls)) = ls.
Proof.
  induction 1 as [|l ls [H1 H2] _ IH]; [reflexivity|]. cbn [map concat].
  rewrite <- app_assoc, lines_cons, chomp_plain by assumption. now rewrite IH.
Qed.

(** ** Comments *)
Lemma trim_start_spec s : exists w, s = w ++ trim_start s /\ Forall blank w /\
  (forall c t, trim_start s = c :: t -> ~ blank c).
Proof.
  induction s as [|c s IH]; cbn [trim_start].
  - exists []. split; [reflexivity|]. split; [constructor|discriminate].
  - destruct (ws c) eqn:E.
    + destruct IH as (w & E1 & E2 & E3). exists (c :: w). split; [now rewrite E1 at 1|].
      split; [|assumption]. constructor; [now apply ws_blank|assumption].
    + exists []. split; [reflexivity|]. split; [constructor|]. intros ? ? [= <- <-] H.
      apply ws_blank in H. congruence.
Qed.
Lemma trim_start_hash w t : Forall blank w -> trim_start (w ++ 35 :: t) = 35 :: t.
Proof.
  induction 1 as [|c w Hc _ IH]; [reflexivity|]. cbn [app trim_start].
  apply ws_blank in Hc. now rewrite Hc.
Qed.
(** Trimming the end keeps a first character that is not blank. *)
Lemma trim_end_head c t : ~ blank c -> exists t', rev (trim_start (rev (c :: t))) = c :: t'.
Proof.
  intro Hc. cbn [rev].
  assert (H : forall s, exists s', trim_start (s ++ [c]) = s' ++ [c]).
  { induction s as [|a s [s' IH]]; cbn [app trim_start].
    - destruct (ws c) eqn:E; [apply ws_blank in E; contradiction|]. now exists [].
    - destruct (ws a); [now exists s'|]. now exists (a :: s). }
  destruct (H (rev t)) as [s' E]. rewrite E, rev_app_distr. now exists (rev s').
Qed.
Lemma trim_comment l : starts_with_txt (txt "#") (trim l) = true <->
  exists w t, l = w ++ [35] ++ t /\ Forall blank w.
Proof.
  unfold trim. split.
  - intro H. destruct (trim_start_spec l) as (w & E & Hw & Hn).
    destruct (trim_start l) as [|c t] eqn:Et; [discriminate|].
    destruct (trim_end_head c t (Hn _ _ eq_refl)) as [t' E']. rewrite E' in H.
    cbn in H. rewrite andb_true_r in H. destruct c as [|p]; [discriminate|].
    apply Pos.eqb_eq in H. exists w, t. rewrite E, <- H. split; [reflexivity|assumption].
  - intros (w & t & -> & Hw). cbn [app]. rewrite trim_start_hash by assumption.
    destruct (trim_end_head 35 t) as [t' E'].
    + intro Hb. apply ws_blank in Hb. discriminate.
    + rewrite E'. reflexivity.
Qed.

(** ** The matcher *)
Lemma span_le cls s : (span cls s <= length s)%nat.
Proof. induction s as [|c s IH]; cbn; [lia|]. destruct (cls c); lia. Qed.
Lemma span_Forall cls s k : (k <= span cls s)%nat -> Forall (fun c => cls c = true) (firstn k s).
Proof.
  revert k. induction s as [|c s IH]; intros [|k] H; cbn [span firstn] in *; try constructor; try lia.
  - destruct (cls c) eqn:E; [reflexivity|lia].
  - destruct (cls c); [|lia]. apply IH. lia.
Qed.
Lemma span_app cls a b : Forall (fun c => cls c = true) a -> span cls (a ++ b) = (length a + span cls b)%nat.
Proof. induction 1 as [|c a Hc _ IH]; [reflexivity|]. cbn. now rewrite Hc, IH. Qed.
Lemma span_stop cls s : (forall c t, s = c :: t -> cls c = false) -> span cls s = O.
Proof. destruct s as [|c t]; [reflexivity|]. intro H. cbn. now rewrite (H _ _ eq_refl). Qed.

Lemma rep_try_spec rest min cap s caps : forall n,
  rep_try rest min cap s n = Some caps <->
  exists k caps', (min <= k <= n)%nat /\ rest (skipn k s) = Some caps' /\
    caps = (if cap then firstn k s :: caps' else caps') /\
    forall j, (k < j <= n)%nat -> rest (skipn j s) = None.
Proof.
  induction n as [|n IH]; cbn [rep_try].
  - destruct (Nat.ltb_spec 0 min) as [Hm|Hm].
    + split; [discriminate|]. intros (k & _ & Hk & _). lia.
    + destruct (rest (skipn 0 s)) as [c|] eqn:E.
      * split.
        -- intro H. exists O, c. repeat split; try assumption; try lia. now injection H as <-.
        -- intros (k & c' & Hk & Hc & -> & _). assert (k = O) by lia. subst. rewrite E in Hc. now injection Hc as ->.
      * split; [discriminate|]. intros (k & c' & Hk & Hc & _). assert (k = O) by lia. subst. congruence.
  - destruct (Nat.ltb_spec (S n) min) as [Hm|Hm].
    + split; [discriminate|]. intros (k & _ & Hk & _). lia.
    + destruct (rest (skipn (S n) s)) as [c|] eqn:E.
      * split.
        -- intro H. exists (S n), c. repeat split; try assumption; try lia. now injection H as <-.
        -- intros (k & c' & Hk & Hc & -> & Hj). destruct (Nat.eq_dec k (S n)) as [->|Hn]; [rewrite E in Hc; now injection Hc as ->|].
           rewrite Hj in E by lia. discriminate.
      * rewrite IH. split; intros (k & c' & Hk & Hc & -> & Hj).
        -- exists k, c'. repeat split; try assumption; try lia.
           intros j H. destruct (Nat.eq_dec j (S n)) as [->|]; [assumption|]. apply Hj. lia.
        -- exists k, c'. assert (k <> S n) by congruence. repeat split; try assumption; try lia.
           intros j H'. apply Hj. lia.
Qed.
Lemma rx_rep cls min cap r s caps :
  rx_match (Rep cls min cap :: r) s = Some caps <->
  exists k caps', (min <= k <= span cls s)%nat /\ rx_match r (skipn k s) = Some caps' /\
    caps = (if cap then firstn k s :: caps' else caps') /\
    forall j, (k < j <= span cls s)%nat -> rx_match r (skipn j s) = None.
Proof. cbn [rx_match]. apply rep_try_spec. Qed.

Lemma rx_lit_spec l r s caps :
  rx_match (rx_lit l ++ r) s = Some caps <-> exists t, s = txt l ++ t /\ rx_match r t = Some caps.
Proof.
  unfold rx_lit. generalize (txt l). intro p. revert s. induction p as [|c p IH]; intro s; cbn [map app].
  - split; [intro H; now exists s|]. now intros (t & -> & H).
  - cbn [rx_match]. destruct s as [|x s].
    + split; [discriminate|]. intros (t & H & _). discriminate.
    + destruct (N.eqb_spec x c) as [->|Hn].
      * rewrite IH. split; intros (t & H & Ht); exists t; (split; [|assumption]); [now rewrite H|now injection H].
      * split; [discriminate|]. intros (t & H & _). injection H as -> _. congruence.
Qed.

(** A repetition, by splitting the text. *)
Lemma rx_rep_sound cls min cap r s caps :
  rx_match (Rep cls min cap :: r) s = Some caps ->
  exists a b caps', s = a ++ b /\ (min <= length a)%nat /\ Forall (fun c => cls c = true) a /\
    rx_match r b = Some caps' /\ caps = if cap then a :: caps' else caps'.
Proof.
  intro H. apply rx_rep in H. destruct H as (k & c' & Hk & Hm & -> & _).
  exists (firstn k s), (skipn k s), c'.
  split; [symmetry; apply firstn_skipn|]. split.
  { rewrite firstn_length_le; [lia|]. pose proof (span_le cls s). lia. }
  split; [apply span_Forall; lia|]. now split.
Qed.
(** If the class cannot go on after [a], the repetition is exactly [a]. *)
Lemma rx_rep_exact cls min cap r a b :
  (min <= length a)%nat -> Forall (fun c => cls c = true) a ->
  (forall c t, b = c :: t -> cls c = false) -> forall caps, rx_match r b = Some caps ->
  rx_match (Rep cls min cap :: r) (a ++ b) = Some (if cap then a :: caps else caps).
Proof.
  intros Hm Ha Hb caps Hc. apply rx_rep. exists (length a), caps.
  rewrite span_app, (span_stop cls b) by assumption.
  rewrite skipn_app, skipn_all, Nat.sub_diag, firstn_app, firstn_all, Nat.sub_diag. cbn [skipn firstn app].
  rewrite app_nil_r. repeat split; try assumption; lia.
Qed.
