(** * Property C151: editing a graph file by hand: comments, blank lines, line
      ends, byte order marks and stray blanks *)
From Coq Require Import String.
From Coq Require Import List NArith Bool Arith Lia.
From Verif Require Import Spec Base Graph GraphSpec GraphFacts Text Format FormatSpec TextFacts FormatFacts PropFormat.
Import ListNotations.
Open Scope N_scope.

(** [b] is [a] with more lines of the kind the readers pass over. *)
Inductive padded : list text -> list text -> Prop :=
| pad_end : padded [] []
| pad_skip l a b : skipped l -> padded a b -> padded a (l :: b)
| pad_keep l a b : padded a b -> padded (l :: a) (l :: b).

(** Every line feed gets a carriage return before it. *)
Fixpoint crlf (s : text) : text :=
  match s with
  | [] => []
  | c :: t => if c =? 10 then 13 :: 10 :: crlf t else c :: crlf t
  end.

(** ** Comments and empty lines *)
Section Pad.
  Variable parse : text -> outcome (result graph_command).

  Lemma padded_split la lb : padded la lb -> forall pre l post, la = pre ++ l :: post ->
    exists pre' post', lb = pre' ++ l :: post' /\ padded pre pre' /\ padded post post' /\ (length pre <= length pre')%nat.
  Proof.
    induction 1 as [|k a b Hs H IH|k a b H IH]; intros pre l post E.
    - destruct pre; discriminate.
    - destruct (IH _ _ _ E) as (p' & q' & -> & H1 & H2 & H3). exists (k :: p'), q'. cbn [app length].
      split; [reflexivity|]. split; [now apply pad_skip|]. split; [assumption|lia].
    - destruct pre as [|x pre]; cbn [app] in E; injection E as -> E.
      + subst. exists [], b. repeat split; [constructor|assumption|apply le_n].
      + destruct (IH _ _ _ E) as (p' & q' & -> & H1 & H2 & H3). exists (x :: p'), q'. cbn [app length].
        split; [reflexivity|]. split; [now apply pad_keep|]. split; [assumption|lia].
  Qed.
  Lemma padded_reads la lb : padded la lb -> forall cs, reads (accepts parse) la cs <-> reads (accepts parse) lb cs.
  Proof.
    induction 1 as [|k a b Hs H IH|k a b H IH]; intro cs; [reflexivity| |].
    - rewrite IH. split; intro G; [now apply reads_skip|]. inversion G; subst; [assumption|contradiction].
    - split; intro G; inversion G; subst; try (apply reads_skip; [assumption|now apply IH]);
        apply reads_line; try assumption; now apply IH.
  Qed.
  Lemma read_fuel_iff s : read_as_commands parse is_comment s = OutOfFuel ->
    exists pre l post cs, lines s = pre ++ l :: post /\ reads (accepts parse) pre cs /\ ~ skipped l /\ parse l = OutOfFuel.
  Proof.
    unfold read_as_commands. intro H.
    destruct (read_lines_stop parse (lines s) 0) as [[cs G]|(pre & l & post & cs & E & H1 & H2 & H3 & H4)].
    - apply (proj2 (read_lines_ok parse _ 0 _)) in G. congruence.
    - rewrite H in H4. exists pre, l, post, cs. split; [assumption|]. split; [assumption|]. split; [assumption|].
      destruct (parse l) as [[c|m]| |]; cbn [obind] in H4; congruence.
  Qed.
End Pad.

Theorem C151_comments : forall parse a b la lb, file_lines a la -> file_lines b lb -> padded la lb ->
  (forall cs, read_as_commands parse is_comment a = Done (Ok cs) <-> read_as_commands parse is_comment b = Done (Ok cs)) /\
  (forall g, read parse is_comment a = Done (Ok g) <-> read parse is_comment b = Done (Ok g)) /\
  (read_as_commands parse is_comment a = Panic <-> read_as_commands parse is_comment b = Panic) /\
  (forall m, read_as_commands parse is_comment a = Done (Err m) ->
     exists n n' d d' msg, canonical_numeral d n /\ canonical_numeral d' n' /\ n <= n' /\
       m = txt "Error at line " ++ d ++ txt ": " ++ msg /\
       read_as_commands parse is_comment b = Done (Err (txt "Error at line " ++ d' ++ txt ": " ++ msg))).
Proof.
  intros parse a b la lb Ha Hb P. apply file_lines_fun in Ha, Hb. subst la lb.
  assert (K : forall cs, read_as_commands parse is_comment a = Done (Ok cs) <-> read_as_commands parse is_comment b = Done (Ok cs)).
  { intro cs. rewrite !read_as_commands_ok. now apply padded_reads. }
  assert (E : forall m, read_as_commands parse is_comment a = Done (Err m) ->
     exists n n' d d' msg, canonical_numeral d n /\ canonical_numeral d' n' /\ n <= n' /\
       m = txt "Error at line " ++ d ++ txt ": " ++ msg /\
       read_as_commands parse is_comment b = Done (Err (txt "Error at line " ++ d' ++ txt ": " ++ msg))).
  { intros m H. apply read_as_commands_err in H. destruct H as (pre & l & post & cs & msg & El & H1 & H2 & H3 & ->).
    destruct (padded_split _ _ P _ _ _ El) as (pre' & post' & Eb & P1 & P2 & Hl).
    exists (N.of_nat (length pre) + 1), (N.of_nat (length pre') + 1), (show (N.of_nat (length pre) + 1)),
      (show (N.of_nat (length pre') + 1)), msg.
    split; [apply show_spec|]. split; [apply show_spec|]. split; [lia|]. split; [reflexivity|].
    apply read_as_commands_err. exists pre', l, post', cs, msg. split; [assumption|].
    split; [now apply (padded_reads parse _ _ P1)|]. auto. }
  assert (Pa : read_as_commands parse is_comment a = Panic -> read_as_commands parse is_comment b = Panic).
  { intro H. apply read_as_commands_panic in H. destruct H as (pre & l & post & cs & El & H1 & H2 & H3).
    destruct (padded_split _ _ P _ _ _ El) as (pre' & post' & Eb & P1 & P2 & Hl).
    apply read_as_commands_panic. exists pre', l, post', cs. split; [assumption|].
    split; [now apply (padded_reads parse _ _ P1)|]. auto. }
  assert (F : read_as_commands parse is_comment a = OutOfFuel -> read_as_commands parse is_comment b = OutOfFuel).
  { intro H. apply read_fuel_iff in H. destruct H as (pre & l & post & cs & El & H1 & H2 & H3).
    destruct (padded_split _ _ P _ _ _ El) as (pre' & post' & Eb & P1 & P2 & Hl).
    unfold read_as_commands. rewrite Eb. apply (padded_reads parse _ _ P1) in H1. clear - H1 H2 H3.
    generalize 0. induction H1 as [|k ks cs Hk Hr IH|k ks c cs Hk Ha Hr IH]; intro i; cbn [app read_lines].
    - rewrite noskip_bool by assumption. now rewrite H3.
    - rewrite skip_bool by assumption. apply IH.
    - rewrite noskip_bool by assumption. unfold accepts in Ha. rewrite Ha. cbn [obind]. now rewrite IH. }
  split; [exact K|]. split; [|split; [|exact E]].
  - intro g. unfold read.
    destruct (read_as_commands parse is_comment a) as [[cs|m]| |] eqn:Ea.
    + now rewrite (proj1 (K cs) eq_refl).
    + destruct (E _ eq_refl) as (? & ? & ? & ? & ? & _ & _ & _ & _ & ->). cbn [obind]. split; discriminate.
    + now rewrite (Pa eq_refl).
    + now rewrite (F eq_refl).
  - split; [exact Pa|]. intro H. destruct (read_as_commands parse is_comment a) as [[cs|m]| |] eqn:Ea.
    + rewrite (proj1 (K cs) eq_refl) in H. discriminate.
    + destruct (E _ eq_refl) as (? & ? & ? & ? & ? & _ & _ & _ & _ & G). congruence.
    + reflexivity.
    + rewrite (F eq_refl) in H. discriminate.
Qed.
Print Assumptions C151_comments.

Lemma padded_refl l : padded l l.
Proof. induction l; now constructor. Qed.
Lemma padded_app a b c d : padded a b -> padded c d -> padded (a ++ c) (b ++ d).
Proof. induction 1; intro G; cbn [app]; [assumption|apply pad_skip; auto|apply pad_keep; auto]. Qed.
Lemma skipped_chomp l : skipped l -> skipped (chomp l).
Proof.
  intros [->|(w & t & -> & Hw)]; [now left|]. right.
  destruct (chomp_cases (w ++ [35] ++ t)) as [[-> _]|E]; [eauto|].
  destruct t as [|x t _] using rev_ind.
  - rewrite app_nil_r in E. apply app_inj_tail in E. destruct E as [_ E]. discriminate.
  - rewrite !app_assoc in E. apply app_inj_tail in E. destruct E as [E _].
    exists w, t. split; [|assumption]. rewrite <- !app_assoc in *. now rewrite <- E.
Qed.
(** A comment line put between two lines of a file. *)
Theorem C151_insert : forall parse p l s, closed p -> skipped l -> no_lf l ->
  forall g, read parse is_comment (p ++ s) = Done (Ok g) <-> read parse is_comment (p ++ (l ++ [10]) ++ s) = Done (Ok g).
Proof.
  intros parse p l s Hp Hl Hn g.
  apply (C151_comments parse (p ++ s) (p ++ (l ++ [10]) ++ s) (lines (p ++ s)) (lines (p ++ (l ++ [10]) ++ s)));
    try apply file_lines_lines.
  rewrite !lines_app_closed by assumption. apply padded_app; [apply padded_refl|].
  rewrite <- app_assoc, lines_cons by assumption. apply pad_skip; [now apply skipped_chomp|apply padded_refl].
Qed.
Print Assumptions C151_insert.

(** ** Line ends *)
Lemma crlf_plain l : no_lf l -> crlf l = l.
Proof.
  unfold no_lf. induction l as [|c l IH]; intro H; cbn [crlf]; [reflexivity|].
  destruct (N.eqb_spec c 10) as [->|]; [exfalso; apply H; now left|].
  rewrite IH; [reflexivity|]. intro. apply H. now right.
Qed.
Lemma crlf_app a b : crlf (a ++ b) = crlf a ++ crlf b.
Proof. induction a as [|c a IH]; cbn [app crlf]; [reflexivity|]. rewrite IH. now destruct (c =? 10). Qed.
Lemma crlf_lines s : ~ In 13 s -> lines (crlf s) = lines s.
Proof.
  remember (length s) as n eqn:En. revert s En.
  induction n as [n IH] using lt_wf_ind. intros s -> H.
  destruct (first_line s) as [Hn|(l & t & -> & Hn)]; [now rewrite crlf_plain|].
  assert (Hl : ~ In 13 l) by (intro; apply H; apply in_or_app; now left).
  assert (Ht : ~ In 13 t) by (intro; apply H; apply in_or_app; right; now right).
  rewrite crlf_app, crlf_plain by assumption. cbn [app]. change (crlf (10 :: t)) with (13 :: 10 :: crlf t).
  change (l ++ 13 :: 10 :: crlf t) with (l ++ [13] ++ [10] ++ crlf t). rewrite app_assoc.
  rewrite (lines_cons (l ++ [13])), chomp_cr by (apply no_lf_app; split; [assumption|intros [?|[]]; discriminate]).
  change (l ++ 10 :: t) with (l ++ [10] ++ t). rewrite lines_cons by assumption. f_equal.
  - symmetry. apply chomp_plain. intros p ->. apply Hl. apply in_or_app. right. now left.
  - apply IH with (length t); [|reflexivity|assumption]. rewrite app_length. cbn [app length]. lia.
Qed.
(** Two files with the same lines are read alike, messages included, whatever
    their line ends; a file written with LF may be converted to CRLF, and a
    missing last line end may be added. *)
Theorem C151_line_ends : forall parse a b ls, file_lines a ls -> file_lines b ls ->
  read_as_commands parse is_comment a = read_as_commands parse is_comment b /\
  read parse is_comment a = read parse is_comment b.
Proof.
  intros parse a b ls Ha Hb. apply file_lines_fun in Ha, Hb. subst ls.
  assert (E : read_as_commands parse is_comment a = read_as_commands parse is_comment b)
    by (unfold read_as_commands; now rewrite Hb).
  split; [exact E|]. unfold read. now rewrite E.
Qed.
Print Assumptions C151_line_ends.
Theorem C151_crlf : forall parse s, ~ In 13 s ->
  read_as_commands parse is_comment (crlf s) = read_as_commands parse is_comment s /\
  (~ closed s -> read_as_commands parse is_comment (s ++ [10]) = read_as_commands parse is_comment s).
Proof.
  intros parse s H. split; [unfold read_as_commands; now rewrite crlf_lines|].
  intro Hc. unfold read_as_commands. f_equal.
  remember (length s) as n eqn:En. revert s En H Hc.
  induction n as [n IH] using lt_wf_ind. intros s -> H Hc.
  destruct (first_line s) as [Hn|(l & t & -> & Hn)].
  - change (s ++ [10]) with (s ++ [10] ++ []). rewrite lines_cons by assumption.
    rewrite (lines_last s); [|assumption|intros ->; apply Hc; now left].
    rewrite chomp_plain; [reflexivity|]. intros p ->. apply H. apply in_or_app. right. now left.
  - rewrite <- !app_assoc, (lines_cons l t), (lines_cons l (t ++ [10])) by assumption. f_equal. apply IH with (length t); [|reflexivity| |].
    + rewrite app_length. cbn [length app]. lia.
    + intro. apply H. apply in_or_app. right. now right.
    + intros [->|[p ->]]; apply Hc; right; [now exists l|]. exists (l ++ 10 :: p). now rewrite <- app_assoc.
Qed.
Print Assumptions C151_crlf.

(** ** What does matter *)
Lemma bom_line s : exists k ls, lines (65279 :: s) = (65279 :: k) :: ls.
Proof.
  destruct (first_line (65279 :: s)) as [Hn|(l & t & E & Hn)].
  - rewrite lines_last by (assumption || discriminate). eauto.
  - rewrite E, lines_cons by assumption. destruct l as [|x l]; cbn [app] in E; [discriminate|].
    injection E as <- E. exists (chomp l), (lines t).
    destruct (chomp_cases (65279 :: l)) as [[-> H]|H].
    + rewrite chomp_plain; [reflexivity|]. intros p ->. now apply (H (65279 :: p)).
    + destruct l as [|y l _] using rev_ind; [discriminate|]. rewrite H at 1.
      change (65279 :: l ++ [y]) with ((65279 :: l) ++ [y]) in H at 1. apply app_inj_tail in H. destruct H as [H ->].
      rewrite chomp_cr in *. rewrite <- H. cbn [app] in *.
      change (65279 :: l ++ [13]) with ((65279 :: l) ++ [13]) in *. rewrite chomp_cr in *. reflexivity.
Qed.
Lemma read_err_one parse k ls s msg : lines s = k :: ls -> ~ skipped k -> parse k = Done (Err msg) ->
  read_as_commands parse is_comment s = Done (Err (txt "Error at line 1: " ++ msg)).
Proof.
  intros E H1 H2. apply read_as_commands_err. exists [], k, ls, [], msg. repeat split; [assumption|constructor|assumption|assumption].
Qed.
Lemma bom_noskip k : ~ skipped (65279 :: k).
Proof.
  intros [?|([|x w] & t & E & Hw)]; try discriminate. injection E as <- _. inversion Hw as [|? ? Hb _]; subst.
  unfold blank in Hb. cbn [In] in Hb. lia.
Qed.
(** A byte order mark is never passed over: the file no longer loads. *)
Theorem C151_bom_refuted : forall nd s, digit_table nd -> nd 65279 = false ->
  exists k t, (file_lines (65279 :: s) ((65279 :: k) :: t) /\
  gcmd_read_as_commands nd (65279 :: s) = Done (Err (txt "Error at line 1: Couldn't parse '" ++ 65279 :: k ++ txt "'")) /\
  tgf_read_as_commands nd (65279 :: s) = Done (Err (txt "Error at line 1: Couldn't parse '" ++ 65279 :: k ++ txt "'"))).
Proof.
  intros nd s T Hb. destruct (bom_line s) as (k & ls & E). exists k, ls. split; [now apply file_lines_fun|].
  change (txt "Error at line 1: Couldn't parse '" ++ 65279 :: k ++ txt "'")
    with (txt "Error at line 1: " ++ txt "Couldn't parse '" ++ (65279 :: k) ++ txt "'").
  split; eapply read_err_one; try exact E; try apply bom_noskip.
  - apply gcmd_parse_err; [assumption|]. split; [|reflexivity]. intros c H. inversion H.
  - apply tgf_parse_err; [assumption|]. split; [|reflexivity]. intros c H.
    inversion H as [d1 w d2 l a b [H1 H1'] Hw H2 Hl El|d l n [H1 H1'] Hl El]; subst.
    + destruct d1 as [|x d1]; [congruence|]. cbn [app] in El. injection El as -> _. inversion H1'; subst. congruence.
    + destruct d as [|x d]; [congruence|]. cbn [app] in El. injection El as -> _. inversion H1'; subst. congruence.
Qed.
Print Assumptions C151_bom_refuted.

Lemma gcmd_last nd l c : digit_table nd -> gcmd_line (digits nd) l c -> exists p x, l = p ++ [x] /\ nd x = true.
Proof.
  intros T H.
  assert (D : forall d n, digits nd d n -> exists p x, d = p ++ [x] /\ nd x = true).
  { intros d n [Hd F]. destruct d as [|x d _] using rev_ind; [congruence|]. exists d, x. split; [reflexivity|].
    rewrite Forall_forall in F. apply F. apply in_or_app. right. now left. }
  inversion H as [d n Hn E|d n Hn E|d1 w d2 a b H1 Hw H2 E|d1 w d2 a b H1 Hw H2 E]; subst.
  - destruct (D _ _ Hn) as (p & x & -> & Hx). exists (txt "AddVertex " ++ p), x. now rewrite app_assoc.
  - destruct (D _ _ Hn) as (p & x & -> & Hx). exists (txt "RemoveVertex " ++ p), x. now rewrite app_assoc.
  - destruct (D _ _ H2) as (p & x & -> & Hx). exists (txt "AddEdge " ++ d1 ++ w ++ p), x. now rewrite <- !app_assoc.
  - destruct (D _ _ H2) as (p & x & -> & Hx). exists (txt "RemoveEdge " ++ d1 ++ w ++ p), x. now rewrite <- !app_assoc.
Qed.
(** Blanks before or after a command make the line an error; in the tgf
    format blanks after it are part of the label and change nothing. *)
Theorem C151_blanks_refuted : forall nd l c w, digit_table nd -> run blank w ->
  gcmd_parse_line nd l = Done (Ok c) ->
  gcmd_parse_line nd (w ++ l) = Done (Err (txt "Couldn't parse '" ++ (w ++ l) ++ txt "'")) /\
  gcmd_parse_line nd (l ++ w) = Done (Err (txt "Couldn't parse '" ++ (l ++ w) ++ txt "'")).
Proof.
  intros nd l c w T [Hw Fw] H. split; apply gcmd_parse_err; try assumption; (split; [|reflexivity]); intros c' G.
  - destruct w as [|x w]; [congruence|]. inversion Fw as [|? ? Hx _]; subst. unfold blank in Hx.
    inversion G; subst; cbn [In] in Hx; lia.
  - apply gcmd_last in G; [|assumption]. destruct G as (p & x & E & Hx).
    destruct w as [|y w _] using rev_ind; [congruence|]. rewrite app_assoc in E. apply app_inj_tail in E.
    destruct E as [_ ->]. apply (proj2 T) in Hx. apply Hx. rewrite Forall_forall in Fw. apply Fw.
    apply in_or_app. right. now left.
Qed.
Print Assumptions C151_blanks_refuted.
Theorem C151_tgf_blanks : forall nd l c w, digit_table nd -> Forall blank w -> no_lf w ->
  tgf_parse_line nd l = Done (Ok c) ->
  tgf_parse_line nd (l ++ w) = Done (Ok c) /\
  (w <> [] -> tgf_parse_line nd (w ++ l) = Done (Err (txt "Couldn't parse '" ++ (w ++ l) ++ txt "'"))).
Proof.
  intros nd l c w T Fw Nw H. apply tgf_parse_ok in H; [|assumption].
  assert (B : forall x, In x w -> nd x <> true).
  { intros x Hx Hd. apply (proj2 T) in Hd. rewrite Forall_forall in Fw. now apply Hd, Fw. }
  split.
  - apply tgf_parse_ok; [assumption|]. inversion H as [d1 v d2 l0 a b H1 Hv H2 [L1 L2] E|d l0 n Hn [[L1 L2] L3] E]; subst.
    + rewrite <- !app_assoc. constructor; try assumption. split; [now apply no_lf_app|].
      intros x t E. destruct l0 as [|y l0].
      * cbn [app] in E. apply B. rewrite E. now left.
      * injection E as -> _. now apply (L2 x l0).
    + rewrite <- app_assoc. constructor; [assumption|]. split; [split; [now apply no_lf_app|]|].
      * intros x t E. destruct l0 as [|y l0].
        -- cbn [app] in E. apply B. rewrite E. now left.
        -- injection E as -> _. now apply (L2 x l0).
      * intros v x t E Hv. destruct (le_lt_dec (length l0) (length v)) as [Hle|Hlt].
        -- apply B. assert (K : skipn (length l0) (l0 ++ w) = w) by (rewrite skipn_app, skipn_all, Nat.sub_diag; reflexivity).
           rewrite <- K, E, skipn_app. apply in_or_app. right.
           replace (length l0 - length v)%nat with 0%nat by lia. now left.
        -- assert (K : l0 = v ++ x :: firstn (length l0 - S (length v)) t).
           { assert (K : firstn (length l0) (l0 ++ w) = l0) by (rewrite firstn_app, firstn_all, Nat.sub_diag; apply app_nil_r).
             rewrite E, firstn_app in K. rewrite (firstn_all2 v) in K by lia.
             destruct (length l0 - length v)%nat as [|k] eqn:Ek; [lia|]. cbn [firstn] in K.
             replace (length l0 - S (length v))%nat with k by lia. now symmetry. }
           now apply (L3 v x _ K).
  - intro Hn. apply tgf_parse_err; [assumption|]. split; [|reflexivity]. intros c' G.
    destruct w as [|y w]; [congruence|]. clear Hn.
    inversion G as [d1 v d2 l0 a b [H1 H1'] Hw H2 Hl El|d l0 n [H1 H1'] Hl El]; subst.
    + destruct d1 as [|x d1]; [congruence|]. cbn [app] in El. injection El as -> _. inversion H1'; subst.
      apply (B y); [now left|assumption].
    + destruct d as [|x d]; [congruence|]. cbn [app] in El. injection El as -> _. inversion H1'; subst.
      apply (B y); [now left|assumption].
Qed.
Print Assumptions C151_tgf_blanks.
(** Converting to CRLF twice leaves a carriage return at the end of every line,
    and the first command is an error. *)
Theorem C151_crlf_twice_refuted : forall nd c s, digit_table nd -> u64_command c ->
  gcmd_read_as_commands nd (crlf (crlf (command_into_line c ++ [10] ++ s))) =
  Done (Err (txt "Error at line 1: Couldn't parse '" ++ command_into_line c ++ [13] ++ txt "'")).
Proof.
  intros nd c s T Hc. pose proof (gcmd_line_written c Hc) as G. destruct (written_plain c) as [Hn Hp].
  assert (E : exists t, crlf (crlf (command_into_line c ++ [10] ++ s)) = ((command_into_line c ++ [13]) ++ [13]) ++ [10] ++ t).
  { rewrite crlf_app, (crlf_plain (command_into_line c)) by assumption. cbn [app]. change (crlf (10 :: s)) with (13 :: 10 :: crlf s).
    rewrite crlf_app, (crlf_plain (command_into_line c)) by assumption. exists (crlf (crlf s)). rewrite <- !app_assoc. reflexivity. }
  destruct E as [t ->].
  replace (txt "Error at line 1: Couldn't parse '" ++ command_into_line c ++ [13] ++ txt "'")
    with (txt "Error at line 1: " ++ txt "Couldn't parse '" ++ (command_into_line c ++ [13]) ++ txt "'")
    by (rewrite <- !app_assoc; reflexivity).
  eapply read_err_one.
  - rewrite lines_cons, chomp_cr; [reflexivity|].
    apply no_lf_app; split; [apply no_lf_app; split; [assumption|]|]; intros [?|[]]; discriminate.
  - intros [X|(w & u & X & Hw)]; [destruct (command_into_line c); discriminate|].
    destruct (gcmd_line_shape _ _ _ G) as [_ Hs]. apply Hs. right.
    destruct u as [|x u _] using rev_ind.
    + rewrite app_nil_r in X. apply app_inj_tail in X. destruct X as [_ X]. discriminate.
    + rewrite !app_assoc in X. apply app_inj_tail in X. destruct X as [X _]. exists w, u.
      split; [now rewrite X, <- app_assoc|assumption].
  - apply (C151_blanks_refuted nd (command_into_line c) c [13] T).
    + split; [discriminate|]. constructor; [unfold blank; cbn; auto 10|constructor].
    + now apply gcmd_parse_ok.
Qed.
Print Assumptions C151_crlf_twice_refuted.

Example C151_case :
  let plain := txt "AddEdge 1 2" ++ [10] ++ txt "AddVertex 9" in
  let noted := txt "# mine" ++ [13; 10] ++ txt "AddEdge 1 2" ++ [13; 10; 10] ++ txt "AddVertex 9" ++ [10] ++ txt "  # end" in
  padded (lines plain) (lines noted) /\
  gcmd_read_as_commands table plain = Done (Ok [AddEdge 1 2; AddVertex 9]) /\
  gcmd_read_as_commands table noted = Done (Ok [AddEdge 1 2; AddVertex 9]) /\
  table 65279 = false /\
  gcmd_read_as_commands table (65279 :: plain) =
    Done (Err (txt "Error at line 1: Couldn't parse '" ++ 65279 :: txt "AddEdge 1 2'")) /\
  tgf_parse_line table (txt "1 2 x ") = Done (Ok (AddEdge 1 2)).
Proof.
  split; [|vm_compute; auto].
  change (padded [txt "AddEdge 1 2"; txt "AddVertex 9"] [txt "# mine"; txt "AddEdge 1 2"; []; txt "AddVertex 9"; txt "  # end"]).
  apply pad_skip; [right; exists [], (txt " mine"); split; [reflexivity|constructor]|].
  apply pad_keep, pad_skip; [now left|]. apply pad_keep, pad_skip; [|constructor].
  right. exists (txt "  "), (txt " end"). split; [reflexivity|]. change (Forall blank [32; 32]). repeat apply Forall_cons; try apply Forall_nil; unfold blank; cbn [In]; lia.
Qed.
