(** * Property C171: joining graph files *)
From Coq Require Import String.
From Coq Require Import List NArith Bool Arith Lia Permutation.
From Verif Require Import Spec Base Graph GraphSpec GraphFacts Text Format FormatSpec TextFacts FormatFacts PropFormat LogSpec PropLog PropEdits.
Import ListNotations.
Open Scope N_scope.

(** Both graphs in one. *)
Definition a_join (s t : aset) : aset :=
  {| aV := fun x => aV s x \/ aV t x; aE := fun x y => aE s x y \/ aE t x y |}.

Lemma join_additions ds s : Forall LogSpec.addition ds -> a_same (fold_left a_step ds s) (a_join s (a_run ds)).
Proof.
  unfold a_run. induction ds as [|c ds IH] using rev_ind; intro F.
  - split; cbn; tauto.
  - apply Forall_app in F. destruct F as [F Fc]. destruct (IH F) as [I1 I2]. rewrite !fold_left_app. cbn [fold_left].
    inversion Fc as [|? ? A _]; subst. cbn in I1, I2. destruct c as [v|v|a b|a b]; cbn in A; try contradiction; split; cbn; intros.
    + rewrite I1. tauto.
    + rewrite I2. tauto.
    + rewrite I1. tauto.
    + rewrite I2. tauto.
Qed.

Lemma read_split parse s g : read parse is_comment s = Done (Ok g) ->
  exists cs, read_as_commands parse is_comment s = Done (Ok cs) /\ g = apply_commands cs g_new.
Proof.
  unfold read. destruct (read_as_commands parse is_comment s) as [[cs|m]| |]; cbn [obind]; intro H; try discriminate.
  injection H as <-. eauto.
Qed.
Lemma read_join parse p q cs ds : closed p -> read_as_commands parse is_comment p = Done (Ok cs) ->
  read_as_commands parse is_comment q = Done (Ok ds) -> read_as_commands parse is_comment (p ++ q) = Done (Ok (cs ++ ds)).
Proof.
  intros C Hp Hq. apply read_as_commands_ok in Hp. apply read_as_commands_ok in Hq. apply read_as_commands_ok.
  rewrite lines_app_closed by assumption. now apply reads_app.
Qed.
Lemma shown_new cs : a_same (shown (apply_commands cs g_new)) (a_run cs).
Proof. exact (refines (built_by_apply cs)). Qed.
Lemma a_join_same s s' t t' : a_same s s' -> a_same t t' -> a_same (a_join s t) (a_join s' t').
Proof. intros [H1 H2] [H3 H4]. split; cbn; intros; [rewrite H1, H3|rewrite H2, H4]; reflexivity. Qed.

Lemma join_read parse p q g h ds : closed p -> read parse is_comment p = Done (Ok g) -> read parse is_comment q = Done (Ok h) ->
  read_as_commands parse is_comment q = Done (Ok ds) -> Forall LogSpec.addition ds ->
  exists k, read parse is_comment (p ++ q) = Done (Ok k) /\ a_same (shown k) (a_join (shown g) (shown h)).
Proof.
  intros C Hg Hh Hd F. apply read_split in Hg. destruct Hg as (cs & Hcs & ->).
  apply read_split in Hh. destruct Hh as (ds' & Hds & ->). assert (ds' = ds) by congruence. subst ds'.
  exists (apply_commands (cs ++ ds) g_new). split; [unfold read; now rewrite (read_join parse p q cs ds C Hcs Hd)|].
  eapply a_same_trans; [apply shown_new|]. unfold a_run. rewrite fold_left_app. fold (a_run cs).
  eapply a_same_trans; [now apply join_additions|]. apply a_join_same; apply a_same_sym, shown_new.
Qed.

(** A file whose commands only add, put behind any file that ends with a line
    feed, gives both graphs. *)
Theorem C171_additions : forall nd p q g h ds, closed p ->
  gcmd_read nd p = Done (Ok g) -> gcmd_read nd q = Done (Ok h) ->
  gcmd_read_as_commands nd q = Done (Ok ds) -> Forall LogSpec.addition ds ->
  exists k, gcmd_read nd (p ++ q) = Done (Ok k) /\ a_same (shown k) (a_join (shown g) (shown h)).
Proof. intros nd p q g h ds. apply join_read. Qed.
Print Assumptions C171_additions.

(** Any two tgf files. *)
Lemma tgf_adds nd s ds : digit_table nd -> tgf_read_as_commands nd s = Done (Ok ds) -> Forall LogSpec.addition ds.
Proof.
  intros T H. apply read_as_commands_ok in H. induction H as [|l ls cs Hs H IH|l ls c cs Hs Hc H IH]; [constructor|assumption|].
  constructor; [|assumption]. unfold accepts in Hc. apply (tgf_parse_ok nd T) in Hc. inversion Hc; exact I.
Qed.
Theorem C171_tgf : forall nd p q g h, digit_table nd -> closed p ->
  tgf_read nd p = Done (Ok g) -> tgf_read nd q = Done (Ok h) ->
  exists k, tgf_read nd (p ++ q) = Done (Ok k) /\ a_same (shown k) (a_join (shown g) (shown h)).
Proof.
  intros nd p q g h T C Hg Hh. destruct (read_split _ _ _ Hh) as (ds & Hd & _).
  apply (join_read _ p q g h ds); try assumption. now apply (tgf_adds nd q).
Qed.
Print Assumptions C171_tgf.

(** What the library saves, one file behind the other, in either order. *)
Lemma as_commands_adds g : Forall LogSpec.addition (as_commands g).
Proof.
  unfold as_commands. apply Forall_app. split; apply Forall_forall; intros c Hc; apply in_map_iff in Hc; destruct Hc as (x & <- & _); exact I.
Qed.
Lemma closed_tgf g : closed (tgf_text g).
Proof.
  rewrite tgf_text_commands. set (ls := map tgf_written (as_commands g)). clearbody ls.
  destruct ls as [|l ls _] using rev_ind; [now left|]. right. rewrite map_app, concat_app. cbn [map concat].
  rewrite app_nil_r, app_assoc. eauto.
Qed.
Theorem C171_saved : forall nd g h, digit_table nd -> built g -> built h -> u64_graph g -> u64_graph h ->
  exists k k', gcmd_read nd (gcmd_text g ++ gcmd_text h) = Done (Ok k) /\ a_same (shown k) (a_join (shown g) (shown h)) /\
    tgf_read nd (tgf_text g ++ tgf_text h) = Done (Ok k') /\ a_same (shown k') (a_join (shown g) (shown h)).
Proof.
  intros nd g h T Bg Bh Ug Uh.
  destruct (C17_gcmd_roundtrip nd g T Bg Ug) as (g1 & Eg1 & _ & Sg1). destruct (C17_gcmd_roundtrip nd h T Bh Uh) as (h1 & Eh1 & _ & Sh1).
  destruct (C19_tgf_roundtrip nd g T Bg Ug) as (g2 & Eg2 & _ & Sg2). destruct (C19_tgf_roundtrip nd h T Bh Uh) as (h2 & Eh2 & _ & Sh2).
  assert (C1 : closed (gcmd_text g)) by (rewrite gcmd_text_commands; apply closed_commands).
  destruct (C171_additions nd (gcmd_text g) (gcmd_text h) g1 h1 (as_commands h) C1 Eg1 Eh1) as (k & Ek & Sk).
  { rewrite gcmd_text_commands. apply read_commands_text; [assumption|]. apply as_commands_u64; [now apply built_wf|assumption]. }
  { apply as_commands_adds. }
  destruct (C171_tgf nd (tgf_text g) (tgf_text h) g2 h2 T (closed_tgf g) Eg2 Eh2) as (k' & Ek' & Sk').
  exists k, k'. split; [assumption|]. split; [|split; [assumption|]].
  - eapply a_same_trans; [exact Sk|]. now apply a_join_same.
  - eapply a_same_trans; [exact Sk'|]. now apply a_join_same.
Qed.
Print Assumptions C171_saved.

(** With removals the second file also takes away from the first. *)
Theorem C171_removals_refuted : forall nd, digit_table nd -> exists p q g h k k', closed p /\ closed q /\
  gcmd_read nd p = Done (Ok g) /\ gcmd_read nd q = Done (Ok h)  /\
  gcmd_read nd (p ++ q) = Done (Ok k) /\ gcmd_read nd (q ++ p) = Done (Ok k') /\
  contains_vertex g 1 = true /\ contains_vertex k 1 = false /\ contains_vertex k' 1 = true.
Proof.
  intros nd T. set (p := commands_text [AddVertex 1]). set (q := commands_text [AddVertex 2; RemoveVertex 1]).
  exists p, q, (apply_commands [AddVertex 1] g_new), (apply_commands [AddVertex 2; RemoveVertex 1] g_new),
    (apply_commands [AddVertex 1; AddVertex 2; RemoveVertex 1] g_new),
    (apply_commands [AddVertex 2; RemoveVertex 1; AddVertex 1] g_new).
  assert (U1 : Forall u64_command [AddVertex 1]) by (constructor; [reflexivity|constructor]).
  assert (U2 : Forall u64_command [AddVertex 2; RemoveVertex 1]) by (constructor; [reflexivity|constructor; [reflexivity|constructor]]).
  pose proof (read_commands_text nd T _ U1) as R1. pose proof (read_commands_text nd T _ U2) as R2. fold p in R1. fold q in R2.
  assert (C1 : closed p) by apply closed_commands. assert (C2 : closed q) by apply closed_commands.
  pose proof (read_join _ p q _ _ C1 R1 R2) as J1. pose proof (read_join _ q p _ _ C2 R2 R1) as J2.
  unfold gcmd_read_as_commands in R1, R2. unfold gcmd_read, read.
  split; [assumption|]. split; [assumption|]. split; [now rewrite R1|]. split; [now rewrite R2|].
  split; [now rewrite J1|]. split; [now rewrite J2|]. repeat split.
Qed.
Print Assumptions C171_removals_refuted.

(** ** Without the line feed at the end of the first file *)
(** gcmd: the glued line is no command, and the reader says which line it is. *)
Definition keyword (k : text) : Prop :=
  In k [txt "AddVertex "; txt "RemoveVertex "; txt "AddEdge "; txt "RemoveEdge "].
Definition plain_rest (nd : N -> bool) (c : N) : Prop := nd c = true \/ blank c.
Lemma gcmd_line_key nd (num : text -> N -> Prop) l c : (forall d n, num d n -> FormatSpec.run (fun c => nd c = true) d) ->
  gcmd_line num l c -> exists k r, l = k ++ r /\ keyword k /\ Forall (plain_rest nd) r.
Proof.
  intros Hn H.
  assert (D : forall d n, num d n -> Forall (plain_rest nd) d).
  { intros d n Hd. apply Hn in Hd. destruct Hd as [_ Hd]. eapply Forall_impl; [|exact Hd]. intros; now left. }
  assert (B : forall w, FormatSpec.run blank w -> Forall (plain_rest nd) w).
  { intros w [_ Hw]. eapply Forall_impl; [|exact Hw]. intros; now right. }
  inversion H as [d n Hd|d n Hd|d1 w d2 a b H1 Hw H2|d1 w d2 a b H1 Hw H2]; subst; do 2 eexists; (split; [reflexivity|]);
    (split; [unfold keyword; cbn [In]; tauto|]); rewrite ?Forall_app; [eauto|eauto|split; [eauto|split; eauto]..].
Qed.
Lemma keys_apart k k' r r' : keyword k -> keyword k' -> k ++ r = k' ++ r' -> k = k' /\ r = r'.
Proof.
  unfold keyword. cbn [In]. intros [<-|[<-|[<-|[<-|[]]]]] [<-|[<-|[<-|[<-|[]]]]] E; try discriminate E;
    (split; [reflexivity|]); now apply app_inv_head in E.
Qed.
Lemma glued_no nd l m c d e : digit_table nd -> gcmd_line numeral l c -> gcmd_line numeral m d -> ~ gcmd_line (digits nd) (l ++ m) e.
Proof.
  intros T Hl Hm He.
  assert (Nr : forall x n, numeral x n -> FormatSpec.run (fun c => nd c = true) x) by (intros x n Hx; now apply (numeral_run nd T) in Hx).
  apply (gcmd_line_key nd) in Hl; [|exact Nr]. apply (gcmd_line_key nd) in Hm; [|exact Nr].
  apply (gcmd_line_key nd) in He; [|now unfold digits].
  destruct Hl as (k & r & -> & K & _), Hm as (k2 & r2 & -> & K2 & _), He as (k3 & r3 & E & K3 & F).
  rewrite <- app_assoc in E. apply keys_apart in E; [|assumption|assumption]. destruct E as [_ <-].
  apply Forall_app in F. destruct F as [_ F]. apply Forall_app in F. destruct F as [F _].
  assert (H : exists x t, k2 = x :: t /\ (x = 65 \/ x = 82)).
  { destruct K2 as [<-|[<-|[<-|[<-|[]]]]]; do 2 eexists; (split; [reflexivity|]); auto. }
  destruct H as (x & t & -> & Hx). inversion F as [|? ? [Hd|Hb] _]; subst.
  - apply (proj1 T) in Hd; [|lia]. apply ascii09_range in Hd. lia.
  - unfold blank in Hb. cbn [In] in Hb. lia.
Qed.
Theorem C171_unclosed_gcmd : forall nd p l m t cs c d, digit_table nd -> closed p ->
  gcmd_read_as_commands nd p = Done (Ok cs) -> no_lf l -> no_lf m -> gcmd_line numeral l c -> gcmd_line numeral m d ->
  exists num, canonical_numeral num (N.of_nat (length (lines p)) + 1) /\
  gcmd_read_as_commands nd ((p ++ l) ++ (m ++ [10] ++ t)) =
    Done (Err (txt "Error at line " ++ num ++ txt ": Couldn't parse '" ++ (l ++ m) ++ txt "'")).
Proof.
  intros nd p l m t cs c d T C Hp Nl Nm Hl Hm.
  pose proof (fun e => glued_no nd l m c d e T Hl Hm) as G.
  exists (show (N.of_nat (length (lines p)) + 1)). split; [apply show_spec|].
  apply read_as_commands_err. exists (lines p), (l ++ m), (lines t), cs, (txt "Couldn't parse '" ++ (l ++ m) ++ txt "'").
  assert (E : lines ((p ++ l) ++ m ++ [10] ++ t) = lines p ++ (l ++ m) :: lines t).
  { rewrite <- app_assoc, lines_app_closed by assumption. f_equal. rewrite (app_assoc l m).
    rewrite lines_cons by (apply no_lf_app; now split). f_equal. apply chomp_plain. intros z Ez.
    apply (gcmd_line_digits nd T) in Hm. destruct (gcmd_last nd m d T Hm) as (z' & x & -> & Hx).
    rewrite app_assoc in Ez. apply app_inj_tail in Ez. destruct Ez as [_ ->].
    apply (proj1 T) in Hx; [|lia]. apply ascii09_range in Hx. lia. }
  split; [exact E|]. split; [now apply read_as_commands_ok|].
  split.
  - assert (Hk : exists x r, l ++ m = x :: r /\ (x = 65 \/ x = 82)).
    { inversion Hl; subst; do 2 eexists; (split; [reflexivity|]); auto. }
    destruct Hk as (x & r & Ex & Hx). rewrite Ex. intros [Hs|(w & u & Hs & Hw)]; [discriminate|].
    destruct Hw as [|y w Hy Hw]; injection Hs as -> _; [lia|]. unfold blank in Hy. cbn [In] in Hy. lia.
  - split; [|reflexivity]. apply gcmd_parse_err; [assumption|]. now split.
Qed.
Print Assumptions C171_unclosed_gcmd.

(** tgf: two ids become one, and nothing is reported. *)
Lemma decimal_app x y : decimal (x ++ y) = decimal x * 10 ^ N.of_nat (length y) + decimal y.
Proof.
  induction x as [|c x IH]; cbn [app decimal]; [lia|]. rewrite IH, app_length, Nat2N.inj_add, N.pow_add_r. lia.
Qed.
Theorem C171_unclosed_tgf_refuted : forall nd a b n, digit_table nd -> u64 a -> u64 b -> 0 < a -> u64 n ->
  decimal (show a ++ show b) = n ->
  n <> a /\ n <> b /\
  (exists g h k, tgf_read nd (show a) = Done (Ok g) /\ contains_vertex g a = true /\
    tgf_read nd (show b ++ [10]) = Done (Ok h) /\ contains_vertex h b = true /\
    tgf_read nd (show a ++ show b ++ [10]) = Done (Ok k) /\ (forall v, contains_vertex k v = true <-> v = n)).
Proof.
  intros nd a b n T Ua Ub Ha Un En.
  destruct (show_spec a) as (Ra & Da & _), (show_spec b) as (Rb & Db & _).
  assert (L : (1 <= length (show b))%nat) by (destruct (show b); [now destruct (proj1 Rb)|cbn; lia]).
  rewrite decimal_app, Da, Db in En.
  assert (P : 10 <= 10 ^ N.of_nat (length (show b))).
  { replace 10 with (10 ^ 1) at 1 by reflexivity. apply N.pow_le_mono_r; lia. }
  split; [nia|]. split; [nia|].
  assert (V : forall d v, numeral d v -> tgf_parse_line nd d = Done (Ok (AddVertex v))).
  { intros d v Hd. apply (tgf_parse_ok nd T). rewrite <- (app_nil_r d). constructor; [assumption|].
    split; [apply label_nil|]. intros [|? ?] c t E; discriminate. }
  assert (One : forall d v s, numeral d v -> lines s = [d] -> tgf_read nd s = Done (Ok (apply_commands [AddVertex v] g_new))).
  { intros d v s Hd Hs. unfold tgf_read, read. assert (E : read_as_commands (tgf_parse_line nd) is_comment s = Done (Ok [AddVertex v])).
    { apply read_as_commands_ok. rewrite Hs. apply reads_line; [|now apply V|constructor].
      apply (tgf_line_shape nd d (AddVertex v)). now apply (tgf_parse_ok nd T), V. }
    now rewrite E. }
  assert (Nd : forall d v, numeral d v -> no_lf d /\ d <> [] /\ chomp d = d).
  { intros d v [[Hd1 Hd2] _]. rewrite Forall_forall in Hd2. split; [|split; [assumption|]].
    - intro Hi. apply Hd2, ascii09_range in Hi. lia.
    - apply chomp_plain. intros p ->. assert (Hi : In 13 (p ++ [13])) by (apply in_or_app; right; now left).
      apply Hd2, ascii09_range in Hi. lia. }
  assert (NA : numeral (show a) a) by (now apply show_numeral). assert (NB : numeral (show b) b) by (now apply show_numeral).
  assert (NC : numeral (show a ++ show b) n).
  { split; [|split; [rewrite decimal_app, Da, Db; exact En|assumption]]. split; [destruct (show a); [now destruct (proj1 Ra)|discriminate]|].
    apply Forall_app. split; [apply Ra|apply Rb]. }
  assert (Ln : forall d v, numeral d v -> lines (d ++ [10]) = [d]).
  { intros d v Hd. destruct (Nd d v Hd) as (X1 & X2 & X3). change (d ++ [10]) with (d ++ [10] ++ []).
    rewrite lines_cons by assumption. now rewrite X3. }
  exists (apply_commands [AddVertex a] g_new), (apply_commands [AddVertex b] g_new), (apply_commands [AddVertex n] g_new).
  split; [apply (One (show a)); [assumption|]; destruct (Nd _ _ NA) as (X1 & X2 & X3); now apply lines_last|].
  split; [apply (proj1 (shown_new [AddVertex a]) a); cbn; tauto|].
  split; [apply (One (show b)); [assumption|]; now apply (Ln _ b)|].
  split; [apply (proj1 (shown_new [AddVertex b]) b); cbn; tauto|].
  split; [apply (One (show a ++ show b)); [assumption|]; rewrite app_assoc; now apply (Ln _ n)|].
  intro v. destruct (shown_new [AddVertex n]) as [S _]. specialize (S v). cbn in S. rewrite S. tauto.
Qed.
Print Assumptions C171_unclosed_tgf_refuted.

Example C171_case :
  (exists k, tgf_read table (tgf_text sample ++ txt "1 5 five" ++ [10]) = Done (Ok k) /\ contains_edge k (1, 5) = true /\ contains_edge k (3, 1) = true) /\
  gcmd_read_as_commands table (txt "AddVertex 1" ++ [10] ++ txt "AddEdge 1 2" ++ txt "AddVertex 3" ++ [10]) =
    Done (Err (txt "Error at line 2: Couldn't parse 'AddEdge 1 2AddVertex 3'")) /\
  (exists k, tgf_read table (txt "1 2" ++ txt "3 4" ++ [10]) = Done (Ok k) /\ edges k = [(1, 23)]).
Proof.
  split; [eexists; split; [vm_compute; reflexivity|split; reflexivity]|].
  split; [vm_compute; reflexivity|]. eexists. split; [vm_compute; reflexivity|reflexivity].
Qed.
