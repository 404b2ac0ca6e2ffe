(** * Facts about the line parsers, the readers and the writers *)
From Coq Require Import String.
From Coq Require Import List NArith Bool Arith Lia.
From Verif Require Import Spec Base Graph GraphSpec GraphFacts Text Format FormatSpec TextFacts.
Import ListNotations.
Open Scope N_scope.

Section Table.
  Variable nd : N -> bool.
  Hypothesis T : digit_table nd.

  Local Notation isd := (fun c => nd c = true).

  Lemma nd_ascii c : ascii09 c -> nd c = true.
  Proof.
    intro H. apply (proj1 T); [|assumption]. apply ascii09_range in H. lia.
  Qed.
  Lemma run_ascii d : run ascii09 d -> run isd d.
  Proof.
    intros [H1 H2]. split; [assumption|]. eapply Forall_impl; [|exact H2]. intros. now apply nd_ascii.
  Qed.
  Lemma nd_not_ws c : nd c = true -> ws c = false.
  Proof.
    intro H. destruct (ws c) eqn:E; [|reflexivity]. apply ws_blank in E. now apply (proj2 T) in H.
  Qed.
  Lemma run_ws w : run (fun c => ws c = true) w <-> run blank w.
  Proof.
    unfold run. split; intros [H1 H2]; (split; [assumption|]); (eapply Forall_impl; [|exact H2]);
      cbn; intros; now apply ws_blank.
  Qed.
  Lemma run_len P d : run P d <-> (1 <= length d)%nat /\ Forall P d.
  Proof. unfold run. destruct d; cbn; split; intros [H1 H2]; split; try assumption; try lia; congruence. Qed.
  Lemma run_head_blank (w t : text) : run blank w -> forall c u, w ++ t = c :: u -> nd c = false.
  Proof.
    intros [H1 H2] c u E. destruct w as [|x w]; [congruence|]. injection E as -> _.
    inversion H2 as [|? ? Hb]; subst. destruct (nd c) eqn:En; [|reflexivity]. now apply (proj2 T) in En.
  Qed.
  Lemma run_head_digit (d t : text) : run isd d -> forall c u, d ++ t = c :: u -> ws c = false.
  Proof.
    intros [H1 H2] c u E. destruct d as [|x d]; [congruence|]. injection E as -> _.
    inversion H2; subst. now apply nd_not_ws.
  Qed.

  (** ** The regexes *)
  Lemma rx_one s caps : rx_match [digits_item nd] s = Some caps <-> run isd s /\ caps = [s].
  Proof.
    split.
    - intro H. apply rx_rep_sound in H. destruct H as (a & b & c' & -> & Hl & Ha & Hb & ->).
      destruct b; [|discriminate]. injection Hb as <-. rewrite app_nil_r. split; [|reflexivity].
      now apply run_len.
    - intros [H ->]. rewrite <- (app_nil_r s) at 1. apply run_len in H. destruct H as [H1 H2].
      apply (rx_rep_exact nd 1 true [] s []); try assumption; [discriminate|reflexivity].
  Qed.
  Lemma rx_two s caps : rx_match [digits_item nd; space_item; digits_item nd] s = Some caps <->
    exists d1 w d2, s = d1 ++ w ++ d2 /\ run isd d1 /\ run blank w /\ run isd d2 /\ caps = [d1; d2].
  Proof.
    split.
    - intro H. apply rx_rep_sound in H. destruct H as (a & b & c' & -> & Hl & Ha & Hb & ->).
      apply rx_rep_sound in Hb. destruct Hb as (w & d & c'' & -> & Hlw & Hw & Hd & ->).
      apply rx_one in Hd. destruct Hd as [Hd ->].
      exists a, w, d. split; [reflexivity|]. split; [now apply run_len|].
      split; [now apply run_ws, run_len|]. now split.
    - intros (d1 & w & d2 & -> & H1 & H2 & H3 & ->).
      apply (rx_rep_exact nd 1 true [space_item; digits_item nd] d1 (w ++ d2)).
      + apply run_len in H1. apply H1.
      + apply H1.
      + now apply run_head_blank.
      + apply run_ws in H2. apply (rx_rep_exact ws 1 false [digits_item nd] w d2).
        * apply run_len in H2. apply H2.
        * apply H2.
        * rewrite <- (app_nil_r d2). now apply run_head_digit.
        * now apply rx_one.
  Qed.

  Lemma rx_lit_one k s caps : rx_match (rx_lit k ++ [digits_item nd]) s = Some caps <->
    exists d, s = txt k ++ d /\ run isd d /\ caps = [d].
  Proof.
    rewrite rx_lit_spec. split.
    - intros (t & -> & H). apply rx_one in H. exists t. tauto.
    - intros (d & -> & H). exists d. split; [reflexivity|]. now apply rx_one.
  Qed.
  Lemma rx_lit_two k s caps :
    rx_match (rx_lit k ++ [digits_item nd; space_item; digits_item nd]) s = Some caps <->
    exists d1 w d2, s = txt k ++ d1 ++ w ++ d2 /\ run isd d1 /\ run blank w /\ run isd d2 /\ caps = [d1; d2].
  Proof.
    rewrite rx_lit_spec. split.
    - intros (t & -> & H). apply rx_two in H. destruct H as (d1 & w & d2 & -> & H). exists d1, w, d2. now split.
    - intros (d1 & w & d2 & -> & H). exists (d1 ++ w ++ d2). split; [reflexivity|]. apply rx_two.
      exists d1, w, d2. now split.
  Qed.

  (** ** The gcmd line parser, by the shape of the line *)
  Inductive gcmd_view : text -> outcome (result graph_command) -> Prop :=
  | gv_add_vertex d : run isd d -> gcmd_view (txt "AddVertex " ++ d) (one_id AddVertex [d])
  | gv_remove_vertex d : run isd d -> gcmd_view (txt "RemoveVertex " ++ d) (one_id RemoveVertex [d])
  | gv_add_edge d1 w d2 : run isd d1 -> run blank w -> run isd d2 ->
      gcmd_view (txt "AddEdge " ++ d1 ++ w ++ d2) (two_ids AddEdge [d1; d2])
  | gv_remove_edge d1 w d2 : run isd d1 -> run blank w -> run isd d2 ->
      gcmd_view (txt "RemoveEdge " ++ d1 ++ w ++ d2) (two_ids RemoveEdge [d1; d2])
  | gv_none l : (forall c, ~ gcmd_line (digits nd) l c) -> gcmd_view l (Done (Err (parse_error l))).

  Lemma gcmd_view_parse l : gcmd_view l (gcmd_parse_line nd l).
  Proof.
    unfold gcmd_parse_line.
    destruct (rx_match (ADD_EDGE_RE nd) l) as [c1|] eqn:E1.
    { apply rx_lit_two in E1. destruct E1 as (d1 & w & d2 & -> & H1 & H2 & H3 & ->). now constructor. }
    destruct (rx_match (ADD_VERTEX_RE nd) l) as [c2|] eqn:E2.
    { apply rx_lit_one in E2. destruct E2 as (d & -> & H & ->). now constructor. }
    destruct (rx_match (REMOVE_EDGE_RE nd) l) as [c3|] eqn:E3.
    { apply rx_lit_two in E3. destruct E3 as (d1 & w & d2 & -> & H1 & H2 & H3 & ->). now constructor. }
    destruct (rx_match (REMOVE_VERTEX_RE nd) l) as [c4|] eqn:E4.
    { apply rx_lit_one in E4. destruct E4 as (d & -> & H & ->). now constructor. }
    apply gv_none. intros c H.
    assert (N1 : forall caps, rx_match (ADD_EDGE_RE nd) l <> Some caps) by congruence.
    assert (N2 : forall caps, rx_match (ADD_VERTEX_RE nd) l <> Some caps) by congruence.
    assert (N3 : forall caps, rx_match (REMOVE_EDGE_RE nd) l <> Some caps) by congruence.
    assert (N4 : forall caps, rx_match (REMOVE_VERTEX_RE nd) l <> Some caps) by congruence.
    clear E1 E2 E3 E4. unfold digits in H. inversion H; subst.
    - apply (N2 [d]), rx_lit_one. eauto.
    - apply (N4 [d]), rx_lit_one. eauto.
    - apply (N1 [d1; d2]), rx_lit_two. exists d1, w, d2. tauto.
    - apply (N3 [d1; d2]), rx_lit_two. exists d1, w, d2. tauto.
  Qed.

  (** The captured ids. *)
  Lemma parse_id_digits d n : run isd d -> (parse_id d = Done n <-> numeral d n).
  Proof.
    intro H. unfold parse_id. rewrite <- (parse_u64_digits nd d n T H).
    destruct (parse_u64 d); split; congruence.
  Qed.
  Lemma parse_id_cases d : (exists n, parse_id d = Done n) \/ parse_id d = Panic.
  Proof. unfold parse_id. destruct (parse_u64 d); eauto. Qed.

  Lemma one_id_ok mk d c : run isd d -> (one_id mk [d] = Done (Ok c) <-> exists n, numeral d n /\ c = mk n).
  Proof.
    intro H. unfold one_id. destruct (parse_id_cases d) as [[n E]|E]; rewrite E; cbn [obind].
    - apply parse_id_digits in E; [|assumption]. split.
      + intros [= <-]. eauto.
      + intros (m & [_ [Hm _]] & ->). destruct E as [_ [He _]]. congruence.
    - split; [discriminate|]. intros (n & Hn & _). apply (parse_id_digits d n H) in Hn. congruence.
  Qed.
  Lemma two_ids_ok mk d1 d2 c : run isd d1 -> run isd d2 ->
    (two_ids mk [d1; d2] = Done (Ok c) <-> exists a b, numeral d1 a /\ numeral d2 b /\ c = mk a b).
  Proof.
    intros H1 H2. unfold two_ids.
    destruct (parse_id_cases d1) as [[n E]|E]; rewrite E; cbn [obind].
    - destruct (parse_id_cases d2) as [[m F]|F]; rewrite F; cbn [obind].
      + apply parse_id_digits in E; [|assumption]. apply parse_id_digits in F; [|assumption]. split.
        * intros [= <-]. eauto.
        * intros (a & b & [_ [Ha _]] & [_ [Hb _]] & ->). destruct E as [_ [He _]], F as [_ [Hf _]]. congruence.
      + split; [discriminate|]. intros (a & b & _ & Hb & _). apply (parse_id_digits d2 b H2) in Hb. congruence.
    - split; [discriminate|]. intros (a & b & Ha & _). apply (parse_id_digits d1 a H1) in Ha. congruence.
  Qed.
  Lemma one_id_shape mk d : (exists c, one_id mk [d] = Done (Ok c)) \/ one_id mk [d] = Panic.
  Proof. unfold one_id. destruct (parse_id_cases d) as [[n E]|E]; rewrite E; cbn; eauto. Qed.
  Lemma two_ids_shape mk d1 d2 : (exists c, two_ids mk [d1; d2] = Done (Ok c)) \/ two_ids mk [d1; d2] = Panic.
  Proof.
    unfold two_ids. destruct (parse_id_cases d1) as [[n E]|E]; rewrite E; cbn; [|auto].
    destruct (parse_id_cases d2) as [[m F]|F]; rewrite F; cbn; eauto.
  Qed.

  Lemma numeral_run d n : numeral d n -> run isd d.
  Proof. intros [H _]. now apply run_ascii. Qed.

  (** Splitting digits, blanks, digits in two ways gives the same parts. *)
  Lemma run_split P (a a' b b' : text) : Forall P a -> Forall P a' ->
    (forall c t, b = c :: t -> ~ P c) -> (forall c t, b' = c :: t -> ~ P c) ->
    a ++ b = a' ++ b' -> a = a' /\ b = b'.
  Proof.
    intros Ha. revert a'. induction Ha as [|c a Hc Ha IH]; intros a' Ha' Hb Hb' E.
    - destruct Ha' as [|c' a' Hc' Ha']; [now split|]. exfalso. cbn in E. now apply (Hb _ _ E).
    - destruct Ha' as [|c' a' Hc' Ha']; [exfalso; cbn in E; symmetry in E; now apply (Hb' _ _ E)|].
      injection E as <- E. destruct (IH _ Ha' Hb Hb' E) as [-> ->]. now split.
  Qed.
  Lemma edge_split d1 w d2 d1' w' d2' :
    run isd d1 -> run isd d1' -> run blank w -> run blank w' ->
    (forall c t, d2 = c :: t -> ~ blank c) -> (forall c t, d2' = c :: t -> ~ blank c) ->
    d1 ++ w ++ d2 = d1' ++ w' ++ d2' -> d1 = d1' /\ w = w' /\ d2 = d2'.
  Proof.
    intros H1 H1' Hw Hw' H2 H2' E.
    assert (Hx : forall w d2 : text, run blank w -> forall c t, w ++ d2 = c :: t -> ~ nd c = true).
    { intros w0 d0 H0 c t E0. rewrite (run_head_blank w0 d0 H0 c t E0). discriminate. }
    apply (run_split isd) in E; [|apply H1|apply H1'|now apply Hx|now apply Hx].
    destruct E as [-> E].
    apply (run_split blank) in E; [|apply Hw|apply Hw'|assumption|assumption]. tauto.
  Qed.
  Lemma digit_head d : run isd d -> forall c t, d = c :: t -> ~ blank c.
  Proof. intros [_ H] c t ->. inversion H; subst. now apply (proj2 T). Qed.

  Lemma gcmd_line_digits l c : gcmd_line numeral l c -> gcmd_line (digits nd) l c.
  Proof. intro H. inversion H; subst; constructor; try assumption; unfold digits; eauto using numeral_run. Qed.

  Lemma gcmd_parse_ok l c : gcmd_parse_line nd l = Done (Ok c) <-> gcmd_line numeral l c.
  Proof.
    pose proof (gcmd_view_parse l) as V. generalize dependent (gcmd_parse_line nd l). intros r V. inversion V as [d H E1 E2|d H E1 E2|d1 w d2 H1 Hw H2 E1 E2|d1 w d2 H1 Hw H2 E1 E2|l' H E1 E2]; subst.
    - rewrite (one_id_ok _ _ _ H). split.
      + intros (n & Hn & ->). now constructor.
      + intro G. inversion G as [d' n Hn E|d' n Hn E|? ? ? ? ? ? ? ? E|? ? ? ? ? ? ? ? E]; try discriminate E.
        subst. eauto.
    - rewrite (one_id_ok _ _ _ H). split.
      + intros (n & Hn & ->). now constructor.
      + intro G. inversion G as [d' n Hn E|d' n Hn E|? ? ? ? ? ? ? ? E|? ? ? ? ? ? ? ? E]; try discriminate E.
        subst. eauto.
    - rewrite (two_ids_ok _ _ _ _ H1 H2). split.
      + intros (a & b & Ha & Hb & ->). now constructor.
      + intro G. inversion G as [d' n Hn E|d' n Hn E|d1' w' d2' a b Ha Hw' Hb E|d1' w' d2' a b Ha Hw' Hb E]; try discriminate E.
        apply edge_split in E; eauto using numeral_run, digit_head. destruct E as (-> & -> & ->). eauto.
    - rewrite (two_ids_ok _ _ _ _ H1 H2). split.
      + intros (a & b & Ha & Hb & ->). now constructor.
      + intro G. inversion G as [d' n Hn E|d' n Hn E|d1' w' d2' a b Ha Hw' Hb E|d1' w' d2' a b Ha Hw' Hb E]; try discriminate E.
        apply edge_split in E; eauto using numeral_run, digit_head. destruct E as (-> & -> & ->). eauto.
    - split; [discriminate|]. intro G. now apply gcmd_line_digits, H in G.
  Qed.
  Lemma gcmd_parse_err l m : gcmd_parse_line nd l = Done (Err m) <->
    (forall c, ~ gcmd_line (digits nd) l c) /\ m = txt "Couldn't parse '" ++ l ++ txt "'".
  Proof.
    pose proof (gcmd_view_parse l) as V. generalize dependent (gcmd_parse_line nd l). intros r V. inversion V as [d H E1 E2|d H E1 E2|d1 w d2 H1 Hw H2 E1 E2|d1 w d2 H1 Hw H2 E1 E2|l' H E1 E2]; subst.
    - split.
      + destruct (one_id_shape AddVertex d) as [[c E]|E]; rewrite E; discriminate.
      + intros [H0 _]. destruct (H0 (AddVertex 0)). now constructor.
    - split.
      + destruct (one_id_shape RemoveVertex d) as [[c E]|E]; rewrite E; discriminate.
      + intros [H0 _]. destruct (H0 (RemoveVertex 0)). now constructor.
    - split.
      + destruct (two_ids_shape AddEdge d1 d2) as [[c E]|E]; rewrite E; discriminate.
      + intros [H0 _]. destruct (H0 (AddEdge 0 0)). now constructor.
    - split.
      + destruct (two_ids_shape RemoveEdge d1 d2) as [[c E]|E]; rewrite E; discriminate.
      + intros [H0 _]. destruct (H0 (RemoveEdge 0 0)). now constructor.
    - unfold parse_error. split; [intros [= <-]; now split|]. intros [_ ->]. reflexivity.
  Qed.
  Lemma gcmd_parse_fuel l : gcmd_parse_line nd l <> OutOfFuel.
  Proof.
    pose proof (gcmd_view_parse l) as V. generalize dependent (gcmd_parse_line nd l). intros r V. inversion V as [d H E1 E2|d H E1 E2|d1 w d2 H1 Hw H2 E1 E2|d1 w d2 H1 Hw H2 E1 E2|l' H E1 E2]; subst.
    - destruct (one_id_shape AddVertex d) as [[c E]|E]; rewrite E; discriminate.
    - destruct (one_id_shape RemoveVertex d) as [[c E]|E]; rewrite E; discriminate.
    - destruct (two_ids_shape AddEdge d1 d2) as [[c E]|E]; rewrite E; discriminate.
    - destruct (two_ids_shape RemoveEdge d1 d2) as [[c E]|E]; rewrite E; discriminate.
    - discriminate.
  Qed.
  Lemma gcmd_parse_panic l : gcmd_parse_line nd l = Panic <->
    (exists c, gcmd_line (digits nd) l c) /\ (forall c, ~ gcmd_line numeral l c).
  Proof.
    split.
    - intro H. split.
      + pose proof (gcmd_view_parse l) as V. rewrite H in V.
        inversion V as [d H0 E1 E2|d H0 E1 E2|d1 w d2 H1 Hw H2 E1 E2|d1 w d2 H1 Hw H2 E1 E2|]; subst;
          [exists (AddVertex 0)|exists (RemoveVertex 0)|exists (AddEdge 0 0)|exists (RemoveEdge 0 0)]; now constructor.
      + intros c G. apply gcmd_parse_ok in G. congruence.
    - intros [[c Hc] Hn]. destruct (gcmd_parse_line nd l) as [[c'|m]| |] eqn:E.
      + apply gcmd_parse_ok in E. now apply Hn in E.
      + apply gcmd_parse_err in E. destruct E as [E _]. now apply E in Hc.
      + reflexivity.
      + now apply gcmd_parse_fuel in E.
  Qed.

  (** ** The tgf line parser *)
  Lemma rx_rest_ok s : no_lf s -> rx_match [rest_item] s = Some [s].
  Proof.
    intro H. rewrite <- (app_nil_r s) at 1.
    apply (rx_rep_exact (fun c => negb (c =? 10)) 0 true [] s []); [lia| |discriminate|reflexivity].
    apply Forall_forall. intros c Hc. apply negb_true_iff, N.eqb_neq. intro. subst. contradiction.
  Qed.
  Lemma rx_rest_sound s caps : rx_match [rest_item] s = Some caps -> no_lf s.
  Proof.
    intro H. apply rx_rep_sound in H. destruct H as (a & b & c' & -> & _ & Ha & Hb & _).
    destruct b; [|discriminate]. rewrite app_nil_r. intro Hi. rewrite Forall_forall in Ha.
    apply Ha in Hi. discriminate.
  Qed.
  (** The longest run of digits. *)
  Lemma digits_span s : exists a b, s = a ++ b /\ Forall isd a /\ (forall c t, b = c :: t -> nd c = false).
  Proof.
    induction s as [|c s (a & b & -> & Ha & Hb)].
    - exists [], []. split; [reflexivity|]. split; [constructor|discriminate].
    - destruct (nd c) eqn:E.
      + exists (c :: a), b. split; [reflexivity|]. split; [now constructor|assumption].
      + exists [], (c :: a ++ b). split; [reflexivity|]. split; [constructor|]. now intros ? ? [= <- <-].
  Qed.
  Lemma no_lf_app (a b : text) : no_lf (a ++ b) <-> no_lf a /\ no_lf b.
  Proof. unfold no_lf. rewrite in_app_iff. tauto. Qed.
  Lemma digits_no_lf a : Forall isd a -> no_lf a.
  Proof.
    intros H Hi. rewrite Forall_forall in H. apply H in Hi. apply (proj2 T) in Hi. apply Hi.
    unfold blank. cbn. tauto.
  Qed.

  Lemma rx_id_rest s caps : rx_match (VERTEX_RE nd) s = Some caps <->
    exists d l, s = d ++ l /\ run isd d /\ label isd l /\ caps = [d; l].
  Proof.
    split.
    - intro H. assert (Hn : no_lf s /\ exists a b, s = a ++ b /\ run isd a).
      { apply rx_rep_sound in H. destruct H as (a & b & c' & -> & Hl & Ha & Hb & _).
        apply rx_rest_sound in Hb. split; [apply no_lf_app; split; [now apply digits_no_lf|assumption]|].
        exists a, b. split; [reflexivity|now apply run_len]. }
      destruct Hn as [Hn (a0 & b0 & E0 & Hr)].
      destruct (digits_span s) as (a & b & -> & Ha & Hb).
      assert (Hl : (1 <= length a)%nat).
      { destruct a as [|x a]; [|cbn; lia]. exfalso. cbn in E0. destruct Hr as [Hr1 Hr2].
        destruct a0 as [|y a0]; [congruence|]. cbn in E0. inversion Hr2; subst.
        rewrite (Hb _ _ eq_refl) in *. discriminate. }
      apply no_lf_app in Hn. destruct Hn as [Hna Hnb].
      pose proof (rx_rep_exact nd 1 true [rest_item] a b Hl Ha Hb [b] (rx_rest_ok b Hnb)) as H'.
      unfold VERTEX_RE, digits_item in H. rewrite H' in H. injection H as <-.
      exists a, b. split; [reflexivity|]. split; [now apply run_len|]. split; [|reflexivity].
      split; [assumption|]. intros c t ->. rewrite (Hb _ _ eq_refl). discriminate.
    - intros (d & l & -> & Hd & [Hl1 Hl2] & ->). apply run_len in Hd. destruct Hd as [Hd1 Hd2].
      apply (rx_rep_exact nd 1 true [rest_item] d l); try assumption.
      + intros c t E. specialize (Hl2 c t E). destruct (nd c); congruence.
      + now apply rx_rest_ok.
  Qed.
  Lemma rx_edge_rest s caps : rx_match (EDGE_RE nd) s = Some caps <->
    exists d1 w d2 l, s = d1 ++ w ++ d2 ++ l /\ run isd d1 /\ run blank w /\ run isd d2 /\ label isd l /\
      caps = [d1; d2; l].
  Proof.
    split.
    - intro H. apply rx_rep_sound in H. destruct H as (a & b & c' & -> & Hl & Ha & Hb & ->).
      apply rx_rep_sound in Hb. destruct Hb as (w & r & c'' & -> & Hlw & Hw & Hd & ->).
      apply rx_id_rest in Hd. destruct Hd as (d & l & -> & Hd & Hll & ->).
      exists a, w, d, l. split; [reflexivity|]. split; [now apply run_len|].
      split; [now apply run_ws, run_len|]. now repeat split; try apply Hd; try apply Hll.
    - intros (d1 & w & d2 & l & -> & H1 & H2 & H3 & Hl & ->).
      apply (rx_rep_exact nd 1 true [space_item; digits_item nd; rest_item] d1 (w ++ d2 ++ l)).
      + apply run_len in H1. apply H1.
      + apply H1.
      + now apply run_head_blank.
      + apply run_ws in H2. apply (rx_rep_exact ws 1 false [digits_item nd; rest_item] w (d2 ++ l)).
        * apply run_len in H2. apply H2.
        * apply H2.
        * now apply run_head_digit.
        * apply rx_id_rest. exists d2, l. now repeat split; try apply H3; try apply Hl.
  Qed.

  Inductive tgf_view : text -> outcome (result graph_command) -> Prop :=
  | tv_edge d1 w d2 l : run isd d1 -> run blank w -> run isd d2 -> label isd l ->
      tgf_view (d1 ++ w ++ d2 ++ l) (two_ids AddEdge [d1; d2])
  | tv_vertex d l : run isd d -> vertex_label isd l -> tgf_view (d ++ l) (one_id AddVertex [d])
  | tv_none l : (forall c, ~ tgf_line isd (digits nd) l c) -> tgf_view l (Done (Err (parse_error l))).

  Lemma tgf_view_parse l : tgf_view l (tgf_parse_line nd l).
  Proof.
    unfold tgf_parse_line.
    destruct (rx_match (EDGE_RE nd) l) as [c1|] eqn:E1.
    { apply rx_edge_rest in E1. destruct E1 as (d1 & w & d2 & l' & -> & H1 & H2 & H3 & H4 & ->). now constructor. }
    assert (N1 : forall caps, rx_match (EDGE_RE nd) l <> Some caps) by congruence. clear E1.
    destruct (rx_match (VERTEX_RE nd) l) as [c2|] eqn:E2.
    { apply rx_id_rest in E2. destruct E2 as (d & l' & -> & H & Hl & ->). constructor; [assumption|].
      split; [assumption|]. intros w c t -> Hw Hc.
      destruct (digits_span t) as (a & b & -> & Ha & Hb).
      apply (N1 [d; c :: a; b]), rx_edge_rest. exists d, w, (c :: a), b.
      split; [reflexivity|]. split; [assumption|]. split; [assumption|].
      split; [split; [discriminate|now constructor]|]. split; [|reflexivity].
      split.
      - destruct Hl as [Hl _]. apply no_lf_app in Hl. destruct Hl as [_ Hl].
        change (c :: a ++ b) with ((c :: a) ++ b) in Hl. apply no_lf_app in Hl. apply Hl.
      - intros x u ->. rewrite (Hb _ _ eq_refl). discriminate. }
    assert (N2 : forall caps, rx_match (VERTEX_RE nd) l <> Some caps) by congruence. clear E2.
    apply tv_none. intros c H. unfold digits in H. inversion H; subst.
    - apply (N1 [d1; d2; l0]), rx_edge_rest. exists d1, w, d2, l0. tauto.
    - apply (N2 [d; l0]), rx_id_rest. exists d, l0. match goal with H : vertex_label _ _ |- _ => destruct H end. tauto.
  Qed.

  Lemma label_head l : label isd l -> forall c t, l = c :: t -> ~ nd c = true.
  Proof. intros [_ H]. exact H. Qed.
  (** An edge line is not a vertex line, and splits in one way. *)
  Lemma tgf_edge_split d1 w d2 l d1' w' d2' l' :
    run isd d1 -> run isd d1' -> run blank w -> run blank w' -> run isd d2 -> run isd d2' ->
    label isd l -> label isd l' -> d1 ++ w ++ d2 ++ l = d1' ++ w' ++ d2' ++ l' ->
    d1 = d1' /\ w = w' /\ d2 = d2' /\ l = l'.
  Proof.
    intros H1 H1' Hw Hw' H2 H2' Hl Hl' E.
    assert (Hx : forall d l : text, run isd d -> forall c t, d ++ l = c :: t -> ~ blank c).
    { intros d l0 Hd c t E0. destruct d as [|x d]; [destruct Hd; congruence|]. injection E0 as -> _.
      destruct Hd as [_ Hd]. inversion Hd; subst. now apply (proj2 T). }
    apply edge_split in E; try assumption; try (apply Hx; assumption).
    destruct E as (-> & -> & E).
    apply (run_split isd) in E; [|apply H2|apply H2'|now apply label_head|now apply label_head]. tauto.
  Qed.
  Lemma tgf_edge_vertex d1 w d2 l d l' : run isd d1 -> run blank w -> run isd d2 -> run isd d ->
    vertex_label isd l' -> d1 ++ w ++ d2 ++ l <> d ++ l'.
  Proof.
    intros H1 Hw H2 Hd [Hl Hv] E.
    apply (run_split isd) in E; [|apply H1|apply Hd| |now apply label_head].
    - destruct E as [_ <-]. destruct d2 as [|c d2]; [destruct H2; congruence|].
      apply (Hv w c (d2 ++ l)); [reflexivity|assumption|]. destruct H2 as [_ H2]. now inversion H2.
    - intros c t E0. rewrite (run_head_blank w (d2 ++ l) Hw c t E0). discriminate.
  Qed.
  Lemma tgf_vertex_split d l d' l' : run isd d -> run isd d' -> vertex_label isd l -> vertex_label isd l' ->
    d ++ l = d' ++ l' -> d = d' /\ l = l'.
  Proof.
    intros Hd Hd' [Hl _] [Hl' _] E.
    apply (run_split isd) in E; [assumption|apply Hd|apply Hd'|now apply label_head|now apply label_head].
  Qed.
  Lemma tgf_line_digits l c : tgf_line isd numeral l c -> tgf_line isd (digits nd) l c.
  Proof. intro H. inversion H; subst; constructor; try assumption; unfold digits; eauto using numeral_run. Qed.

  Lemma tgf_parse_ok l c : tgf_parse_line nd l = Done (Ok c) <-> tgf_line isd numeral l c.
  Proof.
    pose proof (tgf_view_parse l) as V. generalize dependent (tgf_parse_line nd l). intros r V. inversion V as [d1 w d2 l0 H1 Hw H2 Hl E1 E2|d l0 H Hl E1 E2|l' H E1 E2]; subst.
    - rewrite (two_ids_ok _ _ _ _ H1 H2). split.
      + intros (a & b & Ha & Hb & ->). now constructor.
      + intro G. inversion G as [d1' w' d2' l' a b Ha Hw' Hb Hl' E|d' l' n Hn Hl' E]; subst.
        * apply tgf_edge_split in E; eauto using numeral_run. destruct E as (-> & -> & -> & ->). eauto.
        * symmetry in E. apply tgf_edge_vertex in E; eauto using numeral_run. destruct E.
    - rewrite (one_id_ok _ _ _ H). split.
      + intros (n & Hn & ->). now constructor.
      + intro G. inversion G as [d1' w' d2' l' a b Ha Hw' Hb Hl' E|d' l' n Hn Hl' E]; subst.
        * apply tgf_edge_vertex in E; eauto using numeral_run. destruct E.
        * apply tgf_vertex_split in E; eauto using numeral_run. destruct E as (-> & ->). eauto.
    - split; [discriminate|]. intro G. now apply tgf_line_digits, H in G.
  Qed.
  Lemma tgf_parse_err l m : tgf_parse_line nd l = Done (Err m) <->
    (forall c, ~ tgf_line isd (digits nd) l c) /\ m = txt "Couldn't parse '" ++ l ++ txt "'".
  Proof.
    pose proof (tgf_view_parse l) as V. generalize dependent (tgf_parse_line nd l). intros r V. inversion V as [d1 w d2 l0 H1 Hw H2 Hl E1 E2|d l0 H Hl E1 E2|l' H E1 E2]; subst.
    - split.
      + destruct (two_ids_shape AddEdge d1 d2) as [[c E]|E]; rewrite E; discriminate.
      + intros [H0 _]. destruct (H0 (AddEdge 0 0)). now constructor.
    - split.
      + destruct (one_id_shape AddVertex d) as [[c E]|E]; rewrite E; discriminate.
      + intros [H0 _]. destruct (H0 (AddVertex 0)). now constructor.
    - unfold parse_error. split; [intros [= <-]; now split|]. intros [_ ->]. reflexivity.
  Qed.
  Lemma tgf_parse_fuel l : tgf_parse_line nd l <> OutOfFuel.
  Proof.
    pose proof (tgf_view_parse l) as V. generalize dependent (tgf_parse_line nd l). intros r V. inversion V as [d1 w d2 l0 H1 Hw H2 Hl E1 E2|d l0 H Hl E1 E2|l' H E1 E2]; subst.
    - destruct (two_ids_shape AddEdge d1 d2) as [[c E]|E]; rewrite E; discriminate.
    - destruct (one_id_shape AddVertex d) as [[c E]|E]; rewrite E; discriminate.
    - discriminate.
  Qed.
  Lemma tgf_parse_panic l : tgf_parse_line nd l = Panic <->
    (exists c, tgf_line isd (digits nd) l c) /\ (forall c, ~ tgf_line isd numeral l c).
  Proof.
    split.
    - intro H. split.
      + pose proof (tgf_view_parse l) as V. rewrite H in V.
        inversion V as [d1 w d2 l0 H1 Hw H2 Hl E1 E2|d l0 H0 Hl E1 E2|]; subst;
          [exists (AddEdge 0 0)|exists (AddVertex 0)]; now constructor.
      + intros c G. apply tgf_parse_ok in G. congruence.
    - intros [[c Hc] Hn]. destruct (tgf_parse_line nd l) as [[c'|m]| |] eqn:E.
      + apply tgf_parse_ok in E. now apply Hn in E.
      + apply tgf_parse_err in E. destruct E as [E _]. now apply E in Hc.
      + reflexivity.
      + now apply tgf_parse_fuel in E.
  Qed.

  (** ** Written lines *)
  Lemma gcmd_line_written c : u64_command c -> gcmd_line numeral (command_into_line c) c.
  Proof.
    destruct c; cbn [command_into_line u64_command]; intro H; constructor; try now apply show_numeral.
    - split; [discriminate|]. constructor; [|constructor]. apply ws_blank. reflexivity.
    - split; [discriminate|]. constructor; [|constructor]. apply ws_blank. reflexivity.
  Qed.
  Lemma gcmd_line_shape num l c : gcmd_line num l c -> l <> [] /\ ~ skipped l.
  Proof.
    intro H. assert (Hx : exists x t, l = x :: t /\ (x = 65 \/ x = 82)).
    { inversion H; subst; cbn [txt map list_ascii_of_string app]; eauto. }
    destruct Hx as (x & t & -> & Hx). split; [discriminate|].
    intros [E|(w & u & E & Hw)]; [discriminate|].
    destruct Hw as [|y w Hy Hw]; injection E as -> _; [lia|].
    unfold blank in Hy. cbn [In] in Hy. lia.
  Qed.
  Lemma show_chars n x : In x (show n) -> 48 <= x <= 57.
  Proof.
    intro H. destruct (show_run n) as [_ Hr]. rewrite Forall_forall in Hr. apply Hr in H. now apply ascii09_range.
  Qed.
  Definition plain (l : text) : Prop := no_lf l /\ forall p, l <> p ++ [13].
  Lemma plain_app_show a n : no_lf a -> plain (a ++ show n).
  Proof.
    intro Ha. split.
    - apply no_lf_app. split; [assumption|]. intro H. apply show_chars in H. lia.
    - intros p E. destruct (show_run n) as [Hne _].
      destruct (exists_last Hne) as (q & x & Eq).
      assert (Hx : In x (show n)) by (rewrite Eq; apply in_or_app; right; now left).
      rewrite Eq, app_assoc in E. apply app_inj_tail in E. destruct E as [_ ->].
      apply show_chars in Hx. lia.
  Qed.
  Lemma no_lf_txt l : forallb (fun c => negb (c =? 10)) l = true -> no_lf l.
  Proof. intros H Hi. rewrite forallb_forall in H. apply H in Hi. discriminate. Qed.
  Lemma show_no_lf n : no_lf (show n).
  Proof. intro H. apply show_chars in H. lia. Qed.
  Lemma written_plain c : plain (command_into_line c).
  Proof.
    destruct c; cbn [command_into_line]; rewrite ?app_assoc; apply plain_app_show;
      rewrite ?no_lf_app; repeat split; try apply show_no_lf; now apply no_lf_txt.
  Qed.

  (** ** The readers *)
  Section Reader.
    Variable parse : text -> outcome (result graph_command).

    Lemma is_comment_spec l : is_comment l = true <-> exists w t, l = w ++ [35] ++ t /\ Forall blank w.
    Proof. apply trim_comment. Qed.
    Lemma skip_dec l : (negb (match l with [] => true | _ => false end) && negb (is_comment l) = true) <-> ~ skipped l.
    Proof.
      rewrite andb_true_iff, !negb_true_iff. unfold skipped.
      destruct l as [|x l].
      - split; [intros [? _]; discriminate|]. intro H. exfalso. auto.
      - rewrite <- (not_true_iff_false (is_comment (x :: l))), (is_comment_spec (x :: l)). split.
        + intros [_ H] [?|?]; [discriminate|tauto].
        + intro H. split; [|tauto]. congruence.
    Qed.
    Definition accepts (l : text) (c : graph_command) : Prop := parse l = Done (Ok c).

    Lemma read_lines_ok ls : forall i cs,
      read_lines parse is_comment i ls = Done (Ok cs) <-> reads accepts ls cs.
    Proof.
      induction ls as [|l ls IH]; intros i cs; cbn [read_lines].
      - split; [intros [= <-]; constructor|]. intro H. now inversion H.
      - pose proof (skip_dec l) as Hs.
        destruct (negb (match l with [] => true | _ => false end) && negb (is_comment l)).
        + assert (Hn : ~ skipped l) by now apply Hs.
          destruct (parse l) as [[c|m]| |] eqn:E; cbn [obind].
          * destruct (read_lines parse is_comment (i + 1) ls) as [[cs'|m]| |] eqn:E'; cbn [obind].
            -- apply IH in E'. split.
               ++ intros [= <-]. now apply reads_line.
               ++ intro H. inversion H as [|? ? ? Hk|? ? c2 cs2 _ Ha Hr]; subst; [contradiction|].
                  unfold accepts in Ha. apply (IH (i + 1)) in E', Hr. congruence.
            -- split; [discriminate|]. intro H. inversion H as [|? ? ? Hk|? ? c2 cs2 _ Ha Hr]; subst; [contradiction|].
               apply (IH (i + 1)) in Hr. congruence.
            -- split; [discriminate|]. intro H. inversion H as [|? ? ? Hk|? ? c2 cs2 _ Ha Hr]; subst; [contradiction|].
               apply (IH (i + 1)) in Hr. congruence.
            -- split; [discriminate|]. intro H. inversion H as [|? ? ? Hk|? ? c2 cs2 _ Ha Hr]; subst; [contradiction|].
               apply (IH (i + 1)) in Hr. congruence.
          * split; [discriminate|]. intro H. inversion H as [|? ? ? Hk|? ? c2 cs2 _ Ha Hr]; subst; [contradiction|].
            unfold accepts in Ha. congruence.
          * split; [discriminate|]. intro H. inversion H as [|? ? ? Hk|? ? c2 cs2 _ Ha Hr]; subst; [contradiction|].
            unfold accepts in Ha. congruence.
          * split; [discriminate|]. intro H. inversion H as [|? ? ? Hk|? ? c2 cs2 _ Ha Hr]; subst; [contradiction|].
            unfold accepts in Ha. congruence.
        + assert (Hn : ~ ~ skipped l) by (intro Hx; apply Hs in Hx; discriminate).
          rewrite IH. split.
          * intro H. apply reads_skip; [|assumption].
            destruct l as [|x l]; [now left|].
            destruct (is_comment (x :: l)) eqn:Ec; [right; now apply is_comment_spec|].
            exfalso. apply Hn. intros [?|Hk]; [discriminate|]. apply is_comment_spec in Hk. congruence.
          * intro H. inversion H; subst; [assumption|]. contradiction.
    Qed.

    Lemma skipped_dec l : skipped l \/ ~ skipped l.
    Proof.
      destruct l as [|x l]; [left; now left|]. destruct (is_comment (x :: l)) eqn:Ec.
      - left. right. now apply is_comment_spec.
      - right. intros [?|Hk]; [discriminate|]. apply is_comment_spec in Hk. congruence.
    Qed.
    Lemma skip_bool l : skipped l ->
      negb (match l with [] => true | _ => false end) && negb (is_comment l) = false.
    Proof. intro H. apply not_true_iff_false. rewrite skip_dec. tauto. Qed.
    Lemma noskip_bool l : ~ skipped l ->
      negb (match l with [] => true | _ => false end) && negb (is_comment l) = true.
    Proof. intro H. now apply skip_dec. Qed.

    (** The first line that does not parse decides the result. *)
    Lemma read_lines_stop ls : forall i, (exists cs, reads accepts ls cs) \/
      exists pre l post cs, ls = pre ++ l :: post /\ reads accepts pre cs /\ ~ skipped l /\
        (forall c, ~ accepts l c) /\
        read_lines parse is_comment i ls =
          obind (parse l) (fun r => match r with
            | Ok c => Panic
            | Err msg => Done (Err (txt "Error at line " ++ show (i + N.of_nat (length pre) + 1) ++ txt ": " ++ msg))
            end).
    Proof.
      induction ls as [|l ls IH]; intro i.
      - left. exists []. constructor.
      - destruct (skipped_dec l) as [Hs|Hs].
        + destruct (IH (i + 1)) as [[cs H]|(pre & l' & post & cs & -> & H1 & H2 & H3 & H4)].
          * left. exists cs. now apply reads_skip.
          * right. exists (l :: pre), l', post, cs. split; [reflexivity|]. split; [now apply reads_skip|].
            split; [assumption|]. split; [assumption|].
            cbn [app read_lines]. rewrite (skip_bool _ Hs), H4. cbn [length].
            rewrite Nat2N.inj_succ. replace (i + 1 + N.of_nat (length pre)) with (i + N.succ (N.of_nat (length pre))) by lia.
            reflexivity.
        + destruct (parse l) as [[c|m]| |] eqn:E.
          * destruct (IH (i + 1)) as [[cs H]|(pre & l' & post & cs & -> & H1 & H2 & H3 & H4)].
            -- left. exists (c :: cs). now apply reads_line.
            -- right. exists (l :: pre), l', post, (c :: cs). split; [reflexivity|].
               split; [now apply reads_line|]. split; [assumption|]. split; [assumption|].
               cbn [app read_lines]. rewrite (noskip_bool _ Hs), E. cbn [obind]. rewrite H4. cbn [length].
               rewrite Nat2N.inj_succ. replace (i + 1 + N.of_nat (length pre)) with (i + N.succ (N.of_nat (length pre))) by lia.
               destruct (parse l') as [[c'|m]| |] eqn:E'; cbn [obind]; try reflexivity.
          * right. exists [], l, ls, []. split; [reflexivity|]. split; [constructor|]. split; [assumption|].
            split; [unfold accepts; congruence|]. cbn [read_lines length]. rewrite (noskip_bool _ Hs), E. cbn [obind N.of_nat].
            now rewrite N.add_0_r.
          * right. exists [], l, ls, []. split; [reflexivity|]. split; [constructor|]. split; [assumption|].
            split; [unfold accepts; congruence|]. cbn [read_lines]. now rewrite (noskip_bool _ Hs), E.
          * right. exists [], l, ls, []. split; [reflexivity|]. split; [constructor|]. split; [assumption|].
            split; [unfold accepts; congruence|]. cbn [read_lines]. now rewrite (noskip_bool _ Hs), E.
    Qed.

    Lemma reads_fun ls cs : reads accepts ls cs -> forall cs', reads accepts ls cs' -> cs = cs'.
    Proof.
      intros H cs' H'. apply (read_lines_ok ls 0) in H. apply (read_lines_ok ls 0) in H'. congruence.
    Qed.
    Lemma reads_app l1 l2 c1 c2 : reads accepts l1 c1 -> reads accepts l2 c2 -> reads accepts (l1 ++ l2) (c1 ++ c2).
    Proof. induction 1; intro H2; cbn [app]; [assumption|apply reads_skip; auto|apply reads_line; auto]. Qed.

    (** Positions of the deciding line. *)
    Lemma reads_prefix_unique pre l post cs : reads accepts pre cs -> ~ skipped l -> (forall c, ~ accepts l c) ->
      forall pre' l' post' cs', reads accepts pre' cs' -> ~ skipped l' -> (forall c, ~ accepts l' c) ->
      pre ++ l :: post = pre' ++ l' :: post' -> pre = pre' /\ l = l' /\ post = post'.
    Proof.
      intro H. induction H as [|x ls cs Hs H IH|x ls c cs Hs Ha H IH]; intros Hl Hn pre' l' post' cs' H' Hl' Hn' E.
      - destruct H' as [|x' ls' cs' Hs' H'|x' ls' c' cs' Hs' Ha' H']; injection E as E1 E2; subst; [tauto| |].
        + contradiction.
        + now apply Hn in Ha'.
      - destruct H' as [|x' ls' cs' Hs' H'|x' ls' c' cs' Hs' Ha' H']; injection E as E1 E2; subst; [contradiction| |].
        + destruct (IH Hl Hn _ _ _ _ H' Hl' Hn' E2) as (-> & -> & ->). tauto.
        + contradiction.
      - destruct H' as [|x' ls' cs' Hs' H'|x' ls' c' cs' Hs' Ha' H']; injection E as E1 E2; subst.
        + now apply Hn' in Ha.
        + contradiction.
        + destruct (IH Hl Hn _ _ _ _ H' Hl' Hn' E2) as (-> & -> & ->). tauto.
    Qed.

    Lemma reads_no_stop pre l post cs0 : (exists cs, reads accepts (pre ++ l :: post) cs) ->
      reads accepts pre cs0 -> ~ skipped l -> exists c, accepts l c.
    Proof.
      intros [cs H] Hp. revert cs H. induction Hp as [|x ls cs0 Hs Hp IH|x ls c cs0 Hs Ha Hp IH]; intros cs H Hl.
      - inversion H; subst; [contradiction|eauto].
      - cbn [app] in H. inversion H; subst; eauto.
      - cbn [app] in H. inversion H; subst; eauto.
    Qed.

    Lemma read_as_commands_ok s cs :
      read_as_commands parse is_comment s = Done (Ok cs) <-> reads accepts (lines s) cs.
    Proof. apply read_lines_ok. Qed.
    Lemma read_as_commands_err s m :
      read_as_commands parse is_comment s = Done (Err m) <->
      exists pre l post cs msg, lines s = pre ++ l :: post /\ reads accepts pre cs /\ ~ skipped l /\
        parse l = Done (Err msg) /\
        m = txt "Error at line " ++ show (N.of_nat (length pre) + 1) ++ txt ": " ++ msg.
    Proof.
      unfold read_as_commands.
      destruct (read_lines_stop (lines s) 0) as [[cs H]|(pre & l & post & cs & E & H1 & H2 & H3 & H4)].
      - split.
        + intro H'. apply (read_lines_ok _ 0) in H. congruence.
        + intros (pre & l & post & cs' & msg & E & Hp & Hs & Hm & _). exfalso.
          destruct (reads_no_stop pre l post cs') as [c Hc]; [rewrite <- E; eauto|assumption|assumption|].
          unfold accepts in Hc. congruence.
      - rewrite H4. cbn [N.add]. split.
        + intro H. destruct (parse l) as [[c|msg]| |] eqn:Ep; cbn [obind] in H; try discriminate.
          injection H as <-. exists pre, l, post, cs, msg. now repeat split.
        + intros (pre' & l' & post' & cs' & msg & E' & Hp & Hs & Hm & ->).
          rewrite E in E'. apply (reads_prefix_unique pre l post cs H1 H2 H3 pre' l' post' cs' Hp Hs) in E'.
          * destruct E' as (<- & <- & <-). rewrite Hm. reflexivity.
          * unfold accepts. congruence.
    Qed.
    Lemma read_as_commands_panic s :
      read_as_commands parse is_comment s = Panic <->
      exists pre l post cs, lines s = pre ++ l :: post /\ reads accepts pre cs /\ ~ skipped l /\ parse l = Panic.
    Proof.
      unfold read_as_commands.
      destruct (read_lines_stop (lines s) 0) as [[cs H]|(pre & l & post & cs & E & H1 & H2 & H3 & H4)].
      - split.
        + intro H'. apply (read_lines_ok _ 0) in H. congruence.
        + intros (pre & l & post & cs' & E & Hp & Hs & Hm). exfalso.
          destruct (reads_no_stop pre l post cs') as [c Hc]; [rewrite <- E; eauto|assumption|assumption|].
          unfold accepts in Hc. congruence.
      - rewrite H4. split.
        + intro H. destruct (parse l) as [[c|msg]| |] eqn:Ep; cbn [obind] in H; try discriminate.
          * exfalso. apply (H3 c). assumption.
          * exists pre, l, post, cs. now repeat split.
        + intros (pre' & l' & post' & cs' & E' & Hp & Hs & Hm).
          rewrite E in E'. apply (reads_prefix_unique pre l post cs H1 H2 H3 pre' l' post' cs' Hp Hs) in E'.
          * destruct E' as (<- & <- & <-). now rewrite Hm.
          * unfold accepts. congruence.
    Qed.
  End Reader.

  (** ** Written files *)
  Lemma commands_text_lines cs : commands_text cs = concat (map (fun l => l ++ [10]) (map command_into_line cs)).
  Proof. unfold commands_text, writeln. now rewrite map_map. Qed.
  Lemma lines_commands cs : lines (commands_text cs) = map command_into_line cs.
  Proof.
    rewrite commands_text_lines. apply lines_writelns. apply Forall_forall. intros l H.
    apply in_map_iff in H. destruct H as (c & <- & _). apply written_plain.
  Qed.
  Lemma reads_commands cs : Forall u64_command cs ->
    reads (accepts (gcmd_parse_line nd)) (map command_into_line cs) cs.
  Proof.
    induction 1 as [|c cs Hc _ IH]; cbn [map]; [constructor|apply reads_line; try assumption].
    - apply gcmd_line_written in Hc. now apply gcmd_line_shape in Hc.
    - apply gcmd_parse_ok. now apply gcmd_line_written.
  Qed.
  Lemma read_commands_text cs : Forall u64_command cs ->
    gcmd_read_as_commands nd (commands_text cs) = Done (Ok cs).
  Proof. intro H. apply read_as_commands_ok. rewrite lines_commands. now apply reads_commands. Qed.

  Lemma gcmd_text_commands g : gcmd_text g = commands_text (as_commands g).
  Proof.
    unfold gcmd_text, commands_text, as_commands. rewrite map_app, concat_app, !map_map. reflexivity.
  Qed.
  Lemma closed_commands cs : closed (commands_text cs).
  Proof.
    destruct cs as [|c cs] using rev_ind; [now left|]. right. unfold commands_text.
    rewrite map_app, concat_app. cbn [map concat]. rewrite app_nil_r. unfold writeln. rewrite app_assoc. eauto.
  Qed.
  Lemma closed_app a b : closed a -> closed b -> closed (a ++ b).
  Proof.
    intros Ha [->|[p ->]]; [now rewrite app_nil_r|]. right. exists (a ++ p). now rewrite app_assoc.
  Qed.

  Lemma as_commands_u64 g : wf g -> u64_graph g -> Forall u64_command (as_commands g).
  Proof.
    intros W H. unfold as_commands. apply Forall_app. split; apply Forall_forall; intros c Hc.
    - apply in_map_iff in Hc. destruct Hc as (v & <- & Hv). apply H. now apply vertices_In.
    - apply in_map_iff in Hc. destruct Hc as ([a b] & <- & He). cbn.
      apply (edges_In _ _ W) in He. destruct (wf_hasE_V W He).
      split; apply H; now apply contains_vertex_hasV.
  Qed.
  Lemma gcmd_roundtrip g : wf g -> u64_graph g ->
    gcmd_read nd (gcmd_text g) = Done (Ok (apply_commands (as_commands g) g_new)).
  Proof.
    intros W H. unfold gcmd_read, read. rewrite gcmd_text_commands.
    pose proof (read_commands_text (as_commands g) (as_commands_u64 g W H)) as E.
    unfold gcmd_read_as_commands in E. now rewrite E.
  Qed.

  (** tgf *)
  Definition tgf_written (c : graph_command) : text :=
    match c with
    | AddVertex v | RemoveVertex v => show v
    | AddEdge a b | RemoveEdge a b => show a ++ txt " " ++ show b
    end.
  Lemma tgf_text_commands g :
    tgf_text g = concat (map (fun l => l ++ [10]) (map tgf_written (as_commands g))).
  Proof.
    unfold tgf_text, as_commands, writeln. rewrite !map_app, concat_app, !map_map. reflexivity.
  Qed.
  Lemma label_nil : label isd [].
  Proof. split; [intros []|discriminate]. Qed.
  Lemma tgf_line_written c : u64_command c -> (forall v, c <> RemoveVertex v) -> (forall a b, c <> RemoveEdge a b) ->
    tgf_line isd numeral (tgf_written c) c.
  Proof.
    intros H N1 N2. destruct c as [v|v|a b|a b]; cbn [tgf_written u64_command] in *.
    - rewrite <- (app_nil_r (show v)). constructor; [now apply show_numeral|].
      split; [apply label_nil|]. intros [|? ?] c t E; discriminate.
    - now destruct (N1 v).
    - rewrite <- (app_nil_r (show b)). constructor; try (now apply show_numeral); [|apply label_nil].
      split; [discriminate|]. constructor; [|constructor]. apply ws_blank. reflexivity.
    - now destruct (N2 a b).
  Qed.
  Lemma tgf_line_shape l c : tgf_line isd numeral l c -> ~ skipped l.
  Proof.
    intro H. assert (Hx : exists x t, l = x :: t /\ 48 <= x <= 57).
    { assert (Hd : forall d n r, numeral d n -> exists x t, d ++ r = x :: t /\ 48 <= x <= 57).
      { intros d n r [[H1 H2] _]. destruct d as [|x d]; [congruence|]. inversion H2; subst.
        exists x, (d ++ r). split; [reflexivity|]. now apply ascii09_range. }
      inversion H; subst; eauto. }
    destruct Hx as (x & t & -> & Hx).
    intros [E|(w & u & E & Hw)]; [discriminate|].
    destruct Hw as [|y w Hy Hw]; injection E as -> _; [lia|].
    unfold blank in Hy. cbn [In] in Hy. lia.
  Qed.
  Lemma tgf_written_plain c : plain (tgf_written c).
  Proof.
    destruct c as [v|v|a b|a b]; cbn [tgf_written].
    - apply (plain_app_show [] v). intros [].
    - apply (plain_app_show [] v). intros [].
    - rewrite app_assoc. apply plain_app_show. apply no_lf_app. split; [apply show_no_lf|now apply no_lf_txt].
    - rewrite app_assoc. apply plain_app_show. apply no_lf_app. split; [apply show_no_lf|now apply no_lf_txt].
  Qed.
  Lemma tgf_roundtrip g : wf g -> u64_graph g ->
    tgf_read nd (tgf_text g) = Done (Ok (apply_commands (as_commands g) g_new)).
  Proof.
    intros W H. unfold tgf_read, read.
    assert (E : read_as_commands (tgf_parse_line nd) is_comment (tgf_text g) = Done (Ok (as_commands g))).
    { apply read_as_commands_ok. rewrite tgf_text_commands, lines_writelns.
      - assert (Hu : Forall (fun c => tgf_line isd numeral (tgf_written c) c) (as_commands g)).
        { pose proof (as_commands_u64 g W H) as Hu. rewrite Forall_forall in *. intros c Hc.
          apply tgf_line_written; [now apply Hu| |]; unfold as_commands in Hc; apply in_app_or in Hc;
            destruct Hc as [Hc|Hc]; apply in_map_iff in Hc; destruct Hc as (? & <- & _); discriminate. }
        induction Hu as [|c cs Hc _ IH]; cbn [map]; [constructor|apply reads_line; try assumption].
        + now apply tgf_line_shape in Hc.
        + now apply tgf_parse_ok.
      - apply Forall_forall. intros l Hl. apply in_map_iff in Hl. destruct Hl as (c & <- & _). apply tgf_written_plain. }
    now rewrite E.
  Qed.
End Table.
