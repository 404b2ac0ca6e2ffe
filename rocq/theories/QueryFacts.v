(** * Lemmas on the options and outputs of the query tools *)
From Coq Require Import String.
From Coq Require Import List NArith ZArith Bool Arith Lia.
From Verif Require Import Spec Base Graph GraphSpec GraphFacts Path ConstraintSpec PathFacts PropPath Queue Iter Topo Cycle CycleFacts
  Text Format FormatSpec TextFacts FormatFacts Store StoreFacts Cli CliSpec CliFacts Query QuerySpec.
Import ListNotations.
Open Scope N_scope.

(** ** Numbers *)
Lemma parse_digits_max_spec max s : forall acc n, acc <= max ->
  (parse_digits_max max acc s = Some n <->
   Forall ascii09 s /\ acc * 10 ^ N.of_nat (length s) + decimal s = n /\ n <= max).
Proof.
  induction s as [|c s IH]; intros acc n Ha; cbn [parse_digits_max decimal length].
  - cbn [N.of_nat]. rewrite N.pow_0_r. split.
    + intros [= <-]. split; [constructor|]. lia.
    + intros (_ & H & _). f_equal. lia.
  - destruct (ascii_digit c) eqn:Ec.
    + rewrite ascii_digit_09 in Ec. pose proof (proj1 (ascii09_range c) Ec) as Hr.
      rewrite Nat2N.inj_succ, N.pow_succ_r'.
      destruct (N.leb_spec (acc * 10 + (c - 48)) max) as [Hl|Hl].
      * rewrite IH by assumption. split.
        -- intros (H1 & H2 & H3). split; [now constructor|]. split; [|assumption]. rewrite <- H2. lia.
        -- intros (H1 & H2 & H3). inversion H1; subst. split; [assumption|]. split; [lia|assumption].
      * split; [discriminate|]. intros (H1 & H2 & H3). exfalso.
        assert (Hp : 1 <= 10 ^ N.of_nat (length s)) by (apply N.lt_pred_le, N.lt_le_trans with 1; [reflexivity|];
          change 1 with (10 ^ 0) at 1; apply N.pow_le_mono_r; lia).
        assert ((acc * 10 + (c - 48)) * 1 <= (acc * 10 + (c - 48)) * 10 ^ N.of_nat (length s))
          by (apply N.mul_le_mono_l; assumption).
        lia.
    + split; [discriminate|]. intros (H1 & _). inversion H1 as [|? ? Hc]; subst.
      apply ascii_digit_09 in Hc. congruence.
Qed.
Lemma parse_magnitude_spec max s n :
  parse_magnitude max s = Some n <-> run ascii09 s /\ decimal s = n /\ n <= max.
Proof.
  unfold parse_magnitude, run. destruct s as [|c t].
  - split; [discriminate|]. intros [[H _] _]. congruence.
  - rewrite parse_digits_max_spec by lia. split.
    + intros (H1 & H2 & H3). repeat split; [discriminate|assumption|lia|assumption].
    + intros ([_ H1] & H2 & H3). split; [assumption|]. split; [lia|assumption].
Qed.
Lemma digits_head c d : run ascii09 (c :: d) -> c <> 43 /\ c <> 45.
Proof. intros [_ H]. inversion H as [|? ? Hc]; subst. apply ascii09_range in Hc. lia. Qed.
Lemma parse_i64_spec s z : parse_i64 s = Some z <-> int_argument s z.
Proof.
  unfold parse_i64, int_argument. destruct s as [|c t].
  - split; [discriminate|]. intros (_ & d & Hd & H).
    destruct H as [[[<-|H] _]|[H _]]; [now destruct Hd|discriminate|discriminate].
  - assert (Hm : forall max s, option_map Z.of_N (parse_magnitude max s) = Some z <->
       exists n, run ascii09 s /\ decimal s = n /\ n <= max /\ z = Z.of_N n).
    { intros max s. destruct (parse_magnitude max s) as [n|] eqn:E; cbn [option_map].
      - apply parse_magnitude_spec in E. destruct E as (E1 & E2 & E3). split.
        + intros [= <-]. exists n. auto.
        + intros (m & _ & H2 & _ & ->). congruence.
      - split; [discriminate|]. intros (m & H1 & H2 & H3 & _).
        assert (parse_magnitude max s = Some m) by now apply parse_magnitude_spec. congruence. }
    destruct (N.eqb_spec c 43) as [->|Hp]; [|destruct (N.eqb_spec c 45) as [->|Hq]].
    + rewrite Hm. change (2 ^ 63 - 1) with 9223372036854775807. split.
      * intros (n & H1 & H2 & H3 & ->). split; [lia|]. exists t. split; [assumption|]. left. split; [now right|]. now subst.
      * intros (Hr & d & Hd & [[[<-|H] ->]|[H _]]).
        -- apply digits_head in Hd. tauto.
        -- injection H as <-. exists (decimal t). repeat split; try apply Hd. lia.
        -- discriminate.
    + destruct (parse_magnitude (2 ^ 63) t) as [n|] eqn:E; cbn [option_map].
      * apply parse_magnitude_spec in E. destruct E as (E1 & E2 & E3). change (2 ^ 63) with 9223372036854775808 in E3. split.
        -- intros [= <-]. split; [lia|]. exists t. split; [assumption|]. right. now subst.
        -- intros (Hr & d & Hd & [[[<-|H] ->]|[H ->]]).
           ++ apply digits_head in Hd. tauto.
           ++ discriminate.
           ++ injection H as <-. now subst.
      * split; [discriminate|]. intros (Hr & d & Hd & [[[<-|H] ->]|[H ->]]).
        -- apply digits_head in Hd. tauto.
        -- discriminate.
        -- injection H as <-. assert (parse_magnitude (2 ^ 63) t = Some (decimal t)); [|congruence].
           apply parse_magnitude_spec. split; [assumption|]. split; [reflexivity|].
           change (2 ^ 63) with 9223372036854775808. lia.
    + rewrite Hm. change (2 ^ 63 - 1) with 9223372036854775807. split.
      * intros (n & H1 & H2 & H3 & ->). split; [lia|]. exists (c :: t). split; [assumption|]. left. split; [now left|]. now subst.
      * intros (Hr & d & Hd & [[[<-|H] ->]|[H _]]).
        -- exists (decimal (c :: t)). repeat split; try apply Hd. lia.
        -- injection H as -> _. congruence.
        -- injection H as -> _. congruence.
Qed.

(** ** Options *)
Local Notation holds := ConstraintSpec.holds.
Definition sat (cs : list constraint) (p : list N) (f : Z) : Prop := forall c, In c cs -> holds c p f.
Lemma sat_app cs ds p f : sat (cs ++ ds) p f <-> sat cs p f /\ sat ds p f.
Proof.
  unfold sat. split.
  - intro H. split; intros c Hc; apply H, in_app_iff; tauto.
  - intros [H1 H2] c Hc. apply in_app_iff in Hc. destruct Hc; auto.
Qed.
Lemma sat_nil p f : sat [] p f <-> True.
Proof. split; [trivial|intros _ c []]. Qed.
Lemma sat_one c p f : sat [c] p f <-> holds c p f.
Proof. split; [intro H; apply H; now left|]. intros H d [<-|[]]. exact H. Qed.

(** A well-formed option contributes what its builder makes of its value. *)
Lemma sat_opt {A B C} (o : option A) (r : option C) (parse : A -> option B) (denotes : A -> C -> Prop)
    (conv : C -> B) (build : B -> list constraint) p f :
  (forall a c, denotes a c -> parse a = Some (conv c)) -> given denotes o r ->
  (sat (opt_list o parse build) p f <-> forall c, r = Some c -> sat (build (conv c)) p f).
Proof.
  intros Hp Hg. destruct o as [a|], r as [c|]; cbn [given] in Hg; try contradiction; cbn [opt_list].
  - rewrite (Hp a c Hg). split; [intros H d [= <-]; exact H|]. intro H. now apply H.
  - rewrite sat_nil. split; [discriminate|trivial].
Qed.
Lemma parse_usize_given s n : id_argument s n -> parse_usize s = Some (N.to_nat n).
Proof. intro H. unfold parse_usize. apply parse_id_spec in H. now rewrite H. Qed.

Lemma bound_constraints_spec b r p f : bounds_given b r -> r_max_score r = None ->
  (sat (bound_constraints b) p f <-> within r (N.of_nat (length p)) f).
Proof.
  intros (G1 & G2 & G3 & G4 & G5 & G6) Hmax. unfold bound_constraints, opt_one, within.
  assert (Hi : forall a c, int_argument a c -> parse_i64 a = Some c) by (intros; now apply parse_i64_spec).
  rewrite !sat_app.
  rewrite (sat_opt _ _ parse_usize id_argument N.to_nat _ p f parse_usize_given G1).
  rewrite (sat_opt _ _ parse_usize id_argument N.to_nat _ p f parse_usize_given G2).
  rewrite (sat_opt _ _ parse_usize id_argument N.to_nat _ p f parse_usize_given G3).
  rewrite (sat_opt _ _ parse_i64 int_argument (fun z => z) _ p f Hi G4).
  rewrite (sat_opt _ _ parse_i64 int_argument (fun z => z) _ p f Hi G5).
  rewrite (sat_opt _ _ parse_i64 int_argument (fun z => z) _ p f Hi G6).
  rewrite Hmax. pose proof (C79_builders p f) as HB.
  destruct HB as (_ & _ & _ & _ & _ & _ & _ & B1 & B2 & B3 & B4 & B5).
  split.
  - intros (H1 & H2 & H3 & H4 & H5 & H6). repeat split.
    + intros n Hn. specialize (H1 n Hn). rewrite sat_one, B1 in H1. lia.
    + intros n Hn. specialize (H2 n Hn). rewrite sat_one, B2 in H2. lia.
    + intros n Hn. specialize (H3 n Hn). unfold sat in H3. rewrite B3 in H3. lia.
    + intros n Hn. specialize (H4 n Hn). now rewrite sat_one, B4 in H4.
    + discriminate.
    + intros n Hn. specialize (H6 n Hn). unfold sat in H6. now rewrite B5 in H6.
  - intros (H1 & H2 & H3 & H4 & H5 & H6). repeat split.
    + intros n Hn. specialize (H1 n Hn). rewrite sat_one, B1. lia.
    + intros n Hn. specialize (H2 n Hn). rewrite sat_one, B2. lia.
    + intros n Hn. specialize (H3 n Hn). unfold sat. rewrite B3. lia.
    + intros n Hn. specialize (H4 n Hn). now rewrite sat_one, B4.
    + discriminate.
    + intros n Hn. specialize (H6 n Hn). unfold sat. now rewrite B5.
Qed.

Lemma parse_list_given vs ns : id_arguments vs ns -> parse_vertex_id_list vs = Some ns.
Proof. apply parse_list_spec. Qed.
Lemma sat_flag (b : bool) c p f : sat (if b then [c] else []) p f <-> (b = true -> holds c p f).
Proof. destruct b; [rewrite sat_one; tauto|rewrite sat_nil; split; [discriminate|trivial]]. Qed.

Lemma csp_constraints_spec a r p : csp_given a r -> usual r ->
  (sat (csp_constraints a) p (Z.of_nat (hops p)) <-> meets r p).
Proof.
  intros (G1 & G2 & G3 & G4 & G5 & G6) [U1 U2]. unfold csp_constraints, meets, opt_one. rewrite !sat_app.
  rewrite (sat_opt _ _ parse_vertex_id_list id_arguments (fun l => l) _ p _ parse_list_given G1).
  rewrite (sat_opt _ _ parse_vertex_id_list id_arguments (fun l => l) _ p _ parse_list_given G2).
  rewrite (sat_opt _ _ parse_vertex_id_list id_arguments (fun l => l) _ p _ parse_list_given G3).
  rewrite !sat_flag, G4, G5. rewrite (bound_constraints_spec _ _ _ _ G6 U1).
  destruct (C79_builders p (Z.of_nat (hops p))) as (B1 & B2 & _ & _ & B3 & B4 & B5 & _).
  rewrite B4, B5. split.
  - intros (H1 & H2 & H3 & H4 & H5 & H6). split; [|split; [|split; [|split; [|split]]]]; try assumption.
    + intros l v Hl Hv. specialize (H1 l Hl). unfold sat in H1. rewrite B1 in H1. now apply H1.
    + intros l v Hl Hv. specialize (H2 l Hl). unfold sat in H2. rewrite B2 in H2. now apply H2.
    + intros l x y Hl Hv. specialize (H3 l Hl). rewrite sat_one, B3 in H3 by now apply U2. now apply H3.
  - intros (H1 & H2 & H3 & H4 & H5 & H6). split; [|split; [|split; [|split; [|split]]]]; try assumption.
    + intros l Hl. unfold sat. rewrite B1. intros v Hv. eapply H1; eassumption.
    + intros l Hl. unfold sat. rewrite B2. intros v Hv. eapply H2; eassumption.
    + intros l Hl. rewrite sat_one, B3 by now apply U2. intros x y Hv. eapply H3; eassumption.
Qed.

Lemma edge_list_given vs es : edge_arguments vs es -> edge_list vs = Some es.
Proof.
  unfold edge_arguments, edge_list, parse_edge_list. intro H. rewrite (parse_list_given _ _ H).
  now rewrite tuple_even.
Qed.
Lemma cycle_constraints_spec a r c : cycle_given a r -> r_max_score (k_bounds r) = None ->
  (sat (cycle_constraints a) c (Z.of_nat (length c)) <-> cycle_meets r c).
Proof.
  intros (G1 & G2 & G3 & G4 & G5) U. unfold cycle_constraints, cycle_meets. rewrite !sat_app.
  rewrite (sat_opt _ _ parse_vertex_id_list id_arguments (fun l => l) _ c _ parse_list_given G1).
  rewrite (sat_opt _ _ parse_vertex_id_list id_arguments (fun l => l) _ c _ parse_list_given G2).
  rewrite (sat_opt _ _ edge_list edge_arguments (fun l => l) _ c _ edge_list_given G3).
  rewrite (sat_opt _ _ edge_list edge_arguments (fun l => l) _ c _ edge_list_given G4).
  rewrite (bound_constraints_spec _ _ _ _ G5 U).
  destruct (C79_builders c (Z.of_nat (length c))) as (B1 & B2 & B3 & B4 & _).
  split.
  - intros (H1 & H2 & H3 & H4 & H5). split; [|split; [|split; [|split]]]; try assumption.
    + intros l v Hl Hv. specialize (H1 l Hl). unfold sat in H1. rewrite B1 in H1. now apply H1.
    + intros l v Hl Hv. specialize (H2 l Hl). unfold sat in H2. rewrite B2 in H2. now apply H2.
    + intros l x y Hl Hv. specialize (H3 l Hl). unfold sat in H3. rewrite B3 in H3. now apply H3.
    + intros l x y Hl Hv. specialize (H4 l Hl). unfold sat in H4. rewrite B4 in H4. now apply H4.
  - intros (H1 & H2 & H3 & H4 & H5). split; [|split; [|split; [|split]]]; try assumption.
    + intros l Hl. unfold sat. rewrite B1. intros v Hv. eapply H1; eassumption.
    + intros l Hl. unfold sat. rewrite B2. intros v Hv. eapply H2; eassumption.
    + intros l Hl. unfold sat. rewrite B3. intros x y Hv. eapply H3; eassumption.
    + intros l Hl. unfold sat. rewrite B4. intros x y Hv. eapply H4; eassumption.
Qed.

(** ** Output *)
Lemma path_lines_listed p : listed p (path_lines p).
Proof. induction p as [|v p IH]; constructor; [apply show_spec|exact IH]. Qed.
Lemma spaced_concat vs : spaced vs (concat (map (fun v => show v ++ txt " ") vs)).
Proof.
  induction vs as [|v vs IH]; cbn [map concat]; [constructor|]. rewrite <- app_assoc.
  apply (sp_cons v (show v) vs _ (show_spec v) IH).
Qed.
Lemma format_cycle_vec c : vec_text c (format_cycle c).
Proof.
  unfold vec_text, format_cycle, debug_vec. exists (commas (map show c)). split; [|reflexivity].
  induction c as [|v c IH]; [constructor|]. destruct c as [|w c]; [cbn; constructor; apply show_spec|].
  cbn [map commas]. apply (vb_more v (show v) w c _ (show_spec v) IH).
Qed.
Lemma show_i64_nat n : show_i64 (Z.of_nat n) = show (N.of_nat n).
Proof.
  unfold show_i64. destruct (Z.ltb_spec (Z.of_nat n) 0); [lia|]. f_equal. lia.
Qed.

(** ** The filtered iterator *)
Lemma filter_step A S (next : nat -> S -> outcome (option (A * S))) pred s l : runs next s l ->
  exists n0 t, forall n k, (n0 <= n)%nat -> (length l < k)%nat ->
    filter_next next pred n k s = Done t /\
    match filter pred l with
    | [] => t = None
    | a :: r => exists s' l', t = Some (a, s') /\ runs next s' l' /\ filter pred l' = r /\ (length l' < length l)%nat
    end.
Proof.
  induction 1 as [s [n0 Hn]|s a s' l [n0 Hn] Hr (n1 & t & IH)].
  - exists n0, None. intros n k H1 H2. destruct k; [lia|]. cbn. now rewrite Hn.
  - destruct (pred a) eqn:Ep.
    + exists n0, (Some (a, s')). intros n k H1 H2. destruct k as [|k]; [cbn in H2; lia|].
      cbn [filter filter_next]. rewrite Hn by lia. cbn [obind]. rewrite Ep. split; [reflexivity|].
      exists s', l. split; [reflexivity|]. split; [assumption|]. split; [reflexivity|cbn; lia].
    + exists (n0 + n1)%nat, t. intros n k H1 H2. destruct k as [|k]; [cbn in H2; lia|].
      cbn [filter filter_next]. rewrite Hn by lia. cbn [obind]. rewrite Ep.
      destruct (IH n k) as [I1 I2]; [lia|cbn in H2; lia|]. split; [exact I1|].
      destruct (filter pred l); [exact I2|]. destruct I2 as (s2 & l2 & J1 & J2 & J3 & J4).
      exists s2, l2. repeat split; try assumption. cbn. lia.
Qed.
(** The filtered iterator runs through the filtered list. *)
Lemma runs_filter A S (next : nat -> S -> outcome (option (A * S))) pred l : forall s, runs next s l ->
  runs (fun n => filter_next next pred n n) s (filter pred l).
Proof.
  induction l as [l IHl] using (well_founded_induction (well_founded_ltof _ (@length A))).
  intros s H. destruct (filter_step _ _ next pred s l H) as (n0 & t & Hgen).
  destruct (Hgen (n0 + length l)%nat (Datatypes.S (length l)) ltac:(lia) ltac:(lia)) as [_ Hm].
  destruct (filter pred l) as [|a r].
  - subst t. apply runs_nil. exists (n0 + Datatypes.S (length l))%nat. intros n Hn. apply Hgen; lia.
  - destruct Hm as (s' & l' & -> & Hr & <- & Hl). eapply runs_cons.
    + exists (n0 + Datatypes.S (length l))%nat. intros n Hn. apply Hgen; lia.
    + apply IHl; assumption.
Qed.

(** ** Loading *)
Lemma run_with_graph nd order f s : run_prog (with_graph nd order f) s =
  (s, match snd (run_prog (load_graph nd) s) with Done (Ok g) => f (order g) | _ => Panic end).
Proof. reflexivity. Qed.

(** ** The listing of constraints *)
Lemma opt_list_given A B C (parse : A -> option B) (denotes : A -> C -> Prop) (conv : C -> B) build o r :
  (forall a c, denotes a c -> parse a = Some (conv c)) -> given denotes o r ->
  opt_list o parse build = when r (fun c => build (conv c)).
Proof.
  intros H G. destruct o as [a|], r as [c|]; try contradiction; [|reflexivity]. cbn in *. now rewrite (H a c G).
Qed.
Lemma csp_constraints_requested a r : csp_given a r -> usual r -> csp_constraints a = requested r.
Proof.
  intros (G1 & G2 & G3 & G4 & G5 & (B1 & B2 & B3 & B4 & B5 & B6)) [U1 _].
  assert (Hi : forall t z, int_argument t z -> parse_i64 t = Some z) by (intros t z H; now apply parse_i64_spec).
  unfold csp_constraints, requested, bound_constraints, opt_one.
  rewrite (opt_list_given _ _ _ _ id_arguments (fun l => l) _ _ _ parse_list_given G1).
  rewrite (opt_list_given _ _ _ _ id_arguments (fun l => l) _ _ _ parse_list_given G2).
  rewrite (opt_list_given _ _ _ _ id_arguments (fun l => l) _ _ _ parse_list_given G3).
  rewrite (opt_list_given _ _ _ _ id_argument N.to_nat _ _ _ parse_usize_given B1).
  rewrite (opt_list_given _ _ _ _ id_argument N.to_nat _ _ _ parse_usize_given B2).
  rewrite (opt_list_given _ _ _ _ id_argument N.to_nat _ _ _ parse_usize_given B3).
  rewrite (opt_list_given _ _ _ _ int_argument (fun z => z) _ _ _ Hi B4).
  rewrite (opt_list_given _ _ _ _ int_argument (fun z => z) _ _ _ Hi B5).
  rewrite (opt_list_given _ _ _ _ int_argument (fun z => z) _ _ _ Hi B6).
  rewrite G4, G5, U1. reflexivity.
Qed.

Lemma show_i64_text z : int_text z (show_i64 z).
Proof.
  unfold int_text, show_i64. destruct (Z.ltb_spec z 0).
  - right. split; [assumption|]. exists (show (Z.abs_N z)). split; [|reflexivity].
    replace (Z.to_N (- z)) with (Z.abs_N z) by lia. apply show_spec.
  - left. split; [assumption|]. apply show_spec.
Qed.
Lemma debug_ids_text vs : ids_text vs (commas (map debug_vertex vs)).
Proof.
  induction vs as [|v [|w vs] IH]; [constructor| |].
  - cbn [map commas]. apply it_one, show_spec.
  - cbn [map] in *. change (commas (debug_vertex v :: debug_vertex w :: map debug_vertex vs)) with
      (debug_vertex v ++ txt ", " ++ commas (debug_vertex w :: map debug_vertex vs)).
    unfold debug_vertex at 1. rewrite <- !app_assoc. apply (it_more v (show v)); [apply show_spec|exact IH].
Qed.
Lemma debug_printed c : printed c (debug_constraint c).
Proof.
  induction c as [v|[a b]|vs| |n|n|z|z|a IHa b IHb|a IHa b IHb|a IHa b IHb|a IHa]; cbn [debug_constraint].
  - unfold debug_vertex. rewrite <- !app_assoc. apply (pr_vertex v (show v)), show_spec.
  - unfold debug_edge, debug_vertex. cbn [fst snd]. rewrite <- !app_assoc.
    apply (pr_edge a b (show a) (show b)); apply show_spec.
  - unfold debug_vec. rewrite <- !app_assoc. apply (pr_ordered vs (commas (map debug_vertex vs))), debug_ids_text.
  - constructor.
  - constructor. apply show_spec.
  - constructor. apply show_spec.
  - constructor. apply show_i64_text.
  - constructor. apply show_i64_text.
  - now constructor.
  - now constructor.
  - now constructor.
  - now constructor.
Qed.

(** A printed constraint can be read back in one way only. *)
Lemma digits_split d d' x x' c c' : Forall ascii09 d -> Forall ascii09 d' -> ~ ascii09 c -> ~ ascii09 c' ->
  d ++ c :: x = d' ++ c' :: x' -> d = d' /\ c = c' /\ x = x'.
Proof.
  revert d'. induction d as [|a d IH]; intros [|a' d'] F F' Hc Hc' E; cbn in E.
  - now injection E as -> ->.
  - injection E as -> _. inversion F'; subst. contradiction.
  - injection E as -> _. inversion F; subst. contradiction.
  - injection E as -> E. inversion F; inversion F'; subst. destruct (IH d' H2 H6 Hc Hc' E) as (-> & -> & ->). auto.
Qed.
Lemma paren_no_digit : ~ ascii09 41.
Proof. rewrite ascii09_range. lia. Qed.
Lemma canonical_read d d' v v' x x' : canonical_numeral d v -> canonical_numeral d' v' ->
  d ++ 41 :: x = d' ++ 41 :: x' -> v = v' /\ x = x'.
Proof.
  intros ([_ F] & H & _) ([_ F'] & H' & _) E.
  destruct (digits_split _ _ _ _ _ _ F F' paren_no_digit paren_no_digit E) as (-> & _ & ->). now subst.
Qed.
Lemma canonical_head d v : canonical_numeral d v -> exists c t, d = c :: t /\ ascii09 c.
Proof. intros ([Hn F] & _). destruct d as [|c t]; [congruence|]. inversion F; subst. eauto. Qed.
Lemma int_read d d' z z' x x' : int_text z d -> int_text z' d' -> d ++ 41 :: x = d' ++ 41 :: x' -> z = z' /\ x = x'.
Proof.
  intros [[H1 H2]|[H1 (e & H2 & ->)]] [[H1' H2']|[H1' (e' & H2' & ->)]] E.
  - destruct (canonical_read _ _ _ _ _ _ H2 H2' E) as [Hv ->]. split; [lia|reflexivity].
  - destruct (canonical_head _ _ H2) as (c & t & -> & Hc). injection E as -> _. rewrite ascii09_range in Hc. lia.
  - destruct (canonical_head _ _ H2') as (c & t & -> & Hc). injection E as <- _. rewrite ascii09_range in Hc. lia.
  - injection E as E. destruct (canonical_read _ _ _ _ _ _ H2 H2' E) as [Hv ->]. split; [lia|reflexivity].
Qed.
Lemma ids_read vs t : ids_text vs t -> forall vs' t' x x', ids_text vs' t' ->
  t ++ 93 :: x = t' ++ 93 :: x' -> vs = vs' /\ x = x'.
Proof.
  induction 1 as [|v d Hd|v d w vs t Hd Ht IH]; intros vs' t' x x' H' E;
    destruct H' as [|v' d' Hd'|v' d' w' vs' t' Hd' Ht']; try discriminate E.
  - now injection E as ->.
  - rewrite <- !app_assoc in E. apply app_inv_head in E.
    destruct (canonical_read _ _ _ _ _ _ Hd Hd' E) as [-> [= ->]]. auto.
  - rewrite <- !app_assoc in E. apply app_inv_head in E.
    destruct (canonical_read _ _ _ _ _ _ Hd Hd' E) as [_ E']. discriminate E'.
  - rewrite <- !app_assoc in E. apply app_inv_head in E.
    destruct (canonical_read _ _ _ _ _ _ Hd Hd' E) as [_ E']. discriminate E'.
  - rewrite <- !app_assoc in E. apply app_inv_head in E.
    destruct (canonical_read _ _ _ _ _ _ Hd Hd' E) as [-> E']. injection E' as E'.
    destruct (IH _ _ _ _ Ht' E') as [[= -> ->] ->]. auto.
Qed.
Lemma printed_read c t : printed c t -> forall c' t' x x', printed c' t' -> t ++ x = t' ++ x' -> c = c' /\ x = x'.
Proof.
  induction 1 as [v d H|a b d e H1 H2|vs t H| |n d H|n d H|z d H|z d H|a b t u Ha IHa Hb IHb|a b t u Ha IHa Hb IHb
                 |a b t u Ha IHa Hb IHb|a t Ha IHa];
    intros c' t' x x' H' E;
    destruct H' as [v' d' H'|a' b' d' e' H1' H2'|vs' t' H'| |n' d' H'|n' d' H'|z' d' H'|z' d' H'|a' b' t' u' Ha' Hb'
                   |a' b' t' u' Ha' Hb'|a' b' t' u' Ha' Hb'|a' t' Ha']; try discriminate E;
    rewrite <- ?app_assoc in E; try apply app_inv_head in E.
  - destruct (canonical_read _ _ _ _ _ _ H H' E) as [-> [= ->]]. auto.
  - destruct (canonical_read _ _ _ _ _ _ H1 H1' E) as [-> E']. injection E' as E'.
    destruct (canonical_read _ _ _ _ _ _ H2 H2' E') as [-> [= ->]]. auto.
  - destruct (ids_read _ _ H _ _ _ _ H' E) as [-> [= ->]]. auto.
  - auto.
  - destruct (canonical_read _ _ _ _ _ _ H H' E) as [Hn ->]. split; [f_equal; lia|reflexivity].
  - destruct (canonical_read _ _ _ _ _ _ H H' E) as [Hn ->]. split; [f_equal; lia|reflexivity].
  - destruct (int_read _ _ _ _ _ _ H H' E) as [-> ->]. auto.
  - destruct (int_read _ _ _ _ _ _ H H' E) as [-> ->]. auto.
  - destruct (IHa _ _ _ _ Ha' E) as [-> E']. apply app_inv_head in E'.
    destruct (IHb _ _ _ _ Hb' E') as [-> E'']. apply app_inv_head in E''. subst. auto.
  - destruct (IHa _ _ _ _ Ha' E) as [-> E']. apply app_inv_head in E'.
    destruct (IHb _ _ _ _ Hb' E') as [-> E'']. apply app_inv_head in E''. subst. auto.
  - destruct (IHa _ _ _ _ Ha' E) as [-> E']. apply app_inv_head in E'.
    destruct (IHb _ _ _ _ Hb' E') as [-> E'']. apply app_inv_head in E''. subst. auto.
  - destruct (IHa _ _ _ _ Ha' E) as [-> E']. apply app_inv_head in E'. subst. auto.
Qed.
