(** * Theorems on the error texts of [validate] (C167) *)
From Coq Require Import String.
From Coq Require Import List NArith ZArith Bool Permutation Lia.
From Verif Require Import Base Path Text TextFacts FormatSpec FormatFacts ConstraintSpec PathFacts Query QuerySpec QueryFacts Refusal RefusalSpec.
Import ListNotations.
Open Scope nat_scope.

Lemma commas_items A (item : A -> text -> Prop) f : (forall a, item a (f a)) -> forall l, items item l (commas (map f l)).
Proof.
  intros H. induction l as [|a [|b l] IH]; [constructor|constructor; apply H|].
  exact (is_more item a (f a) b l _ (H a) IH).
Qed.
Lemma vec_bracketed A (item : A -> text -> Prop) f l : (forall a, item a (f a)) -> bracketed item l (debug_vec (map f l)).
Proof. intro H. eexists. split; [now apply commas_items|reflexivity]. Qed.
Lemma vertex_item v : a_vertex v (debug_vertex v).
Proof. exists (show v). split; [apply show_spec|reflexivity]. Qed.
Lemma edge_item e : an_edge e (debug_edge e).
Proof. exists (debug_vertex (fst e)), (debug_vertex (snd e)). split; [apply vertex_item|]. split; [apply vertex_item|reflexivity]. Qed.
Lemma length_item n : a_length n (show_usize n).
Proof. apply show_spec. Qed.

Lemma distinct_In A (mem : A -> list A -> bool) : (forall a l, mem a l = true <-> In a l) -> forall l,
  NoDup (distinct mem l) /\ forall a, In a (distinct mem l) <-> In a l.
Proof.
  intros H. induction l as [|x l [IH1 IH2]]; cbn [distinct]; [split; [constructor|tauto]|].
  destruct (mem x l) eqn:E.
  - apply H in E. split; [assumption|]. intro a. rewrite IH2. cbn. split; [tauto|]. intros [<-|]; assumption.
  - split; [|intro a; cbn; rewrite IH2; tauto]. constructor; [|assumption]. rewrite IH2. intro Hx. apply H in Hx. congruence.
Qed.
Lemma both_exactly A (mem : A -> list A -> bool) (order : list A -> list A) incl excl (P : A -> Prop) :
  (forall a l, mem a l = true <-> In a l) -> (forall l, Permutation (order l) l) ->
  (forall a, In a incl /\ In a excl <-> P a) ->
  exactly P (filter (fun a => mem a excl) (order (distinct mem incl))).
Proof.
  intros H O HP. destruct (distinct_In A mem H incl) as [D1 D2]. split.
  - apply NoDup_filter. eapply Permutation_NoDup; [apply Permutation_sym, O|exact D1].
  - intro a. rewrite filter_In, H. rewrite <- HP.
    assert (HO : In a (order (distinct mem incl)) <-> In a incl).
    { rewrite <- D2. split; apply Permutation_in; [apply O|apply Permutation_sym, O]. }
    rewrite HO. reflexivity.
Qed.

Lemma values_filter_map A (kind : A -> constraint) (f : constraint -> option A) :
  (forall a, f (kind a) = Some a) -> (forall c a, f c = Some a -> c = kind a) ->
  forall cs l, values kind cs l <-> filter_map f cs = l.
Proof.
  intros H1 H2 cs. unfold filter_map. induction cs as [|c cs IH]; intro l; cbn [flat_map].
  - split; [now inversion 1|intros <-; constructor].
  - destruct (f c) as [a|] eqn:E.
    + apply H2 in E as Hc. subst c. cbn [app]. split.
      * intro H. inversion H as [|a' cs' l' Hv Ha|c cs' l' Hn Hv]; subst; [|now destruct (Hn a)].
        assert (a' = a) by (pose proof (H1 a'); pose proof (H1 a); congruence). subst a'. f_equal. now apply IH.
      * intros <-. constructor. now apply IH.
    + cbn [app]. rewrite <- IH. split.
      * intro H. inversion H as [|a' cs' l' Hv Ha|]; subst; [rewrite H1 in E; discriminate|assumption].
      * intro H. constructor; [|assumption]. intros a ->. rewrite H1 in E. discriminate.
Qed.

Section Reasons.
  Variables (order_v : list N -> list N) (order_e : list edge -> list edge).
  Hypothesis Ov : forall l, Permutation (order_v l) l.
  Hypothesis Oe : forall l, Permutation (order_e l) l.
  Variable cs : list constraint.
  Notation txt_of := (fun e => error_text order_v order_e e cs).

  Lemma inclusions_In v : In v (vertex_inclusions cs) <-> must_pass cs v.
  Proof.
    unfold vertex_inclusions, must_pass. rewrite in_flat_map. split.
    - intros (c & Hc & Hv). destruct c as [x|[a b]| | | | | | | | | |]; cbn in Hv; try contradiction.
      + destruct Hv as [<-|[]]. now left.
      + right. exists a, b. split; [assumption|]. destruct Hv as [<-|[<-|[]]]; auto.
    - intros [H|(a & b & H & Hv)]; [exists (ContainsVertex v); split; [assumption|now left]|].
      exists (ContainsEdge (a, b)). split; [assumption|]. destruct Hv as [->| ->]; cbn; auto.
  Qed.
  Lemma exclusions_In v : In v (vertex_exclusions cs) <-> In (CNot (ContainsVertex v)) cs.
  Proof.
    unfold vertex_exclusions. rewrite in_flat_map. split.
    - intros (c & Hc & Hv). destruct c as [| | | | | | | | | | |[]]; cbn in Hv; try contradiction.
      destruct Hv as [<-|[]]. assumption.
    - intro H. exists (CNot (ContainsVertex v)). split; [assumption|now left].
  Qed.
  Lemma edge_inclusions_In e : In e (edge_inclusions cs) <-> In (ContainsEdge e) cs.
  Proof.
    unfold edge_inclusions, filter_map. rewrite in_flat_map. split.
    - intros (c & Hc & Hv). destruct c; cbn in Hv; try contradiction. destruct Hv as [<-|[]]. assumption.
    - intro H. exists (ContainsEdge e). split; [assumption|now left].
  Qed.
  Lemma edge_exclusions_In e : In e (edge_exclusions cs) <-> In (CNot (ContainsEdge e)) cs.
  Proof.
    unfold edge_exclusions, filter_map. rewrite in_flat_map. split.
    - intros (c & Hc & Hv). destruct c as [| | | | | | | | | | |[]]; cbn in Hv; try contradiction.
      destruct Hv as [<-|[]]. assumption.
    - intro H. exists (CNot (ContainsEdge e)). split; [assumption|now left].
  Qed.

  Lemma vertex_case :
    check_vertex_incl_excl cs = VOk /\ (forall t, ~ vertex_reason cs t) \/
    check_vertex_incl_excl cs = VErr ErrVertex /\ vertex_reason cs (txt_of ErrVertex).
  Proof.
    unfold check_vertex_incl_excl. destruct (filter _ (vertex_inclusions cs)) as [|v l] eqn:E; [left|right].
    - split; [reflexivity|]. intros t (l & u & [_ Hl] & Hn & _). destruct l as [|v l]; [contradiction|].
      destruct (proj1 (Hl v) (or_introl eq_refl)) as [H1 H2].
      assert (In v []); [|contradiction]. rewrite <- E. apply filter_In. rewrite inclusions_In, memN_In, exclusions_In. auto.
    - split; [reflexivity|].
      assert (Hx : exactly (fun v => must_pass cs v /\ In (CNot (ContainsVertex v)) cs) (both_vertices order_v cs)).
      { apply both_exactly; [exact memN_In|exact Ov|]. intro a. rewrite inclusions_In, exclusions_In. reflexivity. }
      eexists _, _. split; [exact Hx|]. split; [|split; [apply vec_bracketed; exact vertex_item|reflexivity]].
      intro Hn. rewrite Hn in Hx. destruct Hx as [_ Hx]. apply (Hx v).
      assert (Hv : In v (v :: l)) by now left. rewrite <- E in Hv. apply filter_In in Hv as [H1 H2].
      apply memN_In in H2. rewrite inclusions_In in H1. rewrite exclusions_In in H2. auto.
  Qed.
  Lemma edge_case :
    check_edge_incl_excl cs = VOk /\ (forall t, ~ edge_reason cs t) \/
    check_edge_incl_excl cs = VErr ErrEdge /\ edge_reason cs (txt_of ErrEdge).
  Proof.
    unfold check_edge_incl_excl. destruct (filter _ (edge_inclusions cs)) as [|v l] eqn:E; [left|right].
    - split; [reflexivity|]. intros t (l & u & [_ Hl] & Hn & _). destruct l as [|v l]; [contradiction|].
      destruct (proj1 (Hl v) (or_introl eq_refl)) as [H1 H2].
      assert (In v []); [|contradiction]. rewrite <- E. apply filter_In. rewrite edge_inclusions_In, memE_In, edge_exclusions_In. auto.
    - split; [reflexivity|].
      assert (Hx : exactly (fun e => In (ContainsEdge e) cs /\ In (CNot (ContainsEdge e)) cs) (both_edges order_e cs)).
      { apply both_exactly; [exact memE_In|exact Oe|]. intro a. rewrite edge_inclusions_In, edge_exclusions_In. reflexivity. }
      eexists _, _. split; [exact Hx|]. split; [|split; [apply vec_bracketed; exact edge_item|reflexivity]].
      intro Hn. rewrite Hn in Hx. destruct Hx as [_ Hx]. apply (Hx v).
      assert (Hv : In v (v :: l)) by now left. rewrite <- E in Hv. apply filter_In in Hv as [H1 H2].
      apply memE_In in H2. rewrite edge_inclusions_In in H1. rewrite edge_exclusions_In in H2. auto.
  Qed.
  Lemma cycle_case :
    check_cycle_incl_excl cs = VOk /\ (forall t, ~ cycle_reason cs t) \/
    check_cycle_incl_excl cs = VErr ErrCycle /\ cycle_reason cs (txt_of ErrCycle).
  Proof.
    assert (Hd : check_cycle_incl_excl cs = VOk \/ check_cycle_incl_excl cs = VErr ErrCycle)
      by (unfold check_cycle_incl_excl; destruct (negb _); auto).
    pose proof (check_cycle_ok cs) as HOk. unfold one_cycle_constraint in HOk.
    destruct Hd as [H|H].
    - left. split; [assumption|]. apply HOk in H. intros t [Hr _]. tauto.
    - right. split; [assumption|]. split; [|reflexivity].
      assert (Hn : check_cycle_incl_excl cs <> VOk) by (rewrite H; discriminate). rewrite HOk in Hn.
      assert (D : forall c, {In c cs} + {~ In c cs}) by (intro; apply in_dec; repeat decide equality).
      destruct (D ContainsCycle), (D (CNot ContainsCycle)); tauto.
  Qed.

  Lemma min_max_case A (gtb : A -> A -> bool) (lt : A -> A -> Prop) (least most : A -> constraint) nmin nmax nboth
      (item : A -> text -> Prop) f mins maxs e1 e2 e3 :
    (forall a b, gtb a b = true <-> lt b a) -> (forall a, item a (f a)) ->
    (forall l, values least cs l <-> mins = l) -> (forall l, values most cs l <-> maxs = l) ->
    txt_of e1 = txt "Incompatible set of " ++ nmin ++ txt " constraints: " ++ debug_vec (map f mins) ++ txt " were defined, having only one is possible" ->
    txt_of e2 = txt "Incompatible set of " ++ nmax ++ txt " constraints: " ++ debug_vec (map f maxs) ++ txt " were defined, having only one is possible" ->
    txt_of e3 = txt "Incompatible set of min/max " ++ nboth ++ txt " constraints: min=" ++ first_text f mins ++ txt ", max=" ++ first_text f maxs ->
    let r := check_min_max gtb mins maxs e1 e2 e3 in
    let R1 := many_reason least nmin item cs in
    let R2 := many_reason most nmax item cs in
    let R3 := cross_reason least most lt nboth item cs in
    r = VErr e1 /\ R1 (txt_of e1) \/
    (forall t, ~ R1 t) /\ (r = VErr e2 /\ R2 (txt_of e2) \/
    (forall t, ~ R2 t) /\ (r = VErr e3 /\ R3 (txt_of e3) \/
    (forall t, ~ R3 t) /\ r = VOk)).
  Proof.
    intros Hgt Hi Hmin Hmax T1 T2 T3 r R1 R2 R3. unfold r, check_min_max.
    assert (HM : forall kind name vals e, (forall l, values kind cs l <-> vals = l) ->
      txt_of e = txt "Incompatible set of " ++ name ++ txt " constraints: " ++ debug_vec (map f vals) ++ txt " were defined, having only one is possible" ->
      (1 < length vals -> many_reason kind name item cs (txt_of e)) /\ (length vals <= 1 -> forall t, ~ many_reason kind name item cs t)).
    { intros kind name vals e Hv T. split; intro Hl.
      - eexists vals, _. split; [now apply Hv|]. split; [lia|]. split; [apply vec_bracketed; exact Hi|]. exact T.
      - intros t (l & u & H1 & H2 & _). apply Hv in H1. subst l. lia. }
    destruct (HM least nmin mins e1 Hmin T1) as [M1 M1']. destruct (HM most nmax maxs e2 Hmax T2) as [M2 M2'].
    destruct (Nat.ltb_spec 1 (length mins)) as [L1|L1]; [left; split; [reflexivity|now apply M1]|].
    right. split; [now apply M1'|].
    destruct (Nat.ltb_spec 1 (length maxs)) as [L2|L2]; [left; split; [reflexivity|now apply M2]|].
    right. split; [now apply M2'|].
    assert (HC : forall a b, mins = [a] -> maxs = [b] -> (exists t, R3 t) <-> lt b a).
    { intros a b Ha Hb. split.
      - intros (t & a' & b' & u & v & H1 & H2 & H3 & _). apply Hmin in H1. apply Hmax in H2.
        rewrite Ha in H1. rewrite Hb in H2. injection H1 as <-. injection H2 as <-. assumption.
      - intro Hlt. eexists. exists a, b, (f a), (f b). split; [now apply Hmin|]. split; [now apply Hmax|].
        split; [assumption|]. split; [apply Hi|]. split; [apply Hi|reflexivity]. }
    destruct mins as [|a [|a' mins']]; [| |cbn in L1; lia].
    { right. split; [|destruct maxs; reflexivity]. intros t (x & y & u & v & H1 & _). apply Hmin in H1. discriminate. }
    destruct maxs as [|b [|b' maxs']]; [| |cbn in L2; lia].
    { right. split; [|reflexivity]. intros t (x & y & u & v & _ & H2 & _). apply Hmax in H2. discriminate. }
    destruct (gtb a b) eqn:E.
    - left. split; [reflexivity|]. exists a, b, (f a), (f b). split; [now apply Hmin|]. split; [now apply Hmax|].
      split; [now apply Hgt|]. split; [apply Hi|]. split; [apply Hi|]. rewrite T3. reflexivity.
    - right. split; [|reflexivity]. intros t Ht. assert (Hlt : lt b a) by (apply (HC a b eq_refl eq_refl); now exists t).
      apply Hgt in Hlt. congruence.
  Qed.

  Lemma text_reason : first_reason (reasons cs) (validate_text order_v order_e cs).
  Proof.
    unfold validate_text, validate, reasons, check_order_constraint. cbn [first_reason].
    destruct vertex_case as [[-> H1]|[-> H1]]; cbn [vthen]; [right; split; [exact H1|]|left; eauto].
    destruct edge_case as [[-> H2]|[-> H2]]; cbn [vthen]; [right; split; [exact H2|]|left; eauto].
    destruct cycle_case as [[-> H3]|[-> H3]]; cbn [vthen]; [right; split; [exact H3|]|left; eauto].
    pose proof (min_max_case nat (fun a b => Nat.ltb b a) lt MinLength MaxLength (txt "MinLength") (txt "MaxLength") (txt "length")
      a_length show_usize (min_lengths cs) (max_lengths cs) ErrMinLength ErrMaxLength ErrLength) as HL.
    pose proof (min_max_case Z (fun a b => Z.ltb b a) Z.lt MinScore MaxScore (txt "MinScore") (txt "MaxScore") (txt "score")
      int_text show_i64 (min_scores cs) (max_scores cs) ErrMinScore ErrMaxScore ErrScore) as HS.
    cbn zeta in HL, HS.
    assert (V1 : forall l, values MinLength cs l <-> min_lengths cs = l)
      by (apply values_filter_map; [reflexivity|intros c a; destruct c; congruence]).
    assert (V2 : forall l, values MaxLength cs l <-> max_lengths cs = l)
      by (apply values_filter_map; [reflexivity|intros c a; destruct c; congruence]).
    assert (V3 : forall l, values MinScore cs l <-> min_scores cs = l)
      by (apply values_filter_map; [reflexivity|intros c a; destruct c; congruence]).
    assert (V4 : forall l, values MaxScore cs l <-> max_scores cs = l)
      by (apply values_filter_map; [reflexivity|intros c a; destruct c; congruence]).
    specialize (HL (fun a b => Nat.ltb_lt b a) length_item V1 V2 eq_refl eq_refl eq_refl).
    specialize (HS (fun a b => Z.ltb_lt b a) show_i64_text V3 V4 eq_refl eq_refl eq_refl).
    change (check_min_max_length cs) with
      (check_min_max (fun a b => Nat.ltb b a) (min_lengths cs) (max_lengths cs) ErrMinLength ErrMaxLength ErrLength).
    change (check_min_max_score cs) with
      (check_min_max (fun a b => Z.ltb b a) (min_scores cs) (max_scores cs) ErrMinScore ErrMaxScore ErrScore).
    destruct HL as [[-> H]|(N1 & [[-> H]|(N2 & [[-> H]|(N3 & ->)])])]; cbn [vthen];
      [left; eauto|right; split; [exact N1|left; eauto]|right; split; [exact N1|right; split; [exact N2|left; eauto]]|].
    do 3 (right; split; [assumption|]).
    destruct HS as [[-> H]|(N4 & [[-> H]|(N5 & [[-> H]|(N6 & ->)])])]; cbn [vthen];
      [left; eauto|right; split; [exact N4|left; eauto]|right; split; [exact N4|right; split; [exact N5|left; eauto]]|].
    do 3 (right; split; [assumption|]). reflexivity.
  Qed.
End Reasons.

(** ** C167 *)
Theorem C167_error_text : forall order_v order_e cs,
  (forall l, Permutation (order_v l) l) -> (forall l, Permutation (order_e l) l) ->
  first_reason (reasons cs) (validate_text order_v order_e cs).
Proof. intros order_v order_e cs Hv He. now apply text_reason. Qed.
Print Assumptions C167_error_text.
(** No text exactly when the list is accepted. *)
Theorem C167_no_text : forall order_v order_e cs,
  validate_text order_v order_e cs = None <-> ~ contradictory cs /\ one_cycle_constraint cs.
Proof.
  intros order_v order_e cs. rewrite <- validate_ok. unfold validate_text. destruct (validate cs); split; congruence.
Qed.
Print Assumptions C167_no_text.
Example C167_case :
  validate_text (fun l => l) (@rev edge)
    [ContainsEdge (3%N, 1%N); CNot (ContainsVertex 1%N); ContainsVertex 1%N; CNot (ContainsVertex 3%N); MinLength 2] =
  Some (txt "Incompatible set of constraints leading to vertices [VertexId(3), VertexId(1)] to be included and excluded at the same time.") /\
  validate_text (fun l => l) (@rev edge) [ContainsCycle; MinScore (-3)%Z; MaxScore (-4)%Z] =
  Some (txt "Incompatible set of min/max score constraints: min=-3, max=-4") /\
  (forall l, Permutation (@rev edge l) l).
Proof.
  split; [vm_compute; reflexivity|]. split; [vm_compute; reflexivity|]. intro l. apply Permutation_sym, Permutation_rev.
Qed.
