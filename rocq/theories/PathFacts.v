(** * Proofs about paths and constraints *)
From Coq Require Import List NArith ZArith Bool Lia Arith.
From Verif Require Import Spec Base WalkFacts Path ConstraintSpec.
Import ListNotations.

Set Implicit Arguments.

(** ** before *)

Lemma before_nil A (x y : A) : ~ before x y [].
Proof. intros (p & q & r & H). destruct p; discriminate. Qed.

Lemma before_cons A (x y a : A) l : before x y (a :: l) <-> (x = a /\ In y l) \/ before x y l.
Proof.
  split.
  - intros (p & q & r & H). destruct p as [|b p]; injection H as -> ->.
    + left. split; [reflexivity|]. apply in_app_iff. right. now left.
    + right. now exists p, q, r.
  - intros [[-> H]|(p & q & r & ->)].
    + apply in_split in H as (q & r & ->). now exists [], q, r.
    + now exists (a :: p), q, r.
Qed.

Lemma before_app_l A (x y : A) l l' : before x y l -> before x y (l ++ l').
Proof.
  intros (p & q & r & ->). exists p, q, (r ++ l'). rewrite <- app_assoc. cbn.
  now rewrite <- app_assoc.
Qed.

Lemma before_self_NoDup A (eq_dec : forall a b : A, {a = b} + {a <> b}) (l : list A) :
  (exists v, before v v l) <-> ~ NoDup l.
Proof.
  induction l as [|a l IH].
  - split; [intros [v H]; now apply before_nil in H|]. intros []. constructor.
  - split.
    + intros [v H] Hn. inversion Hn as [|? ? Hni Hnd]; subst.
      apply before_cons in H as [[-> H]|H]; [tauto|]. apply IH in Hnd; [assumption|eauto].
    + intro Hn. destruct (in_dec eq_dec a l) as [Hin|Hni].
      * exists a. apply before_cons. tauto.
      * destruct IH as [_ IH]. destruct IH as [v Hv].
        -- intro Hnd. apply Hn. now constructor.
        -- exists v. apply before_cons. tauto.
Qed.

(** ** Path queries (C30) *)

Lemma to_edge_list_adjacent p x y : In (x, y) (to_edge_list p) <-> adjacent x y p.
Proof.
  induction p as [|a p IH].
  - cbn. split; [tauto|apply adjacent_nil].
  - destruct p as [|b p].
    + cbn. split; [tauto|apply adjacent_one].
    + change (to_edge_list (a :: b :: p)) with ((a, b) :: to_edge_list (b :: p)).
      rewrite adjacent_cons, <- IH. cbn [In]. rewrite starts_with_cons.
      split; [intros [[= -> ->]|?]; tauto|intros [[-> ->]|?]; tauto].
Qed.

Lemma to_edge_list_length p : length (to_edge_list p) = length p - 1.
Proof.
  induction p as [|a p IH]; [reflexivity|]. destruct p as [|b p]; [reflexivity|].
  change (to_edge_list (a :: b :: p)) with ((a, b) :: to_edge_list (b :: p)).
  cbn [length] in *. lia.
Qed.

Lemma to_edge_list_nth p i x y :
  nth_error (to_edge_list p) i = Some (x, y) <->
  nth_error p i = Some x /\ nth_error p (S i) = Some y.
Proof.
  revert i. induction p as [|a p IH]; intro i.
  - destruct i; cbn; split; try discriminate; intros [? ?]; discriminate.
  - destruct p as [|b p].
    + destruct i as [|[|i]]; cbn; split; try discriminate; intros [? ?]; discriminate.
    + change (to_edge_list (a :: b :: p)) with ((a, b) :: to_edge_list (b :: p)).
      destruct i as [|i]; [cbn; split; [intros [= -> ->]; tauto|intros [[= ->] [= ->]]; reflexivity]|].
      cbn [nth_error]. rewrite IH. reflexivity.
Qed.

Lemma path_contains_edge_spec p a b : path_contains_edge p (a, b) = true <-> adjacent a b p.
Proof.
  unfold path_contains_edge. rewrite existsb_exists, <- to_edge_list_adjacent. split.
  - intros (x & H & E). destruct (edge_eqb_spec x (a, b)); [now subst|discriminate].
  - intro H. exists (a, b). split; [assumption|apply edge_eqb_refl].
Qed.

Lemma path_contains_vertex_spec p v : path_contains_vertex p v = true <-> In v p.
Proof. apply (existsb_In _ N.eqb_spec). Qed.

Lemma contains_cycle_from_spec p : forall seen,
  contains_cycle_from seen p = true <->
  (exists v, In v p /\ In v seen) \/ (exists v, before v v p).
Proof.
  induction p as [|a p IH]; intro seen; cbn.
  - split; [discriminate|]. intros [(v & [] & _)|(v & H)]. now apply before_nil in H.
  - destruct (memN_spec a seen) as [Hin|Hni].
    + split; [|reflexivity]. intros _. left. exists a. tauto.
    + rewrite IH. split.
      * intros [(v & H1 & [->|H2])|(v & H)].
        -- right. exists v. apply before_cons. tauto.
        -- left. exists v. tauto.
        -- right. exists v. apply before_cons. tauto.
      * intros [(v & [->|H1] & H2)|(v & H)].
        -- tauto.
        -- left. exists v. cbn. tauto.
        -- apply before_cons in H as [[-> H]|H].
           ++ left. exists a. cbn. tauto.
           ++ right. eauto.
Qed.

Lemma contains_cycle_spec p : contains_cycle p = true <-> exists v, before v v p.
Proof.
  unfold contains_cycle. rewrite contains_cycle_from_spec. split; [|tauto].
  intros [(v & _ & [])|?]; assumption.
Qed.

Lemma contains_cycle_NoDup p : contains_cycle p = false <-> NoDup p.
Proof.
  rewrite <- not_true_iff_false, contains_cycle_spec, (before_self_NoDup N.eq_dec).
  destruct (ListDec.NoDup_dec N.eq_dec p); tauto.
Qed.

Lemma path_last_spec p v : path_last p = Some v <-> ends_with v p.
Proof.
  unfold path_last. rewrite <- (rev_involutive p) at 2. rewrite ends_with_rev.
  destruct (rev p) as [|a l]; cbn.
  - split; [discriminate|]. intro H. now apply starts_with_nil in H.
  - rewrite starts_with_cons. split; [intros [= ->]|intros ->]; reflexivity.
Qed.

(** ** Ordered vertices (C33) *)

Lemma last_position_cons o a x i :
  last_position (a :: o) x i <->
  match i with
  | O => x = a /\ ~ In x o
  | S j => last_position o x j
  end.
Proof.
  unfold last_position. destruct i as [|i]; cbn.
  - split.
    + intros [[= ->] H]. split; [reflexivity|]. intro Hin.
      apply In_nth_error in Hin as [n Hn]. apply (H (S n)); [lia|assumption].
    + intros [-> H]. split; [reflexivity|]. intros [|j] Hj; [lia|]. intro Hn.
      apply H. apply (nth_error_In o j Hn).
  - split; intros [H1 H2]; (split; [assumption|]).
    + intros j Hj. apply (H2 (S j)). lia.
    + intros [|j] Hj; [lia|]. apply H2. lia.
Qed.

Lemma last_position_In o x : (exists i, last_position o x i) <-> In x o.
Proof.
  induction o as [|a o IH].
  - split; [intros [i [H _]]; destruct i; discriminate|intros []].
  - split.
    + intros [i H]. rewrite last_position_cons in H. destruct i.
      * left. now symmetry.
      * right. apply IH. eauto.
    + intro H. destruct (in_dec N.eq_dec x o) as [Hin|Hni].
      * apply IH in Hin as [i Hi]. exists (S i). rewrite last_position_cons; auto.
      * destruct H as [->|?]; [|tauto]. exists 0. rewrite last_position_cons; auto.
Qed.

Lemma last_position_fun o x i j : last_position o x i -> last_position o x j -> i = j.
Proof.
  intros [H1 H2] [H3 H4]. destruct (lt_eq_lt_dec i j) as [[H|H]|H]; [|assumption|].
  - now apply H2 in H.
  - now apply H4 in H.
Qed.

Lemma index_map_from_spec vs : forall i m v k,
  hm_get N.eqb v (index_map_from i vs m) = Some k <->
  (exists j, k = i + j /\ last_position vs v j) \/ (~ In v vs /\ hm_get N.eqb v m = Some k).
Proof.
  induction vs as [|a vs IH]; intros i m v k; cbn.
  - split; [tauto|]. intros [(j & _ & H & _)|[_ H]]; [destruct j; discriminate|assumption].
  - rewrite IH, (hm_get_insert _ N.eqb_spec). split.
    + intros [(j & -> & H)|[H1 H2]].
      * left. exists (S j). split; [lia|]. rewrite last_position_cons; auto.
      * destruct (N.eqb_spec v a).
        -- injection H2 as <-. left. exists 0. split; [lia|]. rewrite last_position_cons; auto.
        -- right. split; [|assumption]. intros [?|?]; [congruence|tauto].
    + intros [(j & -> & H)|[H1 H2]].
      * rewrite last_position_cons in H. destruct j as [|j].
        -- right. destruct H as [-> H]. split; [assumption|]. rewrite N.eqb_refl. f_equal. lia.
        -- left. exists j. split; [lia|assumption].
      * right. split; [tauto|]. destruct (N.eqb_spec v a); [subst; tauto|assumption].
Qed.

Lemma index_map_spec vs v k :
  hm_get N.eqb v (index_map vs) = Some k <-> last_position vs v k.
Proof.
  unfold index_map. rewrite index_map_from_spec. cbn. split.
  - intros [(j & -> & H)|[_ H]]; [assumption|discriminate].
  - intro H. left. exists k. tauto.
Qed.

Lemma check_order_from_spec m p : forall st,
  check_order_from m st p = true <->
  (forall x i, In x p -> hm_get N.eqb x m = Some i -> st <= i) /\
  (forall x y i j, before x y p -> hm_get N.eqb x m = Some i -> hm_get N.eqb y m = Some j -> i <= j).
Proof.
  induction p as [|a p IH]; intro st; cbn [check_order_from In].
  - split; [|reflexivity]. intros _. split; [intros ? ? []|].
    intros x y i j H. now apply before_nil in H.
  - destruct (hm_get N.eqb a m) as [i|] eqn:E.
    + destruct (Nat.ltb_spec i st).
      * split; [discriminate|]. intros [H1 _]. specialize (H1 a i (or_introl eq_refl) E). lia.
      * rewrite IH. split.
        -- intros [H1 H2]. split.
           ++ intros x j [<-|Hin] Hx; [congruence|]. specialize (H1 _ _ Hin Hx). lia.
           ++ intros x y j k Hb Hx Hy. apply before_cons in Hb as [[-> Hin]|Hb]; [|eauto].
              specialize (H1 _ _ Hin Hy). rewrite E in Hx. injection Hx as <-. assumption.
        -- intros [H1 H2]. split.
           ++ intros x j Hin Hx. apply (H2 a x i j); [|assumption|assumption].
              apply before_cons. tauto.
           ++ intros x y j k Hb. apply H2. apply before_cons. tauto.
    + rewrite IH. split.
      * intros [H1 H2]. split.
        -- intros x j [<-|Hin] Hx; [congruence|eauto].
        -- intros x y j k Hb Hx Hy. apply before_cons in Hb as [[-> Hin]|Hb]; [congruence|eauto].
      * intros [H1 H2]. split; [eauto|]. intros x y j k Hb. apply H2. apply before_cons. tauto.
Qed.

Lemma check_vertices_order_spec p o :
  check_vertices_order p o = true <->
  forall x y i j, before x y p -> last_position o x i -> last_position o y j -> i <= j.
Proof.
  unfold check_vertices_order. rewrite check_order_from_spec. split.
  - intros [_ H] x y i j Hb Hx Hy. apply (H x y); [assumption| |]; now apply index_map_spec.
  - intro H. split; [lia|]. intros x y i j Hb Hx Hy. apply (H x y); [assumption| |];
      now apply index_map_spec.
Qed.

Lemma before_positions A (x y : A) l :
  before x y l <-> exists i j, i < j /\ nth_error l i = Some x /\ nth_error l j = Some y.
Proof.
  split.
  - intros (p & q & r & ->). exists (length p), (length p + S (length q)). split; [lia|].
    split.
    + rewrite nth_error_app2 by lia. now rewrite Nat.sub_diag.
    + rewrite nth_error_app2 by lia. replace (length p + S (length q) - length p) with (S (length q)) by lia.
      cbn. rewrite nth_error_app2 by lia. now rewrite Nat.sub_diag.
  - intros (i & j & Hij & Hi & Hj). apply nth_error_split in Hi as (p & t & -> & <-).
    rewrite nth_error_app2 in Hj by lia.
    destruct (j - length p) as [|k] eqn:E; [lia|]. cbn in Hj.
    apply nth_error_split in Hj as (q & r & -> & _). now exists p, q, r.
Qed.

Lemma ordered_NoDup o p : NoDup o ->
  ((forall x y i j, before x y p -> last_position o x i -> last_position o y j -> i <= j) <->
   (forall x y, before x y o -> ~ before y x p)).
Proof.
  intro Hnd.
  assert (Hpos : forall x i, nth_error o i = Some x -> last_position o x i).
  { intros x i H. split; [assumption|]. intros j Hj H'.
    assert (i = j); [|lia]. apply (proj1 (NoDup_nth_error o) Hnd).
    - apply nth_error_Some. congruence.
    - congruence. }
  split.
  - intros H x y Ho Hp. apply before_positions in Ho as (i & j & Hij & Hi & Hj).
    specialize (H y x j i Hp (Hpos _ _ Hj) (Hpos _ _ Hi)). lia.
  - intros H x y i j Hb Hx Hy. destruct (le_lt_dec i j) as [?|Hji]; [assumption|].
    exfalso. apply (H y x); [|assumption]. apply before_positions. exists j, i.
    split; [assumption|]. split; [apply Hy|apply Hx].
Qed.

(** ** check_complete (C31) *)

Lemma check_complete_spec c p s :
  check_complete c {| sp_path := p; sp_score := s |} = true <-> holds c p s.
Proof.
  induction c as [v|[a b]|o| |n|n|z|z|c1 IH1 c2 IH2|c1 IH1 c2 IH2|c1 IH1 c2 IH2|c1 IH1]; cbn.
  - apply path_contains_vertex_spec.
  - apply path_contains_edge_spec.
  - apply check_vertices_order_spec.
  - apply contains_cycle_spec.
  - apply Nat.leb_le.
  - apply Nat.leb_le.
  - apply Z.leb_le.
  - apply Z.leb_le.
  - now rewrite orb_true_iff, IH1, IH2.
  - rewrite <- IH1, <- IH2.
    assert (Hx : forall b1 b2, xorb b1 b2 = true <->
      (b1 = true /\ b2 <> true) \/ (b1 <> true /\ b2 = true)).
    { intros [] []; cbn; split; intro H; try discriminate; try tauto;
        try (destruct H as [[H1 H2]|[H1 H2]]; congruence);
        try (left; split; congruence); right; split; congruence. }
    exact (Hx _ _).
  - now rewrite andb_true_iff, IH1, IH2.
  - rewrite negb_true_iff, <- IH1, not_true_iff_false. reflexivity.
Qed.

(** ** check_partial (C32) *)

Lemma check_partial_sound c p s ext s' : (s <= s')%Z ->
  check_complete c {| sp_path := p ++ ext; sp_score := s' |} = true ->
  check_partial c {| sp_path := p; sp_score := s |} = true.
Proof.
  intro Hs.
  assert (HO : forall o, check_vertices_order (p ++ ext) o = true -> check_vertices_order p o = true).
  { intros o. rewrite !check_vertices_order_spec. intros H x y i j Hb. apply H.
    now apply before_app_l. }
  induction c as [v|[a b]|o| |n|n|z|z|c1 IH1 c2 IH2|c1 IH1 c2 IH2|c1 IH1 c2 IH2|c1 IH1]; cbn; intro H;
    try reflexivity.
  - now apply HO.
  - apply Nat.leb_le in H. apply Nat.leb_le. unfold path_size in *. rewrite app_length in H. lia.
  - apply Z.leb_le in H. apply Z.leb_le. lia.
  - apply orb_true_iff. apply orb_true_iff in H. tauto.
  - apply orb_true_iff. destruct (check_complete c1 _), (check_complete c2 _); cbn in H;
      try discriminate; tauto.
  - apply andb_true_iff. apply andb_true_iff in H. tauto.
  - clear IH1. apply negb_true_iff in H.
    destruct c1 as [v|[a b]|o| | | | | | | | |]; try reflexivity; apply negb_true_iff;
      apply not_true_iff_false; intro H1; apply not_true_iff_false in H; apply H; clear H; cbn.
    + apply path_contains_vertex_spec. apply path_contains_vertex_spec in H1. cbn in H1.
      apply in_app_iff. tauto.
    + apply path_contains_edge_spec. apply path_contains_edge_spec in H1. cbn in H1.
      apply adjacent_app. tauto.
    + apply contains_cycle_spec. apply contains_cycle_spec in H1 as [v H1]. cbn in H1.
      exists v. now apply before_app_l.
Qed.

(** ** validate (C34, C35) *)

Lemma vthen_ok a b : vthen a b = VOk <-> a = VOk /\ b = VOk.
Proof. destruct a; cbn; intuition congruence. Qed.

Lemma filter_map_In A B (f : A -> option B) l y :
  In y (filter_map f l) <-> exists x, In x l /\ f x = Some y.
Proof.
  unfold filter_map. rewrite in_flat_map. split; intros (x & H1 & H2); exists x; (split; [assumption|]).
  - destruct (f x); cbn in H2; [destruct H2 as [->|[]]; reflexivity|tauto].
  - rewrite H2. now left.
Qed.

Lemma filter_map_len A B (f : A -> option B) (g : A -> bool) l :
  (forall x, g x = match f x with Some _ => true | None => false end) ->
  length (filter_map f l) = length (filter g l).
Proof.
  intro H. unfold filter_map. induction l as [|a l IH]; cbn; [reflexivity|].
  rewrite app_length, IH, H. destruct (f a); reflexivity.
Qed.

Lemma vertex_inclusions_In cs v : In v (vertex_inclusions cs) <->
  In (ContainsVertex v) cs \/ (exists a b, In (ContainsEdge (a, b)) cs /\ (v = a \/ v = b)).
Proof.
  unfold vertex_inclusions. rewrite in_flat_map. split.
  - intros (c & H1 & H2). destruct c as [u|[a b]| | | | | | | | | |]; try (now destruct H2).
    + destruct H2 as [->|[]]. tauto.
    + right. exists a, b. cbn in H2. intuition.
  - intros [H|(a & b & H & Hv)].
    + exists (ContainsVertex v). split; [assumption|]. now left.
    + exists (ContainsEdge (a, b)). split; [assumption|]. cbn. intuition.
Qed.

Lemma vertex_exclusions_In cs v : In v (vertex_exclusions cs) <-> In (CNot (ContainsVertex v)) cs.
Proof.
  unfold vertex_exclusions. rewrite in_flat_map. split.
  - intros (c & H1 & H2). destruct c as [| | | | | | | | | | |c]; try (now destruct H2).
    destruct c; try (now destruct H2). destruct H2 as [->|[]]. assumption.
  - intro H. eexists. split; [exact H|]. now left.
Qed.

Lemma filter_nil_iff A (f : A -> bool) l : filter f l = [] <-> forall x, In x l -> f x = false.
Proof.
  split.
  - intros H x Hx. destruct (f x) eqn:E; [|reflexivity].
    assert (In x (filter f l)) by (apply filter_In; tauto). rewrite H in *. contradiction.
  - apply filter_none.
Qed.

Lemma check_vertex_ok cs : check_vertex_incl_excl cs = VOk <->
  ~ (exists v, In (ContainsVertex v) cs /\ In (CNot (ContainsVertex v)) cs) /\
  ~ (exists a b, In (ContainsEdge (a, b)) cs /\
     (In (CNot (ContainsVertex a)) cs \/ In (CNot (ContainsVertex b)) cs)).
Proof.
  unfold check_vertex_incl_excl.
  transitivity (forall v, In v (vertex_inclusions cs) -> ~ In v (vertex_exclusions cs)).
  { transitivity (filter (fun v => memN v (vertex_exclusions cs)) (vertex_inclusions cs) = []).
    - destruct (filter _ _); split; congruence.
    - rewrite filter_nil_iff. split; intros H v Hv; specialize (H v Hv); now apply memN_false. }
  split.
  - intro H. split.
    + intros (v & H1 & H2). apply (H v); [apply vertex_inclusions_In; tauto|].
      now apply vertex_exclusions_In.
    + intros (a & b & H1 & H2).
      destruct H2 as [H2|H2]; apply vertex_exclusions_In in H2; revert H2; apply H;
        apply vertex_inclusions_In; right; exists a, b; tauto.
  - intros [H1 H2] v Hi He. apply vertex_exclusions_In in He.
    apply vertex_inclusions_In in Hi as [Hi|(a & b & Hi & Hv)].
    + apply H1. eauto.
    + apply H2. exists a, b. split; [assumption|]. destruct Hv as [-> | ->]; tauto.
Qed.

Lemma check_edge_ok cs : check_edge_incl_excl cs = VOk <->
  ~ (exists e, In (ContainsEdge e) cs /\ In (CNot (ContainsEdge e)) cs).
Proof.
  unfold check_edge_incl_excl.
  assert (Hi : forall e, In e (edge_inclusions cs) <-> In (ContainsEdge e) cs).
  { intro e. unfold edge_inclusions. rewrite filter_map_In. split.
    - intros (c & H1 & H2). destruct c; try discriminate. now injection H2 as ->.
    - intro H. eexists. split; [exact H|reflexivity]. }
  assert (He : forall e, In e (edge_exclusions cs) <-> In (CNot (ContainsEdge e)) cs).
  { intro e. unfold edge_exclusions. rewrite filter_map_In. split.
    - intros (c & H1 & H2). destruct c as [| | | | | | | | | | |c]; try discriminate.
      destruct c; try discriminate. now injection H2 as ->.
    - intro H. eexists. split; [exact H|reflexivity]. }
  transitivity (filter (fun v => memE v (edge_exclusions cs)) (edge_inclusions cs) = []).
  - destruct (filter _ _); split; congruence.
  - rewrite filter_nil_iff. split.
    + intros H (e & H1 & H2). apply Hi in H1. apply He in H2. specialize (H e H1).
      apply memE_In in H2. congruence.
    + intros H e H1. apply not_true_iff_false. rewrite memE_In. intro H2. apply H.
      exists e. split; [now apply Hi|now apply He].
Qed.

Lemma check_cycle_ok cs : check_cycle_incl_excl cs = VOk <-> one_cycle_constraint cs.
Proof.
  unfold check_cycle_incl_excl, one_cycle_constraint.
  set (f := fun c => match c with ContainsCycle => true | _ => false end).
  set (g := fun c => match c with CNot ContainsCycle => true | _ => false end).
  assert (Hf : existsb f cs = true <-> In ContainsCycle cs).
  { rewrite existsb_exists. split.
    - intros (c & H1 & H2). destruct c; try discriminate. assumption.
    - intro H. eexists. split; [exact H|reflexivity]. }
  assert (Hg : existsb g cs = true <-> In (CNot ContainsCycle) cs).
  { rewrite existsb_exists. split.
    - intros (c & H1 & H2). destruct c as [| | | | | | | | | | |c]; try discriminate.
      destruct c; try discriminate. assumption.
    - intro H. eexists. split; [exact H|reflexivity]. }
  rewrite <- Hf, <- Hg. destruct (existsb f cs), (existsb g cs); cbn; intuition congruence.
Qed.

Lemma check_min_max_ok A (gtb : A -> A -> bool) mins maxs e1 e2 e3 :
  check_min_max gtb mins maxs e1 e2 e3 = VOk <->
  length mins <= 1 /\ length maxs <= 1 /\
  forall a b, In a mins -> In b maxs -> gtb a b = false.
Proof.
  unfold check_min_max. destruct (Nat.ltb_spec 1 (length mins)).
  { split; [discriminate|lia]. }
  destruct (Nat.ltb_spec 1 (length maxs)).
  { split; [discriminate|lia]. }
  destruct mins as [|a [|? ?]]; cbn in H; try lia.
  - split; [|reflexivity]. intros _. cbn. repeat split; try lia; intros; contradiction.
  - destruct maxs as [|b [|? ?]]; cbn in H0; try lia.
    + split; [|reflexivity]. intros _. cbn. repeat split; try lia; intros; contradiction.
    + cbn. destruct (gtb a b) eqn:E; split; try discriminate; try reflexivity.
      * intros (_ & _ & H1). rewrite (H1 a b) in E; [discriminate|tauto|tauto].
      * intros _. repeat split; try lia. intros x y [<-|[]] [<-|[]]. assumption.
Qed.

Lemma check_length_ok cs : check_min_max_length cs = VOk <->
  at_most_one is_min_length cs /\ at_most_one is_max_length cs /\
  ~ (exists a b, In (MinLength a) cs /\ In (MaxLength b) cs /\ b < a).
Proof.
  unfold check_min_max_length. rewrite check_min_max_ok.
  rewrite (filter_map_len _ is_min_length) by (intros []; reflexivity).
  rewrite (filter_map_len _ is_max_length) by (intros []; reflexivity).
  unfold at_most_one. apply and_iff_compat_l, and_iff_compat_l. split.
  - intros H (a & b & H1 & H2 & H3). specialize (H a b).
    assert (Nat.ltb b a = false); [|apply Nat.ltb_ge in H0; lia].
    apply H; apply filter_map_In; eexists; [split; [exact H1|reflexivity]|split; [exact H2|reflexivity]].
  - intros H a b H1 H2. apply filter_map_In in H1 as (c & H1 & Hc).
    apply filter_map_In in H2 as (d & H2 & Hd). destruct c; try discriminate.
    destruct d; try discriminate. injection Hc as ->. injection Hd as ->.
    apply Nat.ltb_ge. destruct (le_lt_dec a b); [assumption|]. exfalso. apply H. eauto.
Qed.

Lemma check_score_ok cs : check_min_max_score cs = VOk <->
  at_most_one is_min_score cs /\ at_most_one is_max_score cs /\
  ~ (exists a b, In (MinScore a) cs /\ In (MaxScore b) cs /\ (b < a)%Z).
Proof.
  unfold check_min_max_score. rewrite check_min_max_ok.
  rewrite (filter_map_len _ is_min_score) by (intros []; reflexivity).
  rewrite (filter_map_len _ is_max_score) by (intros []; reflexivity).
  unfold at_most_one. apply and_iff_compat_l, and_iff_compat_l. split.
  - intros H (a & b & H1 & H2 & H3). specialize (H a b).
    assert (Z.ltb b a = false); [|apply Z.ltb_ge in H0; lia].
    apply H; apply filter_map_In; eexists; [split; [exact H1|reflexivity]|split; [exact H2|reflexivity]].
  - intros H a b H1 H2. apply filter_map_In in H1 as (c & H1 & Hc).
    apply filter_map_In in H2 as (d & H2 & Hd). destruct c; try discriminate.
    destruct d; try discriminate. injection Hc as ->. injection Hd as ->.
    apply Z.ltb_ge. destruct (Z_le_gt_dec a b); [assumption|]. exfalso. apply H.
    exists a, b. repeat split; [assumption|assumption|lia].
Qed.

Lemma at_most_one_dec A (P : A -> bool) l : at_most_one P l \/ ~ at_most_one P l.
Proof. unfold at_most_one. lia. Qed.

Lemma validate_ok cs : validate cs = VOk <-> ~ contradictory cs /\ one_cycle_constraint cs.
Proof.
  unfold validate. rewrite !vthen_ok, check_vertex_ok, check_edge_ok, check_cycle_ok,
    check_length_ok, check_score_ok.
  unfold contradictory, check_order_constraint, one_cycle_constraint.
  destruct (at_most_one_dec is_min_length cs), (at_most_one_dec is_max_length cs),
           (at_most_one_dec is_min_score cs), (at_most_one_dec is_max_score cs); tauto.
Qed.

Lemma satisfiable_not_contradictory cs p s :
  (forall c, In c cs -> holds c p s) ->
  at_most_one is_min_length cs -> at_most_one is_max_length cs ->
  at_most_one is_min_score cs -> at_most_one is_max_score cs ->
  ~ contradictory cs.
Proof.
  intros H A1 A2 A3 A4 Hc. unfold contradictory in Hc.
  destruct Hc as [(v & H1 & H2)|[(a & b & H1 & H2)|[(e & H1 & H2)|[[H1 H2]|[Hc|[Hc|[Hc|[Hc|[Hc|Hc]]]]]]]]];
    try contradiction.
  - apply H in H1. apply H in H2. cbn in *. contradiction.
  - apply H in H1. cbn in H1. apply adjacent_In in H1 as [Ha Hb].
    destruct H2 as [H2|H2]; apply H in H2; cbn in H2; contradiction.
  - apply H in H1. apply H in H2. cbn in *. contradiction.
  - apply H in H1. apply H in H2. cbn in *. contradiction.
  - destruct Hc as (a & b & H1 & H2 & H3). apply H in H1. apply H in H2. cbn in *. lia.
  - destruct Hc as (a & b & H1 & H2 & H3). apply H in H1. apply H in H2. cbn in *. lia.
Qed.
