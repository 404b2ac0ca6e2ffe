(** * C29-C36, C79: attributes, paths and constraints *)
From Coq Require Import List NArith ZArith Bool Lia Arith.
From Verif Require Import Spec Base WalkFacts Path ConstraintSpec PathFacts Attr.
Import ListNotations.

(** ** C29 *)

(** A vertex command that writes key [k]. *)
Definition writes_vertex {T} (k : N) (c : attr_command T) : Prop :=
  (exists t, c = AddVertexAttr k t) \/ c = RemoveVertexAttr k.
Definition writes_edge {T} (a b : N) (c : attr_command T) : Prop :=
  (exists t, c = AddEdgeAttr a b t) \/ c = RemoveEdgeAttr a b.

(** The last command writing the key is an addition of [t]. *)
Definition last_added {T} (w : attr_command T -> Prop) (add : attr_command T)
  (cs : list (attr_command T)) : Prop :=
  exists pre post, cs = pre ++ add :: post /\ forall c, In c post -> ~ w c.

Lemma last_added_snoc T (w : attr_command T -> Prop) add cs c :
  w add ->
  (last_added w add (cs ++ [c]) <-> c = add \/ (~ w c /\ last_added w add cs)).
Proof.
  intro Hw. split.
  - intros (pre & post & H & Hn). destruct (last_inv post) as [->|(post' & x & ->)].
    + apply app_inj_tail in H as [_ ->]. now left.
    + change (add :: post' ++ [x]) with ((add :: post') ++ [x]) in H.
      rewrite app_assoc in H. apply app_inj_tail in H as [-> ->]. right. split.
      * apply Hn. apply in_app_iff. right. now left.
      * exists pre, post'. split; [reflexivity|]. intros d Hd. apply Hn.
        apply in_app_iff. now left.
  - intros [->|[Hc (pre & post & -> & Hn)]].
    + exists cs, []. split; [reflexivity|]. intros ? [].
    + exists pre, (post ++ [c]). split; [now rewrite <- app_assoc|].
      intros d Hd. apply in_app_iff in Hd as [Hd|[<-|[]]]; auto.
Qed.

Theorem C29_vertex_attributes : forall T (cs : list (attr_command T)) (k : N) (t : T),
  as_closure N.eqb (apply_vertex_attrs cs (map_new N T)) k = Some t <->
  last_added (writes_vertex k) (AddVertexAttr k t) cs.
Proof.
  intros T cs k t. unfold as_closure, apply_vertex_attrs.
  induction cs as [|c cs IH] using rev_ind.
  - cbn. split; [discriminate|]. intros (pre & post & H & _). destruct pre; discriminate.
  - rewrite last_added_snoc by (left; eauto). rewrite fold_left_app. cbn [fold_left].
    set (m := fold_left _ cs _) in *. rewrite <- IH. clear IH.
    destruct c as [v t'|v|a b t'|a b]; cbn.
    + rewrite (hm_get_insert _ N.eqb_spec). destruct (N.eqb_spec k v).
      * subst. split; [intros [= ->]; now left|].
        intros [[= ->]|[H _]]; [reflexivity|]. exfalso. apply H. left. eauto.
      * split; [intro H; right; split; [|assumption]|].
        -- intros [[t0 [= ? ?]]|H']; congruence.
        -- intros [[= ? ?]|[_ ?]]; congruence.
    + rewrite (hm_get_remove _ N.eqb_spec). destruct (N.eqb_spec k v).
      * subst. split; [discriminate|]. intros [?|[H _]]; [discriminate|].
        exfalso. apply H. now right.
      * split; [intro H; right; split; [|assumption]|].
        -- intros [[t0 ?]|H']; congruence.
        -- intros [?|[_ ?]]; congruence.
    + split; [intro H; right; split; [|assumption]|].
      * intros [[t0 ?]|?]; discriminate.
      * intros [?|[_ ?]]; [discriminate|assumption].
    + split; [intro H; right; split; [|assumption]|].
      * intros [[t0 ?]|?]; discriminate.
      * intros [?|[_ ?]]; [discriminate|assumption].
Qed.
Print Assumptions C29_vertex_attributes.

Theorem C29_edge_attributes : forall T (cs : list (attr_command T)) (a b : N) (t : T),
  as_closure edge_eqb (apply_edge_attrs cs (map_new edge T)) (a, b) = Some t <->
  last_added (writes_edge a b) (AddEdgeAttr a b t) cs.
Proof.
  intros T cs a b t. unfold as_closure, apply_edge_attrs.
  induction cs as [|c cs IH] using rev_ind.
  - cbn. split; [discriminate|]. intros (pre & post & H & _). destruct pre; discriminate.
  - rewrite last_added_snoc by (left; eauto). rewrite fold_left_app. cbn [fold_left].
    set (m := fold_left _ cs _) in *. rewrite <- IH. clear IH.
    destruct c as [v t'|v|a' b' t'|a' b']; cbn -[edge_eqb].
    + split; [intro H; right; split; [|assumption]|].
      * intros [[t0 ?]|?]; discriminate.
      * intros [?|[_ ?]]; [discriminate|assumption].
    + split; [intro H; right; split; [|assumption]|].
      * intros [[t0 ?]|?]; discriminate.
      * intros [?|[_ ?]]; [discriminate|assumption].
    + rewrite (hm_get_insert _ edge_eqb_spec). destruct (edge_eqb_spec (a, b) (a', b')) as [[= <- <-]|n].
      * split; [intros [= ->]; now left|].
        intros [[= ->]|[H _]]; [reflexivity|]. exfalso. apply H. left. eauto.
      * split; [intro H; right; split; [|assumption]|].
        -- intros [[t0 [= ? ? ?]]|H']; congruence.
        -- intros [[= ? ? ?]|[_ ?]]; congruence.
    + rewrite (hm_get_remove _ edge_eqb_spec). destruct (edge_eqb_spec (a, b) (a', b')) as [[= <- <-]|n].
      * split; [discriminate|]. intros [?|[H _]]; [discriminate|].
        exfalso. apply H. now right.
      * split; [intro H; right; split; [|assumption]|].
        -- intros [[t0 ?]|H']; congruence.
        -- intros [?|[_ ?]]; congruence.
Qed.
Print Assumptions C29_edge_attributes.

Theorem C29_foreign_commands_and_results : forall T (m : mapping N T) (me : mapping edge T),
  (forall a b t, apply_vertex_attr (AddEdgeAttr a b t) m = (m, false)) /\
  (forall a b, apply_vertex_attr (RemoveEdgeAttr a b) m = (m, false)) /\
  (forall v t, apply_edge_attr (AddVertexAttr v t) me = (me, false)) /\
  (forall v, apply_edge_attr (RemoveVertexAttr v) me = (me, false)) /\
  (forall v t, snd (apply_vertex_attr (AddVertexAttr v t) m) = true) /\
  (forall a b t, snd (apply_edge_attr (AddEdgeAttr a b t) me) = true) /\
  (forall v, snd (apply_vertex_attr (RemoveVertexAttr v) m) = true <->
             exists t, as_closure N.eqb m v = Some t) /\
  (forall a b, snd (apply_edge_attr (RemoveEdgeAttr a b) me) = true <->
             exists t, as_closure edge_eqb me (a, b) = Some t) /\
  (forall d v, as_closure_with_defaults N.eqb m d v =
             match as_closure N.eqb m v with Some t => t | None => d end).
Proof.
  intros T m me. repeat split; intros; cbn in *; unfold hm_mem, as_closure in *.
  - destruct (hm_get N.eqb v m); [eauto|discriminate].
  - destruct H as [t H]. now rewrite H.
  - destruct (hm_get edge_eqb (a, b) me); [eauto|discriminate].
  - destruct H as [t H]. now rewrite H.
Qed.
Print Assumptions C29_foreign_commands_and_results.

Example C29_case :
  last_added (writes_vertex 1%N) (AddVertexAttr 1%N true)
    [AddVertexAttr 1%N false; AddEdgeAttr 1%N 2%N true; AddVertexAttr 1%N true; RemoveVertexAttr 2%N].
Proof.
  exists [AddVertexAttr 1%N false; AddEdgeAttr 1%N 2%N true], [RemoveVertexAttr 2%N].
  split; [reflexivity|]. intros c [<-|[]] [[t H]|H]; discriminate.
Qed.

(** ** C30 *)
Theorem C30_path_queries : forall p : path,
  (contains_cycle p = true <->
     exists i j v, i <> j /\ nth_error p i = Some v /\ nth_error p j = Some v) /\
  (forall v, path_contains_vertex p v = true <-> In v p) /\
  (forall a b, path_contains_edge p (a, b) = true <->
     exists i, nth_error p i = Some a /\ nth_error p (S i) = Some b) /\
  (length (to_edge_list p) = path_size p - 1) /\
  (forall i x y, nth_error (to_edge_list p) i = Some (x, y) <->
     nth_error p i = Some x /\ nth_error p (S i) = Some y) /\
  (forall v, path_size (path_append p v) = S (path_size p) /\
             path_last (path_append p v) = Some v /\
             (forall i, i < path_size p -> nth_error (path_append p v) i = nth_error p i)) /\
  (path_is_empty p = true <-> p = []) /\
  (forall v, path_first p = Some v <-> starts_with v p) /\
  (forall v, path_last p = Some v <-> ends_with v p) /\
  path_is_empty path_empty = true /\ (forall vs, path_from vs = vs).
Proof.
  intro p. split; [|split; [|split; [|split; [|split; [|split; [|split; [|split; [|split; [|split]]]]]]]]].
  - rewrite contains_cycle_spec. split.
    + intros [v H]. apply before_positions in H as (i & j & H1 & H2 & H3).
      exists i, j, v. repeat split; [lia|assumption|assumption].
    + intros (i & j & v & H1 & H2 & H3). exists v. apply before_positions.
      destruct (lt_dec i j); [exists i, j|exists j, i]; repeat split; assumption || lia.
  - apply path_contains_vertex_spec.
  - intros a b. unfold path_contains_edge. rewrite existsb_exists. split.
    + intros (x & Hx & E). destruct (edge_eqb_spec x (a, b)); [subst|discriminate].
      apply In_nth_error in Hx as [i Hi]. exists i. now apply to_edge_list_nth.
    + intros [i H]. apply to_edge_list_nth in H. exists (a, b).
      split; [now apply nth_error_In in H|apply edge_eqb_refl].
  - apply to_edge_list_length.
  - intros. apply to_edge_list_nth.
  - intro v. unfold path_size, path_append. rewrite app_length. cbn. split; [lia|]. split.
    + apply path_last_spec. now exists p.
    + intros i Hi. now apply nth_error_app1.
  - destruct p; split; [reflexivity|reflexivity|discriminate|discriminate].
  - intro v. unfold path_first, starts_with. destruct p as [|x p]; cbn; split.
    + discriminate.
    + intros [q H]. discriminate.
    + intros [= ->]. now exists p.
    + intros [q [= -> _]]. reflexivity.
  - intro v. apply path_last_spec.
  - reflexivity.
  - reflexivity.
Qed.
Print Assumptions C30_path_queries.
Example C30_case : contains_cycle [1; 2; 3; 2]%N = true /\ contains_cycle [1; 2; 3]%N = false /\
  path_contains_edge [1; 2; 3; 2]%N (3, 2)%N = true /\ path_contains_edge [1; 2; 3]%N (1, 3)%N = false.
Proof. repeat split; reflexivity. Qed.

(** ** C31 *)
Theorem C31_check_complete : forall c p score,
  check_complete c {| sp_path := p; sp_score := score |} = true <-> holds c p score.
Proof. exact check_complete_spec. Qed.
Print Assumptions C31_check_complete.
Example C31_case :
  check_complete (CXor (ContainsVertex 3%N) (CNot (COr ContainsCycle (CAnd (MinLength 2) (MaxScore 4%Z)))))
    {| sp_path := [1; 2; 3; 2]%N; sp_score := 7%Z |} = true /\
  check_complete (CXor (ContainsVertex 3%N) (CNot (COr ContainsCycle (CAnd (MinLength 2) (MaxScore 4%Z)))))
    {| sp_path := [1; 2; 3]%N; sp_score := 7%Z |} = false.
Proof. split; reflexivity. Qed.

(** ** C32 *)
Theorem C32_check_partial_sound : forall c p score ext score',
  check_partial c {| sp_path := p; sp_score := score |} = false ->
  (score <= score')%Z -> ~ holds c (p ++ ext) score'.
Proof.
  intros c p s ext s' H Hs Hh. apply check_complete_spec in Hh.
  apply (check_partial_sound c p ext Hs) in Hh. congruence.
Qed.
Print Assumptions C32_check_partial_sound.
Example C32_case :
  check_partial (CAnd (COr (MaxLength 1) (CNot (ContainsEdge (1%N, 2%N)))) (MaxScore 9%Z))
    {| sp_path := [1%N; 2%N]; sp_score := 0%Z |} = false.
Proof. reflexivity. Qed.

(** ** C92: a partial check passes exactly the prefixes that can still be completed *)
(** The constraints gc-csp and gc-cycle build. *)
Definition basic (c : constraint) : Prop :=
  match c with
  | CNot (ContainsVertex _) | CNot (ContainsEdge _) | CNot ContainsCycle => True
  | CNot _ | COr _ _ | CXor _ _ | CAnd _ _ => False
  | _ => True
  end.
Theorem C92_partial_exact : forall c p score, basic c ->
  (check_partial c {| sp_path := p; sp_score := score |} = true <->
   exists ext score', (score <= score')%Z /\ holds c (p ++ ext) score').
Proof.
  intros c p s Hc. split.
  - intro H.
    assert (Hnow : holds c p s -> exists ext score', (s <= score')%Z /\ holds c (p ++ ext) score').
    { intro Hh. exists [], s. rewrite app_nil_r. split; [lia|assumption]. }
    destruct c as [v|[a b]|o| |n|n|z|z|c1 c2|c1 c2|c1 c2|c]; cbn in Hc; try contradiction.
    + exists [v], s. split; [lia|]. cbn. apply in_app_iff. right. now left.
    + exists [a; b], s. split; [lia|]. cbn. exists p, []. reflexivity.
    + apply Hnow. apply check_complete_spec. exact H.
    + exists [0%N; 0%N], s. split; [lia|]. cbn. exists 0%N. exists p, [], []. reflexivity.
    + exists (repeat 0%N n), s. split; [lia|]. cbn. rewrite app_length, repeat_length. lia.
    + apply Hnow. apply check_complete_spec. exact H.
    + exists [], (Z.max s z). split; [lia|]. cbn. lia.
    + apply Hnow. apply check_complete_spec. exact H.
    + apply Hnow. apply check_complete_spec.
      destruct c; try contradiction; exact H.
  - intros (ext & s' & Hs & Hh). apply check_complete_spec in Hh. exact (check_partial_sound c p ext Hs Hh).
Qed.
Print Assumptions C92_partial_exact.
Example C92_case : basic (OrderedVertices [1; 2]%N) /\ basic (CNot ContainsCycle) /\ basic (MinScore 4%Z).
Proof. repeat split. Qed.
(** Not so for combined constraints: they are looked at one by one. *)
Theorem C92_combined_refuted : exists c p score,
  check_partial c {| sp_path := p; sp_score := score |} = true /\
  forall ext score', ~ holds c (p ++ ext) score'.
Proof.
  exists (CAnd (MinLength 3) (MaxLength 2)), [], 0%Z. split; [reflexivity|]. intros ext s' [H1 H2]. cbn in *. lia.
Qed.
Print Assumptions C92_combined_refuted.

(** ** C33 *)
Theorem C33_ordered : forall o p, NoDup o ->
  (check_vertices_order p o = true <-> forall x y, before x y o -> ~ before y x p).
Proof. intros o p H. rewrite check_vertices_order_spec. now apply ordered_NoDup. Qed.
Print Assumptions C33_ordered.
(** A list that repeats a vertex: only its last place counts. *)
Lemma last_before o x y : forall i j, last_position o x i -> last_position o y j -> (i < j)%nat -> before x y (nodup N.eq_dec o).
Proof.
  induction o as [|a o IH]; intros i j Hx Hy Hij; [destruct Hx as [Hx _]; destruct i; discriminate|].
  rewrite last_position_cons in Hx, Hy. destruct j as [|j]; [lia|]. cbn [nodup]. destruct i as [|i].
  - destruct Hx as [-> Hn]. destruct (in_dec N.eq_dec a o); [tauto|]. apply before_cons. left. split; [reflexivity|].
    apply nodup_In. apply last_position_In. now exists j.
  - assert (B : before x y (nodup N.eq_dec o)) by (apply (IH i j); [assumption|assumption|lia]).
    destruct (in_dec N.eq_dec a o); [exact B|]. apply before_cons. now right.
Qed.
Theorem C33_repeated : forall o p,
  check_vertices_order p o = true <-> forall x y, before x y (nodup N.eq_dec o) -> ~ before y x p.
Proof.
  intros o p. rewrite check_vertices_order_spec. split.
  - intros H x y Ho Hp. assert (I : forall z, In z (nodup N.eq_dec o) -> exists i, last_position o z i)
      by (intros z Hz; apply last_position_In; now apply nodup_In in Hz).
    destruct (I x) as [i Hi]; [destruct Ho as (a & b & c & ->); apply in_or_app; right; now left|].
    destruct (I y) as [j Hj]; [destruct Ho as (a & b & c & ->); apply in_or_app; right; right; apply in_or_app; right; now left|].
    pose proof (H y x j i Hp Hj Hi) as Hle. pose proof (NoDup_nodup N.eq_dec o) as Hnd.
    assert (Hne : x <> y).
    { intros ->. destruct Ho as (a & b & c & E). rewrite E in Hnd. apply NoDup_remove_2 in Hnd. apply Hnd.
      apply in_or_app. right. apply in_or_app. right. now left. }
    assert (Hlt : (j < i)%nat).
    { destruct (Nat.eq_dec i j) as [->|]; [|lia]. destruct Hi as [Hi _], Hj as [Hj _]. congruence. }
    pose proof (last_before o y x j i Hj Hi Hlt) as Hb.
    apply before_positions in Ho. destruct Ho as (i1 & j1 & L1 & A1 & B1).
    apply before_positions in Hb. destruct Hb as (i2 & j2 & L2 & A2 & B2).
    assert (U : forall z m n, nth_error (nodup N.eq_dec o) m = Some z -> nth_error (nodup N.eq_dec o) n = Some z -> m = n).
    { intros z m n Hm Hn. apply (proj1 (NoDup_nth_error _) Hnd); [apply nth_error_Some; congruence|congruence]. }
    rewrite (U _ _ _ B1 A2), (U _ _ _ A1 B2) in L1. lia.
  - intros H x y i j Hb Hx Hy. destruct (le_lt_dec i j) as [?|Hji]; [assumption|]. exfalso.
    apply (H y x); [|assumption]. exact (last_before o y x j i Hy Hx Hji).
Qed.
Print Assumptions C33_repeated.
(** So a path that visits the list exactly as written may be refused. *)
Theorem C33_repeated_refuted : exists o, check_vertices_order o o = false.
Proof. exists [1; 2; 1]%N. reflexivity. Qed.
Print Assumptions C33_repeated_refuted.
Example C33_case : NoDup [3%N; 1%N; 2%N] /\
  check_vertices_order [3; 7; 1; 1; 2]%N [3; 1; 2]%N = true /\
  check_vertices_order [3; 2; 1]%N [3; 1; 2]%N = false.
Proof.
  split; [|split; reflexivity]. repeat constructor; cbn; intuition discriminate.
Qed.

(** ** C34 *)
Theorem C34_validate_exact : forall cs,
  validate cs = VOk <-> ~ contradictory cs /\ one_cycle_constraint cs.
Proof. exact validate_ok. Qed.
Print Assumptions C34_validate_exact.
Theorem C34_validate_rejects : forall cs, contradictory cs -> validate cs <> VOk.
Proof. intros cs H Hv. apply validate_ok in Hv. tauto. Qed.
Print Assumptions C34_validate_rejects.
Example C34_case : contradictory [ContainsEdge (1%N, 2%N); CNot (ContainsVertex 2%N)].
Proof. right. left. exists 1%N, 2%N. cbn. tauto. Qed.

(** ** C35: false, an empty (or cycle-agnostic) list is rejected. *)
Theorem C35_validate_accepts_refuted :
  exists cs p score, (forall c, In c cs -> holds c p score) /\
    at_most_one is_min_length cs /\ at_most_one is_max_length cs /\
    at_most_one is_min_score cs /\ at_most_one is_max_score cs /\
    validate cs <> VOk.
Proof.
  exists [ContainsVertex 1%N; MaxLength 5], [1%N], 0%Z. split.
  - intros c [<-|[<-|[]]]; cbn; [tauto|lia].
  - unfold at_most_one. cbn. repeat split; try lia. discriminate.
Qed.
Print Assumptions C35_validate_accepts_refuted.

(** With exactly one cycle constraint the expectation holds. *)
Theorem C35_validate_accepts : forall cs p score,
  (forall c, In c cs -> holds c p score) ->
  at_most_one is_min_length cs -> at_most_one is_max_length cs ->
  at_most_one is_min_score cs -> at_most_one is_max_score cs ->
  (validate cs = VOk <-> one_cycle_constraint cs).
Proof.
  intros cs p s H A1 A2 A3 A4. rewrite validate_ok.
  pose proof (satisfiable_not_contradictory p s H A1 A2 A3 A4). tauto.
Qed.
Print Assumptions C35_validate_accepts.
Example C35_case : forall c, In c [ContainsVertex 1%N; CNot ContainsCycle; MinLength 2] ->
  holds c [1%N; 2%N] 0%Z.
Proof.
  intros c [<-|[<-|[<-|[]]]]; cbn; [tauto| |lia].
  intros [v H]. assert (Hn : ~ NoDup [1%N; 2%N]).
  { apply (before_self_NoDup N.eq_dec). eauto. }
  apply Hn. repeat constructor; cbn; intuition discriminate.
Qed.

(** ** C36: false, the builder makes a lower bound. *)
Theorem C36_max_score_refuted : exists s p score,
  holds (build_max_score s) p score /\ (s < score)%Z.
Proof. exists 0%Z, [], 1%Z. cbn. lia. Qed.
Print Assumptions C36_max_score_refuted.
Theorem C36_max_score_actual : forall s p score,
  holds (build_max_score s) p score <-> (s <= score)%Z.
Proof. reflexivity. Qed.
Print Assumptions C36_max_score_actual.

(** ** C79: the other command-line constraints mean what they say. *)
Theorem C79_builders : forall p score,
  (forall ids, (forall c, In c (build_include ids) -> holds c p score) <-> incl ids p) /\
  (forall ids, (forall c, In c (build_exclude ids) -> holds c p score) <->
     forall v, In v ids -> ~ In v p) /\
  (forall es, (forall c, In c (build_include_edges es) -> holds c p score) <->
     forall a b, In (a, b) es -> adjacent a b p) /\
  (forall es, (forall c, In c (build_exclude_edges es) -> holds c p score) <->
     forall a b, In (a, b) es -> ~ adjacent a b p) /\
  (forall ids, NoDup ids -> (holds (build_ordered ids) p score <->
     forall x y, before x y ids -> ~ before y x p)) /\
  (holds build_include_cycle p score <-> ~ NoDup p) /\
  (holds build_no_cycle p score <-> NoDup p) /\
  (forall n, holds (build_min_length n) p score <-> n <= length p) /\
  (forall n, holds (build_max_length n) p score <-> length p <= n) /\
  (forall n, (forall c, In c (build_exact_length n) -> holds c p score) <-> length p = n) /\
  (forall s, holds (build_min_score s) p score <-> (s <= score)%Z) /\
  (forall s, (forall c, In c (build_exact_score s) -> holds c p score) <-> score = s).
Proof.
  intros p score.
  assert (HN : NoDup p \/ ~ NoDup p) by (destruct (ListDec.NoDup_dec N.eq_dec p); tauto).
  split; [|split; [|split; [|split; [|split; [|split; [|split; [|split; [|split; [|split; [|split]]]]]]]]]].
  - intro ids. split.
    + intros H v Hv. apply (H (ContainsVertex v)). now apply in_map.
    + intros H c Hc. apply in_map_iff in Hc as (v & <- & Hv). now apply H.
  - intro ids. split.
    + intros H v Hv. apply (H (CNot (ContainsVertex v))). apply in_map_iff. eauto.
    + intros H c Hc. apply in_map_iff in Hc as (v & <- & Hv). now apply H.
  - intro es. split.
    + intros H a b Hv. apply (H (ContainsEdge (a, b))). now apply in_map.
    + intros H c Hc. apply in_map_iff in Hc as ([a b] & <- & Hv). now apply H.
  - intro es. split.
    + intros H a b Hv. apply (H (CNot (ContainsEdge (a, b)))). apply in_map_iff. eauto.
    + intros H c Hc. apply in_map_iff in Hc as ([a b] & <- & Hv). now apply H.
  - intros ids Hn. now apply ordered_NoDup.
  - apply (before_self_NoDup N.eq_dec).
  - cbn. rewrite (before_self_NoDup N.eq_dec). tauto.
  - reflexivity.
  - reflexivity.
  - intro n. split.
    + intro H. pose proof (H _ (or_introl eq_refl)). pose proof (H _ (or_intror (or_introl eq_refl))).
      cbn in *. lia.
    + intros <- c [<-|[<-|[]]]; cbn; lia.
  - reflexivity.
  - intro s. split.
    + intro H. pose proof (H _ (or_introl eq_refl)). pose proof (H _ (or_intror (or_introl eq_refl))).
      cbn in *. lia.
    + intros <- c [<-|[<-|[]]]; cbn; lia.
Qed.
Print Assumptions C79_builders.
Example C79_case : NoDup [3; 1]%N /\ holds (build_ordered [3; 1]%N) [3; 2; 1]%N 5%Z /\ ~ holds (build_ordered [3; 1]%N) [1; 2; 3]%N 5%Z /\
  holds build_no_cycle [3; 2; 1]%N 5%Z.
Proof.
  split; [repeat constructor; cbn; intuition discriminate|]. rewrite <- !check_complete_spec.
  repeat split; try reflexivity. discriminate.
Qed.
