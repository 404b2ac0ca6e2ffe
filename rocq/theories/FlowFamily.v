(** * A family of graphs with one short path that crosses all others *)
From Coq Require Import List NArith ZArith Bool Permutation Lia Arith.
From Verif Require Import Spec Base WalkFacts Graph GraphSpec GraphFacts Path PathFacts SearchFacts IterFacts Topo TopoFacts
  MaxFlow FlowSpec FlowFacts FlowBound FlowMax FlowGap.
Import ListNotations.
Local Open Scope nat_scope.

Section Family.
  Variable n : nat.
  Definition width : nat := 2 * n + 2.

  (** Rows [0 .. 2n] of [width] vertices each, numbered row by row and chained from left to right; row 0 leads from
      the start [0] to the end [width - 1].  For each [i < n] row [2i+1] is entered from the start and leads to
      vertex [2i+1] of row 0, and row [2i+2] is entered from vertex [2i+2] of row 0 and leads to the end. *)
  Definition row_edges (j : nat) : list (nat * nat) :=
    map (fun c => (j * width + c, j * width + c + 1)) (seq 0 (width - 1)).
  Definition side_edges (i : nat) : list (nat * nat) :=
    [(0, (2 * i + 1) * width); ((2 * i + 1) * width + (width - 1), 2 * i + 1);
     (2 * i + 2, (2 * i + 2) * width); ((2 * i + 2) * width + (width - 1), width - 1)].
  Definition family_edges : list (nat * nat) :=
    flat_map row_edges (seq 0 (2 * n + 1)) ++ flat_map side_edges (seq 0 n).
  Definition family_graph : graph :=
    apply_commands (map (fun e => AddEdge (N.of_nat (fst e)) (N.of_nat (snd e))) family_edges) g_new.

  Definition fe (x y : nat) : Prop :=
    (exists j c, j <= 2 * n /\ c + 1 < width /\ x = j * width + c /\ y = j * width + c + 1) \/
    (exists i, i < n /\ ((x = 0 /\ y = (2 * i + 1) * width) \/ (x = (2 * i + 1) * width + (width - 1) /\ y = 2 * i + 1) \/
      (x = 2 * i + 2 /\ y = (2 * i + 2) * width) \/ (x = (2 * i + 2) * width + (width - 1) /\ y = width - 1))).

  Lemma family_edges_In x y : In (x, y) family_edges <-> fe x y.
  Proof.
    unfold family_edges, fe. rewrite in_app_iff, !in_flat_map. split.
    - intros [(j & Hj & He)|(i & Hi & He)].
      + left. unfold row_edges in He. apply in_map_iff in He as (c & He & Hc). injection He as <- <-.
        apply in_seq in Hj, Hc. exists j, c. lia.
      + right. apply in_seq in Hi. exists i. split; [lia|]. unfold side_edges in He. cbn [In] in He.
        destruct He as [He|[He|[He|[He|[]]]]]; injection He as <- <-; tauto.
    - intros [(j & c & Hj & Hc & -> & ->)|(i & Hi & He)].
      + left. exists j. split; [apply in_seq; lia|]. unfold row_edges. apply in_map_iff. exists c. split; [reflexivity|apply in_seq; lia].
      + right. exists i. split; [apply in_seq; lia|]. unfold side_edges. cbn [In].
        destruct He as [[-> ->]|[[-> ->]|[[-> ->]|[-> ->]]]]; tauto.
  Qed.
  Lemma add_edges_shown es : forall s x y,
    aE (fold_left a_step (map (fun e : nat * nat => AddEdge (N.of_nat (fst e)) (N.of_nat (snd e))) es) s) x y <->
    aE s x y \/ In (N.to_nat x, N.to_nat y) es.
  Proof.
    induction es as [|[a b] es IH]; intros s x y; [cbn; tauto|]. cbn [map fold_left]. rewrite IH. cbn.
    assert (X : (a, b) = (N.to_nat x, N.to_nat y) <-> x = N.of_nat a /\ y = N.of_nat b).
    { split; [intros [= -> ->]; now rewrite !N2Nat.id|intros [-> ->]; now rewrite !Nat2N.id]. }
    rewrite X. tauto.
  Qed.
  Lemma family_built : built_by (map (fun e => AddEdge (N.of_nat (fst e)) (N.of_nat (snd e))) family_edges) family_graph.
  Proof. apply built_by_apply. Qed.
  Lemma family_gE x y : gE family_graph x y <-> fe (N.to_nat x) (N.to_nat y).
  Proof.
    pose proof (proj2 (refines family_built) x y) as H. cbn in H. unfold gE. rewrite H.
    unfold a_run. rewrite add_edges_shown, family_edges_In. cbn. tauto.
  Qed.

  (** ** Coordinates *)
  Lemma width_pos : width <> 0. Proof. unfold width. lia. Qed.
  Lemma div_rc j c : c < width -> (j * width + c) / width = j.
  Proof. intro H. pose proof width_pos. rewrite Nat.div_add_l by assumption. rewrite Nat.div_small by assumption. lia. Qed.
  Lemma mod_rc j c : c < width -> (j * width + c) mod width = c.
  Proof. intro H. rewrite Nat.add_comm, Nat.mod_add by apply width_pos. now apply Nat.mod_small. Qed.
  Lemma div_r j : (j * width) / width = j.
  Proof. apply Nat.div_mul, width_pos. Qed.
  Lemma mod_r j : (j * width) mod width = 0.
  Proof. apply Nat.mod_mul, width_pos. Qed.

  Lemma fe_col x y : fe x y -> y mod width <= x mod width + 1.
  Proof.
    intros [(j & c & Hj & Hc & -> & ->)|(i & Hi & [[-> ->]|[[-> ->]|[[-> ->]|[-> ->]]]])].
    - rewrite <- Nat.add_assoc, !mod_rc by lia. lia.
    - rewrite mod_r. lia.
    - rewrite mod_rc by (unfold width; lia). rewrite Nat.mod_small by (unfold width; lia). unfold width. lia.
    - rewrite mod_r. lia.
    - rewrite mod_rc by (unfold width; lia). rewrite Nat.mod_small by (unfold width; lia). lia.
  Qed.
  Lemma fe_row0 x y : fe x y -> x < width - 1 -> y = x + 1 \/ y mod width = 0.
  Proof.
    intros [(j & c & Hj & Hc & -> & ->)|(i & Hi & [[-> ->]|[[-> ->]|[[-> ->]|[-> ->]]]])] Hx.
    - now left.
    - right. apply mod_r.
    - exfalso. nia.
    - right. apply mod_r.
    - exfalso. nia.
  Qed.

  Let E := gE family_graph.
  Definition col (v : N) : nat := N.to_nat v mod width.
  Lemma walk_col l : forall a w, walk_from_to E a w l -> col w <= col a + hops l.
  Proof.
    induction l as [|x l IH]; intros a w (Hs & He & Ha).
    - now apply starts_with_nil in Hs.
    - apply starts_with_cons in Hs as ->. destruct l as [|y l].
      + apply ends_with_one in He as ->. lia.
      + rewrite ends_with_cons in He. assert (Hw : walk_from_to E y w (y :: l)).
        { split; [now exists l|]. split; [assumption|]. intros b c Hbc. apply Ha. apply adjacent_cons. now right. }
        apply IH in Hw. assert (Hxy : E x y) by (apply Ha; exists [], l; reflexivity).
        apply family_gE, fe_col in Hxy. unfold col in *. unfold hops in *. cbn [length] in *. lia.
  Qed.

  Definition start : N := 0%N.
  Definition finish : N := N.of_nat (width - 1).
  Definition spine : list N := map N.of_nat (seq 0 width).

  (** The first row is the only shortest path. *)
  Lemma short_is_spine l : forall x, x < width -> walk_from_to E (N.of_nat x) finish l -> hops l <= width - 1 - x ->
    l = map N.of_nat (seq x (width - x)).
  Proof.
    induction l as [|v l IH]; intros x Hx (Hs & He & Ha) Hh.
    - now apply starts_with_nil in Hs.
    - apply starts_with_cons in Hs. subst v. destruct l as [|y l].
      + apply ends_with_one in He. unfold finish in He. apply Nat2N.inj in He.
        replace (width - x) with 1 by lia. reflexivity.
      + rewrite ends_with_cons in He. assert (Hw : walk_from_to E y finish (y :: l)).
        { split; [now exists l|]. split; [assumption|]. intros b c Hbc. apply Ha. apply adjacent_cons. now right. }
        assert (Hxy : E (N.of_nat x) y) by (apply Ha; exists [], l; reflexivity).
        pose proof (walk_col _ _ _ Hw) as Hc. unfold col, finish in Hc. rewrite Nat2N.id in Hc.
        rewrite (Nat.mod_small (width - 1)) in Hc by (unfold width; lia). unfold hops in *. cbn [length] in *.
        apply family_gE in Hxy. rewrite Nat2N.id in Hxy. destruct (fe_row0 _ _ Hxy) as [Ey|Ey]; [lia| |lia].
        assert (Hy : y = N.of_nat (x + 1)) by (rewrite <- Ey; now rewrite N2Nat.id). subst y.
        rewrite (IH (x + 1)) by (try assumption; lia).
        replace (width - x) with (S (width - (x + 1))) by lia. cbn [seq map]. now rewrite Nat.add_1_r.
  Qed.

  (** ** The cut between the vertices the odd rows lead to and the others *)
  Definition side (v : N) : bool :=
    let x := N.to_nat v in
    if x <? width then (x =? 0) || (Nat.odd x && negb (x =? width - 1)) else Nat.odd (x / width).

  Lemma walk_crosses (S : N -> bool) l : forall a w, walk_from_to E a w l -> S a = true -> S w = false ->
    exists x y, adjacent x y l /\ S x = true /\ S y = false.
  Proof.
    induction l as [|x l IH]; intros a w (Hs & He & Ha) Sa Sw.
    - now apply starts_with_nil in Hs.
    - apply starts_with_cons in Hs as ->. destruct l as [|y l].
      + apply ends_with_one in He as ->. congruence.
      + rewrite ends_with_cons in He. destruct (S y) eqn:Sy.
        * destruct (IH y w) as (b & c & Hbc & Sb & Sc); [|assumption|assumption|].
          { split; [now exists l|]. split; [assumption|]. intros b c Hbc. apply Ha. apply adjacent_cons. now right. }
          exists b, c. split; [apply adjacent_cons; now right|now split].
        * exists x, y. split; [now exists [], l|now split].
  Qed.
  Hypothesis Hn : 1 <= n.

  Lemma odd_2i1 i : Nat.odd (2 * i + 1) = true.
  Proof. rewrite Nat.odd_spec. now exists i. Qed.
  Lemma odd_2i2 i : Nat.odd (2 * i + 2) = false.
  Proof. rewrite <- Nat.negb_even. apply negb_false_iff, Nat.even_spec. exists (i + 1). lia. Qed.
  Lemma side_row0 x : x < width -> side (N.of_nat x) = (x =? 0) || (Nat.odd x && negb (x =? width - 1)).
  Proof. intro H. unfold side. rewrite Nat2N.id. destruct (Nat.ltb_spec x width); [reflexivity|lia]. Qed.
  Lemma side_row j c : 1 <= j -> c < width -> side (N.of_nat (j * width + c)) = Nat.odd j.
  Proof. intros Hj Hc. unfold side. rewrite Nat2N.id. destruct (Nat.ltb_spec (j * width + c) width); [nia|]. now rewrite div_rc. Qed.
  Lemma width_odd : Nat.odd (width - 1) = true.
  Proof. replace (width - 1) with (2 * n + 1) by (unfold width; lia). apply odd_2i1. Qed.

  Lemma cut_edge x y : fe x y -> side (N.of_nat x) = true -> side (N.of_nat y) = false ->
    exists i, i < n /\ x = 2 * i + 1 /\ y = 2 * i + 2.
  Proof.
    intros [(j & c & Hj & Hc & -> & ->)|(i & Hi & [[-> ->]|[[-> ->]|[[-> ->]|[-> ->]]]])].
    - destruct j as [|j].
      + rewrite Nat.mul_0_l, !Nat.add_0_l, !side_row0 by lia. intros H1 H2.
        destruct (Nat.eqb_spec c 0) as [->|Hc0].
        { exfalso. destruct (Nat.eqb_spec (0 + 1) (width - 1)) as [H|H]; [unfold width in H; lia|]. cbn in H2. discriminate. }
        cbn [orb] in H1. apply andb_true_iff in H1 as [H1 _]. apply Nat.odd_spec in H1 as [i ->].
        exists i. unfold width in Hc. lia.
      + rewrite <- Nat.add_assoc, !side_row by lia. congruence.
    - intros _. rewrite <- (Nat.add_0_r (_ * width)), side_row by (unfold width; lia). rewrite odd_2i1. discriminate.
    - intros _. rewrite side_row0, odd_2i1 by (unfold width; lia). destruct (Nat.eqb_spec (2 * i + 1) (width - 1)) as [H|H]; [unfold width in H; lia|].
      cbn [negb andb]. rewrite orb_true_r. discriminate.
    - rewrite side_row0, odd_2i2 by (unfold width; lia). destruct (Nat.eqb_spec (2 * i + 2) 0); [lia|]. discriminate.
    - rewrite side_row, odd_2i2 by (unfold width; lia). discriminate.
  Qed.

  Lemma seq_adjacent k m x y : adjacent x y (map N.of_nat (seq k m)) <->
    exists c, k <= c /\ c + 1 < k + m /\ x = N.of_nat c /\ y = N.of_nat (c + 1).
  Proof.
    revert k. induction m as [|m IH]; intro k.
    - split; [intro H; now apply adjacent_nil in H|]. intros (c & H1 & H2 & _). lia.
    - cbn [seq map]. rewrite adjacent_cons, IH. split.
      + intros [[-> Hs]|(c & H1 & H2 & H3)].
        * destruct m as [|m]; cbn [seq map] in Hs; [now apply starts_with_nil in Hs|]. apply starts_with_cons in Hs as ->.
          exists k. rewrite Nat.add_1_r. repeat split; lia.
        * exists c. repeat split; try tauto; lia.
      + intros (c & H1 & H2 & -> & ->). destruct (Nat.eq_dec c k) as [->|Hne].
        * left. split; [reflexivity|]. destruct m as [|m]; [lia|]. cbn [seq map]. rewrite Nat.add_1_r. now eexists.
        * right. exists c. repeat split; lia.
  Qed.

  Lemma seq_NoDup k m : NoDup (map N.of_nat (seq k m)).
  Proof. apply FinFun.Injective_map_NoDup; [intros a b; apply Nat2N.inj|apply seq_NoDup]. Qed.
  Lemma seq_starts k m : starts_with (N.of_nat k) (map N.of_nat (seq k (S m))).
  Proof. now eexists. Qed.
  Lemma seq_ends k m : ends_with (N.of_nat (k + m)) (map N.of_nat (seq k (S m))).
  Proof. rewrite seq_S, map_app. now eexists. Qed.

  Lemma spine_simple : simple_from_to E start finish spine.
  Proof.
    unfold spine, start, finish. replace width with (S (width - 1)) by (unfold width; lia).
    split; [|apply seq_NoDup]. split; [apply (seq_starts 0)|]. split.
    - replace (S (width - 1) - 1) with (0 + (width - 1)) by lia. apply seq_ends.
    - intros x y H. apply seq_adjacent in H as (c & _ & Hc & -> & ->). apply family_gE. rewrite !Nat2N.id. left.
      exists 0, c. cbn [Nat.mul Nat.add]. repeat split; lia.
  Qed.
  Lemma spine_hops : hops spine = width - 1.
  Proof. unfold hops, spine. now rewrite map_length, seq_length. Qed.
  Lemma spine_unique p : simple_from_to E start finish p -> hops p <= hops spine -> p = spine.
  Proof.
    intros [Hp _] Hh. rewrite spine_hops in Hh. unfold spine. rewrite (short_is_spine p 0); [|unfold width; lia|exact Hp|lia].
    now rewrite Nat.sub_0_r.
  Qed.
  Lemma spine_met p : simple_from_to E start finish p -> exists e, In e (to_edge_list p) /\ In e (to_edge_list spine).
  Proof.
    intros [Hp _]. destruct (walk_crosses side p _ _ Hp) as (x & y & Hxy & Sx & Sy).
    - unfold start. change 0%N with (N.of_nat 0). rewrite side_row0 by (unfold width; lia). reflexivity.
    - unfold finish. rewrite side_row0 by (unfold width; lia). destruct (Nat.eqb_spec (width - 1) 0) as [H|_]; [unfold width in H; lia|].
      now rewrite Nat.eqb_refl, andb_false_r.
    - destruct Hp as (_ & _ & Ha). pose proof (Ha x y Hxy) as He. apply family_gE in He.
      destruct (cut_edge _ _ He) as (i & Hi & Ex & Ey); rewrite ?N2Nat.id; try assumption.
      exists (x, y). split; apply to_edge_list_adjacent; [assumption|]. unfold spine. apply seq_adjacent.
      exists (2 * i + 1). unfold width. repeat split; [lia|lia| |]; [rewrite <- Ex|replace (2 * i + 1 + 1) with (2 * i + 2) by lia; rewrite <- Ey]; now rewrite N2Nat.id.
  Qed.

  (** ** The paths that share no edge *)
  Definition row (j : nat) : list N := map N.of_nat (seq (j * width) width).
  Definition side_path (i : nat) : list N :=
    start :: row (2 * i + 1) ++ N.of_nat (2 * i + 1) :: N.of_nat (2 * i + 2) :: row (2 * i + 2) ++ [finish].
  Definition label (e : N * N) : nat :=
    let x := N.to_nat (fst e) in
    if x =? 0 then (N.to_nat (snd e) / width - 1) / 2
    else if x <? width then (x - 1) / 2 else (x / width - 1) / 2.

  Lemma row_starts j : starts_with (N.of_nat (j * width)) (row j).
  Proof. unfold row. replace width with (S (width - 1)) at 3 by (unfold width; lia). apply seq_starts. Qed.
  Lemma row_ends j : ends_with (N.of_nat (j * width + (width - 1))) (row j).
  Proof. unfold row. replace width with (S (width - 1)) at 4 by (unfold width; lia). apply seq_ends. Qed.
  Lemma starts_fun {A} (x y : A) l : starts_with x l -> starts_with y l -> x = y.
  Proof. intros [a ->] [b H]. congruence. Qed.
  Lemma ends_fun {A} (x y : A) l : ends_with x l -> ends_with y l -> x = y.
  Proof. intros [a ->] [b H]. apply app_inj_tail in H. tauto. Qed.

  Lemma side_path_adjacent i x y : adjacent x y (side_path i) ->
    (x = start /\ y = N.of_nat ((2 * i + 1) * width)) \/
    (exists j c, (j = 2 * i + 1 \/ j = 2 * i + 2) /\ c + 1 < width /\ x = N.of_nat (j * width + c) /\ y = N.of_nat (j * width + c + 1)) \/
    (x = N.of_nat ((2 * i + 1) * width + (width - 1)) /\ y = N.of_nat (2 * i + 1)) \/
    (x = N.of_nat (2 * i + 1) /\ y = N.of_nat (2 * i + 2)) \/
    (x = N.of_nat (2 * i + 2) /\ y = N.of_nat ((2 * i + 2) * width)) \/
    (x = N.of_nat ((2 * i + 2) * width + (width - 1)) /\ y = finish).
  Proof.
    assert (Hrow : forall j, adjacent x y (row j) -> exists c, c + 1 < width /\ x = N.of_nat (j * width + c) /\ y = N.of_nat (j * width + c + 1)).
    { intros j H. apply seq_adjacent in H as (c & H1 & H2 & -> & ->). exists (c - j * width).
      replace (j * width + (c - j * width)) with c by lia. repeat split. lia. }
    assert (Hst : forall j l v, starts_with v (row j ++ l) -> v = N.of_nat (j * width)).
    { intros j l v [q H]. destruct (row_starts j) as [r Hr]. rewrite Hr in H.
      assert (H' : N.of_nat (j * width) :: (r ++ l) = v :: q) by exact H. congruence. }
    unfold side_path. rewrite adjacent_cons, adjacent_app, !adjacent_cons, adjacent_app.
    intros [[-> H]|[H|[[[-> H]|[[-> H]|[H|[H|[H1 H2]]]]]|[H1 H2]]]].
    - left. split; [reflexivity|]. now apply Hst in H.
    - right. left. destruct (Hrow _ H) as (c & Hc). exists (2 * i + 1), c. tauto.
    - apply starts_with_cons in H as ->. tauto.
    - apply Hst in H as ->. tauto.
    - right. left. destruct (Hrow _ H) as (c & Hc). exists (2 * i + 2), c. tauto.
    - now apply adjacent_one in H.
    - apply starts_with_cons in H2 as ->. apply (ends_fun _ _ _ (row_ends _)) in H1 as <-. tauto.
    - apply starts_with_cons in H2 as ->. apply (ends_fun _ _ _ (row_ends _)) in H1 as <-. tauto.
  Qed.
  Lemma side_path_walk i : i < n -> walk_from_to E start finish (side_path i).
  Proof.
    intro Hi. split; [now eexists|]. split.
    { unfold side_path. exists (start :: row (2 * i + 1) ++ N.of_nat (2 * i + 1) :: N.of_nat (2 * i + 2) :: row (2 * i + 2)).
      cbn. now rewrite <- app_assoc. }
    intros x y H. apply family_gE. unfold fe.
    destruct (side_path_adjacent _ _ _ H) as [[-> ->]|[(j & c & Hj & Hc & -> & ->)|[[-> ->]|[[-> ->]|[[-> ->]|[-> ->]]]]]];
      unfold start, finish; rewrite ?Nat2N.id.
    - right. exists i. split; [assumption|]. left. now split.
    - left. exists j, c. repeat split; lia.
    - right. exists i. split; [assumption|]. tauto.
    - left. exists 0, (2 * i + 1). unfold width. repeat split; lia.
    - right. exists i. split; [assumption|]. tauto.
    - right. exists i. split; [assumption|]. tauto.
  Qed.
  Lemma half_odd i : (2 * i + 1 - 1) / 2 = i.
  Proof. replace (2 * i + 1 - 1) with (i * 2) by lia. now apply Nat.div_mul. Qed.
  Lemma half_even i : (2 * i + 2 - 1) / 2 = i.
  Proof. replace (2 * i + 2 - 1) with (1 + i * 2) by lia. rewrite Nat.div_add by discriminate. reflexivity. Qed.
  Lemma side_path_label i x y : i < n -> adjacent x y (side_path i) -> label (x, y) = i.
  Proof.
    intros Hi H. unfold label. cbn [fst snd].
    assert (Hbig : forall j c, 1 <= j -> c < width -> (j * width + c =? 0) = false /\ (j * width + c <? width) = false).
    { intros j c Hj Hc. split; [apply Nat.eqb_neq|apply Nat.ltb_ge]; pose proof width_pos; nia. }
    assert (Hsmall : forall c, 0 < c < width -> (c =? 0) = false /\ (c <? width) = true).
    { intros c Hc. split; [apply Nat.eqb_neq|apply Nat.ltb_lt]; lia. }
    destruct (side_path_adjacent _ _ _ H) as [[-> ->]|[(j & c & Hj & Hc & -> & ->)|[[-> ->]|[[-> ->]|[[-> ->]|[-> ->]]]]]];
      unfold start, finish; rewrite ?Nat2N.id.
    - cbn [N.to_nat Nat.eqb]. rewrite div_r. apply half_odd.
    - destruct (Hbig j c ltac:(lia) ltac:(lia)) as [-> ->]. rewrite div_rc by lia. destruct Hj as [->| ->]; [apply half_odd|apply half_even].
    - destruct (Hbig (2 * i + 1) (width - 1) ltac:(lia) ltac:(unfold width; lia)) as [-> ->]. rewrite div_rc by (unfold width; lia). apply half_odd.
    - destruct (Hsmall (2 * i + 1) ltac:(unfold width; lia)) as [-> ->]. apply half_odd.
    - destruct (Hsmall (2 * i + 2) ltac:(unfold width; lia)) as [-> ->]. apply half_even.
    - destruct (Hbig (2 * i + 2) (width - 1) ltac:(lia) ltac:(unfold width; lia)) as [-> ->]. rewrite div_rc by (unfold width; lia). apply half_even.
  Qed.
  Lemma row_bounds j v : In v (row j) -> j * width <= N.to_nat v < (j + 1) * width.
  Proof. intro H. apply in_map_iff in H as (c & <- & Hc). rewrite Nat2N.id. apply in_seq in Hc. lia. Qed.
  Lemma side_path_NoDup i : i < n -> NoDup (side_path i).
  Proof.
    intro Hi. unfold side_path. pose proof width_pos as Hw.
    assert (B1 : forall v, In v (row (2 * i + 1)) -> width <= N.to_nat v < (2 * i + 2) * width) by (intros v Hv; apply row_bounds in Hv; nia).
    assert (B2 : forall v, In v (row (2 * i + 2)) -> (2 * i + 2) * width <= N.to_nat v) by (intros v Hv; apply row_bounds in Hv; lia).
    assert (B3 : width <= (2 * i + 2) * width) by nia.
    assert (T : N.to_nat finish = width - 1) by apply Nat2N.id.
    assert (B4 : forall v, In v (row (2 * i + 2) ++ [finish]) -> 2 * i + 2 < N.to_nat v /\ (N.to_nat v = width - 1 \/ (2 * i + 2) * width <= N.to_nat v)).
    { intros v Hv. apply in_app_iff in Hv as [Hv|[<-|[]]]; [apply B2 in Hv|rewrite T]; unfold width in *; lia. }
    constructor.
    { intro H. apply in_app_iff in H as [H|[H|[H|H]]].
      - apply B1 in H. cbn in H. lia.
      - apply (f_equal N.to_nat) in H. rewrite Nat2N.id in H. cbn in H. lia.
      - apply (f_equal N.to_nat) in H. rewrite Nat2N.id in H. cbn in H. lia.
      - apply B4 in H. cbn in H. lia. }
    apply NoDup_app_iff. split; [apply seq_NoDup|]. split.
    - constructor.
      { intros [H|H].
        - apply Nat2N.inj in H. lia.
        - apply B4 in H. rewrite Nat2N.id in H. lia. }
      constructor.
      { intro H. apply B4 in H. rewrite Nat2N.id in H. lia. }
      apply NoDup_app_iff. split; [apply seq_NoDup|]. split; [repeat constructor; tauto|].
      intros v Hv [<-|[]]. apply B2 in Hv. rewrite T in Hv. lia.
    - intros v Hv [<-|[<-|H]]; apply B1 in Hv; [rewrite Nat2N.id in Hv; unfold width in Hv; lia|rewrite Nat2N.id in Hv; unfold width in Hv; lia|].
      apply B4 in H. lia.
  Qed.
  Lemma side_paths_disjoint : NoDup (flat_map to_edge_list (map side_path (seq 0 n))).
  Proof.
    assert (H : forall m, m <= n -> NoDup (flat_map to_edge_list (map side_path (seq 0 m))) /\
              forall e, In e (flat_map to_edge_list (map side_path (seq 0 m))) -> label e < m).
    { induction m as [|m IH]; intro Hm; [split; [constructor|contradiction]|]. destruct IH as [I1 I2]; [lia|].
      rewrite seq_S, map_app, flat_map_app. cbn [map flat_map Nat.add]. rewrite app_nil_r.
      assert (Hl : forall e, In e (to_edge_list (side_path m)) -> label e = m).
      { intros [x y] He. apply to_edge_list_adjacent in He. apply side_path_label; [lia|assumption]. }
      split.
      - apply NoDup_app_iff. split; [assumption|]. split; [apply simple_edges_NoDup, side_path_NoDup; lia|].
        intros e H1 H2. apply I2 in H1. apply Hl in H2. lia.
      - intros e He. apply in_app_iff in He as [He|He]; [apply I2 in He; lia|apply Hl in He; lia]. }
    now apply (H n).
  Qed.
End Family.
