(** * A family of acyclic graphs on which SPFA takes exponentially many turns

    The graph has layers [1 .. K]; layer [k] has the vertices [(k, 1) .. (k, k)].  Within a layer [(k, j)] points to
    every [(k, i)] with [i < j] (for [j < k]); to the next layer it points to [(k+1, 1)] and [(k+1, j+1)].  The queue then
    holds, layer after layer, the ruler sequence 1 2 1 3 1 2 1 4 ..., twice as long at each layer. *)
From Coq Require Import List NArith ZArith Bool Lia Arith.
From Verif Require Import Spec Base Graph GraphSpec GraphFacts Path SearchFacts Topo TopoFacts ShortFacts SpfaEnds.
Import ListNotations.
Local Open Scope nat_scope.

(** ** The outgoing edges of a graph made by distinct [AddEdge] commands *)
Definition add_edges (es : list edge) : list graph_command := map (fun e => AddEdge (fst e) (snd e)) es.

Lemma outbound_add g (a b v : N) : wf g -> ~ hasE g a b ->
  outbound_edges (fst (add_edge g (a, b))) v = outbound_edges g v ++ (if N.eqb a v then [(a, b)] else []).
Proof.
  intros W Hn. unfold outbound_edges. rewrite get_add_edge_new.
  2:{ destruct (contains_edge g (a, b)) eqn:E; [|reflexivity]. exfalso. apply Hn. now apply contains_edge_hasE. }
  unfold incident, get0. cbn [fst snd]. destruct (N.eqb_spec v a) as [->|Hva]; cbn [orb].
  - rewrite N.eqb_refl. destruct (g_get a g) as [l|]; rewrite ?filter_app; cbn [filter app fst]; rewrite N.eqb_refl; reflexivity.
  - destruct (N.eqb_spec a v) as [->|_]; [congruence|]. rewrite app_nil_r. destruct (N.eqb_spec v b) as [->|]; [|reflexivity].
    destruct (g_get b g) as [l|]; rewrite ?filter_app; cbn [filter app fst]; destruct (N.eqb_spec a b); try congruence;
      rewrite ?app_nil_r; reflexivity.
Qed.

Lemma outbound_add_edges es : forall g, built g -> NoDup es -> (forall a b, In (a, b) es -> ~ hasE g a b) -> forall v,
  outbound_edges (apply_commands (add_edges es) g) v = outbound_edges g v ++ filter (fun e => N.eqb (fst e) v) es.
Proof.
  induction es as [|[a b] es IH]; intros g Hb Hn Hd v; [symmetry; apply app_nil_r|]. inversion Hn as [|x l Hx Hn']; subst.
  pose proof (built_wf Hb) as W.
  change (apply_commands (add_edges ((a, b) :: es)) g) with (apply_commands (add_edges es) (fst (add_edge g (a, b)))).
  rewrite IH; [|destruct Hb as [cs Hb]; exists (cs ++ [AddEdge a b]); now apply (built_cmd (AddEdge a b))|assumption|].
  - rewrite outbound_add; [|assumption|apply Hd; now left]. rewrite <- app_assoc. f_equal. cbn [filter fst]. now destruct (N.eqb a v).
  - intros c d Hin He. rewrite (hasE_add_edge a b c d W) in He. destruct He as [He|[-> ->]]; [|contradiction].
    apply (Hd c d); [now right|assumption].
Qed.

(** ** Lists keyed by a number *)
Section Keyed.
  Context {A B : Type} (f : A -> list B) (key : B -> N) (h : A -> N).
  Hypothesis Hkey : forall x y, In y (f x) -> key y = h x.
  Lemma keyed_NoDup l : NoDup l -> (forall x y, In x l -> In y l -> h x = h y -> x = y) -> (forall x, In x l -> NoDup (f x)) ->
    NoDup (flat_map f l).
  Proof.
    induction 1 as [|a l Ha Hn IH]; intros Hinj Hf; cbn [flat_map]; [constructor|].
    apply NoDup_app_iff. split; [|split].
    - apply Hf. now left.
    - apply IH; intros; [apply Hinj; try (now right); assumption|apply Hf; now right].
    - intros y Hy Hy'. apply in_flat_map in Hy' as (x & Hx & Hy'). apply Ha.
      rewrite (Hinj a x); [assumption|now left|now right|]. rewrite <- (Hkey a y Hy). now apply Hkey.
  Qed.
  Lemma keyed_filter l : forall x, NoDup l -> In x l -> (forall x y, In x l -> In y l -> h x = h y -> x = y) ->
    filter (fun y => N.eqb (key y) (h x)) (flat_map f l) = f x.
  Proof.
    assert (Hno : forall l x, (forall y, In y l -> h y <> h x) -> filter (fun y => N.eqb (key y) (h x)) (flat_map f l) = []).
    { clear l. intros l x. induction l as [|a l IH]; intro H; [reflexivity|]. cbn [flat_map]. rewrite filter_app, IH by (intros; apply H; now right).
      rewrite app_nil_r. assert (Ha : forall y, In y (f a) -> key y <> h x) by (intros y Hy; rewrite (Hkey a y Hy); apply H; now left).
      clear H IH. induction (f a) as [|y t IHt]; [reflexivity|]. cbn [filter]. destruct (N.eqb_spec (key y) (h x)) as [E|_].
      - exfalso. apply (Ha y); [now left|assumption].
      - apply IHt. intros z Hz. apply Ha. now right. }
    intros x Hn. induction Hn as [|a l Ha Hn IH]; intros Hx Hinj; [contradiction|]. cbn [flat_map]. rewrite filter_app.
    assert (Hall : forall t, (forall y, In y t -> key y = h a) -> filter (fun y => N.eqb (key y) (h a)) t = t).
    { induction t as [|y t IHt]; intro H; [reflexivity|]. cbn [filter]. rewrite (H y (or_introl eq_refl)), N.eqb_refl. f_equal. apply IHt. intros; apply H. now right. }
    destruct Hx as [->|Hx].
    - rewrite Hall by apply Hkey. rewrite Hno; [apply app_nil_r|]. intros y Hy E. apply Ha. rewrite (Hinj x y); [assumption|now left|now right|now symmetry].
    - rewrite IH; [|assumption|intros; apply Hinj; try (now right); assumption].
      assert (Hne : h a <> h x). { intro E. apply Ha. rewrite (Hinj a x); [assumption|now left|now right|assumption]. }
      specialize (Hno [a] x). cbn [flat_map] in Hno. rewrite app_nil_r in Hno. rewrite Hno; [reflexivity|]. intros y [<-|[]]. assumption.
  Qed.
End Keyed.

(** ** The graph *)
(** Vertex [i] of layer [k]. *)
Definition vid (k i : nat) : N := (64 * N.of_nat k + N.of_nat i)%N.
Definition lay (v : N) : nat := N.to_nat (v / 64)%N.
Definition pos (v : N) : nat := N.to_nat (v mod 64)%N.
Lemma vid_inj k i k' i' : i < 64 -> i' < 64 -> vid k i = vid k' i' -> k = k' /\ i = i'.
Proof. unfold vid. lia. Qed.
Lemma lay_vid k i : i < 64 -> lay (vid k i) = k.
Proof. intro H. unfold lay, vid. rewrite <- (N.div_unique (64 * N.of_nat k + N.of_nat i) 64 (N.of_nat k) (N.of_nat i)); lia. Qed.
Lemma pos_vid k i : i < 64 -> pos (vid k i) = i.
Proof. intro H. unfold pos, vid. rewrite <- (N.mod_unique (64 * N.of_nat k + N.of_nat i) 64 (N.of_nat k) (N.of_nat i)); lia. Qed.

Definition targets_of (K : nat) (x : nat * nat) : list N :=
  let (k, j) := x in
  (if j <? k then map (vid k) (seq 1 (j - 1)) else []) ++ (if k <? K then [vid (k + 1) 1; vid (k + 1) (j + 1)] else []).
Definition edges_of (K : nat) (x : nat * nat) : list edge := map (pair (vid (fst x) (snd x))) (targets_of K x).
Definition places (K : nat) : list (nat * nat) := flat_map (fun k => map (pair k) (seq 1 k)) (seq 1 K).
Definition cascade_edges (K : nat) : list edge := flat_map (edges_of K) (places K).
Definition cascade (K : nat) : graph := apply_commands (add_edges (cascade_edges K)) g_new.

Lemma places_In K k j : In (k, j) (places K) <-> 1 <= j <= k /\ k <= K.
Proof.
  unfold places. rewrite in_flat_map. split.
  - intros (x & Hx & H). apply in_map_iff in H as (y & [= <- <-] & Hy). apply in_seq in Hx, Hy. lia.
  - intro H. exists k. split; [apply in_seq; lia|]. apply in_map_iff. exists j. split; [reflexivity|]. apply in_seq. lia.
Qed.
Lemma places_NoDup K : NoDup (places K).
Proof.
  unfold places. apply (keyed_NoDup _ (fun p => N.of_nat (fst p)) N.of_nat).
  - intros x y H. apply in_map_iff in H as (z & <- & _). reflexivity.
  - apply seq_NoDup.
  - intros. lia.
  - intros x _. apply FinFun.Injective_map_NoDup; [|apply seq_NoDup]. intros a b [= ->]. reflexivity.
Qed.
Lemma places_length K : length (places K) * 2 = K * (K + 1).
Proof.
  unfold places. induction K as [|K IH]; [reflexivity|]. rewrite seq_S, flat_map_app, app_length. cbn [flat_map]. rewrite app_nil_r, map_length, seq_length. lia.
Qed.
Definition place_id (x : nat * nat) : N := vid (fst x) (snd x).
Lemma place_inj K : K < 63 -> forall x y, In x (places K) -> In y (places K) -> place_id x = place_id y -> x = y.
Proof.
  intros HK [k j] [k' j'] H H' E. apply places_In in H, H'. unfold place_id in E. cbn [fst snd] in E.
  apply vid_inj in E as [-> ->]; [reflexivity|lia..].
Qed.
Lemma targets_NoDup K x : K < 63 -> In x (places K) -> NoDup (targets_of K x).
Proof.
  destruct x as [k j]. intros HK H. apply places_In in H. unfold targets_of. apply NoDup_app_iff. split; [|split].
  - destruct (j <? k); [|constructor]. apply NoDup_map_in; [|apply seq_NoDup]. intros a b Ha Hb E. apply in_seq in Ha, Hb. apply vid_inj in E; lia.
  - destruct (k <? K); [|constructor]. constructor; [|constructor; [tauto|constructor]]. intros [E|[]]. unfold vid in E. lia.
  - intros v H1 H2. destruct (j <? k); [|contradiction]. destruct (k <? K); [|contradiction]. apply in_map_iff in H1 as (i & <- & Hi). apply in_seq in Hi.
    destruct H2 as [E|[E|[]]]; unfold vid in E; lia.
Qed.
Lemma edges_of_key K x y : In y (edges_of K x) -> fst y = place_id x.
Proof. unfold edges_of. intro H. apply in_map_iff in H as (z & <- & _). reflexivity. Qed.
Lemma cascade_edges_NoDup K : K < 63 -> NoDup (cascade_edges K).
Proof.
  intro HK. unfold cascade_edges. apply (keyed_NoDup _ fst place_id (edges_of_key K)); [apply places_NoDup|now apply place_inj|].
  intros x Hx. unfold edges_of. apply FinFun.Injective_map_NoDup; [intros a b [= ->]; reflexivity|]. now apply targets_NoDup.
Qed.
Lemma cascade_built K : built_by (add_edges (cascade_edges K)) (cascade K).
Proof. apply built_by_apply. Qed.
Lemma cascade_out K k j : K < 63 -> 1 <= j <= k -> k <= K -> outbound_edges (cascade K) (vid k j) = edges_of K (k, j).
Proof.
  intros HK Hj Hk. unfold cascade. rewrite outbound_add_edges.
  - cbn [outbound_edges g_new g_get hm_get app]. exact (keyed_filter (edges_of K) fst place_id (edges_of_key K) (places K) (k, j) (places_NoDup K) (proj2 (places_In K k j) (conj Hj Hk)) (place_inj K HK)).
  - exists []; apply built_new.
  - now apply cascade_edges_NoDup.
  - intros a b _ [es [H _]]. discriminate.
Qed.
Lemma cascade_gE K a b : K < 63 -> gE (cascade K) a b <-> In (a, b) (cascade_edges K).
Proof.
  intro HK. assert (Hb : built (cascade K)) by (eexists; apply cascade_built). pose proof (built_wf Hb) as W.
  rewrite (gE_outbound _ W). unfold cascade. rewrite (outbound_add_edges _ g_new); [|exists []; apply built_new|now apply cascade_edges_NoDup|intros ? ? _ [es [H _]]; discriminate].
  change (outbound_edges g_new a) with (@nil edge). cbn [app]. rewrite filter_In. cbn [fst]. rewrite N.eqb_refl. tauto.
Qed.

(** ** The weights *)
Definition pw (i : nat) : Z := (2 ^ Z.of_nat i)%Z.
Lemma pw_S i : pw (S i) = (2 * pw i)%Z.
Proof. unfold pw. rewrite Nat2Z.inj_succ, Z.pow_succ_r; lia. Qed.
Lemma pw_pos i : (0 < pw i)%Z.
Proof. unfold pw. apply Z.pow_pos_nonneg; lia. Qed.
Lemma pw_le i j : i <= j -> (pw i <= pw j)%Z.
Proof. intro H. unfold pw. apply Z.pow_le_mono_r; lia. Qed.
Lemma pw_nat i : Z.of_nat (2 ^ i) = pw i.
Proof. induction i as [|i IH]; [reflexivity|]. rewrite pw_S, Nat.pow_succ_r', Nat2Z.inj_mul, IH. reflexivity. Qed.

(** Weight from [(k, j)] to [(k+1, j+1)]. *)
Definition climb (k j : nat) : Z := ((if Nat.eqb j k then pw (pred k) else pw (pred k) - pw (pred j)) - pw j)%Z.
Definition cascade_w (e : edge) : Z :=
  let k := lay (fst e) in let j := pos (fst e) in let i := pos (snd e) in
  (if Nat.eqb (lay (snd e)) k then - pw (pred i) else if Nat.eqb i 1 then pw (pred k) - 1 else climb k j)%Z.
Lemma w_in k j i : j < 64 -> i < 64 -> cascade_w (vid k j, vid k i) = (- pw (pred i))%Z.
Proof. intros. unfold cascade_w. cbn [fst snd]. rewrite !lay_vid, !pos_vid, Nat.eqb_refl by assumption. reflexivity. Qed.
Lemma w_one k j : j < 64 -> cascade_w (vid k j, vid (k + 1) 1) = (pw (pred k) - 1)%Z.
Proof. intros. unfold cascade_w. cbn [fst snd]. rewrite !lay_vid, !pos_vid by lia. destruct (Nat.eqb_spec (k + 1) k); [lia|reflexivity]. Qed.
Lemma w_up k j : 1 <= j -> j < 63 -> cascade_w (vid k j, vid (k + 1) (j + 1)) = climb k j.
Proof.
  intros. unfold cascade_w. cbn [fst snd]. rewrite !lay_vid, !pos_vid by lia. destruct (Nat.eqb_spec (k + 1) k); [lia|].
  destruct (Nat.eqb_spec (j + 1) 1); [lia|reflexivity].
Qed.

(** ** Turns of the loop *)
Section Turns.
  Variables (g : graph) (w : edge -> Z).
  Definition cur := current_score_of_vertex.
  Definition pops (n : nat) (x x' : scores * list N) : Prop := forall f, spfa_loop g w (n + f) x = spfa_loop g w f x'.
  Lemma pops_trans n n' x x' x'' : pops n x x' -> pops n' x' x'' -> pops (n + n') x x''.
  Proof. intros H H' f. rewrite <- Nat.add_assoc, H. apply H'. Qed.
  Lemma pops_one m v q m' q' : ofold (spfa_edge w) (outbound_edges g v) (m, q) = Done (m', q') -> pops 1 (m, v :: q) (m', q').
  Proof. intros H f. cbn [Nat.add spfa_loop fst snd]. rewrite H. reflexivity. Qed.
  Lemma pops_fuel n x x' f : pops n x x' -> f <= n -> spfa_loop g w f x = OutOfFuel.
  Proof.
    intros H Hf. destruct (spfa_loop g w f x) eqn:E; [exfalso..|reflexivity].
    all: assert (Hs : spfa_loop g w n x = spfa_loop g w f x) by (apply spfa_loop_stable; [assumption|rewrite E; discriminate]).
    all: specialize (H 0); rewrite Nat.add_0_r, Hs, E in H; discriminate.
  Qed.
  Lemma cur_present m v : (cur m v < i64_max)%Z -> exists sp, sc_get v m = Some sp /\ sp_score sp = cur m v.
  Proof. unfold cur, current_score_of_vertex. destruct (sc_get v m) as [sp|]; [eauto|lia]. Qed.
  Lemma in_i64 z : (i64_min <= z <= i64_max)%Z -> i64 z = Done z.
  Proof. intro H. unfold i64, i64_ok. destruct (Z.leb_spec i64_min z), (Z.leb_spec z i64_max); try lia. reflexivity. Qed.

  Definition stale (m : scores) (v : N) : Prop := (cur m v < i64_max)%Z /\
    forall b, In (v, b) (outbound_edges g v) -> (i64_min <= cur m v + w (v, b) <= i64_max)%Z /\ (cur m b <= cur m v + w (v, b))%Z.
  Lemma pop_stale m v q : stale m v -> pops 1 (m, v :: q) (m, q).
  Proof.
    intros [Hc Hs]. apply pops_one. destruct (cur_present m v Hc) as (sp & Hg & Hsp).
    assert (Hall : forall es, (forall e, In e es -> In e (outbound_edges g v)) -> ofold (spfa_edge w) es (m, q) = Done (m, q)); [|now apply Hall].
    induction es as [|[a b] es IH]; intro He; [reflexivity|]. cbn [ofold].
    assert (a = v) as -> by (specialize (He _ (or_introl eq_refl)); now apply outbound_In in He).
    destruct (Hs b (He _ (or_introl eq_refl))) as [Hr Hle].
    unfold spfa_edge at 1, relax. cbn [fst snd]. rewrite Hg, Hsp, in_i64 by assumption. cbn [obind].
    destruct (Z.ltb_spec (cur m v + w (v, b)) (current_score_of_vertex m b)) as [Hlt|_]; [unfold cur in *; lia|]. cbn [obind snd fst].
    apply IH. intros; apply He. now right.
  Qed.
  Lemma pop_live m v q bs : outbound_edges g v = map (pair v) bs -> NoDup bs -> ~ In v bs -> (cur m v < i64_max)%Z ->
    (forall b, In b bs -> (i64_min <= cur m v + w (v, b) <= i64_max)%Z /\ (cur m v + w (v, b) < cur m b)%Z) ->
    exists m', pops 1 (m, v :: q) (m', q ++ bs) /\
      (forall b, In b bs -> cur m' b = (cur m v + w (v, b))%Z) /\ (forall b, ~ In b bs -> cur m' b = cur m b).
  Proof.
    intros Ho Hn Hv Hc Hb.
    assert (H : forall t q m, NoDup t -> (forall b, In b t -> In b bs) -> (cur m v < i64_max)%Z ->
      (forall b, In b t -> (i64_min <= cur m v + w (v, b) <= i64_max)%Z /\ (cur m v + w (v, b) < cur m b)%Z) -> exists m',
      ofold (spfa_edge w) (map (pair v) t) (m, q) = Done (m', q ++ t) /\
      (forall b, In b t -> cur m' b = (cur m v + w (v, b))%Z) /\ (forall b, ~ In b t -> cur m' b = cur m b)).
    { clear Ho Hn Hc Hb q m. induction t as [|b t IH]; intros q m Hn Hin Hc Hb.
      - exists m. cbn. rewrite app_nil_r. split; [reflexivity|]. split; [contradiction|reflexivity].
      - inversion Hn as [|x l Hx Hn']; subst. destruct (cur_present m v Hc) as (sp & Hg & Hsp). pose proof (Hb b (or_introl eq_refl)) as Hlt.
        set (m1 := sc_put b (scored_path_of (path_append (sp_path sp) b) (cur m v + w (v, b))) m).
        assert (Hc1 : forall y, cur m1 y = if N.eqb y b then (cur m v + w (v, b))%Z else cur m y).
        { intro y. unfold cur, m1. rewrite cur_put. reflexivity. }
        assert (Hvb : v <> b) by (intros ->; apply Hv, Hin; now left).
        assert (Hcv : cur m1 v = cur m v) by (rewrite Hc1; destruct (N.eqb_spec v b); [congruence|reflexivity]).
        assert (Hb1 : forall y, In y t -> cur m1 y = cur m y) by (intros y Hy; rewrite Hc1; destruct (N.eqb_spec y b); [congruence|reflexivity]).
        destruct (IH (q ++ [b]) m1 Hn') as (m' & H1 & H2 & H3).
        + intros; apply Hin. now right.
        + rewrite Hcv. assumption.
        + intros y Hy. rewrite Hcv, (Hb1 y Hy). apply Hb. now right.
        + exists m'. split; [|split].
          * cbn [map ofold]. unfold spfa_edge at 1, relax. cbn [fst snd]. rewrite Hg, Hsp, in_i64 by tauto.
            cbn [obind]. destruct (Z.ltb_spec (cur m v + w (v, b)) (current_score_of_vertex m b)) as [_|Hge]; [|unfold cur in *; lia].
            cbn [obind snd fst]. fold m1. rewrite H1, <- app_assoc. reflexivity.
          * intros y [<-|Hy]; [|rewrite (H2 y Hy), Hcv; reflexivity]. rewrite (H3 b Hx), Hc1, N.eqb_refl. reflexivity.
          * intros y Hy. rewrite H3 by (intro; apply Hy; now right). rewrite Hc1. destruct (N.eqb_spec y b) as [->|]; [exfalso; apply Hy; now left|reflexivity]. }
    destruct (H bs q m Hn (fun b Hb => Hb) Hc Hb) as (m' & H1 & H2 & H3). exists m'. split; [|split; assumption].
    apply pops_one. rewrite Ho. exact H1.
  Qed.
End Turns.

(** ** The queue of one layer *)
Fixpoint ruler (j : nat) : list nat := match j with O => [] | S j => ruler j ++ S j :: ruler j end.
Lemma ruler_length j : length (ruler j) = 2 ^ j - 1.
Proof.
  induction j as [|j IH]; [reflexivity|]. cbn [ruler]. rewrite app_length. cbn [length]. rewrite IH, Nat.pow_succ_r'.
  pose proof (Nat.pow_nonzero 2 j). lia.
Qed.
Definition onlay (k : nat) (v : N) : bool := Nat.eqb (lay v) k.
(** The vertices of layer [k] in the queue are [l], in this order; the others are on the layer before. *)
Definition mixed (k : nat) (l : list nat) (A : list N) : Prop :=
  filter (onlay k) A = map (vid k) l /\ forall v, In v A -> onlay k v = false -> exists i, 1 <= i <= k - 1 /\ v = vid (k - 1) i.
Definition next (l : list nat) : list nat := flat_map (fun i => [1; i + 1]) l.
Lemma next_app l l' : next (l ++ l') = next l ++ next l'.
Proof. apply flat_map_app. Qed.
Lemma next_length l : length (next l) = 2 * length l.
Proof. induction l as [|i l IH]; [reflexivity|]. cbn [next flat_map]. rewrite app_length. fold (next l). rewrite IH. cbn [length]. lia. Qed.

Lemma filter_split {A} (f : A -> bool) l : forall l1 x l2, filter f l = l1 ++ x :: l2 ->
  exists a1 a2, l = a1 ++ x :: a2 /\ filter f a1 = l1 /\ filter f a2 = l2 .
Proof.
  induction l as [|y l IH]; intros l1 x l2 H; [now destruct l1|]. cbn [filter] in H. destruct (f y) eqn:E.
  - destruct l1 as [|z l1]; cbn [app] in H; injection H as -> H.
    + exists [], l. auto.
    + destruct (IH l1 x l2 H) as (a1 & a2 & -> & H1 & H2). exists (z :: a1), a2. cbn [filter app]. rewrite E, H1. auto.
  - destruct (IH l1 x l2 H) as (a1 & a2 & -> & H1 & H2). exists (y :: a1), a2. cbn [filter app]. rewrite E, H1. auto.
Qed.
Lemma mixed_split k l1 i l2 A : mixed k (l1 ++ i :: l2) A ->
  exists A1 A2, A = A1 ++ vid k i :: A2 /\ mixed k l1 A1 /\ mixed k l2 A2.
Proof.
  intros [H1 H2]. rewrite map_app in H1. cbn [map] in H1. apply filter_split in H1 as (A1 & A2 & -> & H3 & H4).
  exists A1, A2. split; [reflexivity|]. split; (split; [assumption|]); intros v Hv; apply H2; rewrite in_app_iff; [now left|right; now right].
Qed.
Lemma mixed_app k l l' A A' : mixed k l A -> mixed k l' A' -> mixed k (l ++ l') (A ++ A').
Proof.
  intros [H1 H2] [H3 H4]. split; [rewrite filter_app, map_app; congruence|]. intros v Hv. apply in_app_iff in Hv as [Hv|Hv]; auto.
Qed.

Section Phase.
  Variables (K k : nat).
  Hypothesis HK : K <= 50.
  Hypothesis Hk : 1 <= k < K.
  Notation g := (cascade K).
  Notation w := cascade_w.
  Notation pops := (pops g w).

  Definition junk_stale (m : scores) : Prop := forall i, 1 <= i <= k - 1 -> stale g w m (vid (k - 1) i).
  Lemma pop_junk m A rest : junk_stale m -> mixed k [] A -> pops (length A) (m, A ++ rest) (m, rest).
  Proof.
    intros Hs [H1 H2]. induction A as [|v A IH]; [intro f; reflexivity|]. cbn [filter] in H1. destruct (onlay k v) eqn:E; [discriminate|].
    destruct (H2 v (or_introl eq_refl) E) as (i & Hi & ->). cbn [length app].
    apply (pops_trans g w 1 (length A) _ (m, A ++ rest)); [|apply IH; [assumption|intros; apply H2; [now right|assumption]]].
    apply pop_stale. now apply Hs.
  Qed.

  (** Going on to the right of the ruler keeps what is behind untouched. *)
  Record after (j : nat) (b : Z) (m m' : scores) : Prop := {
    af_layer : forall i, 1 <= i <= j -> cur m' (vid k i) = (- (b + pw j - pw (pred i)))%Z;
    af_one : 1 <= j -> cur m' (vid (k + 1) 1) = (- (b + pw j - 1) + (pw (pred k) - 1))%Z;
    af_up : forall i, 1 <= i <= j -> cur m' (vid (k + 1) (i + 1)) = (- (b + pw j - pw (pred i)) + climb k i)%Z;
    af_rest : forall v, (forall i, 1 <= i <= j -> v <> vid k i /\ v <> vid (k + 1) 1 /\ v <> vid (k + 1) (i + 1)) -> cur m' v = cur m v;
    af_mono : forall v, (cur m' v <= cur m v)%Z }.
  Record before (j : nat) (b : Z) (m : scores) : Prop := {
    be_junk : junk_stale m;
    be_layer : forall i, 1 <= i <= j -> cur m (vid k i) = (- (b + pw (pred i)))%Z;
    be_one : (- (b + 1) + (pw (pred k) - 1) < cur m (vid (k + 1) 1))%Z;
    be_up : forall i, 1 <= i <= j -> (- (b + pw (pred i)) + climb k i < cur m (vid (k + 1) (i + 1)))%Z }.

  Lemma junk_after m m' : junk_stale m -> (forall i, 1 <= i <= k - 1 -> cur m' (vid (k - 1) i) = cur m (vid (k - 1) i)) ->
    (forall v, (cur m' v <= cur m v)%Z) -> junk_stale m'.
  Proof.
    intros H He Hm i Hi. destruct (H i Hi) as [H1 H2]. split; [rewrite He; assumption|].
    intros b Hb. destruct (H2 b Hb) as [H3 H4]. rewrite He by assumption. split; [assumption|]. specialize (Hm b). lia.
  Qed.
  Lemma pw_bound i : i <= 50 -> (0 < pw i <= 2 ^ 50)%Z.
  Proof. intro H. split; [apply pw_pos|]. change (2 ^ 50)%Z with (pw 50). now apply pw_le. Qed.
  Lemma climb_bound i : 1 <= i <= k -> (- 2 ^ 50 <= climb k i <= 2 ^ 50)%Z.
  Proof.
    intro H. unfold climb. pose proof (pw_bound (pred k)). pose proof (pw_bound i). pose proof (pw_le (pred i) (pred k)).
    destruct (Nat.eqb i k); pose proof (pw_pos (pred i)); lia.
  Qed.

  Lemma block J : 1 <= J <= k -> mixed (k + 1) (next [J]) (targets_of K (k, J)).
  Proof.
    intro HJ. unfold targets_of. destruct (Nat.ltb_spec k K) as [_|]; [|lia].
    set (I := if J <? k then map (vid k) (seq 1 (J - 1)) else []).
    assert (HI : forall v, In v I -> exists i, 1 <= i <= k /\ v = vid k i).
    { intros v Hv. unfold I in Hv. destruct (J <? k); [|contradiction]. apply in_map_iff in Hv as (i & <- & Hi). apply in_seq in Hi. exists i. split; [lia|reflexivity]. }
    assert (HF : filter (onlay (k + 1)) I = []).
    { assert (Hn : forall v, In v I -> onlay (k + 1) v = false).
      { intros v Hv. destruct (HI v Hv) as (i & Hi & ->). unfold onlay. rewrite lay_vid by lia. apply Nat.eqb_neq. lia. }
      clear HI. induction I as [|v I IH]; [reflexivity|]. cbn [filter]. rewrite (Hn v) by now left. apply IH. intros; apply Hn. now right. }
    assert (H1 : forall i, i < 64 -> onlay (k + 1) (vid (k + 1) i) = true) by (intros i Hi; unfold onlay; rewrite lay_vid by lia; apply Nat.eqb_refl).
    split.
    - rewrite filter_app, HF. cbn [filter app]. rewrite !H1 by lia. reflexivity.
    - intros v Hv Hl. replace (k + 1 - 1) with k by lia. apply in_app_iff in Hv as [Hv|Hv]; [now apply HI|].
      exfalso. destruct Hv as [<-|[<-|[]]]; rewrite H1 in Hl by lia; discriminate.
  Qed.

  Lemma targets_In J v : 1 <= J <= k -> In v (targets_of K (k, J)) <->
    (J < k /\ exists i, 1 <= i < J /\ v = vid k i) \/ v = vid (k + 1) 1 \/ v = vid (k + 1) (J + 1).
  Proof.
    intro HJ. unfold targets_of. destruct (Nat.ltb_spec k K) as [_|]; [|lia]. rewrite in_app_iff. cbn [In].
    assert (H : In v (if J <? k then map (vid k) (seq 1 (J - 1)) else []) <-> J < k /\ exists i, 1 <= i < J /\ v = vid k i).
    { destruct (Nat.ltb_spec J k) as [Hl|Hl]; [|split; [contradiction|lia]]. rewrite in_map_iff. split.
      - intros (i & <- & Hi). apply in_seq in Hi. split; [assumption|]. exists i. split; [lia|reflexivity].
      - intros (_ & i & Hi & ->). exists i. split; [reflexivity|]. apply in_seq. lia. }
    rewrite H. split; [intros [H0|[E|[E|[]]]]; auto|intros [H0|[E|E]]; auto].
  Qed.

  (** One turn with a vertex of the current layer. *)
  Lemma pop_fresh m J q s : 1 <= J <= k -> cur m (vid k J) = s -> (- 2 ^ 60 <= s <= 2 ^ 60)%Z ->
    (J < k -> forall i, 1 <= i < J -> (s - pw (pred i) < cur m (vid k i))%Z) ->
    (s + (pw (pred k) - 1) < cur m (vid (k + 1) 1))%Z -> (s + climb k J < cur m (vid (k + 1) (J + 1)))%Z ->
    exists m', pops 1 (m, vid k J :: q) (m', q ++ targets_of K (k, J)) /\
      (J < k -> forall i, 1 <= i < J -> cur m' (vid k i) = (s - pw (pred i))%Z) /\
      cur m' (vid (k + 1) 1) = (s + (pw (pred k) - 1))%Z /\ cur m' (vid (k + 1) (J + 1)) = (s + climb k J)%Z /\
      (forall v, ~ In v (targets_of K (k, J)) -> cur m' v = cur m v) /\ (forall v, (cur m' v <= cur m v)%Z).
  Proof.
    intros HJ Hs Hr Hin Hone Hup.
    assert (Hmin : i64_min = (- 2 ^ 63)%Z) by reflexivity. assert (Hmax : i64_max = (2 ^ 63 - 1)%Z) by reflexivity.
    pose proof (climb_bound J HJ) as HC. pose proof (pw_bound (pred k)) as HP.
    assert (Hb : forall b, In b (targets_of K (k, J)) -> (i64_min <= cur m (vid k J) + w (vid k J, b) <= i64_max)%Z /\ (cur m (vid k J) + w (vid k J, b) < cur m b)%Z).
    { intros b Hb. apply targets_In in Hb; [|assumption]. rewrite Hs. destruct Hb as [(Hl & i & Hi & ->)|[-> | ->]].
      - rewrite w_in by lia. pose proof (pw_bound (pred i)). specialize (Hin Hl i Hi). lia.
      - rewrite w_one by lia. lia.
      - rewrite w_up by lia. lia. }
    destruct (pop_live g w m (vid k J) q (targets_of K (k, J))) as (m' & H1 & H2 & H3).
    - rewrite cascade_out by lia. reflexivity.
    - apply targets_NoDup; [lia|]. apply places_In. lia.
    - intro Hv. apply targets_In in Hv; [|assumption]. destruct Hv as [(_ & i & Hi & E)|[E|E]]; apply vid_inj in E; lia.
    - lia.
    - exact Hb.
    - exists m'. split; [assumption|]. rewrite Hs in H2. split; [|split; [|split; [|split]]].
      + intros Hl i Hi. rewrite H2; [rewrite w_in by lia; lia|]. apply targets_In; [assumption|]. left. split; [assumption|]. now exists i.
      + rewrite H2; [rewrite w_one by lia; lia|]. apply targets_In; auto.
      + rewrite H2; [rewrite w_up by lia; lia|]. apply targets_In; auto.
      + assumption.
      + intro v. destruct (in_dec N.eq_dec v (targets_of K (k, J))) as [Hv|Hv]; [|rewrite H3 by assumption; lia].
        specialize (Hb v Hv). rewrite (H2 v Hv). lia.
  Qed.

  Lemma run j : j < k -> forall b m A rest, (-1 <= b)%Z -> (b + pw j <= 2 ^ 55)%Z -> before j b m -> mixed k (ruler j) A ->
    exists n m' B, 2 ^ j - 1 <= n /\ pops n (m, A ++ rest) (m', rest ++ B) /\ mixed (k + 1) (next (ruler j)) B /\ after j b m m'.
  Proof.
    induction j as [|j IH]; intros Hj b m A rest Hb Hbj Hbe HA.
    - exists (length A), m, []. split; [cbn; lia|]. split; [rewrite app_nil_r; apply pop_junk; [apply Hbe|assumption]|].
      split; [split; [reflexivity|contradiction]|]. split; intros; try lia; reflexivity.
    - cbn [ruler] in HA. apply mixed_split in HA as (A1 & A2 & -> & HA1 & HA2).
      pose proof (pw_S j) as Hp. pose proof (pw_pos j) as Hp0. destruct Hbe as [Bj Bl Bo Bu].
      assert (Hjk : S j <= k) by lia. assert (Hk50 : k < 50) by lia.
      (* the left half *)
      destruct (IH ltac:(lia) b m A1 (vid k (S j) :: A2 ++ rest)) as (n1 & m1 & B1 & Hn1 & Hp1 & HB1 & [A1l A1o A1u A1r A1m]); [lia|lia| |assumption|].
      { split; [assumption| |assumption|]; intros; [apply Bl|apply Bu]; lia. }
      assert (Hs : cur m1 (vid k (S j)) = (- (b + pw j))%Z).
      { rewrite A1r; [apply (Bl (S j)); lia|]. intros i Hi. split; [|split]; intro E; apply vid_inj in E; lia. }
      assert (Hu1 : cur m1 (vid (k + 1) (S j + 1)) = cur m (vid (k + 1) (S j + 1))).
      { apply A1r. intros i Hi. split; [|split]; intro E; apply vid_inj in E; lia. }
      (* the middle *)
      destruct (pop_fresh m1 (S j) ((A2 ++ rest) ++ B1) (- (b + pw j))%Z) as (m2 & Hp2 & M2l & M2o & M2u & M2r & M2m);
        [lia|assumption|lia| | |rewrite Hu1; apply (Bu (S j)); lia|].
      { intros _ i Hi. rewrite A1l by lia. pose proof (pw_pos (pred i)). lia. }
      { destruct j as [|j']; [|rewrite A1o by lia; lia]. change (pw 0) with 1%Z. rewrite A1r; [assumption|]. intros i Hi. lia. }
      (* the right half *)
      destruct (IH ltac:(lia) (b + pw j)%Z m2 A2 (rest ++ B1 ++ targets_of K (k, S j))) as (n3 & m3 & B3 & Hn3 & Hp3 & HB3 & [A3l A3o A3u A3r A3m]); [lia|lia| |assumption|].
      { split.
        - apply (junk_after m); [assumption| |intro v; specialize (A1m v); specialize (M2m v); lia].
          intros i Hi. rewrite M2r, A1r; [reflexivity| |].
          + intros i' Hi'. split; [|split]; intro E; apply vid_inj in E; lia.
          + intro E. apply targets_In in E; [|lia]. destruct E as [(_ & i' & Hi' & E)|[E|E]]; apply vid_inj in E; lia.
        - intros i Hi. rewrite M2l by lia. lia.
        - rewrite M2o. lia.
        - intros i Hi. rewrite M2r; [|intro E; apply targets_In in E; [|lia]; destruct E as [(_ & i' & Hi' & E)|[E|E]]; apply vid_inj in E; lia].
          rewrite A1u by lia. pose proof (pw_pos (pred i)). lia. }
      exists (n1 + (1 + n3)), m3, (B1 ++ targets_of K (k, S j) ++ B3).
      split; [rewrite Nat.pow_succ_r'; lia|]. split; [|split].
      + eapply pops_trans; [|eapply pops_trans; [exact Hp2|]].
        * rewrite <- app_assoc. exact Hp1.
        * rewrite <- !app_assoc. rewrite <- !app_assoc in Hp3. exact Hp3.
      + cbn [ruler]. rewrite next_app. apply mixed_app; [assumption|]. change (S j :: ruler j) with ([S j] ++ ruler j).
        rewrite next_app. apply mixed_app; [apply block; lia|assumption].
      + split.
        * intros i Hi. destruct (Nat.eq_dec i (S j)) as [->|Hne]; [|rewrite A3l by lia; lia].
          rewrite A3r, M2r, Hs; [cbn [pred]; lia| |].
          -- intro E. apply targets_In in E; [|lia]. destruct E as [(_ & i' & Hi' & E)|[E|E]]; apply vid_inj in E; lia.
          -- intros i' Hi'. split; [|split]; intro E; apply vid_inj in E; lia.
        * intros _. destruct j as [|j']; [|rewrite A3o by lia; lia]. rewrite A3r by (intros i Hi; lia). rewrite M2o. change (pw 0) with 1%Z in *. lia.
        * intros i Hi. destruct (Nat.eq_dec i (S j)) as [->|Hne]; [|rewrite A3u by lia; lia].
          rewrite A3r, M2u; [cbn [pred]; lia|]. intros i' Hi'. split; [|split]; intro E; apply vid_inj in E; lia.
        * intros v Hv. rewrite A3r, M2r, A1r; [reflexivity| | |].
          -- intros i Hi. apply Hv. lia.
          -- intro E. apply targets_In in E; [|lia]. destruct E as [(_ & i' & Hi' & E)|[E|E]].
             ++ destruct (Hv i'); [lia|]. tauto.
             ++ destruct (Hv 1); [lia|]. tauto.
             ++ destruct (Hv (S j)); [lia|]. tauto.
          -- intros i Hi. apply Hv. lia.
        * intro v. specialize (A1m v). specialize (M2m v). specialize (A3m v). lia.
  Qed.
End Phase.

Lemma next_ruler j : next (ruler j) ++ [1] = ruler (S j).
Proof.
  induction j as [|j IH]; [reflexivity|]. change (ruler (S (S j))) with (ruler (S j) ++ S (S j) :: ruler (S j)).
  assert (E : next (ruler (S j)) = next (ruler j) ++ [1; S j + 1] ++ next (ruler j)).
  { cbn [ruler]. rewrite next_app. change (S j :: ruler j) with ([S j] ++ ruler j). rewrite next_app. reflexivity. }
  rewrite E, <- IH, Nat.add_1_r. rewrite <- !app_assoc. reflexivity.
Qed.

Section Phases.
  Variable K : nat.
  Hypothesis HK : K <= 50.
  Notation g := (cascade K).
  Notation w := cascade_w.
  Notation pops := (pops g w).

  Record phase (k : nat) (m : scores) (A : list N) : Prop := {
    ph_queue : mixed k (ruler (k - 1) ++ [k]) A;
    ph_junk : junk_stale K k m;
    ph_layer : forall i, 1 <= i <= k -> cur m (vid k i) = (1 - pw (pred i))%Z;
    ph_above : forall l i, k < l -> i < 64 -> cur m (vid l i) = i64_max }.

  Lemma phase_step k m A : 1 <= k < K -> phase k m A -> exists n m' B, 2 ^ (k - 1) <= n /\ pops n (m, A) (m', B) /\ phase (k + 1) m' B.
  Proof.
    intros Hk [HA Hj Hl Hab]. destruct k as [|k0]; [lia|]. replace (S k0 - 1) with k0 in * by lia.
    apply mixed_split in HA as (A1 & A2 & -> & HA1 & HA2).
    assert (Hmax : i64_max = (2 ^ 63 - 1)%Z) by reflexivity.
    assert (Hk0 : (0 < pw k0 <= 2 ^ 50)%Z) by (apply pw_bound; lia).
    assert (Hb0 : before K (S k0) k0 (-1) m).
    { split; [assumption| | |].
      - intros i Hi. rewrite Hl by lia. lia.
      - rewrite Hab by lia. cbn [pred]. lia.
      - intros i Hi. rewrite Hab by lia. pose proof (climb_bound K (S k0) HK Hk i ltac:(lia)). pose proof (pw_bound (pred i) ltac:(lia)). lia. }
    destruct (run K (S k0) HK Hk k0 ltac:(lia) (-1)%Z m A1 (vid (S k0) (S k0) :: A2)) as (n1 & m1 & B1 & Hn1 & Hp1 & HB1 & [Ql Qo Qu Qr Qm]); [lia|lia|assumption|assumption|].
    assert (Hs : cur m1 (vid (S k0) (S k0)) = (1 - pw k0)%Z).
    { rewrite Qr; [apply (Hl (S k0)); lia|]. intros i Hi. split; [|split]; intro E; apply vid_inj in E; lia. }
    destruct (pop_fresh K (S k0) HK Hk m1 (S k0) (A2 ++ B1) (1 - pw k0)%Z) as (m2 & Hp2 & _ & M2o & M2u & M2r & M2m);
      [lia|assumption|lia|lia| | |].
    { destruct k0 as [|k1]; [|rewrite Qo by lia; lia]. rewrite Qr by (intros i Hi; lia). rewrite Hab by lia. change (pw 0) with 1%Z. cbn [pred]. change (pw 0) with 1%Z. lia. }
    { rewrite Qr; [rewrite Hab by lia; pose proof (climb_bound K (S k0) HK Hk (S k0) ltac:(lia)); lia|]. intros i Hi. split; [|split]; intro E; apply vid_inj in E; lia. }
    (* the layer above the tail of this one *)
    assert (Hout : forall v, ~ In v (targets_of K (S k0, S k0)) <-> v <> vid (S k0 + 1) 1 /\ v <> vid (S k0 + 1) (S k0 + 1)).
    { intro v. rewrite (targets_In K (S k0) HK Hk (S k0) v ltac:(lia)). split; [intro H; split; intro; apply H; auto|].
      intros [H1 H2] [[H _]|[H|H]]; [lia|auto..]. }
    assert (Hj2 : junk_stale K (S k0) m2).
    { apply (junk_after K (S k0) HK Hk m); [assumption| |intro v; specialize (Qm v); specialize (M2m v); lia].
      intros i Hi. rewrite M2r, Qr; [reflexivity| |].
      - intros i' Hi'. split; [|split]; intro E; apply vid_inj in E; lia.
      - apply Hout. split; intro E; apply vid_inj in E; lia. }
    assert (Hlow : forall i, 1 <= i <= k0 -> cur m2 (vid (S k0) i) = (1 - pw k0 + pw (pred i))%Z).
    { intros i Hi. rewrite M2r, Ql; [lia|lia|]. apply Hout. split; intro E; apply vid_inj in E; lia. }
    assert (Htop : cur m2 (vid (S k0) (S k0)) = (1 - pw k0)%Z).
    { rewrite M2r, Hs; [reflexivity|]. apply Hout. split; intro E; apply vid_inj in E; lia. }
    assert (Hnew : forall i, 1 <= i <= S k0 + 1 -> cur m2 (vid (S k0 + 1) i) = (1 - pw (pred i))%Z).
    { intros i Hi. destruct (Nat.eq_dec i 1) as [->|H1]; [rewrite M2o; cbn [pred]; change (pw 0) with 1%Z; lia|].
      destruct (Nat.eq_dec i (S k0 + 1)) as [->|H2].
      - rewrite M2u. unfold climb. rewrite Nat.eqb_refl. replace (pred (S k0 + 1)) with (S k0) by lia. cbn [pred]. lia.
      - rewrite M2r by (apply Hout; split; intro E; apply vid_inj in E; lia). replace i with (pred i + 1) by lia. rewrite Qu by lia.
        unfold climb. destruct (Nat.eqb_spec (pred i) (S k0)); [lia|]. replace (pred (pred i + 1)) with (pred i) by lia. cbn [pred]. lia. }
    exists (n1 + (1 + length A2)), m2, (B1 ++ targets_of K (S k0, S k0)). split; [|split].
    - pose proof (Nat.pow_nonzero 2 k0). lia.
    - eapply pops_trans; [exact Hp1|]. cbn [app]. eapply pops_trans; [exact Hp2|]. rewrite <- app_assoc.
      apply (pop_junk K (S k0)); assumption.
    - split.
      + replace (S k0 + 1 - 1) with (S k0) by lia. rewrite <- next_ruler, <- app_assoc. apply mixed_app; [assumption|].
        exact (block K (S k0) HK Hk (S k0) ltac:(lia)).
      + intros i Hi. replace (S k0 + 1 - 1) with (S k0) in * by lia.
        assert (Hi' : 1 <= i <= S k0) by lia. pose proof (pw_bound (pred i) ltac:(lia)) as Hpi.
        assert (Hc : (1 - pw k0 <= cur m2 (vid (S k0) i) <= 2 ^ 51)%Z).
        { destruct (Nat.eq_dec i (S k0)) as [->|]; [rewrite Htop|rewrite Hlow by lia]; lia. }
        assert (Hmin : i64_min = (- 2 ^ 63)%Z) by reflexivity.
        split; [lia|]. intros b Hb. rewrite cascade_out in Hb by lia. unfold edges_of in Hb. cbn [fst snd] in Hb.
        apply in_map_iff in Hb as (b' & E & Hb). injection E as <-. rewrite (targets_In K (S k0) HK Hk i b' Hi') in Hb.
        destruct Hb as [(Hl' & i' & Hii & ->)|[-> | ->]].
        * rewrite w_in by lia. pose proof (pw_bound (pred i') ltac:(lia)). rewrite !Hlow by lia.
          destruct i' as [|i']; [lia|]. cbn [pred] in *. pose proof (pw_S i'). pose proof (pw_le (S i') (pred i) ltac:(lia)). lia.
        * rewrite w_one by lia. rewrite Hnew by lia. cbn [pred]. change (pw 0) with 1%Z. lia.
        * rewrite w_up by lia. rewrite Hnew by lia. replace (pred (i + 1)) with i by lia.
          pose proof (climb_bound K (S k0) HK Hk i Hi') as HC. split; [lia|]. unfold climb. destruct (Nat.eqb_spec i (S k0)) as [->|Hne].
          -- rewrite Htop. cbn [pred]. lia.
          -- rewrite Hlow by lia. cbn [pred]. lia.
      + exact Hnew.
      + intros l i Hl' Hi. rewrite M2r, Qr; [apply Hab; lia| |].
        * intros i' Hi'. split; [|split]; intro E; apply vid_inj in E; lia.
        * apply Hout. split; intro E; apply vid_inj in E; lia.
  Qed.

  Lemma phases k : 1 <= k <= K -> exists n m A, 2 ^ (k - 1) - 1 <= n /\
    pops n (sc_put (vid 1 1) (scored_path_of_one (vid 1 1) 0) [], [vid 1 1]) (m, A) /\ phase k m A.
  Proof.
    induction k as [|k IH]; intro Hk; [lia|]. destruct (Nat.eq_dec k 0) as [->|Hne].
    - exists 0, (sc_put (vid 1 1) (scored_path_of_one (vid 1 1) 0) []), [vid 1 1]. split; [cbn; lia|]. split; [intro f; reflexivity|]. split.
      + split; [reflexivity|]. intros v [<-|[]] H. discriminate.
      + intros i Hi. lia.
      + intros i Hi. replace i with 1 by lia. reflexivity.
      + intros l i Hl Hi. unfold cur. rewrite cur_put. destruct (N.eqb_spec (vid l i) (vid 1 1)) as [E|_]; [apply vid_inj in E; lia|reflexivity].
    - destruct (IH ltac:(lia)) as (n & m & A & H1 & H2 & H3). destruct (phase_step k m A ltac:(lia) H3) as (n' & m' & B & H4 & H5 & H6).
      exists (n + n'), m', B. replace (S k) with (k + 1) by lia. replace (k + 1 - 1) with (S (k - 1)) by lia. split; [rewrite Nat.pow_succ_r'; lia|].
      split; [eapply pops_trans; eassumption|assumption].
  Qed.
End Phases.

(** ** The whole run *)
Lemma loop_queue g w : forall f m q m', spfa_loop g w f (m, q) = Done m' -> length q < f.
Proof.
  induction f as [|f IH]; intros m q m' H; [discriminate|]. cbn [spfa_loop fst snd] in H. destruct q as [|v q]; [cbn; lia|].
  apply obind_done in H as ([m1 q1] & H1 & H2). apply IH in H2. cbn [length].
  assert (Hle : forall es x x', ofold (spfa_edge w) es x = Done x' -> length (snd x) <= length (snd x')).
  { induction es as [|e es IHe]; intros x x' H; cbn [ofold] in H; [injection H as <-; lia|].
    apply obind_done in H as (x1 & Hx & H). apply IHe in H. unfold spfa_edge in Hx. apply obind_done in Hx as (r & _ & Hx).
    destruct (snd r); injection Hx as <-; cbn [snd] in *; rewrite ?app_length in H; lia. }
  apply Hle in H1. cbn [snd] in H1. lia.
Qed.
Lemma filter_length_le' {A} (f : A -> bool) l : length (filter f l) <= length l.
Proof. induction l as [|x l IH]; cbn [filter length]; [lia|]. destruct (f x); cbn [length]; lia. Qed.
Theorem cascade_turns K n m : 1 <= K <= 50 -> spfa (cascade K) cascade_w (vid 1 1) n = Done m -> 2 ^ K <= n.
Proof.
  intros HK H. destruct (phases K ltac:(lia) K ltac:(lia)) as (n0 & m0 & A & Hn0 & Hp & [[Hq _] _ _ _]).
  unfold spfa in H. destruct (le_lt_dec n n0) as [Hle|Hlt].
  - rewrite (pops_fuel _ _ _ _ _ _ Hp Hle) in H. discriminate.
  - replace n with (n0 + (n - n0)) in H by lia. rewrite Hp in H. apply loop_queue in H.
    pose proof (filter_length_le' (onlay K) A) as HA. rewrite Hq, map_length, app_length, ruler_length in HA. cbn [length] in HA.
    replace K with (S (K - 1)) at 1 by lia. rewrite Nat.pow_succ_r'. pose proof (Nat.pow_nonzero 2 (K - 1)). lia.
Qed.

Lemma cascade_edge K a b : K < 63 -> gE (cascade K) a b ->
  exists k j, 1 <= j <= k /\ k <= K /\ a = vid k j /\
    ((j < k /\ exists i, 1 <= i < j /\ b = vid k i) \/ (k < K /\ (b = vid (k + 1) 1 \/ b = vid (k + 1) (j + 1)))).
Proof.
  intros HK H. rewrite cascade_gE in H by assumption. unfold cascade_edges in H. apply in_flat_map in H as ([k j] & Hp & H).
  apply places_In in Hp. unfold edges_of in H. apply in_map_iff in H as (b' & E & H). injection E as <- <-.
  exists k, j. split; [lia|]. split; [lia|]. split; [reflexivity|]. unfold targets_of in H. apply in_app_iff in H as [H|H].
  - destruct (Nat.ltb_spec j k); [|contradiction]. left. split; [assumption|]. apply in_map_iff in H as (i & <- & Hi). apply in_seq in Hi. exists i. split; [lia|reflexivity].
  - destruct (Nat.ltb_spec k K); [|contradiction]. right. split; [assumption|]. destruct H as [H|[H|[]]]; auto.
Qed.
Definition rank (v : N) : nat := 64 * lay v + (63 - pos v).
Lemma cascade_up K a b : K < 63 -> gE (cascade K) a b -> rank a < rank b.
Proof.
  intros HK H. apply cascade_edge in H as (k & j & Hj & Hk & -> & [(Hl & i & Hi & ->)|(Hl & [-> | ->])]); [| | |assumption];
    unfold rank; rewrite !lay_vid, !pos_vid by lia; lia.
Qed.
Lemma cascade_weight K a b : K <= 50 -> gE (cascade K) a b -> (Z.abs (cascade_w (a, b)) <= 2 ^ 50)%Z.
Proof.
  intros HK H. apply cascade_edge in H as (k & j & Hj & Hk & -> & [(Hl & i & Hi & ->)|(Hl & [-> | ->])]); [| | |lia].
  - rewrite w_in by lia. pose proof (pw_bound (pred i) ltac:(lia)). lia.
  - rewrite w_one by lia. pose proof (pw_bound (pred k) ltac:(lia)). lia.
  - rewrite w_up by lia. pose proof (climb_bound K k HK ltac:(lia) j Hj). lia.
Qed.
Lemma cascade_length K : length (cascade_edges K) <= length (places K) * (K + 1).
Proof.
  unfold cascade_edges. assert (H : forall l, (forall x, In x l -> In x (places K)) -> length (flat_map (edges_of K) l) <= length l * (K + 1)); [|now apply H].
  induction l as [|x l IH]; intro H; [cbn; lia|]. cbn [flat_map length]. rewrite app_length.
  specialize (IH (fun y Hy => H y (or_intror Hy))). specialize (H x (or_introl eq_refl)). destruct x as [k j]. apply places_In in H.
  assert (Hx : length (edges_of K (k, j)) <= K + 1); [|lia]. unfold edges_of. rewrite map_length. unfold targets_of. rewrite app_length.
  destruct (Nat.ltb_spec j k), (Nat.ltb_spec k K); cbn [length]; rewrite ?map_length, ?seq_length; lia.
Qed.
Lemma cascade_vertices K : K < 63 -> vertex_count (cascade K) <= length (places K).
Proof.
  intro HK. assert (Hb : built (cascade K)) by (eexists; apply cascade_built). pose proof (built_wf Hb) as W.
  assert (Hv : forall v, In v (vertices (cascade K)) -> exists u, gE (cascade K) u v \/ gE (cascade K) v u).
  { intros v Hv. apply vertices_In in Hv. pose proof (refines (cascade_built K)) as [HV HE]. apply HV in Hv.
    assert (Hadd : forall es st, aV (fold_left a_step (add_edges es) st) v -> aV st v \/ exists a b, In (a, b) es /\ (a = v \/ b = v)).
    { induction es as [|[a b] es IH]; intros st H; [now left|]. cbn [add_edges map fold_left] in H. apply IH in H as [H|(c & d & H & H')].
      - cbn in H. destruct H as [H|[H|H]]; [now left|right..]; exists a, b; cbn; auto.
      - right. exists c, d. cbn. auto. }
    apply Hadd in Hv as [[]|(a & b & Hin & Hab)]. rewrite <- (cascade_gE K a b HK) in Hin. destruct Hab as [<-|<-]; eauto. }
  assert (Hp : forall v, In v (vertices (cascade K)) -> In v (map place_id (places K))).
  { intros v H. apply Hv in H as [u [H|H]]; apply cascade_edge in H as (k & j & Hj & Hk & Ha & Hb'); try assumption.
    - destruct Hb' as [(Hl & i & Hi & ->)|(Hl & [-> | ->])].
      + apply (in_map place_id (places K) (k, i)). apply places_In. lia.
      + apply (in_map place_id (places K) (k + 1, 1)). apply places_In. lia.
      + apply (in_map place_id (places K) (k + 1, j + 1)). apply places_In. lia.
    - subst v. apply (in_map place_id (places K) (k, j)). apply places_In. lia. }
  rewrite vertex_count_len, <- (map_length place_id (places K)). apply NoDup_incl_length; [|exact Hp]. exact (proj1 (vertices_spec W)).
Qed.
