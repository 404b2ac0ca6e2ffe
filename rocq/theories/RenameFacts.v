(** * Lemmas on renaming (C142) *)
From Coq Require Import List NArith ZArith Bool Arith Lia Permutation.
From Verif Require Import Spec Base WalkFacts Graph GraphSpec GraphFacts OrderFacts Path PathFacts
  Queue Heap Iter IterFacts Cycle CycleSpec CycleFacts RenameSpec.
Import ListNotations.

(** ** Lists *)
Section Lists.
  Variable f : N -> N.
  Hypothesis Hf : injective f.
  Local Notation fe := (rename_edge f).

  Lemma eqb_ren x y : N.eqb (f x) (f y) = N.eqb x y.
  Proof. destruct (N.eqb_spec x y) as [->|H]; [apply N.eqb_refl|]. apply N.eqb_neq. intro E. now apply Hf in E. Qed.
  Lemma edge_eqb_ren x y : edge_eqb (fe x) (fe y) = edge_eqb x y.
  Proof. destruct x as [a b], y as [c d]. unfold edge_eqb, rename_edge. cbn [fst snd]. now rewrite !eqb_ren. Qed.
  Lemma fe_inj x y : fe x = fe y -> x = y.
  Proof. destruct x as [a b], y as [c d]. unfold rename_edge. cbn. intros [= E1 E2]. apply Hf in E1, E2. congruence. Qed.
  Lemma memN_ren x l : memN (f x) (map f l) = memN x l.
  Proof. unfold memN. induction l as [|y l IH]; [reflexivity|]. cbn [map existsb]. now rewrite eqb_ren, IH. Qed.
  Lemma filter_ren A B (h : A -> B) (p : B -> bool) (q : A -> bool) l : (forall x, p (h x) = q x) ->
    filter p (map h l) = map h (filter q l).
  Proof. intro H. induction l as [|x l IH]; [reflexivity|]. cbn. rewrite H. destruct (q x); cbn; now rewrite IH. Qed.
  Lemma In_ren x l : In (f x) (map f l) <-> In x l.
  Proof. rewrite in_map_iff. split; [intros (y & E & H); now apply Hf in E; subst|]. intro H. now exists x. Qed.
  Lemma InE_ren x l : In (fe x) (map fe l) <-> In x l.
  Proof. rewrite in_map_iff. split; [intros (y & E & H); now apply fe_inj in E; subst|]. intro H. now exists x. Qed.
  Lemma nodup_ren l : NoDup (map f l) <-> NoDup l.
  Proof.
    split; [apply NoDup_map_inv|]. intro H. induction H as [|x l Hx H IH]; [constructor|]. cbn. constructor; [|assumption].
    now rewrite In_ren.
  Qed.
  Lemma adjacent_ren a b l : adjacent a b (map f l) -> exists u v, a = f u /\ b = f v /\ adjacent u v l.
  Proof.
    intros (p & q & E). apply map_eq_app in E. destruct E as (p' & l2 & -> & _ & E).
    apply map_eq_cons in E. destruct E as (u & l3 & -> & <- & E). apply map_eq_cons in E. destruct E as (v & l4 & -> & <- & _).
    exists u, v. split; [reflexivity|]. split; [reflexivity|]. now exists p', l4.
  Qed.

  (** ** The order in which edges are stored *)
  Lemma insertion_ren cs : insertion_order (map (rename_command f) cs) = map fe (insertion_order cs).
  Proof.
    induction cs as [|c cs IH] using rev_ind; [reflexivity|].
    rewrite map_app. cbn [map]. rewrite !insertion_snoc, IH.
    destruct c as [v|v|x y|x y]; cbn [rename_command o_step].
    - reflexivity.
    - apply filter_ren. intros [a b]. unfold rename_edge. cbn [fst snd]. now rewrite !eqb_ren.
    - destruct (in_dec pair_dec (x, y) (insertion_order cs)) as [Hi|Hi];
        destruct (in_dec pair_dec (f x, f y) (map fe (insertion_order cs))) as [Hj|Hj]; try reflexivity.
      + exfalso. apply Hj. now apply (InE_ren (x, y)).
      + exfalso. apply Hi. now apply (InE_ren (x, y)).
      + now rewrite map_app.
    - rewrite !remove_filter. unfold keep. apply filter_ren. intro e. now rewrite <- (edge_eqb_ren e (x, y)).
  Qed.
  Lemma run_ren cs : renamed f (a_run cs) (a_run (map (rename_command f) cs)).
  Proof.
    induction cs as [|c cs [IV IE]] using rev_ind.
    - split; [intro y; split; [intros []|intros (x & [] & _)]|]. intros y z. split; [intros []|intros (u & v & [] & _)].
    - rewrite map_app. cbn [map]. rewrite !run_snoc.
      destruct c as [v|v|a b|a b]; cbn [rename_command a_step a_add_vertex a_remove_vertex a_add_edge a_remove_edge]; split; cbn [aV aE a_add_vertex a_remove_vertex a_add_edge a_remove_edge].
      + intro y. rewrite IV. split.
        * intros [(x & Hx & ->)| ->]; [exists x|exists v]; auto.
        * intros (x & [Hx| ->] & ->); [left; eauto|now right].
      + exact IE.
      + intro y. rewrite IV. split.
        * intros [(x & Hx & ->) Hne]. exists x. split; [|reflexivity]. split; [assumption|]. congruence.
        * intros (x & [Hx Hne] & ->). split; [eauto|]. intro E. now apply Hf in E.
      + intros y z. rewrite IE. split.
        * intros [(u & w & Hu & -> & ->) [H1 H2]]. exists u, w. repeat split; trivial; congruence.
        * intros (u & w & (Hu & H1 & H2) & -> & ->). split; [eauto|]. split; intro E; now apply Hf in E.
      + intro y. rewrite IV. split.
        * intros [(x & Hx & ->)|[-> | ->]]; [exists x|exists a|exists b]; auto.
        * intros (x & [Hx|[-> | ->]] & ->); [left; eauto|now right; left|now right; right].
      + intros y z. rewrite IE. split.
        * intros [(u & w & Hu & -> & ->)|[-> ->]]; [exists u, w|exists a, b]; auto.
        * intros (u & w & [Hu|[-> ->]] & -> & ->); [left; eauto 6|now right].
      + exact IV.
      + intros y z. rewrite IE. split.
        * intros [(u & w & Hu & -> & ->) H]. exists u, w. split; [|now split]. split; [assumption|]. intros [-> ->]. now apply H.
        * intros (u & w & [Hu H] & -> & ->). split; [eauto 6|]. intros [E1 E2]. apply Hf in E1, E2. now apply H.
  Qed.

  (** ** Walks *)
  Section Walks.
    Variables E F : rel.
    Hypothesis HF : forall y z, F y z <-> exists u v, E u v /\ y = f u /\ z = f v.
    Lemma rel_ren u v : F (f u) (f v) <-> E u v.
    Proof.
      rewrite HF. split; [intros (a & b & H & E1 & E2); apply Hf in E1, E2; now subst|]. intro H. now exists u, v.
    Qed.
    Lemma walk_ren x y l : walk_from_to E x y l -> walk_from_to F (f x) (f y) (map f l).
    Proof.
      intros ([t ->] & [t' E'] & H3). split; [now exists (map f t)|]. split; [exists (map f t'); now rewrite E', map_app|].
      intros a b Hab. apply adjacent_ren in Hab. destruct Hab as (u & v & -> & -> & Hab). apply rel_ren. now apply H3.
    Qed.
    Lemma walk_unren l : forall x z, walk_from_to F (f x) z l -> exists m y, l = map f m /\ z = f y /\ walk_from_to E x y m.
    Proof.
      induction l as [|a l IH]; intros x z H; [destruct H as ([t Ht] & _); discriminate|].
      apply walk_inv_cons in H. destruct H as [[Hl <-]|(l' & w & Hl & Hxw & Hw)].
      - injection Hl as -> ->. exists [x], x. split; [reflexivity|]. split; [reflexivity|]. apply walk_one.
      - injection Hl as -> ->. pose proof Hxw as Hxw'. apply HF in Hxw'. destruct Hxw' as (u & v & Huv & Eu & ->). apply Hf in Eu. subst u.
        destruct (IH v z Hw) as (m & y & -> & -> & Hm). exists (x :: m), y. split; [reflexivity|]. split; [reflexivity|].
        eapply walk_cons; eassumption.
    Qed.
    Lemma reachable_ren x y : reachable F (f x) (f y) <-> reachable E x y.
    Proof.
      split.
      - intros [l Hl]. apply walk_unren in Hl. destruct Hl as (m & y' & _ & Ey & Hm). apply Hf in Ey. subst. now exists m.
      - intros [l Hl]. exists (map f l). now apply walk_ren.
    Qed.
    Lemma distance_ren x y d : distance F (f x) (f y) d <-> distance E x y d.
    Proof.
      unfold distance. split; intros [[l [Hl Hd]] Hmin].
      - apply walk_unren in Hl. destruct Hl as (m & y' & -> & Ey & Hm). apply Hf in Ey. subst y'. split.
        + exists m. split; [assumption|]. unfold hops in *. now rewrite map_length in Hd.
        + intros l Hl'. apply walk_ren, Hmin in Hl'. unfold hops in *. now rewrite map_length in Hl'.
      - split.
        + exists (map f l). split; [now apply walk_ren|]. unfold hops in *. now rewrite map_length.
        + intros l' Hl'. apply walk_unren in Hl'. destruct Hl' as (m & y' & -> & Ey & Hm). apply Hf in Ey. subst y'.
          apply Hmin in Hm. unfold hops in *. now rewrite map_length.
    Qed.
    Lemma acyclic_ren : acyclic F <-> acyclic E.
    Proof.
      split; intros H l (z & Hw & Hl).
      - apply (H (map f l)). exists (f z). split; [now apply walk_ren|]. now rewrite map_length.
      - pose proof Hw as Hw'. destruct Hw' as ([t ->] & _ & Hadj). destruct t as [|b t]; [cbn in Hl; lia|].
        assert (Hz : F z b) by (apply Hadj; now exists [], t). apply HF in Hz. destruct Hz as (u & v & _ & -> & _).
        apply walk_unren in Hw. destruct Hw as (m & y' & Em & Ey & Hm). apply Hf in Ey. subst y'. apply (H m). exists u. split; [assumption|].
        rewrite Em, map_length in Hl. exact Hl.
    Qed.
    Lemma simple_cycle_ren c : simple_cycle F (map f c) <-> simple_cycle E c.
    Proof.
      unfold simple_cycle. rewrite nodup_ren. split; intros (H1 & H2 & x & y & H3 & H4 & H5); (split; [assumption|]); split.
      - intros a b Hab. apply rel_ren, H2. destruct Hab as (p & q & ->). exists (map f p), (map f q). now rewrite map_app.
      - destruct H3 as [t Ht]. destruct H4 as [t' Ht']. apply map_eq_cons in Ht. destruct Ht as (x' & l & -> & <- & _).
        apply map_eq_app in Ht'. destruct Ht' as (l1 & l2 & E1 & _ & E2). apply map_eq_cons in E2. destruct E2 as (y' & l3 & -> & <- & E2).
        apply map_eq_nil in E2. subst l3. exists x', y'. split; [now exists l|]. split; [now exists l1|]. now apply rel_ren.
      - intros a b Hab. apply adjacent_ren in Hab. destruct Hab as (u & v & -> & -> & Hab). now apply rel_ren, H2.
      - destruct H3 as [t ->]. destruct H4 as [t' Ht']. exists (f x), (f y). split; [now exists (map f t)|].
        split; [exists (map f t'); now rewrite Ht', map_app|]. now apply rel_ren.
    Qed.
    (** Every simple cycle of [F] is a renamed one. *)
    Lemma simple_cycle_unren c : simple_cycle F c -> exists d, c = map f d /\ simple_cycle E d.
    Proof.
      intro H. assert (X : exists d, c = map f d).
      { destruct H as (_ & H2 & x & y & H3 & H4 & H5).
        assert (Hin : forall z, In z c -> exists v, z = f v).
        { intros z Hz. apply in_split in Hz. destruct Hz as (p & q & ->). destruct q as [|w q].
          - assert (y = z) by (apply (ends_with_fun H4); now exists p). subst y. apply HF in H5. destruct H5 as (u & v & _ & -> & _). now exists u.
          - assert (Hz : F z w) by (apply H2; now exists p, q). apply HF in Hz. destruct Hz as (u & v & _ & -> & _). now exists u. }
        clear -Hin. induction c as [|z c IH]; [now exists []|]. destruct IH as [d ->]; [intros; apply Hin; now right|].
        destruct (Hin z (or_introl eq_refl)) as [v ->]. now exists (v :: d). }
      destruct X as [d ->]. exists d. split; [reflexivity|]. now apply simple_cycle_ren.
    Qed.
  End Walks.
End Lists.

(** ** Iterators: a renaming [h] of the nodes and [hs] of the states *)
Section Sim.
  Variables (A B S T : Type) (h : A -> B) (hs : S -> T).
  Definition map_step (r : step A S) : step B T :=
    match r with Yield a s => Yield (h a) (hs s) | Stop => Stop | Crash => Crash end.
  Variables (next : S -> step A S) (next' : T -> step B T).
  Hypothesis Hnext : forall s, next' (hs s) = map_step (next s).
  Lemma collect_ren n : forall s, collect next' n (hs s) = obind (collect next n s) (fun l => Done (map h l)).
  Proof.
    induction n as [|n IH]; intro s; [reflexivity|]. cbn [collect]. rewrite Hnext. destruct (next s) as [a s'| |]; cbn [map_step]; try reflexivity.
    rewrite IH. now destruct (collect next n s').
  Qed.
  Lemma find_ren pred pred' n : (forall a, pred' (h a) = pred a) -> forall s,
    iter_find pred' next' n (hs s) = obind (iter_find pred next n s) (fun r => Done (option_map h r)).
  Proof.
    intro Hp. induction n as [|n IH]; intro s; [reflexivity|]. cbn [iter_find]. rewrite Hnext.
    destruct (next s) as [a s'| |]; cbn [map_step]; try reflexivity. rewrite Hp. destruct (pred a); [reflexivity|]. apply IH.
  Qed.
End Sim.

(** ** Queues *)
Section Queues.
  Variables (A B : Type) (h : A -> B).
  Definition map_pop (r : option (A * list A)) : option (B * list B) :=
    match r with None => None | Some (a, l) => Some (h a, map h l) end.
  Lemma pop_back_ren l : pop_back (map h l) = map_pop (pop_back l).
  Proof. unfold pop_back. rewrite <- map_rev. destruct (rev l) as [|a t]; [reflexivity|]. cbn. now rewrite map_rev. Qed.
  Lemma pop_front_ren l : pop_front (map h l) = map_pop (pop_front l).
  Proof. now destruct l. Qed.
  Lemma set_ren l : forall i x, set (map h l) i (h x) = map h (set l i x).
  Proof. induction l as [|y l IH]; intros [|i] x; cbn; try reflexivity. now rewrite IH. Qed.
  Lemma swap_ren l i j : swap (map h l) i j = map h (swap l i j).
  Proof.
    unfold swap. rewrite !nth_error_map. destruct (nth_error l i) as [x|]; [|reflexivity]. destruct (nth_error l j) as [y|]; [|reflexivity].
    cbn. now rewrite !set_ren.
  Qed.
  Variables (le : A -> A -> bool) (le' : B -> B -> bool).
  Hypothesis Hle : forall x y, le' (h x) (h y) = le x y.
  Lemma sift_up_ren n : forall l pos, sift_up le' n (map h l) pos = map h (sift_up le n l pos).
  Proof.
    induction n as [|n IH]; intros l pos; [reflexivity|]. cbn [sift_up]. destruct (Nat.eqb pos 0); [reflexivity|].
    rewrite !nth_error_map. destruct (nth_error l pos) as [x|]; [|reflexivity]. destruct (nth_error l (parent pos)) as [y|]; [|reflexivity].
    cbn [option_map]. rewrite Hle. destruct (le x y); [reflexivity|]. now rewrite swap_ren, IH.
  Qed.
  Lemma sift_down_ren n : forall l pos, sift_down le' n (map h l) pos = (map h (fst (sift_down le n l pos)), snd (sift_down le n l pos)).
  Proof.
    induction n as [|n IH]; intros l pos; [reflexivity|]. cbn [sift_down]. rewrite map_length, !nth_error_map.
    destruct (Nat.leb (2 * pos + 1) (length l - 2)).
    - destruct (nth_error l (2 * pos + 1)) as [x|]; [|reflexivity]. destruct (nth_error l (2 * pos + 1 + 1)) as [y|]; [|reflexivity].
      cbn [option_map]. rewrite Hle, swap_ren, IH. reflexivity.
    - destruct (Nat.eqb (2 * pos + 1) (length l - 1)); [|reflexivity]. now rewrite swap_ren.
  Qed.
  Lemma heap_push_ren l x : heap_push le' (map h l) (h x) = map h (heap_push le l x).
  Proof. unfold heap_push. rewrite !app_length, !map_length. change [h x] with (map h [x]). rewrite <- map_app. apply sift_up_ren. Qed.
  Lemma heap_pop_ren l : heap_pop le' (map h l) = map_pop (heap_pop le l).
  Proof.
    unfold heap_pop. rewrite pop_back_ren. destruct (pop_back l) as [[x [|r t]]|]; cbn [map_pop map]; try reflexivity.
    change (h x :: map h t) with (map h (x :: t)). rewrite sift_down_ren, map_length.
    destruct (sift_down le (length (x :: t)) (x :: t) 0) as [l' pos] eqn:E.
    cbn [fst snd map_pop]. rewrite map_length, sift_up_ren. cbn [length] in E |- *. now rewrite E.
  Qed.
End Queues.

(** ** The searches, on graphs whose edge lists are renamed *)
Section Searches.
  Variable f : N -> N.
  Hypothesis Hf : injective f.
  Variables g g' : graph.
  Hypothesis Hout : forall v, outbound_edges g' (f v) = map (rename_edge f) (outbound_edges g v).

  Section Visit.
    Variables (A : Type) (h : A -> A) (Q : squeue A) (hq : q_car Q -> q_car Q).
    Hypothesis Hpush : forall q a, q_push Q (hq q) (h a) = hq (q_push Q q a).
    Hypothesis Hpop : forall q, q_pop Q (hq q) = match q_pop Q q with None => None | Some (a, q') => Some (h a, hq q') end.
    Variables (lastv : A -> option N) (mk mk' : A -> N -> A).
    Hypothesis Hlast : forall a, lastv (h a) = option_map f (lastv a).
    Hypothesis Hmk : forall a v, mk' (h a) (f v) = h (mk a v).
    Definition hv (st : vstate A Q) : vstate A Q := (map f (fst st), hq (snd st)).
    Lemma visit_edge_ren a st e : visit_edge A Q mk' (h a) (hv st) (rename_edge f e) = hv (visit_edge A Q mk a st e).
    Proof.
      destruct st as [vis q], e as [x y]. unfold visit_edge, hv, rename_edge. cbn [fst snd]. rewrite memN_ren by assumption.
      destruct (memN y vis); cbn [negb fst snd map]; [reflexivity|]. now rewrite Hmk, Hpush.
    Qed.
    Lemma visit_next_ren st : visit_next A Q g' lastv mk' (hv st) = map_step A A _ _ h hv (visit_next A Q g lastv mk st).
    Proof.
      destruct st as [vis q]. unfold visit_next, hv at 1. cbn [fst snd]. rewrite Hpop. destruct (q_pop Q q) as [[a q']|]; [|reflexivity].
      rewrite Hlast. destruct (lastv a) as [v|]; [|reflexivity]. cbn [option_map map_step]. f_equal. rewrite Hout.
      change (map f vis, hq q') with (hv (vis, q')). generalize (vis, q'). clear -Hf Hpush Hmk.
      induction (outbound_edges g v) as [|e l IH]; intro st; [reflexivity|]. cbn [map fold_left]. now rewrite visit_edge_ren, IH.
    Qed.
  End Visit.
  Section Tree.
    Variables (A : Type) (h : A -> A) (Q : squeue A) (hq : q_car Q -> q_car Q).
    Hypothesis Hpush : forall q a, q_push Q (hq q) (h a) = hq (q_push Q q a).
    Hypothesis Hpop : forall q, q_pop Q (hq q) = match q_pop Q q with None => None | Some (a, q') => Some (h a, hq q') end.
    Variables (kids kids' : A -> option (list A)).
    Hypothesis Hkids : forall a, kids' (h a) = option_map (map h) (kids a).
    Lemma tree_next_ren q : tree_next A Q kids' (hq q) = map_step A A _ _ h hq (tree_next A Q kids q).
    Proof.
      unfold tree_next. rewrite Hpop. destruct (q_pop Q q) as [[a q']|]; [|reflexivity]. rewrite Hkids.
      destruct (kids a) as [l|]; [|reflexivity]. cbn [option_map map_step]. f_equal. clear -Hpush. unfold push_all. revert q'.
      induction l as [|x l IH]; intro q; [reflexivity|]. cbn [map fold_left]. now rewrite Hpush, IH.
    Qed.
  End Tree.

  Lemma stack_push A (h : A -> A) l x : q_push (Stack A) (map h l) (h x) = map h (q_push (Stack A) l x).
  Proof. cbn. now rewrite map_app. Qed.
  Lemma queue_push A (h : A -> A) l x : q_push (Queue A) (map h l) (h x) = map h (q_push (Queue A) l x).
  Proof. cbn. now rewrite map_app. Qed.

  Lemma last_ren p : path_last (map f p) = option_map f (path_last p).
  Proof. unfold path_last. rewrite <- map_rev. now destruct (rev p). Qed.
  Lemma contains_ren p v : path_contains_vertex (map f p) (f v) = path_contains_vertex p v.
  Proof. apply (memN_ren f Hf). Qed.
  Lemma path_kids_ren p : path_kids g' (map f p) = option_map (map (map f)) (path_kids g p).
  Proof.
    unfold path_kids. rewrite last_ren. destruct (path_last p) as [v|]; [|reflexivity]. cbn [option_map]. f_equal.
    rewrite Hout. rewrite (filter_ren _ _ (rename_edge f) _ (fun e => negb (path_contains_vertex p (snd e)))).
    - rewrite !map_map. apply map_ext. intros [a b]. unfold path_append, rename_edge. cbn [snd]. now rewrite map_app.
    - intros [a b]. unfold rename_edge. cbn [snd]. now rewrite contains_ren.
  Qed.
  Local Notation hS := (rename_scored f).
  Lemma heap_push_s l x : q_push (MinPriorityQueue sp_score) (map hS l) (hS x) = map hS (q_push (MinPriorityQueue sp_score) l x).
  Proof. cbn. apply heap_push_ren. reflexivity. Qed.
  Lemma heap_pop_s l : q_pop (MinPriorityQueue sp_score) (map hS l) =
    match q_pop (MinPriorityQueue sp_score) l with None => None | Some (a, q') => Some (hS a, map hS q') end.
  Proof. cbn. apply (heap_pop_ren _ _ hS). reflexivity. Qed.

  Variables F F' : path -> Z.
  Hypothesis HF : forall p, F' (map f p) = F p.
  Lemma child_ren sp v : scored_child F' (hS sp) (f v) = hS (scored_child F sp v).
  Proof.
    unfold scored_child, rename_scored, path_append. cbn [sp_path sp_score]. change [f v] with (map f [v]).
    now rewrite <- map_app, HF.
  Qed.
  Lemma last_is_ren t sp : last_is (f t) (hS sp) = last_is t sp.
  Proof. unfold last_is. cbn [rename_scored sp_path]. rewrite last_ren. destruct (path_last (sp_path sp)); [|reflexivity]. now apply eqb_ren. Qed.

  (** *** Constraints *)
  Lemma to_edge_ren p : to_edge_list (map f p) = map (rename_edge f) (to_edge_list p).
  Proof. induction p as [|x [|y p] IH]; [reflexivity|reflexivity|]. cbn [map to_edge_list] in *. now rewrite IH. Qed.
  Lemma contains_edge_ren p e : path_contains_edge (map f p) (rename_edge f e) = path_contains_edge p e.
  Proof.
    unfold path_contains_edge. rewrite to_edge_ren. induction (to_edge_list p) as [|x l IH]; [reflexivity|].
    cbn [map existsb]. now rewrite (edge_eqb_ren f Hf), IH.
  Qed.
  Lemma cycle_ren p : forall seen, contains_cycle_from (map f seen) (map f p) = contains_cycle_from seen p.
  Proof.
    induction p as [|v p IH]; intro seen; [reflexivity|]. cbn [map contains_cycle_from]. rewrite memN_ren by assumption.
    destruct (memN v seen); [reflexivity|]. apply (IH (v :: seen)).
  Qed.
  Definition rkey (kv : N * nat) : N * nat := (f (fst kv), snd kv).
  Lemma hm_insert_ren v i m : hm_insert N.eqb (f v) i (map rkey m) = map rkey (hm_insert N.eqb v i m).
  Proof.
    induction m as [|[k j] m IH]; [reflexivity|]. cbn [map hm_insert]. unfold rkey at 1. cbn [fst snd]. rewrite (eqb_ren f Hf).
    destruct (N.eqb v k); cbn [map]; [reflexivity|]. now rewrite IH.
  Qed.
  Lemma hm_get_ren v m : hm_get N.eqb (f v) (map rkey m) = hm_get N.eqb v m.
  Proof.
    induction m as [|[k j] m IH]; [reflexivity|]. cbn [map hm_get]. unfold rkey at 1. cbn [fst snd]. rewrite (eqb_ren f Hf).
    destruct (N.eqb v k); [reflexivity|]. exact IH.
  Qed.
  Lemma index_map_ren vs : forall i m, index_map_from i (map f vs) (map rkey m) = map rkey (index_map_from i vs m).
  Proof. induction vs as [|v vs IH]; intros i m; [reflexivity|]. cbn [map index_map_from]. now rewrite hm_insert_ren, IH. Qed.
  Lemma check_order_ren m p : forall k, check_order_from (map rkey m) k (map f p) = check_order_from m k p.
  Proof.
    induction p as [|v p IH]; intro k; [reflexivity|]. cbn [map check_order_from]. rewrite hm_get_ren.
    destruct (hm_get N.eqb v m) as [i|]; [|apply IH]. destruct (Nat.ltb i k); [reflexivity|apply IH].
  Qed.
  Lemma order_ren p vs : check_vertices_order (map f p) (map f vs) = check_vertices_order p vs.
  Proof. unfold check_vertices_order, index_map. change (@nil (N * nat)) with (map rkey []) at 1. rewrite index_map_ren. apply check_order_ren. Qed.
  Lemma check_complete_ren c sp : check_complete (rename_constraint f c) (hS sp) = check_complete c sp.
  Proof.
    induction c as [v|e|vs| |n|n|s|s|c1 IH1 c2 IH2|c1 IH1 c2 IH2|c1 IH1 c2 IH2|c IH];
      cbn [rename_constraint check_complete rename_scored sp_path sp_score]; try reflexivity.
    - apply contains_ren.
    - apply contains_edge_ren.
    - apply order_ren.
    - apply (cycle_ren _ []).
    - unfold path_size. now rewrite map_length.
    - unfold path_size. now rewrite map_length.
    - cbn [rename_scored sp_path sp_score] in *. fold (hS sp) in *. now rewrite IH1, IH2.
    - fold (hS sp). now rewrite IH1, IH2.
    - fold (hS sp). now rewrite IH1, IH2.
    - fold (hS sp). now rewrite IH.
  Qed.
  Lemma check_partial_ren c sp : check_partial (rename_constraint f c) (hS sp) = check_partial c sp.
  Proof.
    induction c as [v|e|vs| |n|n|s|s|c1 IH1 c2 IH2|c1 IH1 c2 IH2|c1 IH1 c2 IH2|c IH];
      cbn [rename_constraint check_partial]; try reflexivity.
    - apply order_ren.
    - cbn [rename_scored sp_path]. unfold path_size. now rewrite map_length.
    - now rewrite IH1, IH2.
    - now rewrite IH1, IH2.
    - now rewrite IH1, IH2.
    - destruct c; cbn [rename_constraint rename_scored sp_path]; try reflexivity; f_equal.
      + apply contains_ren.
      + apply contains_edge_ren.
      + apply (cycle_ren _ []).
  Qed.
  Lemma forallb_ren (ck : constraint -> scored -> bool) cs sp : (forall c, ck (rename_constraint f c) (hS sp) = ck c sp) ->
    forallb (fun c => ck c (hS sp)) (map (rename_constraint f) cs) = forallb (fun c => ck c sp) cs.
  Proof. intro H. induction cs as [|c cs IH]; [reflexivity|]. cbn [map forallb]. now rewrite H, IH. Qed.
  Lemma constrained_kids_ren cs sp :
    constrained_kids g' F' (map (rename_constraint f) cs) (hS sp) = option_map (map hS) (constrained_kids g F cs sp).
  Proof.
    unfold constrained_kids. cbn [rename_scored sp_path]. rewrite last_ren. destruct (path_last (sp_path sp)) as [v|]; [|reflexivity].
    cbn [option_map]. f_equal. rewrite Hout, map_map.
    rewrite (map_ext _ (fun e => hS (scored_child F sp (snd e)))) by (intros [a b]; apply (child_ren sp b)).
    rewrite <- (map_map (fun e => scored_child F sp (snd e)) hS). apply filter_ren.
    intro x. unfold check_all_partial. apply forallb_ren. intro c. apply check_partial_ren.
  Qed.
End Searches.
