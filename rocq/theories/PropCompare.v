(** * C182: comparing and collecting the values of the library *)
From Coq Require Import List NArith ZArith Bool Lia Sorted.
From Verif Require Import Spec Base Graph Path Cycle CycleFacts PropCycle Compare.
Import ListNotations.

(** ** What it means *)
(** The contract of [Ord]: a total order. *)
Definition total_order {A} (cmp : A -> A -> comparison) : Prop :=
  (forall a, cmp a a = Eq) /\
  (forall a b, cmp b a = CompOpp (cmp a b)) /\
  (forall a b c, cmp a b <> Gt -> cmp b c <> Gt -> cmp a c <> Gt) /\
  (forall a b c, cmp a b = Lt -> cmp b c <> Gt -> cmp a c = Lt) /\
  (forall a b c, cmp a b <> Gt -> cmp b c = Lt -> cmp a c = Lt).
(** ... that agrees with [==]. *)
Definition agrees {A} (cmp : A -> A -> comparison) : Prop := forall a b, cmp a b = Eq <-> a = b.
Definition increasing {A} (cmp : A -> A -> comparison) (l : list A) : Prop := StronglySorted (fun a b => cmp a b = Lt) l.
(** The first of the list with its place in the order. *)
Definition first_of {A} (cmp : A -> A -> comparison) (x : A) (l : list A) : Prop :=
  exists p q, l = p ++ x :: q /\ forall y, In y p -> cmp y x <> Eq.

(** ** Ordered sets *)
Section Ordered.
  Context {A : Type} (cmp : A -> A -> comparison).
  Hypothesis T : total_order cmp.
  Lemma cmp_refl a : cmp a a = Eq. Proof. apply T. Qed.
  Lemma cmp_opp a b : cmp b a = CompOpp (cmp a b). Proof. apply T. Qed.
  Lemma cmp_lt_le a b c : cmp a b = Lt -> cmp b c <> Gt -> cmp a c = Lt. Proof. apply T. Qed.
  Lemma cmp_le_lt a b c : cmp a b <> Gt -> cmp b c = Lt -> cmp a c = Lt. Proof. apply T. Qed.
  Lemma cmp_gt a b : cmp a b = Gt <-> cmp b a = Lt.
  Proof. rewrite (cmp_opp a b). destruct (cmp a b); cbn; split; congruence. Qed.
  Lemma cmp_eq_sym a b : cmp a b = Eq <-> cmp b a = Eq.
  Proof. rewrite (cmp_opp a b). destruct (cmp a b); cbn; split; congruence. Qed.
  Lemma cmp_eq_l a b c : cmp a b = Eq -> cmp b c = cmp a c.
  Proof.
    intro E. destruct (cmp b c) eqn:F.
    - destruct (cmp a c) eqn:G; [reflexivity| |].
      + assert (X : cmp b c = Lt) by (apply (cmp_le_lt b a c); [rewrite (proj1 (cmp_eq_sym a b) E); discriminate|assumption]). congruence.
      + apply cmp_gt in G. assert (X : cmp c b = Lt) by (apply (cmp_lt_le c a b); [assumption|rewrite E; discriminate]). apply cmp_gt in X. congruence.
    - symmetry. apply (cmp_le_lt a b c); [rewrite E; discriminate|assumption].
    - symmetry. apply cmp_gt. apply cmp_gt in F. apply (cmp_lt_le c b a); [assumption|]. rewrite (proj1 (cmp_eq_sym a b) E). discriminate.
  Qed.

  Lemma insert_in x s y : In y (bt_insert cmp x s) -> y = x \/ In y s.
  Proof.
    induction s as [|z t IH]; cbn; [intros [<-|[]]; now left|]. destruct (cmp x z); cbn; [tauto|intros [<-|H]; tauto|].
    intros [<-|H]; [tauto|]. destruct (IH H); tauto.
  Qed.
  Lemma insert_keeps x s y : In y s -> In y (bt_insert cmp x s).
  Proof. induction s as [|z t IH]; cbn; [tauto|]. destruct (cmp x z); cbn; tauto. Qed.
  Lemma insert_new x s : In x (bt_insert cmp x s) \/ exists y, In y s /\ cmp y x = Eq.
  Proof.
    induction s as [|z t IH]; cbn; [now repeat left|]. destruct (cmp x z) eqn:E; cbn; [|tauto|].
    - right. exists z. split; [now left|now apply cmp_eq_sym].
    - destruct IH as [IH|(y & H1 & H2)]; [tauto|]. right. exists y. tauto.
  Qed.
  Lemma insert_increasing x s : increasing cmp s -> increasing cmp (bt_insert cmp x s).
  Proof.
    induction 1 as [|z t H IH F]; cbn; [repeat constructor|]. destruct (cmp x z) eqn:E.
    - now constructor.
    - constructor; [now constructor|]. constructor; [assumption|]. rewrite Forall_forall in *. intros y Hy. apply (cmp_lt_le x z y); [assumption|]. rewrite (F y Hy). discriminate.
    - constructor; [assumption|]. rewrite Forall_forall in *. intros y Hy. apply insert_in in Hy as [->|Hy]; [now apply cmp_gt|now apply F].
  Qed.
  Lemma insert_refused x s : increasing cmp s -> (exists y, In y s /\ cmp y x = Eq) -> bt_insert cmp x s = s.
  Proof.
    intros H (y & Hy & E). induction H as [|z t H IH F]; [destruct Hy|]. cbn. destruct Hy as [->|Hy].
    - now rewrite (proj1 (cmp_eq_sym y x) E).
    - rewrite Forall_forall in F. specialize (F y Hy). assert (X : cmp z x = Lt) by (apply (cmp_lt_le z y x); [assumption|rewrite E; discriminate]).
      apply cmp_gt in X. rewrite X. f_equal. now apply IH.
  Qed.
  Lemma collect_snoc l x : bt_collect cmp (l ++ [x]) = bt_insert cmp x (bt_collect cmp l).
  Proof. unfold bt_collect. now rewrite fold_left_app. Qed.
  Lemma collect_increasing l : increasing cmp (bt_collect cmp l).
  Proof. induction l as [|x l IH] using rev_ind; [constructor|]. rewrite collect_snoc. now apply insert_increasing. Qed.
  Lemma collect_first l : forall x, In x (bt_collect cmp l) <-> first_of cmp x l.
  Proof.
    induction l as [|z l IH] using rev_ind; intro x.
    - split; [intros []|]. intros (p & q & E & _). destruct p; discriminate.
    - rewrite collect_snoc. assert (Hp : forall y, In y l -> exists w, In w (bt_collect cmp l) /\ cmp w y = Eq).
      { clear - T. intros y. induction l as [|u l IHl] using rev_ind; [intros []|]. rewrite collect_snoc. intro H. apply in_app_iff in H as [H|[<-|[]]].
        - destruct (IHl H) as (w & W & E). exists w. split; [now apply insert_keeps|assumption].
        - destruct (insert_new u (bt_collect cmp l)) as [H|(w & W & E)]; [exists u; split; [assumption|apply cmp_refl]|exists w; split; [now apply insert_keeps|assumption]]. }
      split.
      + intro H. assert (Hc : In x (bt_collect cmp l) \/ (x = z /\ ~ exists y, In y (bt_collect cmp l) /\ cmp y z = Eq)).
        { destruct (insert_new z (bt_collect cmp l)) as [Hn|Hn].
          - apply insert_in in H as [->|H]; [|now left].
            destruct (Exists_dec (fun y => cmp y z = Eq) (bt_collect cmp l)) as [D|D].
            + intro y. destruct (cmp y z); [left; reflexivity|right; discriminate|right; discriminate].
            + left. apply Exists_exists in D. now rewrite (insert_refused z _ (collect_increasing l) D) in Hn.
            + right. split; [reflexivity|]. intro X. apply D. now apply Exists_exists.
          - left. now rewrite (insert_refused z _ (collect_increasing l) Hn) in H. }
        destruct Hc as [Hc|[-> Hc]].
        * apply IH in Hc as (p & q & -> & F). exists p, (q ++ [z]). split; [now rewrite <- app_assoc|assumption].
        * exists l, []. split; [reflexivity|]. intros y Hy E. apply Hc. destruct (Hp y Hy) as (w & W & Ew). exists w. split; [assumption|]. rewrite <- (cmp_eq_l w y z Ew). assumption.
      + intros (p & q & E & F). destruct q as [|u q _] using rev_ind.
        * apply app_inj_tail in E as [<- <-]. destruct (insert_new z (bt_collect cmp l)) as [H|(y & Hy & Ey)]; [assumption|]. exfalso.
          assert (Hl : In y l) by (apply IH in Hy as (p' & q' & -> & _); apply in_app_iff; right; now left). exact (F y Hl Ey).
        * change (p ++ x :: q ++ [u]) with (p ++ (x :: q) ++ [u]) in E. rewrite app_assoc in E. apply app_inj_tail in E as [-> _].
          apply insert_keeps. apply IH. now exists p, q.
  Qed.
End Ordered.

(** ** The orders *)
Lemma agreeing {A} (cmp : A -> A -> comparison) : (forall a b, cmp a b = Eq <-> a = b) -> (forall a b, cmp b a = CompOpp (cmp a b)) ->
  (forall a b c, cmp a b = Lt -> cmp b c = Lt -> cmp a c = Lt) -> total_order cmp.
Proof.
  intros E O L. split; [intro a; now apply E|]. split; [exact O|].
  assert (G : forall a b c, cmp a b <> Gt -> cmp b c <> Gt -> cmp a c <> Gt /\ (cmp a b = Lt \/ cmp b c = Lt -> cmp a c = Lt)).
  { intros a b c H1 H2. destruct (cmp a b) eqn:F1; [|destruct (cmp b c) eqn:F2; [| |congruence]|congruence].
    - apply E in F1 as ->. split; [assumption|]. intros [X|X]; [discriminate|assumption].
    - apply E in F2 as ->. rewrite F1. split; [discriminate|reflexivity].
    - rewrite (L a b c F1 F2). split; [discriminate|reflexivity]. }
  split; [|split]; intros a b c H1 H2.
  - now apply (G a b c).
  - apply (G a b c); [rewrite H1; discriminate|assumption|now left].
  - apply (G a b c); [assumption|rewrite H2; discriminate|now right].
Qed.
Lemma then_eq c d : cmp_then c d = Eq <-> c = Eq /\ d = Eq.
Proof. destruct c; cbn; split; intuition discriminate. Qed.
Lemma edge_agrees a b : cmp_edge a b = Eq <-> a = b.
Proof. destruct a, b. unfold cmp_edge, cmp_vertex. cbn [fst snd]. rewrite then_eq, !N.compare_eq_iff. split; [intros [-> ->]; reflexivity|intro H; now injection H]. Qed.
Lemma then_opp c d : cmp_then (CompOpp c) (CompOpp d) = CompOpp (cmp_then c d).
Proof. now destruct c. Qed.
Lemma then_lt x y c : cmp_then (N.compare x y) c = Lt <-> (x < y)%N \/ (x = y /\ c = Lt).
Proof.
  destruct (N.compare x y) eqn:E; cbn [cmp_then].
  - apply N.compare_eq_iff in E. split; [intro; now right|]. intros [H|[_ H]]; [lia|assumption].
  - rewrite N.compare_lt_iff in E. split; [now left|reflexivity].
  - rewrite N.compare_gt_iff in E. split; [discriminate|]. intros [H|[H _]]; lia.
Qed.
Lemma cycle_agrees a : forall b, cmp_cycle a b = Eq <-> a = b.
Proof.
  induction a as [|x a IH]; intros [|y b]; cbn [cmp_cycle]; try (split; [discriminate|discriminate]); [tauto|].
  unfold cmp_vertex. rewrite then_eq, N.compare_eq_iff, IH. split; [intros [-> ->]; reflexivity|intro H; now injection H].
Qed.
Lemma cycle_opp a : forall b, cmp_cycle b a = CompOpp (cmp_cycle a b).
Proof. induction a as [|x a IH]; intros [|y b]; cbn [cmp_cycle CompOpp]; try reflexivity. unfold cmp_vertex. rewrite (N.compare_antisym x y), IH. apply then_opp. Qed.
Lemma cycle_trans a : forall b c, cmp_cycle a b = Lt -> cmp_cycle b c = Lt -> cmp_cycle a c = Lt.
Proof.
  induction a as [|x a IH]; intros [|y b] [|z c]; cbn [cmp_cycle]; try discriminate; try reflexivity. unfold cmp_vertex. rewrite !then_lt.
  intros [H1|[-> H1]] [H2|[-> H2]]; [left; lia|now left|now left|right; split; [reflexivity|eauto]].
Qed.
(** Ids, edges and cycles: total orders that agree with [==]. *)
Theorem C182_orders :
  (total_order cmp_vertex /\ agrees cmp_vertex) /\ (total_order cmp_edge /\ agrees cmp_edge) /\ (total_order cmp_cycle /\ agrees cmp_cycle).
Proof.
  split; [|split]; (split; [apply agreeing|]).
  - apply N.compare_eq_iff.
  - intros a b. apply N.compare_antisym.
  - intros a b c. unfold cmp_vertex. rewrite !N.compare_lt_iff. lia.
  - intros a b. apply N.compare_eq_iff.
  - apply edge_agrees.
  - intros a b. unfold cmp_edge, cmp_vertex. rewrite (N.compare_antisym (fst a)), (N.compare_antisym (snd a)). apply then_opp.
  - intros a b c. unfold cmp_edge, cmp_vertex. rewrite !then_lt, !N.compare_lt_iff. lia.
  - intros a b. apply edge_agrees.
  - intros a b. apply cycle_agrees.
  - intros a b. apply cycle_opp.
  - apply cycle_trans.
  - intros a b. apply cycle_agrees.
Qed.
Print Assumptions C182_orders.
(** Ordered sets of them hold what was put in, each once, in increasing order. *)
Theorem C182_sets : forall A (cmp : A -> A -> comparison), total_order cmp -> agrees cmp -> forall l,
  increasing cmp (bt_collect cmp l) /\ NoDup (bt_collect cmp l) /\ (forall x, In x (bt_collect cmp l) <-> In x l).
Proof.
  intros A cmp T G l. pose proof (collect_increasing cmp T l) as I. split; [assumption|]. split.
  - induction I as [|z t I IH F]; constructor; [|assumption]. intro H. rewrite Forall_forall in F. specialize (F z H). rewrite (proj2 (G z z) eq_refl) in F. discriminate.
  - intro x. rewrite (collect_first cmp T l x). split; [intros (p & q & -> & _); apply in_app_iff; right; now left|].
    intro H. induction l as [|y l IH] using rev_ind; [destruct H|].
    destruct (Exists_dec (fun y => cmp y x = Eq) l) as [D|D]; [intro u; destruct (cmp u x); [left; reflexivity|right; discriminate|right; discriminate]| |].
    + apply Exists_exists in D as (u & U & E). apply G in E as ->. destruct IH as (p & q & -> & F); [apply collect_increasing; exact T|assumption|]. exists p, (q ++ [y]). split; [now rewrite <- app_assoc|assumption].
    + apply in_app_iff in H as [H|[->|[]]]; [exfalso; apply D, Exists_exists; exists x; split; [assumption|now apply G]|].
      exists l, []. split; [reflexivity|]. intros u U E. apply D, Exists_exists. now exists u.
Qed.
Print Assumptions C182_sets.
(** Scored paths: an order that only sees the score (so priority queues work, C37), ... *)
Lemma eq_path_spec a : forall b, eq_path a b = true <-> a = b.
Proof.
  induction a as [|x a IH]; intros [|y b]; cbn; try (split; [discriminate|discriminate]); [tauto|]. rewrite andb_true_iff, N.eqb_eq, IH.
  split; [intros [-> ->]; reflexivity|intro H; now injection H].
Qed.
Theorem C182_scored : total_order cmp_scored /\ (forall a b, partial_cmp_scored a b = Some (cmp_scored a b)) /\
  (forall a b, eq_scored a b = true <-> a = b) /\
  (forall a b, cmp_scored a b = Eq <-> sp_score a = sp_score b).
Proof.
  split; [|split; [reflexivity|split]].
  - unfold total_order, cmp_scored. split; [intro a; apply Z.compare_refl|]. split; [intros a b; apply Z.compare_antisym|].
    split; [|split]; intros a b c; rewrite ?Z.compare_lt_iff, ?Z.compare_ngt_iff; lia.
  - intros [p z] [p' z']. unfold eq_scored. cbn. rewrite andb_true_iff, eq_path_spec, Z.eqb_eq. split; [intros [-> ->]; reflexivity|intro H; now injection H].
  - intros a b. apply Z.compare_eq_iff.
Qed.
Print Assumptions C182_scored.
(** ... but that does not agree with [==]: for any two different paths. *)
Theorem C182_scored_refuted : forall p p' z, p <> p' ->
  let a := {| sp_path := p; sp_score := z |} in let b := {| sp_path := p'; sp_score := z |} in
  eq_scored a b = false /\ cmp_scored a b = Eq /\ bt_collect cmp_scored [a; b] = [a].
Proof.
  intros p p' z D a b. split; [|split].
  - destruct (eq_scored a b) eqn:E; [|reflexivity]. apply C182_scored in E. unfold a, b in E. injection E. contradiction.
  - apply Z.compare_refl.
  - unfold bt_collect. cbn. unfold cmp_scored. cbn. now rewrite Z.compare_refl.
Qed.
Print Assumptions C182_scored_refuted.
(** An ordered set of scored paths keeps exactly the first of each score. *)
Theorem C182_scored_sets : forall l x, In x (bt_collect cmp_scored l) <->
  exists p q, l = p ++ x :: q /\ forall y, In y p -> sp_score y <> sp_score x.
Proof.
  intros l x. rewrite (collect_first cmp_scored (proj1 C182_scored) l x). unfold first_of.
  split; intros (p & q & E & F); exists p, q; (split; [assumption|]); intros y Hy X; apply (F y Hy); now apply C182_scored.
Qed.
Print Assumptions C182_scored_sets.
(** ** Cycles *)
(** Two rotations of a cycle are different values, ... *)
Theorem C182_rotations_refuted : forall c x, NoDup (x :: c) -> c <> [] ->
  rotation (x :: c) (c ++ [x]) /\ cmp_cycle (x :: c) (c ++ [x]) <> Eq.
Proof.
  intros c x N D. split; [exists [x], c; now split|]. intro E. apply cycle_agrees in E. destruct c as [|y c]; [congruence|]. injection E as <- _. inversion N as [|? ? X _]. apply X. now left.
Qed.
Print Assumptions C182_rotations_refuted.
(** ... their canonical forms are not: an ordered set of canonical forms has one entry for each cycle up to rotation. *)
Theorem C182_canonical_sets : forall cs ds, Forall (fun c => NoDup c /\ c <> []) cs -> map canonical cs = map Some ds ->
  forall c d, In c cs -> canonical c = Some d ->
  In d (bt_collect cmp_cycle ds) /\ forall e, In e (bt_collect cmp_cycle ds) -> rotation c e -> e = d.
Proof.
  intros cs ds F M c d Hc Hd. assert (S := fun x => proj2 (proj2 (C182_sets _ cmp_cycle (proj1 (proj2 (proj2 C182_orders))) (proj2 (proj2 (proj2 C182_orders))) ds)) x).
  rewrite Forall_forall in F.
  assert (In1 : forall x y, In x cs -> canonical x = Some y -> In y ds).
  { intros x y Hx Hy. apply (in_map canonical) in Hx. rewrite M, Hy in Hx. apply in_map_iff in Hx as (w & W & ?). now injection W as <-. }
  split; [apply S; eapply In1; eassumption|]. intros e He R. apply S in He. assert (He' : In (Some e) (map canonical cs)) by (rewrite M; now apply in_map). apply in_map_iff in He' as (x & X & Hx).
  destruct (F x Hx) as [Nx Dx], (F c Hc) as [Nc Dc].
  destruct (C64_canonical x Nx Dx) as (e' & E1 & R1 & _ & E2 & _). rewrite X in E1. injection E1 as <-.
  assert (Ne : NoDup e) by (apply (rotation_NoDup _ x); assumption).
  pose proof (proj2 (C64_canonical_rotation c e Nc Ne Dc) R) as K. rewrite Hd, E2 in K. now injection K.
Qed.
Print Assumptions C182_canonical_sets.
(** ** Sorting and removing repetitions *)
Lemma sort_in {A} (cmp : A -> A -> comparison) l x : In x (sorted cmp l) <-> In x l.
Proof.
  induction l as [|y l IH]; [tauto|]. cbn [sorted fold_right]. fold (sorted cmp l).
  assert (G : forall s, In x (sort_insert cmp y s) <-> x = y \/ In x s).
  { induction s as [|z t IHs]; cbn; [intuition congruence|]. destruct (cmp y z); cbn; [intuition congruence|intuition congruence|]. rewrite IHs. tauto. }
  rewrite G, IH. cbn. intuition congruence.
Qed.
Lemma sort_sorted {A} (cmp : A -> A -> comparison) l : total_order cmp -> StronglySorted (fun a b => cmp a b <> Gt) (sorted cmp l).
Proof.
  intro T. induction l as [|y l IH]; [constructor|]. cbn [sorted fold_right]. fold (sorted cmp l).
  induction IH as [|z t H IH F]; cbn; [repeat constructor|]. destruct (cmp y z) eqn:E.
  1,2: constructor; [now constructor|]; constructor; [congruence|]; rewrite Forall_forall in *; intros w Hw; apply (proj1 (proj2 (proj2 T)) y z w); [congruence|now apply F].
  constructor; [assumption|]. rewrite Forall_forall in *. intros w Hw. assert (G : w = y \/ In w t).
  { clear - Hw. revert Hw. induction t as [|u t IHt]; cbn; [intros [<-|[]]; now left|]. destruct (cmp y u); cbn; [intuition|intuition|]. intros [<-|X]; [tauto|]. destruct (IHt X); tauto. }
  destruct G as [->|G]; [|now apply F]. apply (cmp_gt cmp T) in E. congruence.
Qed.
Lemma dedup_in {A} (eqb : A -> A -> bool) (Q : forall a b, eqb a b = true <-> a = b) l x : In x (dedup eqb l) <-> In x l.
Proof.
  induction l as [|y l IH]; [tauto|]. cbn [dedup]. destruct (dedup eqb l) as [|z t].
  - cbn. rewrite <- IH. cbn. tauto.
  - destruct (eqb y z) eqn:E; [apply Q in E as ->|]; cbn in *; rewrite <- IH; tauto.
Qed.
Lemma dedup_increasing {A} (cmp : A -> A -> comparison) eqb l : total_order cmp -> agrees cmp -> (forall a b, eqb a b = true <-> a = b) ->
  StronglySorted (fun a b => cmp a b <> Gt) l -> increasing cmp (dedup eqb l).
Proof.
  intros T G Q H. induction H as [|x l H IH F]; [constructor|]. cbn [dedup].
  assert (Fd : forall y, In y (dedup eqb l) -> cmp x y <> Gt) by (intros y Hy; apply dedup_in in Hy; [|exact Q]; rewrite Forall_forall in F; now apply F).
  destruct (dedup eqb l) as [|z t]; [repeat constructor|]. inversion IH as [|? ? It Ft]; subst. destruct (eqb x z) eqn:E.
  - apply Q in E as ->. assumption.
  - assert (L : cmp x z = Lt).
    { specialize (Fd z (or_introl eq_refl)). destruct (cmp x z) eqn:C; [apply G in C; subst; rewrite (proj2 (Q z z) eq_refl) in E; discriminate|reflexivity|congruence]. }
    constructor; [assumption|]. constructor; [assumption|]. rewrite Forall_forall in *. intros y Hy. apply (cmp_lt_le cmp T x z y L). rewrite (Ft y Hy). discriminate.
Qed.
Lemma increasing_unique {A} (cmp : A -> A -> comparison) : total_order cmp -> forall l l', increasing cmp l -> increasing cmp l' -> (forall x, In x l <-> In x l') -> l = l'.
Proof.
  intros T l. induction l as [|x l IH]; intros [|y l'] H H' E; [reflexivity|exfalso; apply (E y); now left|exfalso; apply (E x); now left|].
  inversion H as [|a1 b1 H1 F1]; subst a1 b1. inversion H' as [|a2 b2 H2 F2]; subst a2 b2. rewrite Forall_forall in *.
  assert (R : forall a, cmp a a <> Lt) by (intro a; rewrite (proj1 T a); discriminate).
  assert (x = y).
  { destruct (proj1 (E x) (or_introl eq_refl)) as [->|X]; [reflexivity|]. destruct (proj2 (E y) (or_introl eq_refl)) as [->|Y]; [reflexivity|].
    exfalso. apply (R x). apply (cmp_lt_le cmp T x y x (F1 y Y)). rewrite (F2 x X). discriminate. }
  subst y. f_equal. apply IH; try assumption. intro u. split; intro U.
  - destruct (proj1 (E u) (or_intror U)) as [->|?]; [|assumption]. exfalso. exact (R u (F1 u U)).
  - destruct (proj2 (E u) (or_intror U)) as [->|?]; [|assumption]. exfalso. exact (R u (F2 u U)).
Qed.
(** [sort] and [dedup] give the same as an ordered set, ... *)
Theorem C182_sort_dedup : forall A (cmp : A -> A -> comparison) eqb, total_order cmp -> agrees cmp -> (forall a b, eqb a b = true <-> a = b) ->
  forall l, dedup eqb (sorted cmp l) = bt_collect cmp l.
Proof.
  intros A cmp eqb T G Q l. apply (increasing_unique cmp T).
  - apply dedup_increasing; try assumption. now apply sort_sorted.
  - now apply collect_increasing.
  - intro x. rewrite dedup_in by assumption. rewrite sort_in. symmetry. now apply C182_sets.
Qed.
Print Assumptions C182_sort_dedup.
(** ... but leave repetitions of scored paths where another path of the same score stands between. *)
Theorem C182_scored_dedup_refuted : forall p p' z, p <> p' ->
  let a := {| sp_path := p; sp_score := z |} in let b := {| sp_path := p'; sp_score := z |} in
  dedup eq_scored (sorted cmp_scored [a; b; a]) = [a; b; a].
Proof.
  intros p p' z D a b. destruct (C182_scored_refuted p p' z D) as (E & C & _). destruct (C182_scored_refuted p' p z (not_eq_sym D)) as (E' & C' & _).
  fold a b in E, C, E', C'. cbn [sorted fold_right sort_insert]. rewrite C'. cbn [sort_insert]. rewrite C. cbn [dedup]. now rewrite E', E.
Qed.
Print Assumptions C182_scored_dedup_refuted.
Example C182_case :
  bt_collect cmp_edge [(2, 1); (1, 5); (2, 1); (1, 3)]%N = [(1, 3); (1, 5); (2, 1)]%N /\
  bt_collect cmp_cycle [[3; 1; 2]; [1; 2]; [3; 1]]%N = [[1; 2]; [3; 1]; [3; 1; 2]]%N /\
  bt_collect cmp_scored [Build_scored [1; 2; 4]%N 2; Build_scored [1; 4]%N 1; Build_scored [1; 3; 4]%N 2] =
    [Build_scored [1; 4]%N 1; Build_scored [1; 2; 4]%N 2].
Proof. now repeat split. Qed.
