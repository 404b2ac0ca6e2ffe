(** * Facts about the walks of Spec.v *)
From Coq Require Import List NArith ZArith Bool Lia Permutation Arith.
From Verif Require Import Spec Base.
Import ListNotations.

Set Implicit Arguments.

(** ** starts_with / ends_with *)

Lemma starts_with_cons A (x a : A) l : starts_with x (a :: l) <-> x = a.
Proof. split; [intros [t [= H _]]; now symmetry|intros ->; now exists l]. Qed.
Lemma starts_with_nil A (x : A) : ~ starts_with x [].
Proof. intros [t H]. discriminate. Qed.
Lemma ends_with_snoc A (x a : A) l : ends_with x (l ++ [a]) <-> x = a.
Proof.
  split; [|intros ->; now exists l]. intros [t H]. apply app_inj_tail in H as [_ ->].
  reflexivity.
Qed.
Lemma ends_with_nil A (x : A) : ~ ends_with x [].
Proof. intros [t H]. destruct t; discriminate. Qed.
Lemma ends_with_one A (x a : A) : ends_with x [a] <-> x = a.
Proof. apply (ends_with_snoc x a []). Qed.
Lemma ends_with_cons A (x a b : A) l : ends_with x (a :: b :: l) <-> ends_with x (b :: l).
Proof.
  split; intros [t H].
  - destruct t as [|c t]; [discriminate|]. injection H as -> H. exists t. assumption.
  - exists (a :: t). now rewrite H.
Qed.
Lemma ends_with_app A (x a : A) l1 l2 : ends_with x (l1 ++ a :: l2) <-> ends_with x (a :: l2).
Proof.
  split; intros [t H].
  - destruct (last_inv (a :: l2)) as [E|(l' & y & E)]; [discriminate|]. rewrite E in *.
    rewrite app_assoc in H. apply app_inj_tail in H as [_ ->]. now exists l'.
  - exists (l1 ++ t). now rewrite H, app_assoc.
Qed.
Lemma starts_with_app A (x : A) l1 l2 : starts_with x l1 -> starts_with x (l1 ++ l2).
Proof. intros [t ->]. now exists (t ++ l2). Qed.
Lemma starts_with_app_inv A (x : A) l1 l2 : l1 <> [] -> starts_with x (l1 ++ l2) -> starts_with x l1.
Proof. destruct l1 as [|a l1]; [congruence|]. intros _ [t [= -> _]]. now exists l1. Qed.
Lemma starts_with_fun A (x y : A) l : starts_with x l -> starts_with y l -> x = y.
Proof. intros [t ->] [t' H]. congruence. Qed.
Lemma ends_with_fun A (x y : A) l : ends_with x l -> ends_with y l -> x = y.
Proof. intros [t ->] [t' H]. now apply app_inj_tail in H as [_ H]. Qed.
Lemma starts_with_In A (x : A) l : starts_with x l -> In x l.
Proof. intros [t ->]. now left. Qed.
Lemma ends_with_In A (x : A) l : ends_with x l -> In x l.
Proof. intros [t ->]. apply in_app_iff. right. now left. Qed.
Lemma ends_with_ex A (l : list A) : l <> [] -> exists x, ends_with x l.
Proof. intro H. destruct (last_inv l) as [->|(l' & x & ->)]; [congruence|]. exists x, l'. reflexivity. Qed.
Lemma ends_with_rev A (x : A) l : ends_with x (rev l) <-> starts_with x l.
Proof.
  split; intros [t H].
  - exists (rev t). rewrite <- (rev_involutive l), H, rev_app_distr. reflexivity.
  - exists (rev t). now rewrite H.
Qed.

(** ** adjacent *)

Lemma adjacent_nil A (x y : A) : ~ adjacent x y [].
Proof. intros (p & q & H). destruct p; discriminate. Qed.
Lemma adjacent_one A (x y a : A) : ~ adjacent x y [a].
Proof. intros (p & q & H). destruct p as [|? [|? ?]]; discriminate. Qed.
Lemma adjacent_cons A (x y a : A) l :
  adjacent x y (a :: l) <-> (x = a /\ starts_with y l) \/ adjacent x y l.
Proof.
  split.
  - intros (p & q & H). destruct p as [|b p]; injection H as -> H.
    + left. split; [reflexivity|]. subst. now exists q.
    + right. now exists p, q.
  - intros [[-> [t ->]]|(p & q & ->)]; [now exists [], t|now exists (a :: p), q].
Qed.
Lemma adjacent_app A (x y : A) l1 l2 :
  adjacent x y (l1 ++ l2) <->
  adjacent x y l1 \/ adjacent x y l2 \/ (ends_with x l1 /\ starts_with y l2).
Proof.
  induction l1 as [|a l1 IH]; cbn.
  - split; [tauto|]. intros [H|[H|[H _]]]; [|assumption|]; exfalso.
    + now apply adjacent_nil in H.
    + now apply ends_with_nil in H.
  - rewrite !adjacent_cons, IH. destruct l1 as [|b l1]; cbn.
    + rewrite ends_with_one. split.
      * intros [[-> H]|[H|[H|[H _]]]]; [tauto| |tauto|now apply ends_with_nil in H].
        now apply adjacent_nil in H.
      * intros [[[-> H]|H]|[H|[-> H]]]; [now apply starts_with_nil in H| |tauto|tauto].
        now apply adjacent_nil in H.
    + rewrite ends_with_cons, !starts_with_cons. tauto.
Qed.
Lemma adjacent_snoc A (x y b : A) l :
  adjacent x y (l ++ [b]) <-> adjacent x y l \/ (ends_with x l /\ y = b).
Proof.
  rewrite adjacent_app, starts_with_cons. split.
  - intros [?|[H|?]]; [tauto| |tauto]. now apply adjacent_one in H.
  - tauto.
Qed.
Lemma adjacent_In A (x y : A) l : adjacent x y l -> In x l /\ In y l.
Proof. intros (p & q & ->). rewrite !in_app_iff. cbn. tauto. Qed.
Lemma adjacent_rev A (x y : A) l : adjacent x y (rev l) <-> adjacent y x l.
Proof.
  assert (H : forall x y (l : list A), adjacent x y l -> adjacent y x (rev l)).
  { clear. intros x y l (p & q & ->). rewrite rev_app_distr. cbn. exists (rev q), (rev p).
    now rewrite <- !app_assoc. }
  split; [|apply H]. intro H1. apply H in H1. now rewrite rev_involutive in H1.
Qed.

(** ** chains: lists whose consecutive elements are related *)

Definition chain (E : rel) (l : list N) : Prop := forall x y, adjacent x y l -> E x y.

Section Walks.
  Variable E : rel.

  Lemma chain_nil : chain E [].
  Proof. intros x y H. now apply adjacent_nil in H. Qed.
  Lemma chain_one a : chain E [a].
  Proof. intros x y H. now apply adjacent_one in H. Qed.
  Lemma chain_cons a b l : chain E (a :: b :: l) <-> E a b /\ chain E (b :: l).
  Proof.
    unfold chain. split.
    - intro H. split; [apply H, adjacent_cons; left; split; [reflexivity|now exists l]|].
      intros x y Hxy. apply H. apply adjacent_cons. tauto.
    - intros [H1 H2] x y Hxy. apply adjacent_cons in Hxy as [[-> Hs]|Hxy]; [|auto].
      apply starts_with_cons in Hs. now subst.
  Qed.
  Lemma chain_app l1 l2 :
    chain E (l1 ++ l2) <->
    chain E l1 /\ chain E l2 /\ (forall x y, ends_with x l1 -> starts_with y l2 -> E x y).
  Proof.
    unfold chain. split.
    - intro H. repeat split; intros; apply H; apply adjacent_app; tauto.
    - intros (H1 & H2 & H3) x y Hxy. apply adjacent_app in Hxy as [?|[?|[? ?]]]; auto.
  Qed.
  Lemma chain_snoc l b : chain E (l ++ [b]) <-> chain E l /\ (forall x, ends_with x l -> E x b).
  Proof.
    rewrite chain_app. split.
    - intros (H1 & _ & H3). split; [assumption|]. intros x Hx. apply H3; [assumption|].
      now exists [].
    - intros [H1 H2]. split; [assumption|]. split; [apply chain_one|].
      intros x y Hx Hy. apply starts_with_cons in Hy. subst. auto.
  Qed.

  Lemma walk_from_to_chain s t l :
    walk_from_to E s t l <-> starts_with s l /\ ends_with t l /\ chain E l.
  Proof. reflexivity. Qed.

  Lemma walk_one s : walk_from_to E s s [s].
  Proof.
    split; [now exists []|]. split; [now exists []|]. apply chain_one.
  Qed.

  Lemma walk_snoc s u v l : walk_from_to E s u l -> E u v -> walk_from_to E s v (l ++ [v]).
  Proof.
    intros (H1 & H2 & H3) He. split; [now apply starts_with_app|].
    split; [now exists l|]. apply chain_snoc. split; [assumption|].
    intros x Hx. now rewrite (ends_with_fun Hx H2).
  Qed.

  Lemma walk_cons s u t l : E s u -> walk_from_to E u t l -> walk_from_to E s t (s :: l).
  Proof.
    intros He (H1 & H2 & H3). destruct H1 as [l' ->]. split; [now eexists|].
    split; [now apply ends_with_cons|]. now apply chain_cons.
  Qed.

  Lemma walk_inv s t l : walk_from_to E s t l ->
    (l = [s] /\ s = t) \/
    exists l' u, l = l' ++ [t] /\ walk_from_to E s u l' /\ E u t.
  Proof.
    intros (H1 & [l' ->] & H3). destruct l' as [|a l'].
    - left. apply starts_with_cons in H1. subst. split; reflexivity.
    - right. apply chain_snoc in H3 as [H3 H4].
      destruct (ends_with_ex (l := a :: l')) as [u Hu]; [discriminate|].
      exists (a :: l'), u. split; [reflexivity|]. split; [|auto].
      split; [|split; assumption]. cbn in H1. apply starts_with_cons in H1. subst.
      now exists l'.
  Qed.

  Lemma walk_inv_cons s t l : walk_from_to E s t l ->
    (l = [s] /\ s = t) \/
    exists l' u, l = s :: l' /\ E s u /\ walk_from_to E u t l'.
  Proof.
    intros ([l' ->] & H2 & H3). destruct l' as [|a l'].
    - left. apply ends_with_one in H2. subst. split; reflexivity.
    - right. exists (a :: l'), a. split; [reflexivity|].
      apply chain_cons in H3 as [H3 H4]. split; [assumption|].
      split; [now exists l'|]. split; [|assumption]. now rewrite ends_with_cons in H2.
  Qed.

  Lemma walk_app s u t l1 l2 :
    walk_from_to E s u l1 -> walk_from_to E u t (u :: l2) -> walk_from_to E s t (l1 ++ l2).
  Proof.
    intros (H1 & H2 & H3) (_ & H5 & H6). split; [now apply starts_with_app|].
    destruct l2 as [|a l2].
    - rewrite app_nil_r. apply ends_with_one in H5. subst. split; assumption.
    - rewrite ends_with_cons in H5. split; [now apply ends_with_app|].
      apply chain_cons in H6 as [H6 H7]. apply chain_app. split; [assumption|].
      split; [assumption|]. intros x y Hx Hy. apply starts_with_cons in Hy.
      rewrite (ends_with_fun Hx H2). now subst.
  Qed.

  (** Cut a walk at an occurrence of [u]. *)
  Lemma walk_split s t u p q :
    walk_from_to E s t (p ++ u :: q) ->
    walk_from_to E s u (p ++ [u]) /\ walk_from_to E u t (u :: q).
  Proof.
    intros (H1 & H2 & H3). rewrite ends_with_app in H2.
    replace (p ++ u :: q) with ((p ++ [u]) ++ q) in * by (now rewrite <- app_assoc).
    pose proof H3 as H3'. rewrite <- app_assoc in H3'. cbn in H3'.
    apply chain_app in H3 as (Ha & Hb & Hc). apply chain_app in H3' as (Hd & He & Hf).
    split.
    - split; [|split; [now exists p|assumption]]. eapply starts_with_app_inv; [|exact H1].
      destruct p; discriminate.
    - split; [now exists q|]. split; assumption.
  Qed.

  Lemma walk_prefix s l1 l2 : walk_from E s (l1 ++ l2) -> l1 <> [] -> walk_from E s l1.
  Proof.
    intros [H1 H2] Hn. split; [eapply starts_with_app_inv; eassumption|].
    apply chain_app in H2 as [H2 _]. assumption.
  Qed.

  Lemma walk_from_snoc s l v : walk_from E s (l ++ [v]) <->
    (l = [] /\ v = s) \/ (exists u, walk_from_to E s u l /\ E u v).
  Proof.
    split.
    - intros [H1 H2]. destruct l as [|a l].
      + left. apply starts_with_cons in H1. auto.
      + right. apply chain_snoc in H2 as [H2 H3].
        destruct (ends_with_ex (l := a :: l)) as [u Hu]; [discriminate|].
        exists u. split; [|auto]. split; [|split; assumption].
        eapply starts_with_app_inv; [|exact H1]. discriminate.
    - intros [[-> ->]|(u & (H1 & H2 & H3) & H)].
      + split; [now exists []|apply chain_one].
      + split; [now apply starts_with_app|]. apply chain_snoc. split; [assumption|].
        intros x Hx. now rewrite (ends_with_fun Hx H2).
  Qed.

  Lemma walk_from_end s l : walk_from E s l -> exists t, walk_from_to E s t l.
  Proof.
    intros [H1 H2]. destruct (ends_with_ex (l := l)) as [t Ht].
    { intros ->. now apply starts_with_nil in H1. }
    exists t. split; [assumption|]. split; assumption.
  Qed.

  Lemma walk_from_to_from s t l : walk_from_to E s t l -> walk_from E s l.
  Proof. intros (H1 & _ & H3). split; assumption. Qed.

  (** ** Reachability *)

  Lemma reachable_refl s : reachable E s s.
  Proof. exists [s]. apply walk_one. Qed.
  Lemma reachable_step s u v : reachable E s u -> E u v -> reachable E s v.
  Proof. intros [l H] He. exists (l ++ [v]). now apply walk_snoc with u. Qed.
  Lemma reachable_trans s u v : reachable E s u -> reachable E u v -> reachable E s v.
  Proof.
    intros [l1 H1] [l2 H2]. destruct (proj1 H2) as [t ->]. exists (l1 ++ t).
    eapply walk_app; eassumption.
  Qed.
  Lemma reachable_ind' s (P : N -> Prop) :
    P s -> (forall u v, reachable E s u -> P u -> E u v -> P v) ->
    forall t, reachable E s t -> P t.
  Proof.
    intros H0 HS t [l H]. revert t H. induction l as [|a l IH] using rev_ind; intros t H.
    - destruct H as (H & _). now apply starts_with_nil in H.
    - apply walk_inv in H as [[_ ->]|(l' & u & He & Hw & Hu)]; [assumption|].
      apply app_inj_tail in He as [-> ->]. apply HS with u; [now exists l'|auto|assumption].
  Qed.
  Lemma walk_In_reachable s l v : walk_from E s l -> In v l -> reachable E s v.
  Proof.
    intros H Hin. apply walk_from_end in H as [t H]. apply in_split in Hin as (p & q & ->).
    apply walk_split in H as [H _]. now exists (p ++ [v]).
  Qed.

  (** ** Every walk contains a simple path *)

  Lemma walk_simple s t l : walk_from_to E s t l ->
    exists l', simple_from_to E s t l' /\ length l' <= length l /\ incl l' l.
  Proof.
    revert t. induction l as [|a l IH] using rev_ind; intros t H.
    - destruct H as (H & _). now apply starts_with_nil in H.
    - pose proof H as H0. apply walk_inv in H as [[He ->]|(l0 & u & He & Hw & Hu)].
      + exists [t]. rewrite He. split; [|split; [reflexivity|apply incl_refl]].
        split; [apply walk_one|]. repeat constructor. intros [].
      + apply app_inj_tail in He as [-> ->].
        destruct (IH _ Hw) as (l' & [Hw' Hnd] & Hlen & Hinc).
        destruct (in_dec N.eq_dec t l') as [Hin|Hni].
        * apply in_split in Hin as (p & q & ->). exists (p ++ [t]). split; [split|split].
          -- now apply walk_split in Hw' as [Hw' _].
          -- replace (p ++ t :: q) with ((p ++ [t]) ++ q) in Hnd by (now rewrite <- app_assoc).
             now apply NoDup_app_iff in Hnd as [Hnd _].
          -- rewrite !app_length in *. cbn in *. lia.
          -- intros x Hx. apply in_app_iff. apply in_app_iff in Hx as [Hx|[<-|[]]].
             ++ left. apply Hinc. apply in_app_iff. tauto.
             ++ right. now left.
        * exists (l' ++ [t]). split; [split|split].
          -- now apply walk_snoc with u.
          -- apply NoDup_snoc. tauto.
          -- rewrite !app_length. cbn. lia.
          -- intros x Hx. apply in_app_iff. apply in_app_iff in Hx as [Hx|?]; [left|right]; auto.
  Qed.

  Lemma reachable_simple s t : reachable E s t -> exists l, simple_from_to E s t l.
  Proof. intros [l H]. apply walk_simple in H as (l' & H & _). eauto. Qed.
End Walks.

Lemma chain_impl (E F : rel) l : (forall x y, E x y -> F x y) -> chain E l -> chain F l.
Proof. intros H Hc x y Hxy. auto. Qed.

Lemma walk_impl (E F : rel) s t l : (forall x y, E x y -> F x y) ->
  walk_from_to E s t l -> walk_from_to F s t l.
Proof. intros H (H1 & H2 & H3). split; [assumption|]. split; [assumption|]. eauto using chain_impl. Qed.

(** ** hops and weights *)

Lemma hops_snoc l (v : N) : l <> [] -> hops (l ++ [v]) = S (hops l).
Proof. intro H. unfold hops. rewrite app_length. cbn. destruct l; [congruence|]. cbn. lia. Qed.

Lemma walk_nonempty E s t l : walk_from_to E s t l -> l <> [].
Proof. intros (H & _) ->. now apply starts_with_nil in H. Qed.

Lemma weight_cons w a b l : weight w (a :: b :: l) = (w a b + weight w (b :: l))%Z.
Proof. reflexivity. Qed.

Lemma weight_snoc w l u v : ends_with u l -> weight w (l ++ [v]) = (weight w l + w u v)%Z.
Proof.
  intros [t ->]. induction t as [|a t IH]; [cbn; lia|].
  destruct t as [|b t]; [cbn; lia|].
  cbn [app] in *. rewrite !weight_cons. lia.
Qed.

Lemma weight_app w p u q :
  weight w (p ++ u :: q) = (weight w (p ++ [u]) + weight w (u :: q))%Z.
Proof.
  induction p as [|a p IH]; [cbn [app]; destruct q; cbn; lia|].
  destruct p as [|b p].
  - cbn [app]. rewrite !weight_cons. cbn [weight]. lia.
  - cbn [app] in *. rewrite !weight_cons. lia.
Qed.

(** ** rotation *)

Lemma rotation_refl A (c : list A) : rotation c c.
Proof. exists [], c. now rewrite app_nil_r. Qed.
Lemma rotation_sym A (c d : list A) : rotation c d -> rotation d c.
Proof. intros (p & q & -> & ->). now exists q, p. Qed.
Lemma rotation_perm A (c d : list A) : rotation c d -> Permutation c d.
Proof. intros (p & q & -> & ->). apply Permutation_app_comm. Qed.
Lemma app_split_cases A (a b c d : list A) : a ++ b = c ++ d ->
  (exists m, a = c ++ m /\ d = m ++ b) \/ (exists m, c = a ++ m /\ b = m ++ d).
Proof.
  revert c. induction a as [|x a IH]; intros c H.
  - right. exists c. cbn in *. split; [reflexivity|assumption].
  - destruct c as [|y c]; [left; exists (x :: a); cbn in *; split; [reflexivity|now symmetry]|].
    cbn in H. injection H as -> H. apply IH in H as [(m & -> & ->)|(m & -> & ->)].
    + left. now exists m.
    + right. now exists m.
Qed.
Lemma rotation_trans A (c d e : list A) : rotation c d -> rotation d e -> rotation c e.
Proof.
  intros (p & q & -> & ->) (p' & q' & H & ->).
  apply app_split_cases in H as [(m & -> & ->)|(m & -> & ->)].
  - exists (p ++ p'), m. rewrite <- !app_assoc. split; reflexivity.
  - exists m, (q' ++ q). rewrite <- !app_assoc. split; reflexivity.
Qed.

(** Proves [walk_from_to E s t l] for literals and a decidable [E]. *)
Lemma concrete_walk (E : rel) s t l : hd_error l = Some s -> hd_error (rev l) = Some t ->
  (forall x y, adjacent x y l -> E x y) -> walk_from_to E s t l.
Proof.
  intros H1 H2 H3. split; [|split; [|assumption]].
  - destruct l as [|a l]; [discriminate|]. injection H1 as ->. now exists l.
  - rewrite <- (rev_involutive l). apply ends_with_rev. rewrite ?rev_involutive.
    destruct (rev l) as [|a r]; [discriminate|]. injection H2 as ->. now exists r.
Qed.
Ltac concrete_chain :=
  let x := fresh "x" in let y := fresh "y" in let H := fresh "H" in
  intros x y H;
  repeat (apply adjacent_cons in H as [[-> H]|H];
    [apply starts_with_cons in H; subst y; vm_compute; reflexivity|]);
  exfalso; first [now apply adjacent_nil in H|now apply adjacent_one in H].
Ltac concrete_walk := apply concrete_walk; [reflexivity|reflexivity|concrete_chain].
