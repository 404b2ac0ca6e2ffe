(** * Base: results, hash maps as association lists, list facts *)
From Coq Require Import List NArith Bool Lia Permutation.
Import ListNotations.

Set Implicit Arguments.

(** Result of a Rust computation that may panic. [OutOfFuel] marks a loop that
    has not finished within the fuel given to the model.
    E.g. directed_graph.rs l.57, gcmd.rs l.52, max_flow.rs l.131. *)
Inductive outcome (A : Type) : Type :=
| Done (a : A)
| Panic
| OutOfFuel.
Arguments Done {A} a.
Arguments Panic {A}.
Arguments OutOfFuel {A}.

(** Sequencing of computations that may panic; Rust unwinds at the first panic (every [unwrap], [expect] and index in /repo).
    E.g. gcmd.rs l.52, max_flow.rs l.131. *)
Definition obind {A B} (x : outcome A) (f : A -> outcome B) : outcome B :=
  match x with Done a => f a | Panic => Panic | OutOfFuel => OutOfFuel end.

(** What a fuelled computation does when fuel is not an issue.
    Loops without a bound: e.g. shortest_path.rs l.118, max_flow.rs l.74. *)
Definition settles {A} (f : nat -> outcome A) (a : A) : Prop :=
  exists n0, forall n, n0 <= n -> f n = Done a.
(** The computation panics, whatever the fuel. E.g. gcmd.rs l.52, max_flow.rs l.146. *)
Definition panics {A} (f : nat -> outcome A) : Prop :=
  exists n0, forall n, n0 <= n -> f n = Panic.
(** The computation never ends. E.g. gc-random.rs l.121-130. *)
Definition diverges {A} (f : nat -> outcome A) : Prop :=
  forall n, f n = OutOfFuel.

(** ** std::collections::HashMap
    Association list without repeated keys.  The list order is the iteration
    order; nothing is assumed about it (see [built_by] in Graph.v). *)
Section HashMap.
  Variables K V : Type.
  Variable eqb : K -> K -> bool.

  (** [HashMap::get]; directed_graph.rs l.56, shortest_path.rs l.41, mapping.rs l.52 *)
  Fixpoint hm_get (k : K) (m : list (K * V)) : option V :=
    match m with
    | [] => None
    | (k', v) :: t => if eqb k k' then Some v else hm_get k t
    end.

  (** [HashMap::contains_key]; directed_graph.rs l.44 *)
  Definition hm_mem (k : K) (m : list (K * V)) : bool :=
    match hm_get k m with Some _ => true | None => false end.

  (** [HashMap::insert]; directed_graph.rs l.103, max_flow.rs l.69, mapping.rs l.41 *)
  Fixpoint hm_insert (k : K) (v : V) (m : list (K * V)) : list (K * V) :=
    match m with
    | [] => [(k, v)]
    | (k', v') :: t => if eqb k k' then (k', v) :: t else (k', v') :: hm_insert k v t
    end.

  (** [HashMap::remove]; directed_graph.rs l.116, shortest_path.rs l.20, mapping.rs l.46 *)
  Fixpoint hm_remove (k : K) (m : list (K * V)) : list (K * V) :=
    match m with
    | [] => []
    | (k', v') :: t => if eqb k k' then hm_remove k t else (k', v') :: hm_remove k t
    end.

  (** [HashMap::get_mut] followed by an update in place;
      directed_graph.rs l.128, l.141, max_flow.rs l.113-118 *)
  Fixpoint hm_update (k : K) (f : V -> V) (m : list (K * V)) : list (K * V) :=
    match m with
    | [] => []
    | (k', v') :: t => if eqb k k' then (k', f v') :: t else (k', v') :: hm_update k f t
    end.

  (** [HashMap::keys]; directed_graph.rs l.27, l.48 *)
  Definition hm_keys (m : list (K * V)) : list K := map fst m.
  (** [HashMap::values]; directed_graph.rs l.36 *)
  Definition hm_values (m : list (K * V)) : list V := map snd m.

  Hypothesis eqb_spec : forall a b, reflect (a = b) (eqb a b).

  Lemma hm_get_insert k k' v m :
    hm_get k' (hm_insert k v m) = if eqb k' k then Some v else hm_get k' m.
  Proof.
    induction m as [|[a b] m IH]; cbn.
    - destruct (eqb_spec k' k); reflexivity.
    - destruct (eqb_spec k a); cbn.
      + subst. destruct (eqb_spec k' a); reflexivity.
      + destruct (eqb_spec k' a); cbn.
        * subst. destruct (eqb_spec a k); congruence.
        * apply IH.
  Qed.

  Lemma hm_get_remove k k' m :
    hm_get k' (hm_remove k m) = if eqb k' k then None else hm_get k' m.
  Proof.
    induction m as [|[a b] m IH]; cbn.
    - destruct (eqb_spec k' k); reflexivity.
    - destruct (eqb_spec k a); cbn.
      + subst. rewrite IH. destruct (eqb_spec k' a); reflexivity.
      + destruct (eqb_spec k' a); cbn.
        * subst. destruct (eqb_spec a k); congruence.
        * apply IH.
  Qed.

  Lemma hm_get_update k k' f m :
    hm_get k' (hm_update k f m) =
    if eqb k' k then option_map f (hm_get k' m) else hm_get k' m.
  Proof.
    induction m as [|[a b] m IH]; cbn.
    - destruct (eqb_spec k' k); reflexivity.
    - destruct (eqb_spec k a); cbn.
      + subst. destruct (eqb_spec k' a); reflexivity.
      + destruct (eqb_spec k' a); cbn.
        * subst. destruct (eqb_spec a k); congruence.
        * apply IH.
  Qed.

  Lemma hm_keys_insert k v m :
    hm_keys (hm_insert k v m) =
    if hm_mem k m then hm_keys m else hm_keys m ++ [k].
  Proof.
    unfold hm_mem, hm_keys. induction m as [|[a b] m IH]; cbn; [reflexivity|].
    destruct (eqb_spec k a); cbn; [reflexivity|].
    rewrite IH. destruct (hm_get k m); reflexivity.
  Qed.

  Lemma hm_keys_update k f m : hm_keys (hm_update k f m) = hm_keys m.
  Proof.
    unfold hm_keys. induction m as [|[a b] m IH]; cbn; [reflexivity|].
    destruct (eqb_spec k a); cbn; [reflexivity|]. now rewrite IH.
  Qed.

  Lemma hm_keys_remove k m :
    hm_keys (hm_remove k m) = filter (fun x => negb (eqb k x)) (hm_keys m).
  Proof.
    unfold hm_keys. induction m as [|[a b] m IH]; cbn; [reflexivity|].
    destruct (eqb k a); cbn; now rewrite IH.
  Qed.

  Lemma hm_get_in_keys k m : In k (hm_keys m) <-> hm_get k m <> None.
  Proof.
    unfold hm_keys. induction m as [|[a b] m IH]; cbn; [tauto|].
    destruct (eqb_spec k a).
    - subst. split; [discriminate|tauto].
    - rewrite <- IH. split; [intros [->|]; tauto|tauto].
  Qed.

  Lemma hm_get_some_keys k m v : hm_get k m = Some v -> In k (hm_keys m).
  Proof. intro H. apply hm_get_in_keys. congruence. Qed.

  Lemma hm_keys_get k m : In k (hm_keys m) -> exists v, hm_get k m = Some v.
  Proof.
    intro H. apply hm_get_in_keys in H. destruct (hm_get k m) as [v|]; eauto.
    congruence.
  Qed.

  Lemma hm_get_In k v m : hm_get k m = Some v -> In (k, v) m.
  Proof.
    induction m as [|[a b] m IH]; cbn; [discriminate|].
    destruct (eqb_spec k a); [intros [= ->]; subst; tauto|tauto].
  Qed.

  Lemma hm_In_get k v m : NoDup (hm_keys m) -> In (k, v) m -> hm_get k m = Some v.
  Proof.
    unfold hm_keys. induction m as [|[a b] m IH]; cbn; [tauto|].
    intros Hnd Hin. inversion Hnd as [|? ? Hni Hnd']; subst.
    destruct (eqb_spec k a).
    - subst. destruct Hin as [[= ->]|Hin]; [reflexivity|].
      exfalso. apply Hni. now apply (in_map fst) in Hin.
    - destruct Hin as [[= -> ->]|Hin]; [congruence|]. now apply IH.
  Qed.

  Lemma hm_get_perm k m m' :
    NoDup (hm_keys m) -> Permutation m m' -> hm_get k m' = hm_get k m.
  Proof.
    intros Hnd HP.
    assert (Hnd' : NoDup (hm_keys m')).
    { eapply Permutation_NoDup; [|exact Hnd]. now apply Permutation_map. }
    destruct (hm_get k m) as [v|] eqn:E.
    - apply hm_In_get; [assumption|]. apply hm_get_In in E.
      now apply (Permutation_in _ HP).
    - destruct (hm_get k m') as [v|] eqn:E'; [|reflexivity].
      apply hm_get_In in E'. apply Permutation_sym in HP.
      apply (Permutation_in _ HP) in E'.
      apply hm_In_get in E'; [congruence|assumption].
  Qed.

  Lemma hm_mem_keys k m : hm_mem k m = true <-> In k (hm_keys m).
  Proof.
    rewrite hm_get_in_keys. unfold hm_mem. destruct (hm_get k m); split; congruence.
  Qed.

  Lemma hm_NoDup_insert k v m :
    NoDup (hm_keys m) -> NoDup (hm_keys (hm_insert k v m)).
  Proof.
    intro H. rewrite hm_keys_insert. destruct (hm_mem k m) eqn:E; [assumption|].
    apply NoDup_rev in H. rewrite <- (rev_involutive (hm_keys m ++ [k])).
    apply NoDup_rev. rewrite rev_app_distr. cbn. constructor; [|assumption].
    rewrite <- in_rev, <- hm_mem_keys. congruence.
  Qed.

  Lemma hm_NoDup_update k f m :
    NoDup (hm_keys m) -> NoDup (hm_keys (hm_update k f m)).
  Proof. now rewrite hm_keys_update. Qed.

  Lemma hm_NoDup_remove k m :
    NoDup (hm_keys m) -> NoDup (hm_keys (hm_remove k m)).
  Proof. rewrite hm_keys_remove. now apply NoDup_filter. Qed.

  Lemma hm_insert_same k v m : hm_get k m = Some v -> hm_insert k v m = m.
  Proof.
    induction m as [|[a b] m IH]; cbn; [discriminate|].
    destruct (eqb_spec k a); [now intros [= ->]|]. intro H. now rewrite IH.
  Qed.

  Lemma hm_update_same k f m :
    (forall v, hm_get k m = Some v -> f v = v) -> hm_update k f m = m.
  Proof.
    induction m as [|[a b] m IH]; cbn; [reflexivity|].
    destruct (eqb_spec k a); intro H; [now rewrite H|]. now rewrite IH.
  Qed.

  Lemma hm_remove_same k m : hm_get k m = None -> hm_remove k m = m.
  Proof.
    induction m as [|[a b] m IH]; cbn; [reflexivity|].
    destruct (eqb_spec k a); [discriminate|]. intro H. now rewrite IH.
  Qed.
End HashMap.

(** ** Small list facts *)

Lemma NoDup_snoc A (l : list A) x : NoDup (l ++ [x]) <-> NoDup l /\ ~ In x l.
Proof.
  split.
  - intro H. apply NoDup_remove in H. now rewrite app_nil_r in H.
  - intros [H1 H2]. apply NoDup_rev in H1. rewrite <- (rev_involutive (l ++ [x])).
    apply NoDup_rev. rewrite rev_app_distr. cbn. constructor; [|assumption].
    now rewrite <- in_rev.
Qed.

Lemma NoDup_app_iff A (l1 l2 : list A) :
  NoDup (l1 ++ l2) <-> NoDup l1 /\ NoDup l2 /\ (forall x, In x l1 -> In x l2 -> False).
Proof.
  induction l1 as [|a l1 IH]; cbn.
  - split; [intro; repeat split; auto; constructor|tauto].
  - split.
    + intro H. inversion H as [|? ? Hn Hd]; subst. apply IH in Hd as (H1 & H2 & H3).
      rewrite in_app_iff in Hn. split; [constructor; tauto|]. split; [assumption|].
      intros x [->|Hx] Hx2; [tauto|eauto].
    + intros (H1 & H2 & H3). inversion H1 as [|? ? Hn Hd]; subst. constructor.
      * rewrite in_app_iff. intros [?|?]; [tauto|]. eapply H3; eauto.
      * apply IH. repeat split; auto. intros x ? ?. eapply H3; eauto.
Qed.

Lemma filter_all A (f : A -> bool) l : (forall x, In x l -> f x = true) -> filter f l = l.
Proof.
  induction l as [|a l IH]; cbn; intro H; [reflexivity|].
  rewrite (H a) by tauto. rewrite IH; auto.
Qed.

Lemma filter_none A (f : A -> bool) l : (forall x, In x l -> f x = false) -> filter f l = [].
Proof.
  induction l as [|a l IH]; cbn; intro H; [reflexivity|].
  rewrite (H a) by tauto. rewrite IH; auto.
Qed.

Lemma filter_filter A (f g : A -> bool) l :
  filter f (filter g l) = filter (fun x => g x && f x) l.
Proof.
  induction l as [|a l IH]; cbn; [reflexivity|].
  destruct (g a); cbn; [destruct (f a); now rewrite IH|assumption].
Qed.

Lemma existsb_In A (eqb : A -> A -> bool)
  (eqb_spec : forall a b, reflect (a = b) (eqb a b)) x l :
  existsb (eqb x) l = true <-> In x l.
Proof.
  rewrite existsb_exists. split.
  - intros (y & Hy & E). destruct (eqb_spec x y); congruence.
  - intro H. exists x. split; [assumption|]. destruct (eqb_spec x x); congruence.
Qed.

(** core/src/graph.rs l.9-11: [Edge], a pair of ids. *)
Definition edge := (N * N)%type.
(** core/src/graph.rs l.10: [#[derive(PartialEq)]] on [Edge]. *)
Definition edge_eqb (a b : edge) : bool :=
  N.eqb (fst a) (fst b) && N.eqb (snd a) (snd b).

Lemma edge_eqb_spec a b : reflect (a = b) (edge_eqb a b).
Proof.
  destruct a as [a1 a2], b as [b1 b2]. unfold edge_eqb; cbn.
  destruct (N.eqb_spec a1 b1), (N.eqb_spec a2 b2); cbn; constructor; congruence.
Qed.

Lemma edge_eqb_refl a : edge_eqb a a = true.
Proof. destruct (edge_eqb_spec a a); congruence. Qed.

(** [contains] on vectors and hash sets of ids, e.g. core/src/path.rs l.38-40. *)
Definition memN (x : N) (l : list N) : bool := existsb (N.eqb x) l.
Lemma memN_In x l : memN x l = true <-> In x l.
Proof. apply existsb_In. apply N.eqb_spec. Qed.
Lemma memN_spec x l : reflect (In x l) (memN x l).
Proof. apply iff_reflect. symmetry. apply memN_In. Qed.
Lemma memN_false x l : memN x l = false <-> ~ In x l.
Proof. destruct (memN_spec x l); split; congruence || tauto. Qed.

(** [contains] on vectors and hash sets of edges, e.g. core/src/path.rs l.42-44. *)
Definition memE (x : edge) (l : list edge) : bool := existsb (edge_eqb x) l.
Lemma memE_In x l : memE x l = true <-> In x l.
Proof. apply existsb_In. apply edge_eqb_spec. Qed.
Lemma memE_spec x l : reflect (In x l) (memE x l).
Proof. apply iff_reflect. symmetry. apply memE_In. Qed.

(** [NoDup] and inclusion bound the length. *)
Lemma NoDup_incl_len A (l l' : list A) : NoDup l -> incl l l' -> length l <= length l'.
Proof. apply NoDup_incl_length. Qed.

Lemma NoDup_perm A (l l' : list A) :
  NoDup l -> NoDup l' -> (forall x, In x l <-> In x l') -> Permutation l l'.
Proof. apply NoDup_Permutation. Qed.

Lemma last_inv A (l : list A) : l = [] \/ exists l' x, l = l' ++ [x].
Proof.
  destruct l as [|a l] using rev_ind; [now left|right; eauto].
Qed.
