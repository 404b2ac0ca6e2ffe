(** * Model of std::collections::BinaryHeap and of the two priority queues of
    core/src/iter/iter_datastructure.rs

    [BinaryHeap] is not part of /repo; the algorithm below is the one of the Rust
    standard library (push: append and sift up; pop: move the last element to
    the root, sift it down to the bottom, then up).  The library moves a "hole"
    instead of swapping, with the same result.  The search theorems do not
    depend on it: they hold for every queue popping a least element. *)
From Coq Require Import List NArith ZArith Bool Permutation Lia Arith.
From Verif Require Import Base Queue.
Import ListNotations.

Section Arrays.
  Context {A : Type}.

  (** An element of the vector replaced. Behind iter_datastructure.rs l.79, l.83. *)
  Fixpoint set (l : list A) (i : nat) (x : A) : list A :=
    match l, i with
    | [], _ => []
    | _ :: t, O => x :: t
    | y :: t, S i => y :: set t i x
    end.
  (** [slice::swap]; Behind iter_datastructure.rs l.79, l.83 *)
  Definition swap (l : list A) (i j : nat) : list A :=
    match nth_error l i, nth_error l j with
    | Some x, Some y => set (set l i y) j x
    | _, _ => l
    end.

  Lemma set_length l : forall i x, length (set l i x) = length l.
  Proof. induction l as [|y l IH]; intros [|i] x; cbn; auto. Qed.
  Lemma nth_set l : forall i x j,
    nth_error (set l i x) j =
    if Nat.eqb i j then (if Nat.ltb j (length l) then Some x else None) else nth_error l j.
  Proof.
    induction l as [|y l IH]; intros i x j; cbn [set].
    - destruct j; cbn; now destruct (Nat.eqb i _).
    - destruct i as [|i], j as [|j]; cbn [nth_error Nat.eqb length]; auto.
      rewrite IH. destruct (Nat.eqb i j); [|reflexivity].
      destruct (Nat.ltb_spec j (length l)), (Nat.ltb_spec (S j) (S (length l))); auto; lia.
  Qed.
  Lemma swap_length l i j : length (swap l i j) = length l.
  Proof.
    unfold swap. destruct (nth_error l i), (nth_error l j); auto. now rewrite !set_length.
  Qed.
  Lemma nth_swap l i j k : i < length l -> j < length l ->
    nth_error (swap l i j) k =
    if Nat.eqb k i then nth_error l j else if Nat.eqb k j then nth_error l i else nth_error l k.
  Proof.
    intros Hi Hj. unfold swap.
    destruct (nth_error l i) as [x|] eqn:Ei; [|apply nth_error_None in Ei; lia].
    destruct (nth_error l j) as [y|] eqn:Ej; [|apply nth_error_None in Ej; lia].
    rewrite !nth_set, set_length.
    destruct (Nat.eqb_spec j k), (Nat.eqb_spec k i), (Nat.eqb_spec k j); subst; try congruence.
    all: repeat match goal with
         | |- context [Nat.ltb ?a ?b] => destruct (Nat.ltb_spec a b)
         | |- context [Nat.eqb ?a ?b] => destruct (Nat.eqb_spec a b)
         end; subst; try congruence; lia.
  Qed.
  Lemma set_split l : forall i x y, nth_error l i = Some y ->
    exists p q, l = p ++ y :: q /\ length p = i /\ set l i x = p ++ x :: q.
  Proof.
    induction l as [|z l IH]; intros [|i] x y H; cbn in *; try discriminate.
    - injection H as ->. exists [], l. auto.
    - destruct (IH i x y H) as (p & q & -> & <- & ->). exists (z :: p), q. auto.
  Qed.
  Lemma set_perm l i x y : nth_error l i = Some y -> Permutation (y :: set l i x) (x :: l).
  Proof.
    intro H. destruct (set_split l i x y H) as (p & q & -> & _ & ->).
    rewrite <- !Permutation_middle. apply perm_swap.
  Qed.
  Lemma swap_perm l i j : Permutation (swap l i j) l.
  Proof.
    destruct (Nat.eq_dec i j) as [->|Hne].
    { destruct (Nat.lt_ge_cases j (length l)) as [Hj|Hj].
      - assert (swap l j j = l) as ->; [|reflexivity].
        unfold swap. destruct (nth_error l j) as [x|] eqn:E; [|reflexivity].
        destruct (set_split l j x x E) as (p & q & H1 & H2 & H3).
        rewrite H3, <- H1. rewrite H3, H1. reflexivity.
      - unfold swap. apply nth_error_None in Hj. now rewrite Hj. }
    unfold swap. destruct (nth_error l i) as [x|] eqn:Ei; [|reflexivity].
    destruct (nth_error l j) as [y|] eqn:Ej; [|reflexivity].
    assert (H2 : nth_error (set l i y) j = Some y).
    { rewrite nth_set. destruct (Nat.eqb_spec i j); [contradiction|assumption]. }
    apply (Permutation_cons_inv (a := y)).
    rewrite (set_perm _ _ x _ H2). now apply set_perm.
  Qed.
End Arrays.

Section Heap.
  Context {A : Type} (le : A -> A -> bool).

  (** The parent of a position, [(pos - 1) / 2]. Behind iter_datastructure.rs l.79, l.83. *)
  Definition parent (i : nat) : nat := (i - 1) / 2.

  (** [BinaryHeap::sift_up]; Called by push, iter_datastructure.rs l.79, l.103 *)
  Fixpoint sift_up (fuel : nat) (l : list A) (pos : nat) : list A :=
    match fuel with
    | O => l
    | S n =>
      if Nat.eqb pos 0 then l else
      match nth_error l pos, nth_error l (parent pos) with
      | Some x, Some p => if le x p then l else sift_up n (swap l (parent pos) pos) (parent pos)
      | _, _ => l
      end
    end.
  (** [BinaryHeap::sift_down_to_bottom], returning the final position;
      Called by pop, iter_datastructure.rs l.83, l.107 *)
  Fixpoint sift_down (fuel : nat) (l : list A) (pos : nat) : list A * nat :=
    match fuel with
    | O => (l, pos)
    | S n =>
      let child := 2 * pos + 1 in
      if Nat.leb child (length l - 2) then
        match nth_error l child, nth_error l (child + 1) with
        | Some x, Some y =>
          let c := if le x y then child + 1 else child in
          sift_down n (swap l pos c) c
        | _, _ => (l, pos)
        end
      else if Nat.eqb child (length l - 1) then (swap l pos child, child)
      else (l, pos)
    end.

  (** [BinaryHeap::push], used by iter_datastructure.rs l.65-109 *)
  Definition heap_push (l : list A) (x : A) : list A :=
    let l' := l ++ [x] in sift_up (length l') l' (length l).
  (** [BinaryHeap::pop], used by iter_datastructure.rs l.65-109 *)
  Definition heap_pop (l : list A) : option (A * list A) :=
    match pop_back l with
    | None => None
    | Some (x, []) => Some (x, [])
    | Some (x, r :: t) =>
      let (l', pos) := sift_down (length (x :: t)) (x :: t) 0 in
      Some (r, sift_up (length l') l' pos)
    end.

  Hypothesis le_total : forall x y, le x y = true \/ le y x = true.
  Hypothesis le_trans : forall x y z, le x y = true -> le y z = true -> le x z = true.

  (** The order of two positions. For iter_datastructure.rs l.65. *)
  Definition hle (l : list A) (i j : nat) : Prop :=
    forall x y, nth_error l i = Some x -> nth_error l j = Some y -> le x y = true.
  (** The heap property. For iter_datastructure.rs l.65. *)
  Definition heap (l : list A) : Prop := forall i, 0 < i -> hle l i (parent i).

  Lemma parent_lt i : 0 < i -> parent i < i.
  Proof. intro H. unfold parent. apply Nat.div_lt_upper_bound; lia. Qed.
  Lemma parent_kids i p : 0 < i -> (parent i = p <-> i = 2 * p + 1 \/ i = 2 * p + 2).
  Proof.
    intro H. unfold parent. split.
    - intro E. pose proof (Nat.div_mod (i - 1) 2 ltac:(lia)).
      pose proof (Nat.mod_upper_bound (i - 1) 2 ltac:(lia)). lia.
    - intros [-> | ->].
      + replace (2 * p + 1 - 1) with (p * 2) by lia. apply Nat.div_mul. lia.
      + replace (2 * p + 2 - 1) with (1 + p * 2) by lia. rewrite Nat.div_add by lia. reflexivity.
  Qed.

  Lemma sift_up_perm n : forall l pos, Permutation (sift_up n l pos) l.
  Proof.
    induction n as [|n IH]; intros l pos; cbn [sift_up]; [reflexivity|].
    destruct (Nat.eqb pos 0); [reflexivity|].
    destruct (nth_error l pos), (nth_error l (parent pos)); try reflexivity.
    destruct (le a a0); [reflexivity|]. rewrite IH. apply swap_perm.
  Qed.
  Lemma sift_down_perm n : forall l pos, Permutation (fst (sift_down n l pos)) l.
  Proof.
    induction n as [|n IH]; intros l pos; cbn [sift_down]; [reflexivity|].
    destruct (Nat.leb (2 * pos + 1) (length l - 2)).
    - destruct (nth_error l (2 * pos + 1)), (nth_error l (2 * pos + 1 + 1)); try reflexivity.
      rewrite IH. apply swap_perm.
    - destruct (Nat.eqb (2 * pos + 1) (length l - 1)); [apply swap_perm|reflexivity].
  Qed.

  (** Heap except that the element at [pos] may be too large for its parent.
      For iter_datastructure.rs l.79. *)
  Definition heap_but (l : list A) (pos : nat) : Prop :=
    (forall i, 0 < i -> i <> pos -> hle l i (parent i)) /\
    (forall i, 0 < i -> 0 < pos -> parent i = pos -> hle l i (parent pos)).

  Lemma sift_up_heap n : forall l pos, pos < n -> pos < length l ->
    heap_but l pos -> heap (sift_up n l pos).
  Proof.
    induction n as [|n IH]; intros l pos Hn Hpos [H1 H2]; [lia|]. cbn [sift_up].
    destruct (Nat.eqb_spec pos 0) as [->|Hp0].
    { intros i Hi. apply H1; lia. }
    assert (Hpp : parent pos < pos) by (apply parent_lt; lia).
    destruct (nth_error l pos) as [x|] eqn:Ex; [|apply nth_error_None in Ex; lia].
    destruct (nth_error l (parent pos)) as [p|] eqn:Ep; [|apply nth_error_None in Ep; lia].
    destruct (le x p) eqn:Ele.
    - intros i Hi. destruct (Nat.eq_dec i pos) as [->|Hne]; [|now apply H1].
      intros u v Hu Hv. congruence.
    - assert (Hpx : le p x = true) by (destruct (le_total x p); congruence).
      apply IH; [lia|rewrite swap_length; lia|].
      assert (Hsw : forall k, nth_error (swap l (parent pos) pos) k =
                if Nat.eqb k (parent pos) then Some x else if Nat.eqb k pos then Some p
                else nth_error l k).
      { intro k. rewrite nth_swap by lia. now rewrite Ex, Ep. }
      split.
      + intros i Hi Hne u v Hu Hv. rewrite Hsw in Hu, Hv.
        destruct (Nat.eqb_spec i (parent pos)) as [|_]; [contradiction|].
        destruct (Nat.eqb_spec i pos) as [->|Hip].
        * rewrite Nat.eqb_refl in Hv. congruence.
        * destruct (Nat.eqb_spec (parent i) (parent pos)) as [Heq|_].
          { assert (le u p = true) by (apply (H1 i); congruence || lia).
            injection Hv as <-. eapply le_trans; eassumption. }
          destruct (Nat.eqb_spec (parent i) pos) as [Heq|_].
          { injection Hv as <-. eapply (H2 i); eauto; lia. }
          eapply (H1 i); eauto.
      + intros i Hi Hpp0 Hpar u v Hu Hv. rewrite Hsw in Hu, Hv.
        assert (Hpp2 : parent (parent pos) < parent pos) by now apply parent_lt.
        destruct (Nat.eqb_spec (parent (parent pos)) (parent pos)); [lia|].
        destruct (Nat.eqb_spec (parent (parent pos)) pos); [lia|].
        assert (Hpv : le p v = true) by (eapply (H1 (parent pos)); eauto; lia).
        destruct (Nat.eqb_spec i (parent pos)) as [->|_]; [lia|].
        destruct (Nat.eqb_spec i pos) as [->|Hip]; [congruence|].
        assert (le u p = true) by (eapply (H1 i); eauto; congruence).
        eapply le_trans; eassumption.
  Qed.

  (** Heap except for the element at [pos], whatever it is. For iter_datastructure.rs l.83. *)
  Definition heap_hole (l : list A) (pos : nat) : Prop :=
    (forall i, 0 < i -> i <> pos -> parent i <> pos -> hle l i (parent i)) /\
    (forall i, 0 < i -> 0 < pos -> parent i = pos -> hle l i (parent pos)).

  Lemma hole_down l pos c sib : heap_hole l pos -> pos < length l -> c < length l ->
    parent c = pos -> 0 < c ->
    (forall i, 0 < i -> parent i = pos -> i = c \/ i = sib) ->
    hle l sib c -> heap_hole (swap l pos c) c.
  Proof.
    intros [H1 H2] Hpos Hc Hpar Hc0 Honly Hsib.
    assert (Hlt : pos < c) by (rewrite <- Hpar; now apply parent_lt).
    assert (Hsw : forall k, nth_error (swap l pos c) k =
              if Nat.eqb k pos then nth_error l c else if Nat.eqb k c then nth_error l pos
              else nth_error l k) by (intro; now apply nth_swap).
    split.
    - intros i Hi Hne Hpn u v Hu Hv. rewrite Hsw in Hu, Hv.
      destruct (Nat.eqb_spec (parent i) c); [contradiction|].
      destruct (Nat.eqb_spec i c); [contradiction|].
      destruct (Nat.eqb_spec i pos) as [->|Hip].
      + destruct (Nat.eqb_spec (parent pos) pos) as [Heq|_]; [apply parent_lt in Hi; lia|].
        eapply (H2 c); eauto.
      + destruct (Nat.eqb_spec (parent i) pos) as [Heq|Hpp].
        * destruct (Honly i Hi Heq) as [-> | ->]; [contradiction|]. now apply Hsib.
        * eapply (H1 i); eauto.
    - intros i Hi _ Hpi u v Hu Hv. rewrite Hsw in Hu, Hv. rewrite Hpar, Nat.eqb_refl in Hv.
      assert (c < i) by (rewrite <- Hpi; now apply parent_lt).
      destruct (Nat.eqb_spec i pos); [lia|]. destruct (Nat.eqb_spec i c); [lia|].
      eapply (H1 i); eauto; [lia|congruence].
  Qed.

  Lemma sift_down_hole n : forall l pos, pos < length l -> length l <= pos + n -> heap_hole l pos ->
    let (l', p) := sift_down n l pos in
    heap_but l' p /\ p < length l' /\ length l' = length l.
  Proof.
    induction n as [|n IH]; intros l pos Hpos Hn Hh; [lia|]. cbn [sift_down].
    destruct (Nat.leb_spec (2 * pos + 1) (length l - 2)) as [Hle|Hgt].
    - destruct (nth_error l (2 * pos + 1)) as [x|] eqn:Ex; [|apply nth_error_None in Ex; lia].
      destruct (nth_error l (2 * pos + 1 + 1)) as [y|] eqn:Ey; [|apply nth_error_None in Ey; lia].
      assert (Hhole : heap_hole (swap l pos (if le x y then 2 * pos + 1 + 1 else 2 * pos + 1))
                (if le x y then 2 * pos + 1 + 1 else 2 * pos + 1)).
      { destruct (le x y) eqn:Ele.
        - apply hole_down with (sib := 2 * pos + 1); auto; try lia.
          + apply parent_kids; lia.
          + intros i Hi Hp. apply parent_kids in Hp; lia.
          + intros u v Hu Hv. congruence.
        - assert (le y x = true) by (destruct (le_total x y); congruence).
          apply hole_down with (sib := 2 * pos + 1 + 1); auto; try lia.
          + apply parent_kids; lia.
          + intros i Hi Hp. apply parent_kids in Hp; lia.
          + intros u v Hu Hv. congruence. }
      set (c := if le x y then 2 * pos + 1 + 1 else 2 * pos + 1) in *.
      assert (Hcr : pos < c < length l) by (subst c; destruct (le x y); lia).
      specialize (IH (swap l pos c) c). rewrite swap_length in IH.
      apply IH; [lia|lia|assumption].
    - destruct (Nat.eqb_spec (2 * pos + 1) (length l - 1)) as [He|He].
      + assert (Hhole : heap_hole (swap l pos (2 * pos + 1)) (2 * pos + 1)).
        { apply hole_down with (sib := 2 * pos + 2); auto; try lia.
          - apply parent_kids; lia.
          - intros i Hi Hp. apply parent_kids in Hp; lia.
          - intros u v Hu Hv. assert (nth_error l (2 * pos + 2) = None) by (apply nth_error_None; lia).
            congruence. }
        rewrite swap_length. split; [|lia]. destruct Hhole as [H1 H2]. split; [|assumption].
        intros i Hi Hne u v Hu Hv. assert (i < length l).
        { rewrite <- (swap_length l pos (2 * pos + 1)). apply nth_error_Some. congruence. }
        eapply (H1 i); eauto. intro Hp. apply parent_kids in Hp; lia.
      + split; [|lia]. destruct Hh as [H1 H2]. split; [|assumption].
        intros i Hi Hne u v Hu Hv. assert (i < length l) by (apply nth_error_Some; congruence).
        eapply (H1 i); eauto. intro Hp. apply parent_kids in Hp; lia.
  Qed.

  Lemma heap_push_perm l x : Permutation (heap_push l x) (x :: l).
  Proof.
    unfold heap_push. rewrite sift_up_perm. symmetry. apply Permutation_cons_append.
  Qed.
  Lemma heap_push_heap l x : heap l -> heap (heap_push l x).
  Proof.
    intro H. unfold heap_push. apply sift_up_heap; try (rewrite app_length; cbn; lia).
    split.
    - intros i Hi Hne u v Hu Hv.
      assert (Hlen : i < length (l ++ [x])) by (apply nth_error_Some; congruence).
      rewrite app_length in Hlen. cbn [length] in Hlen. assert (parent i < i) by now apply parent_lt.
      rewrite nth_error_app1 in Hu, Hv by lia. eapply H; eauto.
    - intros i Hi _ Hp u v Hu _. apply parent_kids in Hp; [|assumption].
      assert (Hlen : i < length (l ++ [x])) by (apply nth_error_Some; congruence).
      rewrite app_length in Hlen. cbn [length] in Hlen. lia.
  Qed.
  Lemma heap_pop_none l : heap_pop l = None -> l = [].
  Proof.
    unfold heap_pop. destruct (pop_back l) as [[x [|r t]]|] eqn:E; try discriminate.
    - destruct (sift_down (length (x :: t)) (x :: t) 0). discriminate.
    - intros _. now apply pop_back_none.
  Qed.
  Lemma heap_pop_spec l x l' : heap l -> heap_pop l = Some (x, l') ->
    Permutation l (x :: l') /\ heap l' /\ nth_error l 0 = Some x.
  Proof.
    intros H. unfold heap_pop. destruct (pop_back l) as [[y [|r t]]|] eqn:E; try discriminate.
    - apply pop_back_some in E. subst l. intros [= -> <-]. split; [reflexivity|]. split; [|reflexivity].
      intros i Hi u v Hu. now destruct i.
    - apply pop_back_some in E. subst l.
      pose proof (sift_down_hole (length (y :: t)) (y :: t) 0) as Hd.
      pose proof (sift_down_perm (length (y :: t)) (y :: t) 0) as Hperm.
      destruct (sift_down (length (y :: t)) (y :: t) 0) as [l2 p]. cbn [fst] in Hperm.
      intros [= -> <-].
      assert (Hr : heap_but l2 p /\ p < length l2 /\ length l2 = length (y :: t)).
      { apply Hd; [cbn; lia|lia|]. split; [|lia].
        intros i Hi _ Hp u v Hu Hv.
        assert (Hil : i < length (y :: t)) by (apply nth_error_Some; congruence). cbn [length] in Hil.
        assert (parent i < i) by now apply parent_lt.
        assert (Hun : nth_error ((x :: t) ++ [y]) i = Some u).
        { rewrite nth_error_app1 by (cbn [length]; lia). destruct i; [lia|]. exact Hu. }
        assert (Hvn : nth_error ((x :: t) ++ [y]) (parent i) = Some v).
        { rewrite nth_error_app1 by (cbn [length]; lia). destruct (parent i); [lia|]. exact Hv. }
        eapply H; eauto. }
      destruct Hr as (Hb & Hpl & Hlen). split; [|split; [|reflexivity]].
      + rewrite sift_up_perm, Hperm. cbn. apply perm_skip. symmetry. apply Permutation_cons_append.
      + apply sift_up_heap; auto; lia.
  Qed.
  Lemma heap_root l x i y : heap l -> nth_error l 0 = Some x -> nth_error l i = Some y -> le y x = true.
  Proof.
    intros H Hx. revert y. induction i as [i IH] using (well_founded_induction lt_wf). intros y Hy.
    destruct (Nat.eq_dec i 0) as [->|Hi].
    { assert (y = x) by congruence. subst. destruct (le_total x x); assumption. }
    assert (Hp : parent i < i) by (apply parent_lt; lia).
    destruct (nth_error l (parent i)) as [z|] eqn:Ez.
    2:{ apply nth_error_None in Ez. assert (i < length l) by (apply nth_error_Some; congruence). lia. }
    apply le_trans with z; [|eapply IH; eauto]. eapply (H i); eauto. lia.
  Qed.

  (** ** iter_datastructure.rs l.65-85: [MaxPriorityQueue]; for an element type whose [Ord] is [le]. *)
  Program Definition HeapQueue : squeue A :=
    {| q_car := list A; q_empty := []; q_push := heap_push; q_pop := heap_pop;
       q_content := fun l => l; q_valid := heap |}.
  Next Obligation. intros i Hi u v Hu. now destruct i. Qed.
  Next Obligation. now apply heap_push_heap. Qed.
  Next Obligation. apply heap_push_perm. Qed.
  Next Obligation. now apply heap_pop_none. Qed.
  Next Obligation. now apply (heap_pop_spec q x q'). Qed.
  Next Obligation. now apply (heap_pop_spec q x q'). Qed.

  Lemma heap_queue_greatest q x q' y :
    q_valid HeapQueue q -> q_pop HeapQueue q = Some (x, q') -> In y (q_content HeapQueue q) ->
    le y x = true.
  Proof.
    intros Hv Hp Hy. cbn in *. destruct (heap_pop_spec q x q' Hv Hp) as (_ & _ & H0).
    apply In_nth_error in Hy as [i Hi]. eapply heap_root; eauto.
  Qed.
End Heap.

(** Elements ordered by an integer key, as [ScoredPath] is by its score
    (core/src/path.rs l.87-97). *)
Section Keyed.
  Context {A : Type} (key : A -> Z).
  (** path.rs l.87-97: paths are compared by score. *)
  Definition key_le (x y : A) : bool := Z.leb (key x) (key y).
  (** [std::cmp::Reverse]; iter_datastructure.rs l.89 *)
  Definition key_ge (x y : A) : bool := Z.leb (key y) (key x).

  Lemma key_le_total x y : key_le x y = true \/ key_le y x = true.
  Proof. unfold key_le. rewrite !Z.leb_le. lia. Qed.
  Lemma key_le_trans x y z : key_le x y = true -> key_le y z = true -> key_le x z = true.
  Proof. unfold key_le. rewrite !Z.leb_le. lia. Qed.
  Lemma key_ge_total x y : key_ge x y = true \/ key_ge y x = true.
  Proof. unfold key_ge. rewrite !Z.leb_le. lia. Qed.
  Lemma key_ge_trans x y z : key_ge x y = true -> key_ge y z = true -> key_ge x z = true.
  Proof. unfold key_ge. rewrite !Z.leb_le. lia. Qed.

  (** iter_datastructure.rs l.65-85 *)
  Definition MaxPriorityQueue : squeue A := HeapQueue key_le key_le_total key_le_trans.
  (** iter_datastructure.rs l.89-109: a heap of [Reverse] values *)
  Definition MinPriorityQueue : squeue A := HeapQueue key_ge key_ge_total key_ge_trans.

  Lemma max_pops_greatest : pops_greatest MaxPriorityQueue key.
  Proof.
    intros q x q' y Hv Hp Hy. apply Z.leb_le.
    exact (heap_queue_greatest key_le key_le_total key_le_trans q x q' y Hv Hp Hy).
  Qed.
  Lemma min_pops_least : pops_least MinPriorityQueue key.
  Proof.
    intros q x q' y Hv Hp Hy. apply Z.leb_le.
    exact (heap_queue_greatest key_ge key_ge_total key_ge_trans q x q' y Hv Hp Hy).
  Qed.
End Keyed.
