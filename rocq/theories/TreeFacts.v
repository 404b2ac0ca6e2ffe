(** * Searches without a visited set: the output is the set of tree nodes *)
From Coq Require Import List NArith ZArith Bool Permutation Lia Arith.
From Verif Require Import Spec Base WalkFacts Graph GraphSpec GraphFacts Path PathFacts Queue Iter IterFacts.
Import ListNotations.

Lemma flat_map_perm A B (f : A -> list B) l l' :
  Permutation l l' -> Permutation (flat_map f l) (flat_map f l').
Proof.
  induction 1; cbn.
  - reflexivity.
  - now apply Permutation_app_head.
  - rewrite !app_assoc. apply Permutation_app_tail, Permutation_app_comm.
  - etransitivity; eassumption.
Qed.

Section Tree.
  Variables (A : Type) (kids : A -> option (list A)).
  Definition kidsl (a : A) : list A := match kids a with Some l => l | None => [] end.

  (** [desc a b]: [b] is obtained from [a] by zero or more expansions. *)
  Inductive desc (a : A) : A -> Prop :=
  | desc_refl : desc a a
  | desc_step b c : desc a b -> In c (kidsl b) -> desc a c.

  Lemma desc_trans a b c : desc a b -> desc b c -> desc a c.
  Proof. intros H1 H2. induction H2; [assumption|]. eapply desc_step; eassumption. Qed.
  Lemma desc_left a b c : In b (kidsl a) -> desc b c -> desc a c.
  Proof. intros H. apply desc_trans. eapply desc_step; [constructor|assumption]. Qed.
  Lemma desc_inv_left a c : desc a c -> a = c \/ exists b, In b (kidsl a) /\ desc b c.
  Proof.
    induction 1 as [|b c H IH Hc]; [now left|]. right. destruct IH as [->|(x & Hx & Hd)].
    - exists c. split; [assumption|constructor].
    - exists x. split; [assumption|]. eapply desc_step; eassumption.
  Qed.

  Variables (good : A -> Prop) (rank : A -> nat).
  Hypothesis Hkids : forall a, good a -> kids a <> None.
  Hypothesis Hgood : forall a b, good a -> In b (kidsl a) -> good b /\ rank b < rank a.

  Fixpoint subtree (n : nat) (a : A) : list A :=
    a :: match n with O => [] | S m => flat_map (subtree m) (kidsl a) end.
  Definition tree (a : A) : list A := subtree (rank a) a.

  Lemma desc_good a b : good a -> desc a b -> good b /\ rank b <= rank a.
  Proof.
    intros Ha. induction 1 as [|b c H [IH1 IH2] Hc]; [auto|].
    destruct (Hgood b c IH1 Hc). split; [assumption|lia].
  Qed.

  Lemma subtree_In n : forall a, good a -> rank a <= n -> forall b, In b (subtree n a) <-> desc a b.
  Proof.
    induction n as [|n IH]; intros a Ha Hn b; cbn [subtree In].
    - split.
      + intros [<-|[]]. constructor.
      + intro H. apply desc_inv_left in H as [->|(c & Hc & _)]; [now left|].
        apply (Hgood a c Ha) in Hc. lia.
    - rewrite in_flat_map. split.
      + intros [<-|(c & Hc & Hb)]; [constructor|]. destruct (Hgood a c Ha Hc) as [H1 H2].
        apply IH in Hb; [|assumption|lia]. eapply desc_left; eassumption.
      + intro H. apply desc_inv_left in H as [->|(c & Hc & H)]; [now left|]. right.
        destruct (Hgood a c Ha Hc) as [H1 H2]. exists c. split; [assumption|].
        apply IH; auto; lia.
  Qed.

  Lemma subtree_more n : forall a m, good a -> rank a <= n -> rank a <= m -> subtree n a = subtree m a.
  Proof.
    induction n as [|n IH]; intros a m Ha Hn Hm.
    - assert (Hk : kidsl a = []).
      { destruct (kidsl a) as [|c l] eqn:E; [reflexivity|].
        destruct (Hgood a c Ha) as [_ H]; [rewrite E; now left|lia]. }
      destruct m; cbn; now rewrite ?Hk.
    - destruct m as [|m].
      + assert (Hk : kidsl a = []).
        { destruct (kidsl a) as [|c l] eqn:E; [reflexivity|].
          destruct (Hgood a c Ha) as [_ H]; [rewrite E; now left|lia]. }
        cbn. now rewrite Hk.
      + cbn. f_equal. rewrite !flat_map_concat_map. f_equal. apply map_ext_in.
        intros c Hc. destruct (Hgood a c Ha Hc). apply IH; [assumption|lia|lia].
  Qed.
  Lemma tree_unfold a : good a -> tree a = a :: flat_map tree (kidsl a).
  Proof.
    intro Ha. unfold tree. rewrite (subtree_more (rank a) a (S (rank a))) by auto.
    cbn [subtree]. f_equal. rewrite !flat_map_concat_map. f_equal. apply map_ext_in.
    intros c Hc. destruct (Hgood a c Ha Hc). apply subtree_more; auto; lia.
  Qed.
  Lemma tree_In a b : good a -> In b (tree a) <-> desc a b.
  Proof. intro. now apply subtree_In. Qed.

  Section NoDup.
    Hypothesis Hnd : forall a, good a -> NoDup (kidsl a).
    Hypothesis Hpar : forall a a' b, good a -> good a' -> In b (kidsl a) -> In b (kidsl a') -> a = a'.

    Lemma desc_chain a b x : good a -> good b -> desc a x -> desc b x -> desc a b \/ desc b a.
    Proof.
      intros Ha Hb H. revert b Hb. induction H as [|y x H IH Hx]; intros b Hb Hd.
      - now right.
      - inversion Hd as [Heq|z x' Hz Hx' Heq]; subst.
        + left. eapply desc_step; eassumption.
        + assert (y = z).
          { apply Hpar with x; auto.
            - now apply (desc_good a y Ha H).
            - now apply (desc_good b z Hb Hz). }
          subst z. auto.
    Qed.
    Lemma desc_kids_disjoint a b c x : good a -> In b (kidsl a) -> In c (kidsl a) ->
      desc b x -> desc c x -> b = c.
    Proof.
      intros Ha Hb Hc Hbx Hcx.
      destruct (Hgood a b Ha Hb) as [Gb Rb]. destruct (Hgood a c Ha Hc) as [Gc Rc].
      assert (Hone : forall b c, good b -> rank b < rank a -> In c (kidsl a) -> desc b c -> b = c).
      { intros b' c' Gb' Rb' Hc' Hd. inversion Hd as [Heq|z x' Hz Hx' Heq]; [reflexivity|subst].
        assert (a = z).
        { apply Hpar with c'; auto. now apply (desc_good b' z). }
        subst z. apply desc_good in Hz; [|assumption]. lia. }
      destruct (desc_chain b c x Gb Gc Hbx Hcx) as [H|H].
      - now apply Hone.
      - symmetry. now apply Hone.
    Qed.

    Lemma flat_map_NoDup B C (f : B -> list C) l : NoDup l ->
      (forall b, In b l -> NoDup (f b)) ->
      (forall b c x, In b l -> In c l -> In x (f b) -> In x (f c) -> b = c) ->
      NoDup (flat_map f l).
    Proof.
      induction 1 as [|b l Hb Hl IH]; intros H1 H2; cbn; [constructor|].
      apply NoDup_app_iff. split; [apply H1; now left|]. split.
      - apply IH; intros; [apply H1; now right|]. eapply H2; [right|right| |]; eassumption.
      - intros x Hx Hx'. apply in_flat_map in Hx' as (c & Hc & Hx').
        assert (b = c) by (eapply H2; [now left|right; eassumption| |]; eassumption).
        congruence.
    Qed.

    Lemma subtree_NoDup n : forall a, good a -> rank a <= n -> NoDup (subtree n a).
    Proof.
      induction n as [|n IH]; intros a Ha Hn; cbn; [repeat constructor; tauto|].
      constructor.
      - intro H. apply in_flat_map in H as (c & Hc & H). destruct (Hgood a c Ha Hc) as [Gc Rc].
        apply subtree_In in H; [|assumption|lia]. apply desc_good in H; [|assumption]. lia.
      - apply flat_map_NoDup; [auto| |].
        + intros c Hc. destruct (Hgood a c Ha Hc). apply IH; [assumption|lia].
        + intros b c x Hb Hc Hbx Hcx.
          destruct (Hgood a b Ha Hb). destruct (Hgood a c Ha Hc).
          apply subtree_In in Hbx; [|assumption|lia]. apply subtree_In in Hcx; [|assumption|lia].
          exact (desc_kids_disjoint a b c x Ha Hb Hc Hbx Hcx).
    Qed.
  End NoDup.

  Variable Q : squeue A.
  Definition tinv (total : list A) (out : list A) (q : q_car Q) : Prop :=
    q_valid Q q /\ (forall a, In a (q_content Q q) -> good a) /\
    Permutation total (out ++ flat_map tree (q_content Q q)).

  Lemma tree_pop total out q : tinv total out q ->
    match q_pop Q q with
    | None => q_content Q q = []
    | Some (a, q') =>
        tree_next A Q kids q = Yield a (push_all Q (kidsl a) q') /\
        good a /\ q_valid Q q' /\
        Permutation (q_content Q q) (a :: q_content Q q') /\
        tinv total (out ++ [a]) (push_all Q (kidsl a) q')
    end.
  Proof.
    intros (Hv & Hg & Hp). destruct (q_pop Q q) as [[a q']|] eqn:Ep; [|now apply q_pop_none].
    pose proof (q_pop_content _ _ _ _ _ Hv Ep) as Hc.
    pose proof (q_pop_valid _ _ _ _ _ Hv Ep) as Hv'.
    assert (Ha : good a) by (apply Hg; rewrite Hc; now left).
    split; [|split; [assumption|split; [assumption|split; [assumption|]]]].
    - unfold tree_next, kidsl. rewrite Ep. specialize (Hkids a Ha). now destruct (kids a).
    - split; [now apply push_all_valid|]. split.
      + intros b Hb. rewrite push_all_content, in_app_iff in Hb by assumption.
        destruct Hb as [Hb|Hb]; [now apply (Hgood a b)|]. apply Hg. rewrite Hc. now right.
      + rewrite Hp, <- app_assoc. apply Permutation_app_head. cbn [app].
        rewrite (flat_map_perm _ _ _ _ _ Hc). cbn [flat_map]. rewrite tree_unfold by assumption.
        cbn [app]. apply perm_skip.
        rewrite (flat_map_perm _ _ _ _ _ (push_all_content _ Q (kidsl a) q' Hv')).
        now rewrite flat_map_app.
  Qed.

  Lemma tinv_step total out q : tinv total out q ->
    match tree_next A Q kids q with
    | Stop => True
    | Crash => False
    | Yield a q' => tinv total (out ++ [a]) q'
    end.
  Proof.
    intro H. apply tree_pop in H. unfold tree_next in *.
    destruct (q_pop Q q) as [[a q']|]; [|exact I].
    destruct H as (H1 & _ & _ & _ & H2). now rewrite H1.
  Qed.
  Lemma tinv_bound total out q : tinv total out q -> length out <= length total.
  Proof. intros (_ & _ & H). apply Permutation_length in H. rewrite app_length in H. lia. Qed.
  Lemma tinv_final total out q : tinv total out q -> tree_next A Q kids q = Stop ->
    Permutation total out.
  Proof.
    intros H Hn. pose proof (tree_pop _ _ _ H) as Hp. destruct (q_pop Q q) as [[a q']|].
    { destruct Hp as [Hp _]. congruence. }
    destruct H as (_ & _ & H). now rewrite Hp, app_nil_r in H.
  Qed.

  Theorem tree_collect q : q_valid Q q -> (forall a, In a (q_content Q q) -> good a) ->
    exists out, settles (fun n => collect (tree_next A Q kids) n q) out /\
      Permutation out (flat_map tree (q_content Q q)).
  Proof.
    intros Hv Hg. set (total := flat_map tree (q_content Q q)).
    destruct (collect_inv (tree_next A Q kids) (tinv total) (length total)
                (tinv_step total) (tinv_bound total) q) as (out & qN & H1 & H2 & H3).
    { split; [assumption|]. split; [assumption|]. reflexivity. }
    exists out. split; [assumption|]. symmetry. now apply tinv_final with qN.
  Qed.
End Tree.
