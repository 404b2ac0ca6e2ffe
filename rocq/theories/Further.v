(** * Reading an iterator further: the next answers after the first *)
From Coq Require Import List NArith ZArith Bool Permutation Lia Arith.
From Verif Require Import Spec Base WalkFacts Graph GraphSpec GraphFacts Path PathFacts ConstraintSpec
  Queue Iter IterFacts TreeFacts SearchFacts ConstrainedFacts.
Import ListNotations.

(** [iter.filter(pred).take(k).collect()] of the standard library on the iterators of core/src/iter
    (e.g. iter_best_constraint.rs l.22-51): [Take] does not call [next] again after [k] items.  a_star.rs
    l.60 is the case [k = 1]. *)
Fixpoint take_matching {A S} (pred : A -> bool) (next : S -> step A S) (fuel k : nat) (s : S) : outcome (list A) :=
  match fuel, k with
  | _, O => Done []
  | O, _ => OutOfFuel
  | Datatypes.S n, Datatypes.S k' =>
    match next s with
    | Stop => Done []
    | Crash => Panic
    | Yield a s' => if pred a then obind (take_matching pred next n k' s') (fun l => Done (a :: l)) else take_matching pred next n k s'
    end
  end.

(** ** Facts *)
Section Pulls.
  Context {A S : Type} (next : S -> step A S).
  (** From [s], successive calls return the items [out] and leave [r]. *)
  Inductive reads : S -> list A -> S -> Prop :=
  | reads_none s : reads s [] s
  | reads_more s out m a r : reads s out m -> next m = Yield a r -> reads s (out ++ [a]) r.

  Lemma take_matching_reads pred n : forall k s out, take_matching pred next n k s = Done out ->
    exists l r, reads s l r /\ out = filter pred l /\ (length out = k \/ (length out < k /\ next r = Stop)).
  Proof.
    assert (Hpre : forall s a s' l r, next s = Yield a s' -> reads s' l r -> reads s (a :: l) r).
    { intros s a s' l r Hn Hr. induction Hr as [|s' out m b r Hr IH Hb].
      - exact (reads_more s [] s a _ (reads_none s) Hn).
      - change (a :: out ++ [b]) with ((a :: out) ++ [b]). eapply reads_more; [exact (IH Hn)|exact Hb]. }
    induction n as [|n IH]; intros k s out H; destruct k as [|k]; cbn [take_matching] in H; try discriminate.
    - injection H as <-. exists [], s. split; [constructor|]. split; [reflexivity|now left].
    - injection H as <-. exists [], s. split; [constructor|]. split; [reflexivity|now left].
    - destruct (next s) as [a s'| |] eqn:En; [|injection H as <-|discriminate].
      + destruct (pred a) eqn:Ep.
        * destruct (take_matching pred next n k s') as [l'| |] eqn:Et; try discriminate. cbn in H. injection H as <-.
          destruct (IH _ _ _ Et) as (l & r & Hr & Hl & Hk). exists (a :: l), r. split; [eapply Hpre; eassumption|].
          cbn [filter]. rewrite Ep, Hl. split; [reflexivity|]. cbn [length]. rewrite <- Hl.
          destruct Hk as [Hk|[Hk Hs]]; [left; lia|right; split; [lia|assumption]].
        * destruct (IH _ _ _ H) as (l & r & Hr & Hl & Hk). exists (a :: l), r. split; [eapply Hpre; eassumption|].
          cbn [filter]. rewrite Ep. now split.
      + exists [], s. split; [constructor|]. split; [reflexivity|]. right. split; [cbn; lia|assumption].
  Qed.
  Lemma take_matching_mono pred n : forall k s out m, take_matching pred next n k s = Done out -> n <= m -> take_matching pred next m k s = Done out.
  Proof.
    induction n as [|n IH]; intros k s out m H Hm; destruct k as [|k].
    - destruct m; exact H.
    - discriminate.
    - destruct m; [lia|exact H].
    - destruct m as [|m]; [lia|]. cbn [take_matching] in *. destruct (next s) as [a s'| |]; try assumption.
      destruct (pred a).
      + destruct (take_matching pred next n k s') as [l'| |] eqn:Et; try discriminate. rewrite (IH k s' l' m Et) by lia. exact H.
      + apply IH; [assumption|lia].
  Qed.
  (** If collecting ends, so does taking, with the first matching items. *)
  Lemma take_matching_collect pred n : forall k s out, collect next n s = Done out ->
    take_matching pred next n k s = Done (firstn k (filter pred out)).
  Proof.
    induction n as [|n IH]; intros k s out H; [discriminate|]. cbn [collect] in H. destruct k as [|k]; [reflexivity|]. cbn [take_matching].
    destruct (next s) as [a s'| |]; [|now injection H as <-|discriminate].
    destruct (collect next n s') as [l'| |] eqn:Ec; try discriminate. cbn in H. injection H as <-. cbn [filter].
    destruct (pred a).
    - rewrite (IH k s' l' Ec). reflexivity.
    - apply (IH (Datatypes.S k) s' l' Ec).
  Qed.
  (** Taking succeeds if no call panics and at most [B] calls are made while less than [k] items matched. *)
  Lemma take_matching_total pred (J : list A -> S -> Prop) B k :
    (forall out s, J out s -> match next s with Stop => True | Crash => False | Yield a s' => J (out ++ [a]) s' end) ->
    (forall out s, J out s -> length (filter pred out) < k -> length out <= B) ->
    forall s, J [] s -> exists out, settles (fun n => take_matching pred next n k s) out.
  Proof.
    intros Hst Hb.
    assert (G : forall d out s j, J out s -> length (filter pred out) + j = k -> B + 1 <= length out + d -> exists r, take_matching pred next d j s = Done r).
    { induction d as [|d IH]; intros out s j HJ Hj Hd; (destruct j as [|j]; [now exists []|]).
      - exfalso. pose proof (Hb out s HJ ltac:(lia)). lia.
      - pose proof (Hst out s HJ) as Hs. cbn [take_matching]. destruct (next s) as [a s'| |]; [|now exists []|contradiction].
        destruct (pred a) eqn:Ep.
        + destruct (IH (out ++ [a]) s' j Hs) as [r Hr].
          * rewrite filter_app, app_length. cbn [filter]. rewrite Ep. cbn [length]. lia.
          * rewrite app_length. cbn [length]. lia.
          * rewrite Hr. now exists (a :: r).
        + apply (IH (out ++ [a]) s' (Datatypes.S j) Hs).
          * rewrite filter_app, app_length. cbn [filter]. rewrite Ep. cbn [length]. lia.
          * rewrite app_length. cbn [length]. lia. }
    intros s HJ. destruct (G (B + 1) [] s k HJ) as [r Hr]; [reflexivity|cbn; lia|]. exists r, (B + 1). intros n Hn.
    now apply (take_matching_mono pred (B + 1)).
  Qed.
End Pulls.

Section Further.
  Variables (Q : squeue scored) (g : graph) (f : path -> Z) (cs : list constraint) (s t : N).
  Hypothesis Hwf : wf g.
  Notation nd := (node f).
  Notation cinv := (cinv Q g f cs s).
  Notation next := (constrained_next Q g f cs).
  Notation init := (constrained_iter_from Q f s).

  Lemma cinv_next out q : cinv out q -> match next q with Stop => q_content Q q = [] | Crash => False | Yield a q' => cinv (out ++ [a]) q' end.
  Proof.
    intro H. pose proof (constrained_step Q g f cs s Hwf out q H) as Hs. unfold constrained_next, tree_next in *.
    destruct (q_pop Q q) as [[a q']|]; [|assumption]. destruct Hs as (-> & _ & Hc). exact Hc.
  Qed.
  Lemma reads_cinv out q : reads next init out q -> cinv out q.
  Proof.
    intro H. remember (constrained_iter_from Q f s) as i eqn:Ei. induction H as [|i out m a r H IH Hn]; subst.
    - apply constrained_init.
    - pose proof (cinv_next out m (IH eq_refl)) as X. now rewrite Hn in X.
  Qed.
  Lemma out_node out q x : cinv out q -> In x out -> exists p, x = nd p /\ live g f cs s p.
  Proof. intros H Hx. apply (dsc_live g f cs s Hwf). apply (ci_desc _ _ _ _ _ _ _ H). apply in_app_iff. now left. Qed.
  Lemma queue_node out q x : cinv out q -> In x (q_content Q q) -> exists p, x = nd p /\ live g f cs s p.
  Proof. intros H Hx. apply (dsc_live g f cs s Hwf). apply (ci_desc _ _ _ _ _ _ _ H). apply in_app_iff. now right. Qed.

  Hypothesis Hm : monotone_score g f s.
  Hypothesis HQ : pops_least Q sp_score.

  (** What was read costs at most what is still queued, and comes in order of cost. *)
  Record oinv (out : list scored) (q : q_car Q) : Prop := {
    oi_c : cinv out q;
    oi_le : forall x y, In x out -> In y (q_content Q q) -> (sp_score x <= sp_score y)%Z;
    oi_order : forall x y, before x y out -> (sp_score x <= sp_score y)%Z }.
  Lemma before_snoc (x y : scored) l a : before x y (l ++ [a]) -> before x y l \/ (y = a /\ In x l).
  Proof.
    intros (p & q & r & E). destruct r as [|b r _] using rev_ind.
    - right. change (p ++ x :: q ++ [y]) with (p ++ (x :: q) ++ [y]) in E. rewrite app_assoc in E. apply app_inj_tail in E as [-> ->].
      split; [reflexivity|]. apply in_app_iff. right. now left.
    - left. exists p, q, r. change (p ++ x :: q ++ y :: r ++ [b]) with (p ++ (x :: q) ++ (y :: r) ++ [b]) in E.
      rewrite !app_assoc in E. apply app_inj_tail in E as [-> _]. now rewrite <- app_assoc.
  Qed.
  Lemma oinv_next out q : oinv out q -> match next q with Stop => q_content Q q = [] | Crash => False | Yield a q' => oinv (out ++ [a]) q' end.
  Proof.
    intros [Hc Hle Ho]. pose proof (constrained_step Q g f cs s Hwf out q Hc) as Hs. unfold constrained_next, tree_next in *.
    destruct (q_pop Q q) as [[a q']|] eqn:Ep; [|assumption]. destruct Hs as (-> & Hin & Hc').
    assert (Hv : q_valid Q q) by exact (ci_valid _ _ _ _ _ _ _ Hc). pose proof (q_pop_content _ _ _ _ _ Hv Ep) as Hpc.
    destruct (queue_node out q a Hc Hin) as (pa & -> & Hla).
    assert (Hnew : forall y, In y (q_content Q (push_all Q (kidsl scored (constrained_kids g f cs) (nd pa)) q')) -> (f pa <= sp_score y)%Z).
    { intros y Hy. rewrite push_all_content in Hy by (eapply q_pop_valid; eassumption). apply in_app_iff in Hy as [Hy|Hy].
      - apply (kids_spec g f cs Hwf pa y) in Hy; [|eapply live_ne; eassumption]. destruct Hy as (u & v & Hu & He & -> & Hch). cbn [node sp_score].
        apply Hm; [eapply live_ne; eassumption|]. 
        assert (HL : live g f cs s (pa ++ [v])) by (apply (live_snoc g f cs s pa v); [eapply live_ne; eassumption|]; split; [assumption|]; split; [now exists u|assumption]).
        exact (proj1 HL).
      - pose proof (HQ q _ q' y Hv Ep) as X. cbn [node sp_score] in X. apply X. rewrite Hpc. now right. }
    constructor.
    - exact Hc'.
    - intros x y Hx Hy. specialize (Hnew y Hy). apply in_app_iff in Hx as [Hx|[<-|[]]]; [|exact Hnew].
      specialize (Hle x _ Hx Hin). cbn [node sp_score] in Hle. lia.
    - intros x y Hb. apply before_snoc in Hb as [Hb|[-> Hx]]; [now apply Ho|]. now apply Hle.
  Qed.
  Lemma oinv_init : oinv [] init.
  Proof. constructor; [apply constrained_init|intros x y []|]. intros x y (p & q & r & E). destruct p; discriminate. Qed.
  Lemma reads_oinv out q : reads next init out q -> oinv out q.
  Proof.
    intro H. remember (constrained_iter_from Q f s) as i eqn:Ei. induction H as [|i out m a r H IH Hn]; subst.
    - apply oinv_init.
    - pose proof (oinv_next out m (IH eq_refl)) as X. now rewrite Hn in X.
  Qed.
  (** A walk that meets the constraints was read, or everything read costs at most as much. *)
  Lemma read_or_later out q p : oinv out q -> walk_from (gE g) s p -> sat f cs p ->
    In (nd p) out \/ (q_content Q q <> [] /\ forall x, In x out -> (sp_score x <= f p)%Z).
  Proof.
    intros [Hc Hle _] Hw Hs. destruct (ci_cover _ _ _ _ _ _ _ Hc p (sat_live g f cs s p Hm Hw Hs)) as [H|(p1 & p2 & -> & Hi)]; [now left|].
    right. split; [intro E; rewrite E in Hi; destruct Hi|]. intros x Hx. specialize (Hle x _ Hx Hi). cbn [node sp_score] in Hle.
    destruct (queue_node out q _ Hc Hi) as (p1' & E & Hl). injection E as <- _.
    pose proof (monotone_prefix g f s p1 p2 Hm (live_ne _ _ _ _ _ Hl) Hw). lia.
  Qed.
  Lemma oinv_nodup out q : oinv out q -> NoDup (map sp_path out).
  Proof.
    intros [Hc _ _]. apply NoDup_map_in.
    - intros x y Hx Hy E. destruct (out_node out q x Hc Hx) as (px & -> & _). destruct (out_node out q y Hc Hy) as (py & -> & _). cbn in E. congruence.
    - pose proof (ci_nodup _ _ _ _ _ _ _ Hc) as X. now apply NoDup_app_iff in X.
  Qed.
End Further.
