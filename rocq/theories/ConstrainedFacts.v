(** * Facts about the constrained search *)
From Coq Require Import List NArith ZArith Bool Permutation Lia Arith.
From Verif Require Import Spec Base WalkFacts Graph GraphSpec GraphFacts Path PathFacts ConstraintSpec
  Queue Heap Iter IterFacts TreeFacts SearchFacts BestFacts.
Import ListNotations.

(** ** Running [find] under an invariant *)
Section Find.
  Context {A S : Type} (next : S -> step A S) (pred : A -> bool).

  Lemma iter_find_mono n : forall s r m, iter_find pred next n s = Done r -> n <= m ->
    iter_find pred next m s = Done r.
  Proof.
    induction n as [|n IH]; intros s r m H Hm; [discriminate|].
    destruct m as [|m]; [lia|]. cbn in *. destruct (next s) as [a s'| |]; auto.
    destruct (pred a); [assumption|]. apply IH; [assumption|lia].
  Qed.

  Variable J : list A -> S -> Prop.
  Hypothesis Hstep : forall out s, J out s ->
    match next s with
    | Stop => True
    | Crash => False
    | Yield a s' => pred a = false -> J (out ++ [a]) s'
    end.

  Definition found (r : option A) : Prop :=
    exists out s, J out s /\
      match r with
      | Some a => pred a = true /\ exists s', next s = Yield a s'
      | None => next s = Stop
      end.

  Lemma iter_find_partial n : forall out s r, J out s -> iter_find pred next n s = Done r -> found r.
  Proof.
    induction n as [|n IH]; intros out s r HJ H; [discriminate|]. cbn in H.
    pose proof (Hstep out s HJ) as Hs. destruct (next s) as [a s'| |] eqn:En; [| |contradiction].
    - destruct (pred a) eqn:Ep.
      + injection H as <-. exists out, s. eauto.
      + eapply IH; [|exact H]. auto.
    - injection H as <-. exists out, s. auto.
  Qed.

  Variable B : nat.
  Hypothesis Hbound : forall out s, J out s -> length out <= B.

  Lemma iter_find_total_aux k : forall out s, J out s -> B + 1 <= length out + k ->
    exists r, iter_find pred next k s = Done r.
  Proof.
    induction k as [|k IH]; intros out s HJ Hk; [apply Hbound in HJ; lia|].
    cbn. pose proof (Hstep out s HJ) as Hs. destruct (next s) as [a s'| |] eqn:En; [|eauto|contradiction].
    destruct (pred a); [eauto|]. apply (IH (out ++ [a])); [auto|]. rewrite app_length. cbn. lia.
  Qed.
  Lemma iter_find_total s : J [] s ->
    exists r, settles (fun n => iter_find pred next n s) r /\ found r.
  Proof.
    intro HJ. destruct (iter_find_total_aux (B + 1) [] s HJ) as [r Hr]; [cbn; lia|].
    exists r. split.
    - exists (B + 1). intros n Hn. now apply iter_find_mono with (B + 1).
    - eapply iter_find_partial; eassumption.
  Qed.
End Find.

(** ** All short lists over an alphabet *)
Fixpoint lists_upto {A} (alph : list A) (n : nat) : list (list A) :=
  match n with
  | O => [[]]
  | S n => [] :: flat_map (fun l => map (fun a => a :: l) alph) (lists_upto alph n)
  end.
Lemma lists_upto_In A (alph : list A) n : forall l, length l <= n -> incl l alph -> In l (lists_upto alph n).
Proof.
  induction n as [|n IH]; intros [|a l] Hl Hi; cbn in *; try lia; auto.
  right. apply in_flat_map. exists l. split.
  - apply IH; [lia|]. intros x Hx. apply Hi. now right.
  - apply in_map_iff. exists a. split; [reflexivity|]. apply Hi. now left.
Qed.

Section Constrained.
  Variables (Q : squeue scored) (g : graph) (f : path -> Z) (cs : list constraint) (s t : N).
  Hypothesis Hwf : wf g.

  Definition node (p : path) : scored := {| sp_path := p; sp_score := f p |}.
  Let kids := constrained_kids g f cs.
  Let kl := kidsl scored kids.
  Let dsc := desc scored kids (node [s]).

  Definition sat (p : path) : Prop := forall c, In c cs -> holds c p (f p).
  Definition live (p : path) : Prop :=
    walk_from (gE g) s p /\
    forall p1 v p2, p = p1 ++ v :: p2 -> p1 <> [] -> check_all_partial cs (node (p1 ++ [v])) = true.
  Definition pred (sp : scored) : bool :=
    last_is t sp && forallb (fun c => check_complete c sp) cs.

  Lemma pred_spec p : pred (node p) = true <-> ends_with t p /\ sat p.
  Proof.
    unfold pred. rewrite andb_true_iff, last_is_spec, forallb_forall. cbn [node sp_path].
    split; intros [H1 H2]; (split; [assumption|]); intros c Hc; apply check_complete_spec; auto.
  Qed.

  Lemma kids_node p : p <> [] -> exists u, ends_with u p /\
    kids (node p) = Some (filter (check_all_partial cs)
                            (map (fun e => node (p ++ [snd e])) (outbound_edges g u))).
  Proof.
    intro Hne. destruct (ends_with_ex Hne) as [u Hu]. exists u. split; [assumption|].
    unfold kids, constrained_kids. cbn [node sp_path]. apply path_last_spec in Hu. now rewrite Hu.
  Qed.
  Lemma kids_spec p sp : p <> [] -> (In sp (kl (node p)) <->
    exists u v, ends_with u p /\ gE g u v /\ sp = node (p ++ [v]) /\
      check_all_partial cs (node (p ++ [v])) = true).
  Proof.
    intro Hne. destruct (kids_node p Hne) as (u & Hu & Hk).
    unfold kl, kidsl. rewrite Hk, filter_In, in_map_iff. split.
    - intros [([x v] & <- & Hin) Hc]. pose proof Hin as Hin'. apply outbound_In in Hin as [-> _].
      apply gE_outbound in Hin'; [|assumption]. cbn [snd] in *. exists u, v. auto.
    - intros (u' & v & Hu' & He & -> & Hc). rewrite (ends_with_fun Hu' Hu) in He.
      split; [|assumption]. exists (u, v). split; [reflexivity|]. now apply gE_outbound.
  Qed.

  Lemma live_ne p : live p -> p <> [].
  Proof. intros [[[q ->] _] _]. discriminate. Qed.
  Lemma live_start : live [s].
  Proof.
    split; [split; [now exists []|apply chain_one]|]. intros p1 v p2 H Hne.
    destruct p1 as [|x [|y p1]]; try discriminate. congruence.
  Qed.
  Lemma live_snoc p v : p <> [] -> (live (p ++ [v]) <->
    live p /\ (exists u, ends_with u p /\ gE g u v) /\ check_all_partial cs (node (p ++ [v])) = true).
  Proof.
    intro Hne. split.
    - intros [H1 H2]. apply walk_from_snoc in H1 as [[-> _]|(u & Hw & He)]; [congruence|].
      split; [|split].
      + split; [now apply walk_from_to_from in Hw|]. intros p1 x p2 -> Hp1.
        apply (H2 p1 x (p2 ++ [v])); [now rewrite <- app_assoc|assumption].
      + exists u. split; [|assumption]. apply Hw.
      + now apply (H2 p v []).
    - intros ([H1 H2] & (u & Hu & He) & Hc). split.
      + apply walk_from_snoc. right. exists u. split; [|assumption]. destruct H1. repeat split; auto.
      + intros p1 x p2 Heq Hp1. destruct p2 as [|y p2 _] using rev_ind.
        * apply app_inj_tail in Heq as [<- <-]. assumption.
        * replace (p1 ++ x :: p2 ++ [y]) with ((p1 ++ x :: p2) ++ [y]) in Heq by (now rewrite <- app_assoc).
          apply app_inj_tail in Heq as [-> _]. now apply (H2 p1 x p2).
  Qed.
  Lemma dsc_live sp : dsc sp <-> exists p, sp = node p /\ live p.
  Proof.
    split.
    - intro H. induction H as [|b c Hb IH Hc].
      + exists [s]. split; [reflexivity|]. apply live_start.
      + destruct IH as (p & -> & Hl). apply kids_spec in Hc; [|now apply live_ne].
        destruct Hc as (u & v & Hu & He & -> & Hc). exists (p ++ [v]). split; [reflexivity|].
        apply live_snoc; [now apply live_ne|]. eauto.
    - intros (p & -> & Hl). revert Hl. induction p as [|v p IH] using rev_ind; intro Hl.
      + destruct Hl as [[[q Hq] _] _]. discriminate.
      + destruct p as [|x p].
        * destruct Hl as [[[q Hq] _] _]. cbn in Hq. injection Hq as -> _. constructor.
        * apply live_snoc in Hl as (Hl & (u & Hu & He) & Hc); [|discriminate].
          eapply desc_step; [apply IH, Hl|]. apply kids_spec; [discriminate|].
          exists u, v. auto.
  Qed.

  Record cinv (out : list scored) (q : q_car Q) : Prop := {
    ci_valid : q_valid Q q;
    ci_desc : forall x, In x (out ++ q_content Q q) -> dsc x;
    ci_cover : forall p, live p -> In (node p) out \/
      exists p1 p2, p = p1 ++ p2 /\ In (node p1) (q_content Q q);
    ci_nodup : NoDup (out ++ q_content Q q);
    ci_parent : forall x, In x (out ++ q_content Q q) -> x = node [s] \/ exists u, In u out /\ In x (kl u) }.

  Definition found_none (out : list scored) : Prop := forall x, In x out -> pred x = false.

  Lemma kl_NoDup p : p <> [] -> NoDup (kl (node p)).
  Proof.
    intro Hne. destruct (kids_node p Hne) as (u & Hu & Hk). unfold kl, kidsl. rewrite Hk.
    apply NoDup_filter, NoDup_map_in; [|now apply outbound_NoDup].
    intros [a b] [a' b'] H H' Heq. apply outbound_In in H as [-> _]. apply outbound_In in H' as [-> _].
    cbn in Heq. injection Heq as Heq _. apply app_inj_tail in Heq as [_ ->]. reflexivity.
  Qed.

  Lemma constrained_init : cinv [] (constrained_iter_from Q f s).
  Proof.
    assert (H : Permutation (q_content Q (constrained_iter_from Q f s)) [node [s]]).
    { unfold constrained_iter_from. rewrite q_push_content by apply q_empty_valid.
      now rewrite q_empty_content. }
    constructor; cbn [app].
    - apply q_push_valid, q_empty_valid.
    - intros x Hx. rewrite H in Hx. destruct Hx as [<-|[]]. constructor.
    - intros p Hl. right. destruct Hl as [[[p2 ->] _] _]. exists [s], p2.
      split; [reflexivity|]. rewrite H. now left.
    - eapply Permutation_NoDup; [symmetry; exact H|]. repeat constructor. intros [].
    - intros x Hx. rewrite H in Hx. destruct Hx as [<-|[]]. now left.
  Qed.

  Lemma constrained_step out q : cinv out q ->
    match q_pop Q q with
    | None => q_content Q q = []
    | Some (a, q') =>
        constrained_next Q g f cs q = Yield a (push_all Q (kl a) q') /\
        In a (q_content Q q) /\ cinv (out ++ [a]) (push_all Q (kl a) q')
    end.
  Proof.
    intros [Hv Hd Hcov Hnd Hpar]. destruct (q_pop Q q) as [[a q']|] eqn:Epop; [|now apply q_pop_none].
    pose proof (q_pop_content _ _ _ _ _ Hv Epop) as Hp.
    pose proof (q_pop_valid _ _ _ _ _ Hv Epop) as Hv'.
    assert (Hina : In a (q_content Q q)) by (rewrite Hp; now left).
    assert (Hda : dsc a) by (apply Hd; rewrite in_app_iff; now right).
    pose proof Hda as Hda'. apply dsc_live in Hda' as (pa & -> & Hla).
    pose proof (live_ne _ Hla) as Hne.
    assert (Hnd' : NoDup (out ++ node pa :: q_content Q q')).
    { eapply Permutation_NoDup; [|exact Hnd]. now apply Permutation_app_head. }
    split; [|split; [assumption|]].
    { unfold constrained_next, tree_next. rewrite Epop. fold kids.
      destruct (kids_node pa Hne) as (u & _ & Hk). unfold kl, kidsl. now rewrite Hk. }
    pose proof (push_all_content _ Q (kl (node pa)) q' Hv') as Hc.
    assert (Hin : forall x, In x ((out ++ [node pa]) ++ q_content Q (push_all Q (kl (node pa)) q')) <->
              In x (out ++ q_content Q q) \/ In x (kl (node pa))).
    { intro x. rewrite <- app_assoc. cbn [app]. rewrite !in_app_iff. cbn [In]. rewrite Hc, in_app_iff.
      rewrite Hp. cbn. tauto. }
    constructor.
    - now apply push_all_valid.
    - intros x Hx. apply Hin in Hx as [Hx|Hx]; [auto|]. eapply desc_step; eassumption.
    - intros p Hl. destruct (Hcov p Hl) as [Ho|(p1 & p2 & -> & Hi)].
      { left. rewrite in_app_iff. now left. }
      rewrite Hp in Hi. destruct Hi as [Hi|Hi].
      + injection Hi as <- _. destruct p2 as [|v p2].
        * left. rewrite app_nil_r. rewrite in_app_iff. right. now left.
        * right. exists (pa ++ [v]), p2. split; [now rewrite <- app_assoc|].
          rewrite Hc, in_app_iff. left. apply kids_spec; [assumption|].
          assert (Hl1 : live (pa ++ [v])).
          { destruct Hl as [Hw Hcc]. split.
            - replace (pa ++ v :: p2) with ((pa ++ [v]) ++ p2) in Hw by (now rewrite <- app_assoc).
              apply walk_prefix in Hw; [assumption|]. destruct pa; discriminate.
            - intros x1 x x2 Heq Hx1. apply (Hcc x1 x (x2 ++ p2)); [|assumption].
              replace (pa ++ v :: p2) with ((pa ++ [v]) ++ p2) by (now rewrite <- app_assoc).
              rewrite Heq, <- app_assoc. reflexivity. }
          apply live_snoc in Hl1 as (_ & (u & Hu & He) & Hcp); [|assumption].
          exists u, v. auto.
      + right. exists p1, p2. split; [reflexivity|]. rewrite Hc, in_app_iff. now right.
    - eapply Permutation_NoDup.
      { rewrite <- app_assoc. cbn [app]. apply Permutation_app_head. apply perm_skip. symmetry. exact Hc. }
      assert (Hfresh : forall x, In x (kl (node pa)) -> ~ In x (out ++ node pa :: q_content Q q')).
      { intros x Hx Hi. assert (Hi' : In x (out ++ q_content Q q)).
        { rewrite in_app_iff in *. destruct Hi as [Hi|Hi]; [now left|]. right. now rewrite Hp. }
        destruct (Hpar x Hi') as [->|(u & Hu & Hxu)].
        - apply kids_spec in Hx; [|assumption]. destruct Hx as (u & v & _ & _ & Heq & _).
          injection Heq as Heq _. destruct pa as [|y [|z pa]]; try discriminate. congruence.
        - assert (Hdu : dsc u) by (apply Hd; rewrite in_app_iff; now left).
          apply dsc_live in Hdu as (pu & -> & Hlu).
          apply kids_spec in Hx; [|assumption]. apply kids_spec in Hxu; [|now apply live_ne].
          destruct Hx as (u1 & v1 & _ & _ & -> & _). destruct Hxu as (u2 & v2 & _ & _ & Heq & _).
          injection Heq as Heq _. apply app_inj_tail in Heq as [-> _].
          apply NoDup_remove_2 in Hnd'. apply Hnd'. rewrite in_app_iff. now left. }
      change (NoDup (out ++ [node pa] ++ kl (node pa) ++ q_content Q q')).
      eapply Permutation_NoDup.
      { rewrite app_assoc. rewrite Permutation_app_comm. rewrite <- app_assoc.
        apply Permutation_app_head. rewrite Permutation_app_comm. rewrite <- app_assoc. reflexivity. }
      apply NoDup_app_iff. split; [now apply kl_NoDup|]. split; [exact Hnd'|]. exact Hfresh.
    - intros x Hx. apply Hin in Hx as [Hx|Hx].
      + destruct (Hpar x Hx) as [->|(u & Hu & Hxu)]; [now left|]. right. exists u.
        split; [|assumption]. rewrite in_app_iff. now left.
      + right. exists (node pa). split; [|assumption]. rewrite in_app_iff. right. now left.
  Qed.

  Definition jinv (out : list scored) (q : q_car Q) : Prop := cinv out q /\ found_none out.

  Lemma jinv_step out q : jinv out q ->
    match constrained_next Q g f cs q with
    | Stop => True
    | Crash => False
    | Yield a q' => pred a = false -> jinv (out ++ [a]) q'
    end.
  Proof.
    intros [H1 H2]. pose proof (constrained_step out q H1) as Hs.
    unfold constrained_next, tree_next in *. destruct (q_pop Q q) as [[a q']|]; [|exact I].
    destruct Hs as (Hn & _ & HI). rewrite Hn. intro Hp. split; [assumption|].
    intros x Hx. apply in_app_iff in Hx as [Hx|[<-|[]]]; auto.
  Qed.
  Lemma jinv_init : jinv [] (constrained_iter_from Q f s).
  Proof. split; [apply constrained_init|]. intros x []. Qed.

  (** Scores that never decrease along walks. *)
  Definition monotone_score : Prop :=
    forall p v, p <> [] -> walk_from (gE g) s (p ++ [v]) -> (f p <= f (p ++ [v]))%Z.

  Lemma monotone_prefix p1 p2 : monotone_score -> p1 <> [] -> walk_from (gE g) s (p1 ++ p2) ->
    (f p1 <= f (p1 ++ p2))%Z.
  Proof.
    intros Hm Hne. induction p2 as [|v p2 IH] using rev_ind; intro Hw.
    - rewrite app_nil_r. lia.
    - rewrite app_assoc in Hw |- *. pose proof Hw as Hw'.
      apply walk_prefix in Hw'; [|destruct p1; [congruence|discriminate]].
      specialize (IH Hw'). assert (f (p1 ++ p2) <= f ((p1 ++ p2) ++ [v]))%Z; [|lia].
      apply Hm; [destruct p1; [congruence|discriminate]|assumption].
  Qed.
  Lemma sat_live p : monotone_score -> walk_from (gE g) s p -> sat p -> live p.
  Proof.
    intros Hm Hw Hs. split; [assumption|]. intros p1 v p2 -> Hne.
    apply forallb_forall. intros c Hc.
    replace (p1 ++ v :: p2) with ((p1 ++ [v]) ++ p2) in * by (now rewrite <- app_assoc).
    apply (check_partial_sound c (p1 ++ [v]) (s := f (p1 ++ [v])) p2 (s' := f ((p1 ++ [v]) ++ p2))).
    - apply monotone_prefix; auto. destruct p1; discriminate.
    - apply check_complete_spec. now apply Hs.
  Qed.

  (** A satisfying walk keeps a prefix in the queue. *)
  Lemma sat_in_queue out q p : monotone_score -> jinv out q ->
    walk_from_to (gE g) s t p -> sat p ->
    exists p1 p2, p = p1 ++ p2 /\ In (node p1) (q_content Q q) /\ (f p1 <= f p)%Z.
  Proof.
    intros Hm [H1 H2] Hw Hs. pose proof (walk_from_to_from Hw) as Hwf'.
    destruct (ci_cover _ _ H1 p (sat_live p Hm Hwf' Hs)) as [Ho|(p1 & p2 & -> & Hi)].
    - exfalso. apply H2 in Ho. rewrite <- not_true_iff_false in Ho. apply Ho.
      apply pred_spec. split; [apply Hw|assumption].
    - exists p1, p2. split; [reflexivity|]. split; [assumption|].
      assert (Hd : dsc (node p1)) by (apply (ci_desc _ _ H1); rewrite in_app_iff; now right).
      apply dsc_live in Hd as (p1' & Heq & Hl). injection Heq as <- _.
      apply monotone_prefix; auto. now apply live_ne.
  Qed.

  Lemma found_some sp : found (constrained_next Q g f cs) pred jinv (Some sp) ->
    (exists p, sp = node p /\ walk_from_to (gE g) s t p /\ sat p) /\
    (pops_least Q sp_score -> monotone_score ->
       forall p, walk_from_to (gE g) s t p -> sat p -> (sp_score sp <= f p)%Z).
  Proof.
    intros (out & q & HJ & Hp & q2 & Hn). pose proof HJ as [HI HF].
    pose proof (constrained_step out q HI) as Hs. unfold constrained_next, tree_next in Hn, Hs.
    destruct (q_pop Q q) as [[a q']|] eqn:Epop; [|discriminate].
    destruct Hs as (Hn' & Hin & _). rewrite Hn' in Hn. injection Hn as <- _.
    assert (Hd : dsc a) by (apply (ci_desc _ _ HI); rewrite in_app_iff; now right).
    apply dsc_live in Hd as (p & -> & Hl). split.
    - exists p. split; [reflexivity|]. apply pred_spec in Hp as [He Hsat]. split; [|assumption].
      destruct Hl as [[H1 H2] _]. repeat split; auto.
    - intros Hleast Hm p' Hw Hsat.
      destruct (sat_in_queue out q p' Hm HJ Hw Hsat) as (p1 & p2 & _ & Hi & Hle).
      pose proof (Hleast q _ q' _ (ci_valid _ _ HI) Epop Hi) as Hl'. cbn [node sp_score] in *. lia.
  Qed.
  Lemma found_nothing : found (constrained_next Q g f cs) pred jinv None -> monotone_score ->
    forall p, walk_from_to (gE g) s t p -> ~ sat p.
  Proof.
    intros (out & q & HJ & Hn) Hm p Hw Hsat.
    destruct (sat_in_queue out q p Hm HJ Hw Hsat) as (p1 & p2 & _ & Hi & _).
    pose proof (constrained_step out q (proj1 HJ)) as Hs. unfold constrained_next, tree_next in Hn, Hs.
    destruct (q_pop Q q) as [[a q']|].
    - destruct Hs as [Hs _]. congruence.
    - now rewrite Hs in Hi.
  Qed.

  (** A search that gives up has tried every live walk. *)
  Lemma ended_bounded : found (constrained_next Q g f cs) pred jinv None ->
    exists L, forall p, live p -> length p <= L.
  Proof.
    intros (out & q & [HI _] & Hn). pose proof (constrained_step out q HI) as Hs.
    unfold constrained_next, tree_next in Hn, Hs. destruct (q_pop Q q) as [[a q']|].
    - destruct Hs as [Hs _]. congruence.
    - exists (list_max (map (fun x => length (sp_path x)) out)). intros p Hp.
      destruct (ci_cover _ _ HI p Hp) as [Ho|(p1 & p2 & _ & Hi)]; [|now rewrite Hs in Hi].
      pose proof (proj1 (list_max_le (map (fun x => length (sp_path x)) out) _) (le_n _)) as Hall.
      rewrite Forall_forall in Hall. apply Hall, in_map_iff. exists (node p). auto.
  Qed.

  (** Bound on the number of pops when all popped walks are short. *)
  Lemma short_bound out q L : cinv out q -> (forall p, In (node p) out -> length p <= L) ->
    length out <= length (lists_upto (s :: vertices g) L).
  Proof.
    intros HI Hlen. rewrite <- (map_length sp_path out). apply NoDup_incl_length.
    - apply NoDup_map_in.
      + intros x y Hx Hy Heq.
        assert (Hdx : dsc x) by (apply (ci_desc _ _ HI); rewrite in_app_iff; now left).
        assert (Hdy : dsc y) by (apply (ci_desc _ _ HI); rewrite in_app_iff; now left).
        apply dsc_live in Hdx as (px & -> & _). apply dsc_live in Hdy as (py & -> & _).
        cbn in Heq. congruence.
      + pose proof (ci_nodup _ _ HI) as Hnd. now apply NoDup_app_iff in Hnd.
    - intros p Hp. apply in_map_iff in Hp as (x & <- & Hx).
      assert (Hdx : dsc x) by (apply (ci_desc _ _ HI); rewrite in_app_iff; now left).
      apply dsc_live in Hdx as (px & -> & Hl). cbn [node sp_path]. apply lists_upto_In; [auto|].
      intros v Hv. destruct Hl as [Hw _]. apply (walk_In_reachable _ Hw) in Hv.
      apply reachable_hasV in Hv as [->|Hv]; [now left|now right|assumption].
  Qed.

  Theorem constrained_bounded L : (forall p, live p -> length p <= L) ->
    exists r, settles (fun n => iter_find pred (constrained_next Q g f cs) n (constrained_iter_from Q f s)) r /\
      found (constrained_next Q g f cs) pred jinv r.
  Proof.
    intro HL.
    apply (iter_find_total (constrained_next Q g f cs) pred jinv jinv_step
             (length (lists_upto (s :: vertices g) L))).
    - intros out q [HI _]. apply short_bound with q; [assumption|]. intros p Hp. apply HL.
      assert (Hd : dsc (node p)) by (apply (ci_desc _ _ HI); rewrite in_app_iff; now left).
      apply dsc_live in Hd as (p' & Heq & Hl). injection Heq as -> _. assumption.
    - apply jinv_init.
  Qed.

  (** Every edge costs at least one. *)
  Definition increasing_score : Prop :=
    forall p v, p <> [] -> walk_from (gE g) s (p ++ [v]) -> (f p + 1 <= f (p ++ [v]))%Z.
  Lemma increasing_monotone : increasing_score -> monotone_score.
  Proof. intros H p v Hp Hw. specialize (H p v Hp Hw). lia. Qed.
  Lemma increasing_length p : increasing_score -> walk_from (gE g) s p ->
    (f [s] + Z.of_nat (hops p) <= f p)%Z.
  Proof.
    intros Hi. induction p as [|v p IH] using rev_ind; intro Hw.
    - destruct Hw as [[q Hq] _]. discriminate.
    - destruct p as [|x p].
      + destruct Hw as [[q Hq] _]. cbn in Hq. injection Hq as -> _. cbn. lia.
      + assert (Hne : x :: p <> []) by discriminate.
        specialize (Hi (x :: p) v Hne Hw). apply walk_prefix in Hw; [|assumption].
        specialize (IH Hw). rewrite hops_snoc by assumption. lia.
  Qed.

  Theorem constrained_finds p0 : pops_least Q sp_score -> increasing_score ->
    walk_from_to (gE g) s t p0 -> sat p0 ->
    exists sp, settles (fun n => iter_find pred (constrained_next Q g f cs) n (constrained_iter_from Q f s))
                 (Some sp) /\
      found (constrained_next Q g f cs) pred jinv (Some sp).
  Proof.
    intros Hleast Hi Hw Hs. pose proof (increasing_monotone Hi) as Hm.
    set (L := Z.to_nat (f p0 - f [s]) + 1).
    set (J2 := fun out q => jinv out q /\ forall p, In (node p) out -> (f p <= f p0)%Z).
    assert (Hstep2 : forall out q, J2 out q ->
      match constrained_next Q g f cs q with
      | Stop => True
      | Crash => False
      | Yield a q' => pred a = false -> J2 (out ++ [a]) q'
      end).
    { intros out q [HJ Hle]. pose proof (jinv_step out q HJ) as H1.
      pose proof (constrained_step out q (proj1 HJ)) as H2.
      destruct (sat_in_queue out q p0 Hm HJ Hw Hs) as (p1 & p2 & _ & Hin & Hp1).
      unfold constrained_next, tree_next in *. destruct (q_pop Q q) as [[a q']|] eqn:Epop; [|exact I].
      destruct H2 as (Hn & _ & _). rewrite Hn in *. intro Hp. split; [auto|].
      intros p Hin'. apply in_app_iff in Hin' as [Hin'|[->|[]]]; [auto|].
      pose proof (Hleast q _ q' _ (ci_valid _ _ (proj1 HJ)) Epop Hin) as Hl. cbn in Hl. lia. }
    destruct (iter_find_total (constrained_next Q g f cs) pred J2 Hstep2
             (length (lists_upto (s :: vertices g) L))) with (s := constrained_iter_from Q f s)
      as (r & H1 & H2).
    - intros out q [[HI HF] Hle]. apply short_bound with q; [assumption|]. intros p Hp.
      assert (Hd : dsc (node p)) by (apply (ci_desc _ _ HI); rewrite in_app_iff; now left).
      apply dsc_live in Hd as (p' & Heq & Hl). injection Heq as <- _.
      pose proof (increasing_length p Hi (proj1 Hl)) as Hlen. specialize (Hle p Hp).
      unfold L. unfold hops in Hlen. lia.
    - split; [apply jinv_init|]. intros p [].
    - assert (H2' : found (constrained_next Q g f cs) pred jinv r).
      { destruct H2 as (out & q & [HJ _] & Hr). exists out, q. auto. }
      destruct r as [sp|].
      + exists sp. auto.
      + exfalso. exact (found_nothing H2' Hm p0 Hw Hs).
  Qed.

  Theorem constrained_partial n r :
    iter_find pred (constrained_next Q g f cs) n (constrained_iter_from Q f s) = Done r ->
    found (constrained_next Q g f cs) pred jinv r.
  Proof.
    intro H. eapply iter_find_partial; [apply jinv_step|apply jinv_init|exact H].
  Qed.

  (** Constraints that bound the length. *)
  Lemma live_max_length p n : In (MaxLength n) cs -> live p -> length p <= Nat.max 1 n.
  Proof.
    intros Hc [Hw Hl]. destruct p as [|v p _] using rev_ind; [cbn [length]; lia|].
    destruct p as [|x p]; [cbn [app length]; lia|].
    specialize (Hl (x :: p) v [] eq_refl ltac:(discriminate)).
    unfold check_all_partial in Hl. rewrite forallb_forall in Hl. apply Hl in Hc.
    cbn [check_partial node sp_path] in Hc. apply Nat.leb_le in Hc. unfold path_size in Hc. lia.
  Qed.
  Lemma live_no_cycle p : In (CNot ContainsCycle) cs -> live p -> length p <= length (vertices g) + 1.
  Proof.
    intros Hc Hl. apply (simple_length g Hwf s). pose proof Hl as [Hw Hp]. split; [assumption|].
    destruct p as [|v p _] using rev_ind; [constructor|].
    destruct p as [|x p]; [repeat constructor; intros []|].
    specialize (Hp (x :: p) v [] eq_refl ltac:(discriminate)).
    unfold check_all_partial in Hp. rewrite forallb_forall in Hp. apply Hp in Hc.
    cbn [check_partial] in Hc. apply negb_true_iff in Hc. cbn [node sp_path] in Hc.
    now apply contains_cycle_NoDup.
  Qed.
End Constrained.
