(** * Facts about the search iterators *)
From Coq Require Import List NArith ZArith Bool Permutation Lia Arith.
From Verif Require Import Spec Base WalkFacts Graph GraphSpec GraphFacts Path PathFacts Queue Iter.
Import ListNotations.

(** ** Running an iterator under an invariant *)
Section Run.
  Context {A S : Type} (next : S -> step A S).

  Lemma collect_mono n : forall s l m, collect next n s = Done l -> n <= m -> collect next m s = Done l.
  Proof.
    induction n as [|n IH]; intros s l m H Hm; [discriminate|].
    destruct m as [|m]; [lia|]. cbn in *. destruct (next s) as [a s'| |]; auto.
    destruct (collect next n s') eqn:E; cbn in H; try discriminate.
    rewrite (IH s' _ m E) by lia. exact H.
  Qed.
  Lemma collect_settles n s l : collect next n s = Done l -> settles (fun n => collect next n s) l.
  Proof. intro H. exists n. intros m Hm. now apply collect_mono with n. Qed.

  Variables (J : list A -> S -> Prop) (B : nat).
  Hypothesis Hstep : forall out s, J out s ->
    match next s with
    | Stop => True
    | Crash => False
    | Yield a s' => J (out ++ [a]) s'
    end.
  Hypothesis Hbound : forall out s, J out s -> length out <= B.

  Lemma collect_inv_aux k : forall out s, J out s -> B + 1 <= length out + k ->
    exists l sN, collect next k s = Done l /\ J (out ++ l) sN /\ next sN = Stop.
  Proof.
    induction k as [|k IH]; intros out s HJ Hk.
    - apply Hbound in HJ. lia.
    - cbn. pose proof (Hstep out s HJ) as H. destruct (next s) as [a s'| |] eqn:E.
      + destruct (IH (out ++ [a]) s') as (l & sN & H1 & H2 & H3); [assumption| |].
        { rewrite app_length. cbn. lia. }
        exists (a :: l), sN. rewrite H1. cbn. rewrite <- app_assoc in H2. auto.
      + exists [], s. rewrite app_nil_r. auto.
      + contradiction.
  Qed.
  Lemma collect_inv s : J [] s -> exists l sN,
    settles (fun n => collect next n s) l /\ J l sN /\ next sN = Stop.
  Proof.
    intro H. destruct (collect_inv_aux (B + 1) [] s H) as (l & sN & H1 & H2 & H3); [cbn; lia|].
    exists l, sN. split; [|auto]. now apply collect_settles with (B + 1).
  Qed.
End Run.

Lemma settles_fun A (f : nat -> outcome A) a b : settles f a -> settles f b -> a = b.
Proof.
  intros [n Hn] [m Hm]. specialize (Hn (n + m)). specialize (Hm (n + m)).
  rewrite Hn in Hm by lia. specialize (Hm ltac:(lia)). congruence.
Qed.
Lemma settles_diverges A (f : nat -> outcome A) a : settles f a -> diverges f -> False.
Proof. intros [n Hn] Hd. specialize (Hn n (le_n _)). rewrite Hd in Hn. discriminate. Qed.

Lemma iter_find_collect A S (next : S -> step A S) pred n : forall s l,
  collect next n s = Done l -> iter_find pred next n s = Done (find pred l).
Proof.
  induction n as [|n IH]; cbn; intros s l H; [discriminate|].
  destruct (next s) as [a s'| |]; [|now injection H as <-|discriminate].
  destruct (collect next n s') eqn:E; cbn in H; try discriminate. injection H as <-.
  cbn. destruct (pred a); [reflexivity|]. now apply IH.
Qed.
Lemma iter_find_settles A S (next : S -> step A S) pred s l :
  settles (fun n => collect next n s) l ->
  settles (fun n => iter_find pred next n s) (find pred l).
Proof. intros [n H]. exists n. intros m Hm. apply iter_find_collect. now apply H. Qed.

Lemma reachable_hasV g s v : wf g -> reachable (gE g) s v -> v = s \/ In v (vertices g).
Proof.
  intros Hwf (l & Hl). apply walk_inv in Hl as [[_ ->]|(l' & u & _ & _ & He)]; [now left|]. right.
  apply vertices_In, contains_vertex_hasV. unfold gE in He.
  rewrite contains_edge_hasE in He by assumption.
  now apply (wf_hasE_V Hwf He).
Qed.

(** ** Searches with a visited set *)
Section Visit.
  Variables (A : Type) (Q : squeue A) (g : graph).
  Variables (lastv : A -> option N) (mk : A -> N -> A) (lv : A -> N).
  Hypothesis Hwf : wf g.
  Hypothesis Hlv : forall a v, lastv a = Some (lv a) -> lastv (mk a v) = Some v /\ lv (mk a v) = v.
  Variables (a0 : A) (s : N).
  Hypothesis Ha0 : lastv a0 = Some (lv a0).
  Hypothesis Hs : lv a0 = s.

  (** Nodes obtained from the start node by following edges. *)
  Inductive derived : A -> Prop :=
  | derived_0 : derived a0
  | derived_S a v : derived a -> gE g (lv a) v -> derived (mk a v).

  Lemma derived_last a : derived a -> lastv a = Some (lv a).
  Proof.
    induction 1 as [|a v H IH He]; [exact Ha0|]. destruct (Hlv a v IH) as [H1 H2]. congruence.
  Qed.
  Lemma lv_mk a v : derived a -> lv (mk a v) = v.
  Proof. intro H. now destruct (Hlv a v (derived_last a H)). Qed.
  Lemma derived_reachable a : derived a -> reachable (gE g) s (lv a).
  Proof.
    induction 1 as [|a v H IH He].
    - rewrite Hs. apply reachable_refl.
    - rewrite lv_mk by assumption. eapply reachable_step; eauto.
  Qed.

  (** What processing one popped node does. *)
  Lemma visit_fold a es : forall vis q,
    exists new,
      fold_left (visit_edge A Q mk a) es (vis, q) = (rev new ++ vis, push_all Q (map (mk a) new) q) /\
      NoDup new /\
      (forall v, In v new <-> In v (map snd es) /\ ~ In v vis).
  Proof.
    induction es as [|e es IH]; cbn [fold_left map]; intros vis q.
    - exists []. cbn. split; [reflexivity|]. split; [constructor|tauto].
    - cbn [visit_edge]. destruct (negb (memN (snd e) vis)) eqn:Em.
      + apply negb_true_iff, memN_false in Em.
        destruct (IH (snd e :: vis) (q_push Q q (mk a (snd e)))) as (new & H1 & H2 & H3).
        exists (snd e :: new). rewrite H1. split; [|split].
        * cbn. rewrite <- app_assoc. reflexivity.
        * constructor; [|assumption]. rewrite H3. cbn. tauto.
        * intro v. cbn. rewrite H3. cbn. split.
          -- intros [<-|[H4 H5]]; [tauto|]. split; [tauto|]. tauto.
          -- intros [[<-|H4] H5]; [tauto|].
             destruct (N.eq_dec (snd e) v); [tauto|]. tauto.
      + apply negb_false_iff, memN_In in Em.
        destruct (IH vis q) as (new & H1 & H2 & H3).
        exists new. rewrite H1. split; [reflexivity|]. split; [assumption|].
        intro v. rewrite H3. cbn. split; [tauto|].
        intros [[<-|H4] H5]; [contradiction|tauto].
  Qed.

  Record vinv (out : list A) (st : vstate A Q) : Prop := {
    vi_valid : q_valid Q (snd st);
    vi_vis : Permutation (fst st) (map lv (out ++ q_content Q (snd st)));
    vi_nodup : NoDup (fst st);
    vi_der : forall a, In a (out ++ q_content Q (snd st)) -> derived a;
    vi_closed : forall a v, In a out -> gE g (lv a) v -> In v (fst st);
    vi_start : In s (fst st) }.

  Lemma vinv_init : vinv [] (visit_from A Q a0 s).
  Proof.
    assert (H : Permutation (q_content Q (q_push Q (q_empty Q) a0)) [a0]).
    { rewrite q_push_content by apply q_empty_valid. now rewrite q_empty_content. }
    unfold visit_from. constructor; cbn [fst snd app].
    - apply q_push_valid, q_empty_valid.
    - rewrite H. cbn. now rewrite Hs.
    - constructor; [tauto|constructor].
    - intros a Hin. rewrite H in Hin. destruct Hin as [<-|[]]. constructor.
    - cbn. tauto.
    - now left.
  Qed.

  (** The step, with a description of what happened. *)
  Lemma vinv_pop out vis q : vinv out (vis, q) ->
    match q_pop Q q with
    | None => q_content Q q = []
    | Some (a, q') => exists new,
        visit_next A Q g lastv mk (vis, q) =
          Yield a (rev new ++ vis, push_all Q (map (mk a) new) q') /\
        Permutation (q_content Q q) (a :: q_content Q q') /\
        q_valid Q q' /\
        derived a /\ NoDup new /\
        (forall v, In v new <-> gE g (lv a) v /\ ~ In v vis) /\
        vinv (out ++ [a]) (rev new ++ vis, push_all Q (map (mk a) new) q')
    end.
  Proof.
    intros [Hv Hvis Hnd Hder Hcl Hst]. cbn [fst snd] in *.
    destruct (q_pop Q q) as [[a q']|] eqn:Ep; [|now apply q_pop_none].
    pose proof (q_pop_content _ _ _ _ _ Hv Ep) as Hp.
    pose proof (q_pop_valid _ _ _ _ _ Hv Ep) as Hv'.
    assert (Hda : derived a).
    { apply Hder. apply in_or_app. right. rewrite Hp. now left. }
    destruct (visit_fold a (outbound_edges g (lv a)) vis q') as (new & H1 & H2 & H3).
    assert (H3' : forall v, In v new <-> gE g (lv a) v /\ ~ In v vis).
    { intro v. rewrite H3. apply and_iff_compat_r. unfold gE.
      rewrite contains_edge_hasE by assumption. rewrite in_map_iff. split.
      - intros ([x y] & Hy & Hin). cbn in Hy. subst y. apply outbound_In in Hin.
        destruct Hin as [-> Hin]. exact Hin.
      - intro Hin. exists (lv a, v). split; [reflexivity|]. apply outbound_In; auto. }
    exists new. split; [|split; [|split; [|split; [|split; [|split]]]]]; auto.
    - unfold visit_next. rewrite Ep, (derived_last a Hda), H1. reflexivity.
    - assert (Hpc : Permutation (q_content Q (push_all Q (map (mk a) new) q'))
                      (map (mk a) new ++ q_content Q q')) by now apply push_all_content.
      assert (Hmk : map lv (map (mk a) new) = new).
      { rewrite map_map. rewrite <- (map_id new) at 2. apply map_ext. intro. now apply lv_mk. }
      constructor; cbn [fst snd].
      + now apply push_all_valid.
      + rewrite Hpc. rewrite Hvis, Hp. rewrite !map_app, Hmk. cbn [map].
        rewrite <- Permutation_rev. rewrite <- app_assoc. cbn [app].
        rewrite Permutation_app_comm. rewrite <- !app_assoc.
        apply Permutation_app_head. cbn. apply perm_skip. apply Permutation_app_comm.
      + apply NoDup_app_iff. split; [now apply NoDup_rev|]. split; [assumption|].
        intros x Hx. rewrite <- in_rev in Hx. now apply H3' in Hx.
      + intros b Hb. rewrite <- app_assoc in Hb. cbn [app] in Hb. rewrite in_app_iff in Hb.
        destruct Hb as [Hb|[<-|Hb]]; auto.
        { apply Hder. rewrite in_app_iff. now left. }
        rewrite Hpc, in_app_iff in Hb. destruct Hb as [Hb|Hb].
        * apply in_map_iff in Hb as (v & <- & Hin). constructor; [assumption|]. now apply H3'.
        * apply Hder. rewrite in_app_iff, Hp. right. now right.
      + intros b v Hb He. rewrite in_app_iff in *. destruct Hb as [Hb|[<-|[]]].
        * right. eauto.
        * destruct (in_dec N.eq_dec v vis); [now right|]. left. rewrite <- in_rev.
          now apply H3'.
      + rewrite in_app_iff. now right.
  Qed.

  Lemma vinv_step out st : vinv out st ->
    match visit_next A Q g lastv mk st with
    | Stop => True
    | Crash => False
    | Yield a st' => vinv (out ++ [a]) st'
    end.
  Proof.
    destruct st as [vis q]. intro H. apply vinv_pop in H. cbn [visit_next] in *.
    destruct (q_pop Q q) as [[a q']|]; [|exact I].
    destruct H as (new & H1 & _ & _ & _ & _ & _ & H2). now rewrite H1.
  Qed.

  Lemma vinv_bound out st : vinv out st -> length out <= length (vertices g) + 1.
  Proof.
    intros [Hv Hvis Hnd Hder Hcl Hst]. destruct st as [vis q]. cbn [fst snd] in *.
    apply Nat.le_trans with (length vis).
    - apply Permutation_length in Hvis. rewrite map_length, app_length in Hvis. lia.
    - replace (length (vertices g) + 1) with (length (s :: vertices g)) by (cbn; lia).
      apply NoDup_incl_length; [assumption|]. intros v Hin. rewrite Hvis in Hin.
      apply in_map_iff in Hin as (a & <- & Ha). apply Hder, derived_reachable in Ha.
      apply reachable_hasV in Ha as [->|Ha]; cbn; auto.
  Qed.

  Lemma vinv_final out st : vinv out st -> visit_next A Q g lastv mk st = Stop ->
    enumerates (map lv out) (reachable (gE g) s) /\ (forall a, In a out -> derived a).
  Proof.
    destruct st as [vis q]. intros HI Hn. pose proof (vinv_pop _ _ _ HI) as Hp.
    destruct (q_pop Q q) as [[a q']|] eqn:Ep.
    { destruct Hp as (new & H1 & _). rewrite H1 in Hn. discriminate. }
    destruct HI as [Hv Hvis Hnd Hder Hcl Hst]. cbn [fst snd] in *.
    rewrite Hp, app_nil_r in *. split; [|exact Hder]. split.
    - eapply Permutation_NoDup; eauto.
    - intro x. rewrite <- Hvis. split.
      + intro Hx. rewrite Hvis in Hx. apply in_map_iff in Hx as (a & <- & Ha).
        now apply derived_reachable, Hder.
      + intro Hx. induction Hx as [|u v Hu IH He] using reachable_ind'; [assumption|].
        rewrite Hvis in IH. apply in_map_iff in IH as (a & <- & Ha). now apply Hcl with a.
  Qed.

  Theorem visit_collect : exists out,
    settles (fun n => collect (visit_next A Q g lastv mk) n (visit_from A Q a0 s)) out /\
    enumerates (map lv out) (reachable (gE g) s) /\
    (forall a, In a out -> derived a).
  Proof.
    destruct (collect_inv (visit_next A Q g lastv mk) vinv (length (vertices g) + 1)
                vinv_step vinv_bound _ vinv_init) as (out & st & H1 & H2 & H3).
    exists out. split; [assumption|]. now apply vinv_final with st.
  Qed.

  (** Distances: while every queued vertex is at least as far as the popped one,
      the newly pushed vertices are exactly one further. *)
  Lemma new_distance out vis q a q' d v :
    vinv out (vis, q) -> q_pop Q q = Some (a, q') -> distance (gE g) s (lv a) d ->
    (forall b, In b (q_content Q q) -> exists db, distance (gE g) s (lv b) db /\ d <= db) ->
    gE g (lv a) v -> ~ In v vis -> distance (gE g) s v (S d).
  Proof.
    intros HI Hp Hd Hmin He Hv. pose proof HI as [Hvd Hvis Hnd Hder Hcl Hst]. cbn [fst snd] in *.
    split.
    - destruct Hd as [(l & Hl & Hh) _]. exists (l ++ [v]).
      assert (Hne : l <> []) by now apply walk_nonempty in Hl.
      split; [now apply walk_snoc with (lv a)|]. rewrite hops_snoc by assumption. congruence.
    - (* any prefix of a walk to v either stays within the popped vertices, or is
         at least as long as the distance of a queued vertex *)
      assert (Hpre : forall l u, walk_from_to (gE g) s u l ->
                (exists b, In b out /\ lv b = u) \/ d <= hops l).
      { assert (Hu : forall l u, walk_from_to (gE g) s u l -> In u vis ->
                   (exists b, In b out /\ lv b = u) \/ d <= hops l).
        { intros l u Hl Hin. rewrite Hvis in Hin. apply in_map_iff in Hin as (b & Hb & Hin).
          rewrite in_app_iff in Hin. destruct Hin as [Hin|Hin]; [left; eauto|]. right.
          destruct (Hmin b Hin) as (db & [_ Hdb] & Hle). subst u. specialize (Hdb l Hl). lia. }
        induction l as [|y l IH] using rev_ind; intros u Hl; [now apply walk_nonempty in Hl|].
        pose proof Hl as Hl0.
        apply walk_inv in Hl as [[_ ->]|(l' & w & He' & Hw & Hwu)]; [now apply Hu|].
        apply app_inj_tail in He' as [-> ->].
        destruct (IH w Hw) as [(b & Hb & <-)|Hle].
        + apply Hu; [assumption|]. now apply Hcl with b.
        + right. rewrite hops_snoc by now apply walk_nonempty in Hw. lia. }
      intros l Hl.
      apply walk_inv in Hl as [[_ ->]|(l' & w & -> & Hw & Hwu)]; [contradiction|].
      rewrite hops_snoc by now apply walk_nonempty in Hw.
      destruct (Hpre _ _ Hw) as [(b & Hb & <-)|Hle]; [|lia].
      exfalso. apply Hv. now apply Hcl with b.
  Qed.
End Visit.
