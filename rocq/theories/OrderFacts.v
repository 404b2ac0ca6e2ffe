(** * The order of the edges stored at a vertex *)
From Coq Require Import List NArith Bool Permutation.
From Verif Require Import Spec Base Graph GraphSpec GraphFacts.
Import ListNotations.

Lemma insertion_snoc cs c : insertion_order (cs ++ [c]) = o_step (insertion_order cs) c.
Proof. unfold insertion_order. now rewrite fold_left_app. Qed.
Lemma run_snoc cs c : a_run (cs ++ [c]) = a_step (a_run cs) c.
Proof. unfold a_run. now rewrite fold_left_app. Qed.

Lemma insertion_In cs a b : In (a, b) (insertion_order cs) <-> aE (a_run cs) a b.
Proof.
  induction cs as [|c cs IH] using rev_ind; [reflexivity|].
  rewrite insertion_snoc, run_snoc. destruct c as [v|v|x y|x y]; cbn [o_step a_step a_add_vertex a_remove_vertex a_add_edge a_remove_edge aE].
  - exact IH.
  - rewrite filter_In, IH. cbn [fst snd]. rewrite andb_true_iff, !negb_true_iff, !N.eqb_neq. tauto.
  - destruct (in_dec pair_dec (x, y) (insertion_order cs)) as [Hi|Hi].
    + rewrite IH. split; [tauto|]. intros [H|[-> ->]]; [assumption|]. now apply IH.
    + rewrite in_app_iff, IH. cbn. split; [intros [H|[[= -> ->]|[]]]; auto|].
      intros [H|[-> ->]]; auto.
  - split.
    + intro H. apply in_remove in H as [H1 H2]. apply IH in H1. split; [assumption|].
      intros [-> ->]. now apply H2.
    + intros [H1 H2]. apply in_in_remove; [|now apply IH]. intros [= -> ->]. tauto.
Qed.
Lemma remove_filter a b l : remove pair_dec (a, b) l = keep (a, b) l.
Proof.
  induction l as [|x l IH]; [reflexivity|]. cbn [remove keep filter]. fold (keep (a, b) l). rewrite IH.
  destruct (pair_dec (a, b) x) as [<-|H].
  - destruct (edge_eqb_spec (a, b) (a, b)); [reflexivity|congruence].
  - destruct (edge_eqb_spec x (a, b)); [congruence|reflexivity].
Qed.
Lemma insertion_NoDup cs : NoDup (insertion_order cs).
Proof.
  induction cs as [|c cs IH] using rev_ind; [constructor|].
  rewrite insertion_snoc. destruct c as [v|v|x y|x y]; cbn [o_step].
  - exact IH.
  - now apply NoDup_filter.
  - destruct (in_dec pair_dec (x, y) (insertion_order cs)) as [Hi|Hi]; [assumption|]. now apply NoDup_snoc.
  - rewrite remove_filter. now apply NoDup_filter.
Qed.

Lemma filter_swap A (p q : A -> bool) l : filter p (filter q l) = filter q (filter p l).
Proof.
  induction l as [|x l IH]; [reflexivity|]. cbn.
  destruct (q x) eqn:Eq, (p x) eqn:Ep; cbn; rewrite ?Ep, ?Eq, IH; reflexivity.
Qed.

Lemma stored_order cs g : built_by cs g -> forall v es, g_get v g = Some es ->
  es = filter (incident v) (insertion_order cs).
Proof.
  induction 1 as [|cs g c B IH|cs g g' B IH HP]; intros v es E.
  - discriminate.
  - pose proof (built_by_wf B) as W. pose proof (refines B) as [RV RE].
    rewrite insertion_snoc. destruct c as [w|w|x y|x y]; cbn [o_step apply_to] in *.
    + rewrite get_add_vertex in E. destruct (N.eqb_spec v w) as [->|]; [|auto].
      destruct (g_get w g) as [es0|] eqn:E0; [injection E as <-; auto|]. injection E as <-.
      symmetry. apply filter_none. intros [a b] He. apply insertion_In, RE in He. cbn in He.
      apply (contains_edge_hasE a b W) in He. destruct (wf_hasE_V W He) as [[l1 H1] [l2 H2]].
      unfold incident. cbn [fst snd].
      destruct (N.eqb_spec w a) as [->|]; [congruence|]. destruct (N.eqb_spec w b) as [->|]; [congruence|reflexivity].
    + rewrite get_remove_vertex in E. destruct (N.eqb_spec v w) as [->|Hne]; [discriminate|].
      destruct (g_get v g) as [es0|] eqn:E0; [|discriminate]. cbn [option_map] in E. injection E as <-.
      rewrite (IH v es0 E0), filter_swap. unfold drop_all. apply filter_ext_in.
      intros [a b] He. apply filter_In in He as [He Hv]. rewrite Hv, andb_true_r. cbn [fst snd].
      rewrite <- negb_orb. apply f_equal.
      apply insertion_In, RE in He. cbn in He. apply (contains_edge_hasE a b W) in He.
      apply eq_true_iff_eq. rewrite memE_In, orb_true_iff, !N.eqb_eq. split.
      * destruct (g_get w g) as [esw|] eqn:Ew; [|intros []]. intro Hin. exact (wf_inc W w (a, b) Ew Hin).
      * intros [-> | ->].
        -- destruct He as (l1 & -> & Hl). exact Hl.
        -- destruct He as (l1 & H1 & Hl). destruct (wf_dst W _ _ H1 Hl) as (l2 & H2 & Hin). cbn [snd] in H2. rewrite H2. exact Hin.
    + destruct (contains_edge g (x, y)) eqn:Ec.
      * assert (Hin : In (x, y) (insertion_order cs)) by (apply insertion_In, RE; exact Ec).
        destruct (in_dec pair_dec (x, y) (insertion_order cs)); [|contradiction].
        unfold add_edge in E. rewrite Ec in E. cbn in E. auto.
      * assert (Hin : ~ In (x, y) (insertion_order cs)).
        { intro Hi. apply insertion_In, RE in Hi. change (contains_edge g (x, y) = true) in Hi. congruence. }
        destruct (in_dec pair_dec (x, y) (insertion_order cs)); [contradiction|].
        rewrite (get_add_edge_new _ _ _ v Ec) in E. rewrite filter_app. cbn [filter].
        destruct (incident v (x, y)); [|rewrite app_nil_r; auto]. injection E as <-.
        apply f_equal2; [|reflexivity]. unfold get0. destruct (g_get v g) as [es0|] eqn:E0; [auto|].
        symmetry. apply filter_none. intros [a b] He. apply insertion_In, RE in He. cbn in He.
        apply (contains_edge_hasE a b W) in He. destruct (wf_hasE_V W He) as [[l1 H1] [l2 H2]].
        unfold incident. cbn [fst snd].
        destruct (N.eqb_spec v a) as [->|]; [congruence|]. destruct (N.eqb_spec v b) as [->|]; [congruence|reflexivity].
    + rewrite get_remove_edge in E. rewrite remove_filter. unfold keep. rewrite filter_swap. fold (keep (x, y)).
      destruct (N.eqb v x || N.eqb v y) eqn:Ev.
      * destruct (g_get v g) as [es0|] eqn:E0; [|discriminate]. cbn [option_map] in E. injection E as <-.
        now rewrite (IH v es0 E0).
      * rewrite <- (IH v es E). symmetry. apply keep_notin. rewrite (IH v es E). intro Hin.
        apply filter_In in Hin as [_ Hin]. unfold incident in Hin. cbn [fst snd] in Hin. congruence.
  - rewrite (get_perm v (wf_keys (built_by_wf B)) HP) in E. auto.
Qed.

Lemma filter_filter_imp A (p q : A -> bool) l : (forall x, p x = true -> q x = true) ->
  filter p (filter q l) = filter p l.
Proof.
  intro H. induction l as [|x l IH]; [reflexivity|]. cbn.
  destruct (q x) eqn:Eq, (p x) eqn:Ep; cbn; rewrite ?Ep, IH; try reflexivity.
  apply H in Ep. congruence.
Qed.
Lemma absent_none cs g v : built_by cs g -> g_get v g = None ->
  forall e, In e (insertion_order cs) -> incident v e = false.
Proof.
  intros B E [a b] He. pose proof (built_by_wf B) as W. pose proof (refines B) as [_ RE].
  apply insertion_In, RE in He. change (contains_edge g (a, b) = true) in He.
  apply (contains_edge_hasE a b W) in He. destruct (wf_hasE_V W He) as [[l1 H1] [l2 H2]].
  unfold incident. cbn [fst snd].
  destruct (N.eqb_spec v a) as [->|]; [congruence|]. destruct (N.eqb_spec v b) as [->|]; [congruence|reflexivity].
Qed.
Lemma outbound_order cs g v : built_by cs g ->
  outbound_edges g v = filter (fun e => N.eqb (fst e) v) (insertion_order cs).
Proof.
  intro B. unfold outbound_edges. destruct (g_get v g) as [es|] eqn:E.
  - rewrite (stored_order cs g B v es E). apply filter_filter_imp. intros x Hx. apply N.eqb_eq in Hx.
    unfold incident. rewrite <- Hx, N.eqb_refl. reflexivity.
  - symmetry. apply filter_none. intros e He. pose proof (absent_none cs g v B E e He) as H.
    unfold incident in H. apply orb_false_iff in H as [H _]. now rewrite N.eqb_sym.
Qed.
Lemma inbound_order cs g v : built_by cs g ->
  inbound_edges g v = filter (fun e => N.eqb (snd e) v) (insertion_order cs).
Proof.
  intro B. unfold inbound_edges. destruct (g_get v g) as [es|] eqn:E.
  - rewrite (stored_order cs g B v es E). apply filter_filter_imp. intros x Hx. apply N.eqb_eq in Hx.
    unfold incident. rewrite <- Hx, N.eqb_refl. apply orb_true_r.
  - symmetry. apply filter_none. intros e He. pose proof (absent_none cs g v B E e He) as H.
    unfold incident in H. apply orb_false_iff in H as [_ H]. now rewrite N.eqb_sym.
Qed.
