(** * Depth-first order, best-first search, A* and constrained search *)
From Coq Require Import List NArith ZArith Bool Permutation Lia Arith.
From Verif Require Import Spec Base WalkFacts Graph GraphSpec GraphFacts Path PathFacts ConstraintSpec
  Queue Heap Iter IterFacts TreeFacts SearchFacts.
Import ListNotations.

(** ** The order of the depth-first iterator *)

(** [j] is the index in [out] of the first vertex with an edge to [v]. *)
Definition first_discoverer (E : rel) (out : list N) (v : N) (j : nat) : Prop :=
  (exists u, nth_error out j = Some u /\ E u v) /\
  (forall i u, i < j -> nth_error out i = Some u -> ~ E u v).

Section DfsOrder.
  Variable g : graph.
  Hypothesis Hwf : wf g.
  Variable s : N.
  Let lastv := fun v : N => Some v.
  Let mk := fun _ v : N => v.
  Let lv := fun v : N => v.
  Let disc := first_discoverer (gE g).

  Lemma disc_snoc out a v j : disc out v j -> disc (out ++ [a]) v j.
  Proof.
    intros [(u & Hu & He) H]. assert (Hj : j < length out) by (apply nth_error_Some; congruence).
    split.
    - exists u. split; [|assumption]. now rewrite nth_error_app1.
    - intros i w Hi Hw. rewrite nth_error_app1 in Hw by lia. eauto.
  Qed.
  Lemma disc_fun out v j k : disc out v j -> disc out v k -> j = k.
  Proof.
    intros [(u & Hu & He) H] [(u' & Hu' & He') H'].
    destruct (Nat.lt_trichotomy j k) as [Hlt|[->|Hlt]]; [|reflexivity|]; exfalso.
    - exact (H' j u Hlt Hu He).
    - exact (H k u' Hlt Hu' He').
  Qed.
  Lemma disc_lt out v j : disc out v j -> j < length out.
  Proof. intros [(u & Hu & He) H]. apply nth_error_Some. congruence. Qed.

  (** The rule by which the next vertex is chosen. *)
  Definition last_discovered_first (out : list N) : Prop :=
    forall p v q, out = p ++ v :: q -> p <> [] ->
      exists j, disc p v j /\
        forall w k, ~ In w (p ++ [v]) -> disc p w k -> k <= j.

  Definition stack_inv (out : list N) (st : list N) : Prop :=
    (out = [] /\ st = [s]) \/
    ((forall v, In v st -> exists j, disc out v j) /\
     (forall x y jx jy, before x y st -> disc out x jx -> disc out y jy -> jx <= jy)).

  Let vi := vinv N (Stack N) g mk lv s s.
  Definition dfs_inv (out : list N) (st : vstate N (Stack N)) : Prop :=
    vi out st /\ stack_inv out (snd st) /\ last_discovered_first out.

  Lemma push_all_stack A (xs l : list A) : push_all (Stack A) xs l = l ++ xs.
  Proof.
    unfold push_all. cbn. revert l. induction xs as [|x xs IH]; cbn; intro l.
    - now rewrite app_nil_r.
    - rewrite IH, <- app_assoc. reflexivity.
  Qed.

  Lemma before_app_inv A (x y : A) l1 l2 : before x y (l1 ++ l2) ->
    before x y l1 \/ before x y l2 \/ (In x l1 /\ In y l2).
  Proof.
    intros (p & q & r & H). apply app_split_cases in H as [(m & H1 & H2)|(m & H1 & H2)].
    - (* l1 = p ++ m or p = l1 ++ m *)
      destruct m as [|z m].
      + cbn in H2. right; left. exists [], q, r. cbn. auto.
      + cbn in H2. injection H2 as <- H2.
        symmetry in H2. apply app_split_cases in H2 as [(m' & H3 & H4)|(m' & H3 & H4)].
        * destruct m' as [|z' m'].
          -- right; right. cbn in *. subst. split; [rewrite in_app_iff; right; now left|now left].
          -- cbn in H4. injection H4 as <- H4. left. exists p, q, m'. subst. cbn.
             rewrite ?app_nil_r. reflexivity.
        * right; right. subst. split; [rewrite in_app_iff; right; now left|].
          rewrite in_app_iff. right. now left.
    - right; left. exists m, q, r. subst. reflexivity.
  Qed.

  Lemma dfs_step out st : dfs_inv out st ->
    match dfs_next g st with
    | Stop => True
    | Crash => False
    | Yield a st' => dfs_inv (out ++ [a]) st'
    end.
  Proof.
    intros (H1 & H2 & H3). destruct st as [vis q]. cbn [snd] in H2.
    pose proof (vinv_pop N (Stack N) g lastv mk lv Hwf (vertex_nodes) s s eq_refl _ _ _ H1) as Hp.
    unfold dfs_next. fold lastv mk. unfold visit_next at 1.
    destruct (q_pop (Stack N) q) as [[a q']|] eqn:Epop; [|exact I].
    destruct Hp as (new & Hn & Hperm & _ & _ & _ & Hnew & HI).
    unfold visit_next in Hn. rewrite Epop in Hn. rewrite Hn. clear Hn.
    cbn in Epop. apply pop_back_some in Epop. subst q.
    split; [exact HI|]. cbn [snd]. rewrite push_all_stack.
    assert (Hmap : map (mk a) new = new) by apply map_id. rewrite Hmap in *.
    pose proof H1 as [_ Hvis Hnd Hder Hcl Hst]. cbn [fst snd Stack q_content] in *.
    assert (Hml : map lv (out ++ q' ++ [a]) = out ++ q' ++ [a]) by apply map_id.
    rewrite Hml in Hvis. clear Hml.
    assert (Hdn : forall v, In v new -> disc (out ++ [a]) v (length out)).
    { intros v Hv. apply Hnew in Hv as [He Hni]. split.
      - exists a. rewrite nth_error_app2, Nat.sub_diag by lia. auto.
      - intros i u Hi Hu He'. rewrite nth_error_app1 in Hu by lia. apply Hni.
        apply Hcl with u; [|exact He']. now apply nth_error_In in Hu. }
    (* the popped vertex and the rest of the stack *)
    assert (Hrest : forall v, In v q' -> exists j, disc out v j).
    { intros v Hv. destruct H2 as [[_ Hq]|[Hd _]].
      - destruct q' as [|z q']; [destruct Hv|]. injection Hq as _ Hq. now destruct q'.
      - apply Hd. rewrite in_app_iff. now left. }
    split.
    - right. split.
      + intros v Hv. rewrite in_app_iff in Hv. destruct Hv as [Hv|Hv].
        * destruct (Hrest v Hv) as [j Hj]. exists j. now apply disc_snoc.
        * exists (length out). now apply Hdn.
      + intros x y jx jy Hb Hx Hy. apply before_app_inv in Hb as [Hb|[Hb|[Hbx Hby]]].
        * destruct H2 as [[_ Hq]|[Hd Hs]].
          { destruct q' as [|z q']; [destruct Hb as (? & ? & ? & Hb); now destruct x0|].
            injection Hq as _ Hq. now destruct q'. }
          destruct Hb as (p & m & r & ->).
          assert (Hx0 : exists j, disc out x j) by (apply Hrest; rewrite in_app_iff; right; now left).
          assert (Hy0 : exists j, disc out y j).
          { apply Hrest. rewrite in_app_iff. right. right. rewrite in_app_iff. right. now left. }
          destruct Hx0 as [kx Hkx]. destruct Hy0 as [ky Hky].
          rewrite (disc_fun _ _ _ _ Hx (disc_snoc _ a _ _ Hkx)).
          rewrite (disc_fun _ _ _ _ Hy (disc_snoc _ a _ _ Hky)).
          apply Hs with x y; auto. exists p, m, (r ++ [a]).
          rewrite <- !app_assoc. cbn. now rewrite <- app_assoc.
        * destruct Hb as (p & m & r & ->).
          rewrite (disc_fun _ _ _ _ Hx (Hdn x ltac:(rewrite in_app_iff; right; now left))).
          rewrite (disc_fun _ _ _ _ Hy (Hdn y ltac:(rewrite in_app_iff; right; right; rewrite in_app_iff; right; now left))).
          lia.
        * apply disc_lt in Hx. rewrite app_length in Hx. cbn in Hx.
          rewrite (disc_fun _ _ _ _ Hy (Hdn y Hby)). lia.
    - intros p v r Heq Hp. destruct r as [|z r _] using rev_ind.
      + apply app_inj_tail in Heq as [<- <-]. destruct H2 as [[Ho _]|[Hd Hs]]; [contradiction|].
        destruct (Hd a) as [j Hj]; [rewrite in_app_iff; right; now left|].
        exists j. split; [assumption|]. intros w k Hw Hk.
        assert (Hin : In w (out ++ q' ++ [a])).
        { destruct Hk as [(u & Hu & He) _]. eapply Permutation_in; [exact Hvis|].
          apply Hcl with u; [|exact He]. now apply nth_error_In in Hu. }
        assert (Hwq : In w q') by (rewrite !in_app_iff in *; tauto).
        apply in_split in Hwq as (p1 & p2 & ->).
        apply Hs with w a; auto. exists p1, p2, []. now rewrite <- app_assoc.
      + replace (p ++ v :: r ++ [z]) with ((p ++ v :: r) ++ [z]) in Heq by (now rewrite <- app_assoc).
        apply app_inj_tail in Heq as [-> _]. now apply (H3 p v r).
  Qed.

  Theorem dfs_order : exists out,
    settles (fun n => collect (dfs_next g) n (dfs_iter_from s)) out /\
    enumerates out (reachable (gE g) s) /\
    last_discovered_first out.
  Proof.
    destruct (collect_inv (dfs_next g) dfs_inv (length (vertices g) + 1)) with (s := dfs_iter_from s)
      as (out & st & H1 & (H2 & _ & H3) & H4).
    - exact dfs_step.
    - intros out st [H _]. revert H.
      apply (vinv_bound N (Stack N) g lastv mk lv Hwf vertex_nodes s s eq_refl eq_refl).
    - split; [|split].
      + apply (vinv_init N (Stack N) g mk lv s s eq_refl).
      + left. auto.
      + intros p v q H. now destruct p.
    - exists out. split; [assumption|]. split; [|assumption].
      apply (vinv_final N (Stack N) g lastv mk lv Hwf vertex_nodes s s eq_refl eq_refl) in H2;
        [|assumption]. rewrite map_lv in H2. tauto.
  Qed.
End DfsOrder.

(** ** Best-first search *)
Section Best.
  Variables (Q : squeue scored) (g : graph) (f : path -> Z) (s : N).
  Hypothesis Hwf : wf g.

  Let lastv := fun sp => path_last (sp_path sp).
  Let mk := scored_child f.
  Let lv := fun sp => match path_last (sp_path sp) with Some x => x | None => 0%N end.
  Let a0 := {| sp_path := [s]; sp_score := f [s] |}.

  Lemma path_last_snoc p v : path_last (p ++ [v]) = Some v.
  Proof. apply path_last_spec. now exists p. Qed.

  Lemma best_nodes a v : lastv a = Some (lv a) -> lastv (mk a v) = Some v /\ lv (mk a v) = v.
  Proof.
    intros _. unfold lastv, lv, mk, scored_child. cbn [sp_path]. unfold path_append.
    now rewrite path_last_snoc.
  Qed.
  Lemma lv_ends a v : lastv a = Some (lv a) -> (lv a = v <-> ends_with v (sp_path a)).
  Proof.
    intro H. unfold lastv in H. rewrite <- path_last_spec, H. split; congruence.
  Qed.

  Lemma best_derived a : derived scored g mk lv a0 a ->
    walk_from_to (gE g) s (lv a) (sp_path a) /\ sp_score a = f (sp_path a).
  Proof.
    induction 1 as [|a v H [IH1 IH2] He].
    - split; [apply walk_one|reflexivity].
    - split; [|reflexivity].
      rewrite (lv_mk scored g lastv mk lv best_nodes a0 eq_refl a v H).
      unfold mk, scored_child, path_append. cbn [sp_path]. now apply walk_snoc with (lv a).
  Qed.

  Let vi := vinv scored Q g mk lv a0 s.
  Definition best_inv (out : list scored) (st : vstate scored Q) : Prop :=
    vi out st /\
    (forall a, In a (out ++ q_content Q (snd st)) -> NoDup (sp_path a) /\ incl (sp_path a) (fst st)).

  Lemma best_step out st : best_inv out st ->
    match best_next Q g f st with
    | Stop => True
    | Crash => False
    | Yield a st' => best_inv (out ++ [a]) st'
    end.
  Proof.
    intros [H1 H2]. destruct st as [vis q].
    pose proof (vinv_pop scored Q g lastv mk lv Hwf best_nodes a0 s eq_refl _ _ _ H1) as Hp.
    unfold best_next. fold lastv mk. destruct (q_pop Q q) as [[a q']|] eqn:Epop.
    2:{ unfold visit_next. now rewrite Epop. }
    destruct Hp as (new & Hn & Hperm & Hv' & _ & _ & Hnew & HI). rewrite Hn. split; [exact HI|].
    cbn [fst snd] in *. intros b Hb. rewrite <- app_assoc in Hb. cbn [app] in Hb.
    assert (Hold : In b (out ++ q_content Q q) -> NoDup (sp_path b) /\ incl (sp_path b) (rev new ++ vis)).
    { intro Hin. destruct (H2 b Hin) as [Hnd Hinc]. split; [assumption|].
      intros x Hx. rewrite in_app_iff. right. now apply Hinc. }
    apply in_app_iff in Hb as [Hb|[<-|Hb]].
    - apply Hold. rewrite in_app_iff. now left.
    - apply Hold. rewrite in_app_iff, Hperm. right. now left.
    - rewrite push_all_content, in_app_iff in Hb by assumption. destruct Hb as [Hb|Hb].
      + apply in_map_iff in Hb as (v & <- & Hin). pose proof Hin as Hin'.
        apply Hnew in Hin as [He Hni].
        destruct (H2 a) as [Hnd Hinc]; [rewrite in_app_iff, Hperm; right; now left|].
        unfold mk, scored_child, path_append. cbn [sp_path]. split.
        * apply NoDup_snoc. split; [assumption|]. intro Hx. now apply Hni, Hinc.
        * intros x Hx. rewrite in_app_iff in *. destruct Hx as [Hx|[<-|[]]].
          -- right. now apply Hinc.
          -- left. now rewrite <- in_rev.
      + apply Hold. rewrite in_app_iff, Hperm. right. now right.
  Qed.

  Lemma best_init : best_inv [] (best_iter_from Q f s).
  Proof.
    split.
    - apply (vinv_init scored Q g mk lv a0 s eq_refl).
    - cbn [fst snd app]. intros a Ha. unfold best_iter_from, visit_from in Ha. cbn [snd] in Ha.
      rewrite q_push_content in Ha by apply q_empty_valid. rewrite q_empty_content in Ha.
      destruct Ha as [<-|[]]. cbn. split; [repeat constructor; tauto|apply incl_refl].
  Qed.

  Theorem best_collect : exists out,
    settles (fun n => collect (best_next Q g f) n (best_iter_from Q f s)) out /\
    NoDup out /\
    (forall sp, In sp out ->
       exists t, simple_from_to (gE g) s t (sp_path sp) /\ sp_score sp = f (sp_path sp)) /\
    (forall t, reachable (gE g) s t -> exists sp, In sp out /\ ends_with t (sp_path sp)) /\
    (forall sp sp' t, In sp out -> In sp' out -> ends_with t (sp_path sp) -> ends_with t (sp_path sp') ->
       sp = sp').
  Proof.
    destruct (collect_inv (best_next Q g f) best_inv (length (vertices g) + 1) best_step)
      with (s := best_iter_from Q f s) as (out & st & H1 & [H2 H3] & H4).
    - intros out st [H _]. revert H.
      apply (vinv_bound scored Q g lastv mk lv Hwf best_nodes a0 s eq_refl eq_refl).
    - exact best_init.
    - pose proof (vinv_final scored Q g lastv mk lv Hwf best_nodes a0 s eq_refl eq_refl _ _ H2 H4)
        as [[Hnd Hreach] Hder].
      exists out. split; [assumption|].
      assert (Hlast : forall sp, In sp out -> lastv sp = Some (lv sp)).
      { intros sp Hsp. apply (derived_last scored g lastv mk lv best_nodes a0 eq_refl). auto. }
      split; [now apply NoDup_map_inv in Hnd|]. split; [|split].
      + intros sp Hsp. exists (lv sp). destruct (best_derived sp (Hder sp Hsp)) as [Hw Hs].
        split; [|assumption]. split; [assumption|]. apply (H3 sp). rewrite in_app_iff. now left.
      + intros t Ht. apply Hreach in Ht. apply in_map_iff in Ht as (sp & Hl & Hsp).
        exists sp. split; [assumption|]. apply lv_ends; auto.
      + intros sp sp' t Hsp Hsp' He He'. apply lv_ends in He; [|auto]. apply lv_ends in He'; [|auto].
        apply in_split in Hsp as (p & q & ->). rewrite map_app in Hnd. cbn [map] in Hnd.
        apply NoDup_remove_2 in Hnd. rewrite <- map_app in Hnd.
        apply in_app_iff in Hsp' as [Hin|[Hin|Hin]]; [|assumption|]; exfalso; apply Hnd;
          apply in_map_iff; exists sp'; (split; [congruence|]); rewrite in_app_iff; auto.
  Qed.

  (** *** Unit costs *)
  Section Unit.
    Hypothesis Hleast : pops_least Q sp_score.
    Hypothesis Hunit : forall p, p <> [] -> f p = Z.of_nat (hops p).

    Definition unit_inv (out : list scored) (st : vstate scored Q) : Prop :=
      vi out st /\
      (forall a, In a (out ++ q_content Q (snd st)) -> distance (gE g) s (lv a) (hops (sp_path a))) /\
      (forall a b, In a out -> In b (q_content Q (snd st)) -> hops (sp_path a) <= hops (sp_path b)) /\
      by_level scored (fun a k => hops (sp_path a) = k) out.

    Lemma unit_step out st : unit_inv out st ->
      match best_next Q g f st with
      | Stop => True
      | Crash => False
      | Yield a st' => unit_inv (out ++ [a]) st'
      end.
    Proof.
      intros (H1 & H2 & H3 & H4). destruct st as [vis q].
      pose proof (vinv_pop scored Q g lastv mk lv Hwf best_nodes a0 s eq_refl _ _ _ H1) as Hp.
      unfold best_next. fold lastv mk. destruct (q_pop Q q) as [[a q']|] eqn:Epop.
      2:{ unfold visit_next. now rewrite Epop. }
      destruct Hp as (new & Hn & Hperm & Hv' & Hda & _ & Hnew & HI). rewrite Hn.
      pose proof H1 as [Hvd _ _ Hder _ _]. cbn [fst snd] in *.
      assert (Hsc : forall b, In b (out ++ q_content Q q) -> sp_score b = Z.of_nat (hops (sp_path b))).
      { intros b Hb. destruct (best_derived b (Hder b Hb)) as [Hw ->].
        apply Hunit. now apply walk_nonempty in Hw. }
      assert (Hina : In a (q_content Q q)) by (rewrite Hperm; now left).
      assert (Hmin : forall b, In b (q_content Q q) -> hops (sp_path a) <= hops (sp_path b)).
      { intros b Hb. pose proof (Hleast q a q' b Hvd Epop Hb) as Hle.
        rewrite !Hsc in Hle by (rewrite in_app_iff; now right). lia. }
      assert (Hda' : distance (gE g) s (lv a) (hops (sp_path a))).
      { apply H2. rewrite in_app_iff. now right. }
      assert (Hch : forall v, hops (sp_path (mk a v)) = S (hops (sp_path a))).
      { intro v. unfold mk, scored_child, path_append. cbn [sp_path]. apply hops_snoc.
        destruct (best_derived a Hda) as [Hw _]. now apply walk_nonempty in Hw. }
      assert (Hnewd : forall v, In v new -> distance (gE g) s v (S (hops (sp_path a)))).
      { intros v Hv. apply Hnew in Hv as [He Hni].
        apply (new_distance scored Q g mk lv a0 s eq_refl out vis q a q' (hops (sp_path a)) v H1); auto.
        intros b Hb. exists (hops (sp_path b)). split; [|auto].
        apply H2. rewrite in_app_iff. now right. }
      split; [exact HI|]. cbn [fst snd]. split; [|split].
      - intros b Hb. rewrite <- app_assoc in Hb. cbn [app] in Hb.
        apply in_app_iff in Hb as [Hb|[<-|Hb]]; auto.
        { apply H2. rewrite in_app_iff. now left. }
        rewrite push_all_content, in_app_iff in Hb by assumption. destruct Hb as [Hb|Hb].
        + apply in_map_iff in Hb as (v & <- & Hv). rewrite Hch.
          rewrite (lv_mk scored g lastv mk lv best_nodes a0 eq_refl a v Hda). auto.
        + apply H2. rewrite in_app_iff, Hperm. right. now right.
      - assert (Hall : forall b, In b (q_content Q (push_all Q (map (mk a) new) q')) ->
                  hops (sp_path a) <= hops (sp_path b)).
        { intros b Hb. rewrite push_all_content, in_app_iff in Hb by assumption.
          destruct Hb as [Hb|Hb].
          - apply in_map_iff in Hb as (v & <- & Hv). rewrite Hch. lia.
          - apply Hmin. rewrite Hperm. now right. }
        intros b c Hb Hc. apply in_app_iff in Hb as [Hb|[<-|[]]]; [|auto].
        transitivity (hops (sp_path a)); auto.
      - intros x y kx ky Hb <- <-. apply before_snoc_inv in Hb as [Hb|[Hb ->]]; [|auto].
        eapply H4; eauto.
    Qed.

    Lemma unit_collect : exists out,
      settles (fun n => collect (best_next Q g f) n (best_iter_from Q f s)) out /\
      (forall sp t, In sp out -> ends_with t (sp_path sp) ->
         distance (gE g) s t (hops (sp_path sp))).
    Proof.
      destruct (collect_inv (best_next Q g f) unit_inv (length (vertices g) + 1) unit_step)
        with (s := best_iter_from Q f s) as (out & st & H1 & (H2 & H3 & _ & _) & H4).
      - intros out st [H _]. revert H.
        apply (vinv_bound scored Q g lastv mk lv Hwf best_nodes a0 s eq_refl eq_refl).
      - split; [apply (vinv_init scored Q g mk lv a0 s eq_refl)|]. split; [|split].
        + cbn [fst snd app]. intros a Ha. unfold best_iter_from, visit_from in Ha. cbn [snd] in Ha.
          rewrite q_push_content in Ha by apply q_empty_valid. rewrite q_empty_content in Ha.
          destruct Ha as [<-|[]]. split; [exists [s]; split; [apply walk_one|reflexivity]|].
          intros l Hl. cbn. lia.
        + intros a b [].
        + intros x y kx ky (p & q & r & Hp). now destruct p.
      - exists out. split; [assumption|]. intros sp t Hsp He.
        assert (Hin : In sp (out ++ q_content Q (snd st))) by (rewrite in_app_iff; now left).
        specialize (H3 sp Hin). apply lv_ends in He; [now rewrite He in H3|].
        apply (derived_last scored g lastv mk lv best_nodes a0 eq_refl).
        now apply (vi_der _ _ _ _ _ _ _ _ _ H2).
    Qed.
  End Unit.
  (** *** Order-preserving scores: extending never lowers the score, and extending
      two walks by the same vertex keeps their order. *)
  Section Ordered.
    Hypothesis Hleast : pops_least Q sp_score.
    Hypothesis Hmono : forall p u v, walk_from_to (gE g) s u p -> gE g u v ->
      (f p <= f (p ++ [v]))%Z.
    Hypothesis Hcong : forall p q u w v,
      walk_from_to (gE g) s u p -> walk_from_to (gE g) s w q -> gE g u v -> gE g w v ->
      (f p <= f q)%Z -> (f (p ++ [v]) <= f (q ++ [v]))%Z.

    Definition ord_inv (out : list scored) (st : vstate scored Q) : Prop :=
      vi out st /\
      (forall a l, In a (out ++ q_content Q (snd st)) -> walk_from_to (gE g) s (lv a) l ->
         (f (sp_path a) <= f l)%Z).

    Lemma ord_step out st : ord_inv out st ->
      match best_next Q g f st with
      | Stop => True
      | Crash => False
      | Yield a st' => ord_inv (out ++ [a]) st'
      end.
    Proof.
      intros (H1 & H2). destruct st as [vis q].
      pose proof (vinv_pop scored Q g lastv mk lv Hwf best_nodes a0 s eq_refl _ _ _ H1) as Hp.
      unfold best_next. fold lastv mk. destruct (q_pop Q q) as [[a q']|] eqn:Epop.
      2:{ unfold visit_next. now rewrite Epop. }
      destruct Hp as (new & Hn & Hperm & Hv' & Hda & _ & Hnew & HI). rewrite Hn.
      pose proof H1 as [Hvd Hvis _ Hder Hcl Hst]. cbn [fst snd] in *.
      assert (Hina : In a (q_content Q q)) by (rewrite Hperm; now left).
      assert (Hmin : forall b, In b (q_content Q q) -> (f (sp_path a) <= f (sp_path b))%Z).
      { intros b Hb. pose proof (Hleast q a q' b Hvd Epop Hb) as Hle.
        destruct (best_derived a (Hder a ltac:(rewrite in_app_iff; now right))) as [_ Ha].
        destruct (best_derived b (Hder b ltac:(rewrite in_app_iff; now right))) as [_ Hb'].
        now rewrite Ha, Hb' in Hle. }
      destruct (best_derived a Hda) as [Hwa _].
      (* a walk ends at a popped vertex, or costs at least as much as the popped path *)
      assert (Hpre : forall l u, walk_from_to (gE g) s u l ->
                (exists b, In b out /\ lv b = u) \/ (f (sp_path a) <= f l)%Z).
      { assert (Hu : forall l u, walk_from_to (gE g) s u l -> In u vis ->
                   (exists b, In b out /\ lv b = u) \/ (f (sp_path a) <= f l)%Z).
        { intros l u Hl Hin. rewrite Hvis in Hin. apply in_map_iff in Hin as (b & Hb & Hin).
          pose proof Hin as Hin'. rewrite in_app_iff in Hin.
          destruct Hin as [Hin|Hin]; [left; eauto|]. right. subst u.
          specialize (H2 b l Hin' Hl). specialize (Hmin b Hin). lia. }
        induction l as [|y l IH] using rev_ind; intros u Hl; [now apply walk_nonempty in Hl|].
        pose proof Hl as Hl0.
        apply walk_inv in Hl as [[_ ->]|(l' & w & He' & Hw & Hwu)]; [now apply Hu|].
        apply app_inj_tail in He' as [-> ->].
        destruct (IH w Hw) as [(b & Hb & <-)|Hle].
        + apply Hu; [assumption|]. now apply Hcl with b.
        + right. pose proof (Hmono l' w u Hw Hwu). lia. }
      split; [exact HI|]. cbn [fst snd].
      intros b l Hb Hl. rewrite <- app_assoc in Hb. cbn [app] in Hb.
      apply in_app_iff in Hb as [Hb|[<-|Hb]].
      - apply H2; [|assumption]. rewrite in_app_iff. now left.
      - apply H2; [|assumption]. rewrite in_app_iff. now right.
      - rewrite push_all_content, in_app_iff in Hb by assumption. destruct Hb as [Hb|Hb].
        + apply in_map_iff in Hb as (v & <- & Hv). apply Hnew in Hv as [He Hni].
          rewrite (lv_mk scored g lastv mk lv best_nodes a0 eq_refl a v Hda) in Hl.
          unfold mk, scored_child, path_append. cbn [sp_path].
          apply walk_inv in Hl as [[_ ->]|(l' & w & -> & Hw & Hwv)]; [contradiction|].
          destruct (Hpre _ _ Hw) as [(b & Hb & <-)|Hle].
          * exfalso. apply Hni. now apply Hcl with b.
          * now apply Hcong with (lv a) w.
        + apply H2; [|assumption]. rewrite in_app_iff, Hperm. right. now right.
    Qed.

    Hypothesis Hstart : forall l, walk_from_to (gE g) s s l -> (f [s] <= f l)%Z.

    Lemma ord_collect : exists out,
      settles (fun n => collect (best_next Q g f) n (best_iter_from Q f s)) out /\
      (forall sp t l, In sp out -> ends_with t (sp_path sp) -> walk_from_to (gE g) s t l ->
         (f (sp_path sp) <= f l)%Z).
    Proof.
      destruct (collect_inv (best_next Q g f) ord_inv (length (vertices g) + 1) ord_step)
        with (s := best_iter_from Q f s) as (out & st & H1 & (H2 & H3) & H4).
      - intros out st [H _]. revert H.
        apply (vinv_bound scored Q g lastv mk lv Hwf best_nodes a0 s eq_refl eq_refl).
      - split; [apply (vinv_init scored Q g mk lv a0 s eq_refl)|].
        cbn [fst snd app]. intros a l Ha Hl. unfold best_iter_from, visit_from in Ha. cbn [snd] in Ha.
        rewrite q_push_content in Ha by apply q_empty_valid. rewrite q_empty_content in Ha.
        destruct Ha as [<-|[]]. cbn [sp_path]. apply Hstart. exact Hl.
      - exists out. split; [assumption|]. intros sp t l Hsp He Hl.
        assert (Hin : In sp (out ++ q_content Q (snd st))) by (rewrite in_app_iff; now left).
        apply H3; [assumption|]. apply lv_ends in He; [now rewrite He|].
        apply (derived_last scored g lastv mk lv best_nodes a0 eq_refl).
        now apply (vi_der _ _ _ _ _ _ _ _ _ H2).
    Qed.
  End Ordered.
End Best.

(** ** A* *)
Lemma last_is_spec t sp : last_is t sp = true <-> ends_with t (sp_path sp).
Proof.
  unfold last_is. rewrite <- path_last_spec. destruct (path_last (sp_path sp)) as [x|].
  - rewrite N.eqb_eq. split; congruence.
  - split; discriminate.
Qed.

Theorem a_star_spec Q g cost heur s t : wf g ->
  (~ reachable (gE g) s t /\ settles (a_star Q g cost heur s t) None) \/
  (exists sp, settles (a_star Q g cost heur s t) (Some sp) /\
     simple_from_to (gE g) s t (sp_path sp) /\
     sp_score sp = (cost (sp_path sp) + heur (sp_path sp))%Z).
Proof.
  intro Hwf. set (f := fun p => (cost p + heur p)%Z).
  destruct (best_collect Q g f s Hwf) as (out & H1 & _ & H2 & H3 & _).
  apply (iter_find_settles _ _ _ (last_is t)) in H1.
  change (fun n => iter_find (last_is t) (best_next Q g f) n (best_iter_from Q f s))
    with (a_star Q g cost heur s t) in H1.
  destruct (find (last_is t) out) as [sp|] eqn:Ef.
  - right. exists sp. split; [assumption|]. apply find_some in Ef as [Hin Hl].
    apply last_is_spec in Hl. destruct (H2 sp Hin) as (t' & [Hw Hnd] & Hs).
    rewrite <- (ends_with_fun Hl (proj1 (proj2 Hw))) in Hw. split; [|exact Hs]. split; assumption.
  - left. split; [|assumption]. intro Hr. destruct (H3 t Hr) as (sp & Hin & He).
    apply last_is_spec in He. apply (find_none _ _ Ef) in Hin. congruence.
Qed.

Theorem a_star_unit Q g s t : wf g -> pops_least Q sp_score ->
  forall sp, settles (a_star Q g one_weighted_edge zero_heuristic s t) (Some sp) ->
  distance (gE g) s t (hops (sp_path sp)) /\ sp_score sp = Z.of_nat (hops (sp_path sp)).
Proof.
  intros Hwf Hleast sp Hsp. set (f := fun p => (one_weighted_edge p + zero_heuristic p)%Z).
  assert (Hf : forall p, p <> [] -> f p = Z.of_nat (hops p)).
  { intros p _. unfold f, one_weighted_edge, zero_heuristic, path_size, hops. lia. }
  destruct (unit_collect Q g f s Hwf Hleast Hf) as (out & H1 & H2).
  destruct (best_collect Q g f s Hwf) as (out' & H1' & _ & H2' & _).
  rewrite (settles_fun _ _ _ _ H1' H1) in *. clear H1' out'.
  apply (iter_find_settles _ _ _ (last_is t)) in H1.
  change (fun n => iter_find (last_is t) (best_next Q g f) n (best_iter_from Q f s))
    with (a_star Q g one_weighted_edge zero_heuristic s t) in H1.
  apply (settles_fun _ _ _ _ Hsp) in H1. symmetry in H1. apply find_some in H1 as [Hin Hl].
  apply last_is_spec in Hl. split; [now apply H2|].
  destruct (H2' sp Hin) as (t' & [Hw _] & ->). apply Hf. now apply walk_nonempty in Hw.
Qed.

(** A* with an order-preserving score. *)
Theorem a_star_ordered Q g cost heur s t : wf g -> pops_least Q sp_score ->
  (forall p u v, walk_from_to (gE g) s u p -> gE g u v ->
     (cost p + heur p <= cost (p ++ [v]) + heur (p ++ [v]))%Z) ->
  (forall p q u w v,
     walk_from_to (gE g) s u p -> walk_from_to (gE g) s w q -> gE g u v -> gE g w v ->
     (cost p + heur p <= cost q + heur q)%Z ->
     (cost (p ++ [v]) + heur (p ++ [v]) <= cost (q ++ [v]) + heur (q ++ [v]))%Z) ->
  forall sp l, settles (a_star Q g cost heur s t) (Some sp) -> walk_from_to (gE g) s t l ->
  (sp_score sp <= cost l + heur l)%Z.
Proof.
  intros Hwf Hleast Hm Hc sp l Hsp Hl. set (f := fun p => (cost p + heur p)%Z).
  assert (H0 : forall l u, walk_from_to (gE g) s u l -> (f [s] <= f l)%Z).
  { intro l0. induction l0 as [|y l0 IH] using rev_ind; intros u Hu; [now apply walk_nonempty in Hu|].
    apply walk_inv in Hu as [[He ->]|(l' & w & He' & Hw & Hwu)].
    - rewrite He. lia.
    - apply app_inj_tail in He' as [-> ->]. specialize (IH w Hw). specialize (Hm l' w u Hw Hwu).
      unfold f in *. lia. }
  destruct (ord_collect Q g f s Hwf Hleast Hm Hc (fun l => H0 l s)) as (out & H1 & H2).
  destruct (best_collect Q g f s Hwf) as (out' & H1' & _ & H2' & _).
  rewrite (settles_fun _ _ _ _ H1' H1) in *. clear H1' out'.
  apply (iter_find_settles _ _ _ (last_is t)) in H1.
  change (fun n => iter_find (last_is t) (best_next Q g f) n (best_iter_from Q f s))
    with (a_star Q g cost heur s t) in H1.
  apply (settles_fun _ _ _ _ Hsp) in H1. symmetry in H1. apply find_some in H1 as [Hin Hlast].
  apply last_is_spec in Hlast. destruct (H2' sp Hin) as (t' & _ & ->).
  now apply H2 with t.
Qed.
