(** * The order of the traversals and of a best-first search *)
From Coq Require Import List NArith ZArith Bool Permutation Lia Arith.
From Verif Require Import Spec Base WalkFacts Graph GraphSpec GraphFacts Path PathFacts ConstraintSpec
  Queue Heap Iter IterFacts TreeFacts SearchFacts BestFacts ConstrainedFacts VisitSpec.
Import ListNotations.

Lemma ends_fun (p : list N) u v : ends_with u p -> ends_with v p -> u = v.
Proof. intros [a ->] [b H]. now apply app_inj_tail in H. Qed.

Section Greedy.
  Variables (Q : squeue scored) (g : graph) (f : path -> Z) (s : N).
  Hypothesis Hwf : wf g.
  Hypothesis Hleast : pops_least Q sp_score.
  Let E := gE g.
  Let lastv := fun sp => path_last (sp_path sp).
  Let mk := scored_child f.
  Let lv := fun sp => match path_last (sp_path sp) with Some x => x | None => 0%N end.
  Let a0 := {| sp_path := [s]; sp_score := f [s] |}.
  Let vi := vinv scored Q g mk lv a0 s.

  Definition greedy_inv (out : list scored) (st : vstate scored Q) : Prop :=
    vi out st /\
    ((out = [] /\ st = best_iter_from Q f s) \/
     (greedy E f s (map sp_path out) /\
      forall b, In b (q_content Q (snd st)) <-> open_path E (map sp_path out) (sp_path b) /\ sp_score b = f (sp_path b))).

  Lemma greedy_step out st : greedy_inv out st ->
    match best_next Q g f st with
    | Stop => True
    | Crash => False
    | Yield a st' => greedy_inv (out ++ [a]) st'
    end.
  Proof.
    intros [H1 H2]. destruct st as [vis q].
    pose proof (vinv_pop scored Q g lastv mk lv Hwf (best_nodes f) a0 s eq_refl _ _ _ H1) as Hp.
    unfold best_next. fold lastv mk. destruct (q_pop Q q) as [[a q']|] eqn:Epop.
    2:{ unfold visit_next. now rewrite Epop. }
    destruct Hp as (new & Hn & Hperm & Hv' & Hda & _ & Hnew & HI). rewrite Hn. split; [exact HI|]. right. cbn [fst snd] in *.
    pose proof H1 as [Hvd Hvis Hnd Hder Hcl Hst]. cbn [fst snd] in *.
    pose proof (best_derived g f s a Hda) as [Hwa Hsa]. fold lv in Hwa.
    assert (Hea : ends_with (lv a) (sp_path a)) by apply Hwa.
    assert (Hends : forall b, In b (out ++ q_content Q q) -> ends_with (lv b) (sp_path b)).
    { intros b Hb. pose proof (best_derived g f s b (Hder b Hb)) as [Hw _]. apply Hw. }
    assert (Hcn : forall b, In b (q_content Q (push_all Q (map (mk a) new) q')) <->
              (exists v, b = mk a v /\ E (lv a) v /\ ~ In v vis) \/ In b (q_content Q q')).
    { intro b. rewrite push_all_content, in_app_iff by assumption. rewrite in_map_iff. split; (intros [H|H]; [left|now right]).
      - destruct H as (v & <- & Hv). exists v. split; [reflexivity|]. now apply Hnew.
      - destruct H as (v & -> & Hv). exists v. split; [reflexivity|]. now apply Hnew. }
    assert (Hmk : forall b v, (sp_path b = sp_path a ++ [v] /\ sp_score b = f (sp_path b)) <-> b = mk a v).
    { intros b v. unfold mk, scored_child, path_append. split; [|intros ->; now split].
      intros [B1 B2]. destruct b as [p z]. cbn [sp_path sp_score] in *. now subst. }
    destruct H2 as [[-> Est]|[Hg Hc]].
    - (* the start *)
      unfold best_iter_from, visit_from in Est. injection Est as -> ->.
      assert (Hc1 : Permutation (q_content Q (q_push Q (q_empty Q) {| sp_path := path_append path_empty s; sp_score := f (path_append path_empty s) |})) [a0]).
      { rewrite q_push_content by apply q_empty_valid. now rewrite q_empty_content. }
      rewrite Hc1 in Hperm. assert (Hq' : q_content Q q' = []) by (apply Permutation_length in Hperm; cbn in Hperm; destruct (q_content Q q'); [reflexivity|discriminate]).
      rewrite Hq' in Hperm. apply Permutation_length_1 in Hperm. subst a. clear Hc1. cbn [app map sp_path] in *.
      split; [constructor|]. intro b. rewrite Hcn, Hq'. cbn [In].
      assert (Hl0 : lv a0 = s) by reflexivity. rewrite Hl0 in *. split.
      + intros [(v & -> & Hv & Hni)|[]]. split; [|reflexivity]. exists [], [s], [], s, v.
        split; [reflexivity|]. split; [reflexivity|]. split; [now exists []|]. split; [exact Hv|]. split; [intros ? ? []|].
        intros q0 [<-|[]] He. apply Hni. left. apply (ends_fun [s]); [now exists []|exact He].
      + intros [(l & p & r & u & v & Hps & Hb & Hu & He & _ & Hno) Hsc]. left.
        destruct l as [|? [|]]; [|discriminate|discriminate]. injection Hps as <- <-.
        assert (u = s) by (apply (ends_fun [s]); [exact Hu|now exists []]). subst u. exists v. split; [apply Hmk; now split|]. split; [exact He|].
        intros [<-|[]]. apply (Hno [s]); [now left|now exists []].
    - (* later *)
      rewrite map_app. cbn [map].
      assert (Hopa : open_path E (map sp_path out) (sp_path a)).
      { apply (proj1 (Hc a)). rewrite Hperm. now left. }
      assert (Hvisd : forall v, In v vis <-> (exists p, In p (map sp_path out) /\ ends_with v p) \/ (exists p u, In p (map sp_path out) /\ ends_with u p /\ E u v)).
      { intro v. rewrite Hvis, in_map_iff. split.
        - intros (b & Eb & Hb). apply in_app_iff in Hb as Hb'. destruct Hb' as [Hb'|Hb'].
          + left. exists (sp_path b). split; [now apply in_map|]. rewrite <- Eb. now apply Hends.
          + right. apply Hc in Hb'. destruct Hb' as [(l & p & r & u & w & Hps & Hp & Hu & He & _) _]. exists p, u.
            split; [rewrite Hps, in_app_iff; right; now left|]. split; [assumption|].
            replace v with w; [exact He|]. apply (ends_fun (sp_path b)); [rewrite Hp; now exists p|]. rewrite <- Eb. now apply Hends.
        - intro H. assert (Hin : In v vis).
          { destruct H as [(p & Hp & He)|(p & u & Hp & Hu & He)]; apply in_map_iff in Hp as (b & <- & Hb).
            - rewrite Hvis. apply in_map_iff. exists b. split; [|rewrite in_app_iff; now left].
              apply (ends_fun (sp_path b)); [apply Hends; rewrite in_app_iff; now left|assumption].
            - apply Hcl with b; [assumption|]. replace (lv b) with u; [exact He|].
              apply (ends_fun (sp_path b)); [assumption|apply Hends; rewrite in_app_iff; now left]. }
          rewrite Hvis, in_map_iff in Hin. exact Hin. }
      assert (Hdist : forall b, In b (q_content Q q') -> lv b <> lv a).
      { intros b Hb E0. rewrite Hvis in Hnd. rewrite map_app, Hperm in Hnd. cbn [map] in Hnd. apply NoDup_remove_2 in Hnd.
        apply Hnd. rewrite in_app_iff. right. rewrite <- E0. now apply in_map. }
      assert (Hdist0 : forall b, In b out -> lv b <> lv a).
      { intros b Hb E0. rewrite Hvis in Hnd. rewrite map_app, Hperm in Hnd. cbn [map] in Hnd. apply NoDup_remove_2 in Hnd.
        apply Hnd. rewrite in_app_iff. left. rewrite <- E0. now apply in_map. }
      split.
      + constructor; [assumption|assumption|]. intros p' Hp'.
        pose proof (Hleast q a q' {| sp_path := p'; sp_score := f p' |} Hvd Epop) as Hle. cbn [sp_score] in Hle. rewrite <- Hsa.
        apply Hle. apply Hc. now split.
      + intro b. rewrite Hcn. split.
        * intros [(v & -> & Hv & Hni)|Hb].
          -- split; [|reflexivity]. exists (map sp_path out), (sp_path a), [], (lv a), v.
             split; [reflexivity|]. split; [reflexivity|]. split; [assumption|]. split; [exact Hv|].
             split; [intros q0 u Hq0 Hu He; apply Hni, Hvisd; right; now exists q0, u|].
             intros q0 Hq0 He. apply in_app_iff in Hq0. destruct Hq0 as [Hq0|[<-|[]]]; [apply Hni, Hvisd; left; now exists q0|].
             apply Hni. replace v with (lv a) by (now apply (ends_fun (sp_path a))). rewrite Hvis, map_app, Hperm, in_app_iff. right. now left.
          -- assert (Hb0 : In b (q_content Q q)) by (rewrite Hperm; now right). apply Hc in Hb0 as Hb1.
             destruct Hb1 as [(l & p & r & u & w & Hps & Hp & Hu & He & Hf1 & Hf2) Hsc]. split; [|assumption].
             exists l, p, (r ++ [sp_path a]), u, w. split; [rewrite Hps; now rewrite <- app_assoc|]. do 3 (split; [assumption|]).
             split; [assumption|]. intros q0 Hq0 Hw. apply in_app_iff in Hq0. destruct Hq0 as [Hq0|[<-|[]]]; [now apply (Hf2 q0)|].
             apply (Hdist b Hb). rewrite (ends_fun _ _ _ Hea Hw). apply (ends_fun (sp_path b)); [apply Hends; rewrite in_app_iff; now right|rewrite Hp; now exists p].
        * intros [(l & p & r & u & v & Hps & Hp & Hu & He & Hf1 & Hf2) Hsc].
          destruct r as [|r0 r _] using rev_ind.
          -- apply app_inj_tail in Hps. destruct Hps as [<- <-]. left. exists v. split; [apply Hmk; now split|].
             assert (u = lv a) by (now apply (ends_fun (sp_path a))). subst u. split; [exact He|]. intro Hin. apply Hvisd in Hin.
             destruct Hin as [(q0 & Hq0 & Hq1)|(q0 & u & Hq0 & Hq1 & Hq2)]; [apply (Hf2 q0); [rewrite in_app_iff; now left|assumption]|].
             now apply (Hf1 q0 u).
          -- replace (l ++ p :: r ++ [r0]) with ((l ++ p :: r) ++ [r0]) in Hps by (now rewrite <- app_assoc).
             apply app_inj_tail in Hps. destruct Hps as [Hps <-]. right.
             assert (Hb : In b (q_content Q q)).
             { apply Hc. split; [|assumption]. exists l, p, r, u, v. do 5 (split; [assumption|]). intros q0 Hq0. apply Hf2. rewrite in_app_iff. now left. }
             rewrite Hperm in Hb. destruct Hb as [<-|Hb]; [|assumption]. exfalso.
             apply (Hf2 (sp_path a)); [rewrite in_app_iff; right; now left|]. rewrite Hp. now exists p.
  Qed.

  Theorem greedy_collect : exists out,
    settles (fun n => collect (best_next Q g f) n (best_iter_from Q f s)) out /\
    greedy_order E f s (map sp_path out) /\ (forall a, In a out -> sp_score a = f (sp_path a)).
  Proof.
    destruct (collect_inv (best_next Q g f) greedy_inv (length (vertices g) + 1) greedy_step)
      with (s := best_iter_from Q f s) as (out & st & H1 & [H2 H3] & H4).
    - intros out st [H _]. revert H.
      apply (vinv_bound scored Q g lastv mk lv Hwf (best_nodes f) a0 s eq_refl eq_refl).
    - split; [apply (vinv_init scored Q g mk lv a0 s eq_refl)|now left].
    - exists out. split; [assumption|]. destruct st as [vis q].
      pose proof (vinv_pop scored Q g lastv mk lv Hwf (best_nodes f) a0 s eq_refl _ _ _ H2) as Hp.
      destruct (q_pop Q q) as [[a q']|] eqn:Ep.
      { exfalso. destruct Hp as (new & Hn & _). unfold best_next in H4. fold lastv mk in H4. rewrite Hn in H4. discriminate. }
      pose proof H2 as [_ _ _ Hder _ _]. cbn [fst snd] in *.
      destruct H3 as [[-> Est]|[Hg Hc]].
      + exfalso. unfold best_iter_from, visit_from in Est. injection Est as _ ->.
        pose proof (q_push_content _ Q (q_empty Q) {| sp_path := path_append path_empty s; sp_score := f (path_append path_empty s) |} (q_empty_valid _ Q)) as Hx.
        rewrite Hp in Hx. apply Permutation_nil in Hx. discriminate.
      + split; [split; [assumption|]|].
        * intros p Ho. assert (Hin : In {| sp_path := p; sp_score := f p |} (q_content Q q)) by (apply Hc; now split). rewrite Hp in Hin. destruct Hin.
        * intros a Ha. apply (best_derived g f s a). apply Hder. rewrite in_app_iff. now left.
  Qed.
End Greedy.

(** ** Traversals *)
Lemma memb_In v (p : list N) : existsb (N.eqb v) p = true <-> In v p.
Proof. rewrite existsb_exists. split; [intros (x & Hx & E); apply N.eqb_eq in E; now subst|intro H; exists v; split; [assumption|apply N.eqb_refl]]. Qed.
Lemma memb_out v (p : list N) : existsb (N.eqb v) p = false <-> ~ In v p.
Proof. rewrite <- memb_In. now destruct (existsb (N.eqb v) p). Qed.
Lemma filter_filter A (f h : A -> bool) l : filter f (filter h l) = filter (fun x => f x && h x) l.
Proof. induction l as [|x l IH]; [reflexivity|]. cbn. destruct (h x); cbn; [destruct (f x); cbn; now rewrite IH|now rewrite andb_false_r]. Qed.
Lemma once_In l v : In v (once l) <-> In v l.
Proof.
  induction l as [|x l IH]; [reflexivity|]. cbn. rewrite filter_In, IH, negb_true_iff, N.eqb_neq.
  destruct (N.eq_dec x v) as [->|]; [tauto|]. split; [tauto|]. intros [H|H]; [tauto|]. right. split; [assumption|congruence].
Qed.
Lemma once_NoDup l : NoDup (once l).
Proof.
  induction l as [|x l IH]; cbn; constructor; [|now apply NoDup_filter].
  rewrite filter_In, N.eqb_refl. now intros [_ H].
Qed.
Lemma once_app l m : once (l ++ m) = once l ++ filter (fun v => negb (existsb (N.eqb v) l)) (once m).
Proof.
  induction l as [|x l IH]; cbn [once app existsb].
  - induction (once m) as [|y t IHt]; [reflexivity|]. cbn in *. now f_equal.
  - rewrite IH, filter_app, filter_filter. cbn [app]. f_equal. f_equal. apply filter_ext. intro v. now rewrite negb_orb.
Qed.

Section Vertices.
  Variables (Q : squeue N) (g : graph) (nb : N -> list N) (s : N).
  Hypothesis Hnb : forall v, nb v = map snd (outbound_edges g v).
  Variable view : q_car Q -> list N.
  Hypothesis Hpush : forall q x, view (q_push Q q x) = view q ++ [x].
  Hypothesis Hempty : view (q_empty Q) = [].

  Lemma visit_view a es : forall vis q,
    exists vis' q', fold_left (visit_edge N Q (fun _ v => v) a) es (vis, q) = (vis', q') /\
      view q' = view q ++ filter (fun v => negb (existsb (N.eqb v) vis)) (once (map snd es)) /\
      forall v, In v vis' <-> In v vis \/ In v (map snd es).
  Proof.
    induction es as [|e es IH]; intros vis q; cbn [fold_left map].
    - exists vis, q. cbn. rewrite app_nil_r. tauto.
    - cbn [visit_edge]. destruct (negb (memN (snd e) vis)) eqn:Em.
      + apply negb_true_iff, memN_false in Em.
        destruct (IH (snd e :: vis) (q_push Q q (snd e))) as (vis' & q' & H1 & H2 & H3). exists vis', q'. split; [assumption|]. split.
        * rewrite H2, Hpush, <- app_assoc. f_equal. cbn [once filter]. apply memb_out in Em. rewrite Em. cbn. f_equal. rewrite filter_filter.
          apply filter_ext. intro v. cbn [existsb]. rewrite negb_orb. apply andb_comm.
        * intro v. rewrite H3. cbn. tauto.
      + apply negb_false_iff, memN_In in Em.
        destruct (IH vis q) as (vis' & q' & H1 & H2 & H3). exists vis', q'. split; [assumption|]. split.
        * rewrite H2. f_equal. cbn [once filter]. pose proof (proj2 (memb_In _ _) Em) as Em'. rewrite Em'. cbn. rewrite filter_filter.
          apply filter_ext. intro v. destruct (N.eqb_spec v (snd e)) as [->|]; [now rewrite Em'|now rewrite andb_true_r].
        * intro v. rewrite H3. cbn. split; [tauto|]. intros [H|[<-|H]]; tauto.
  Qed.

  Definition ord_inv (out : list N) (st : vstate N Q) : Prop :=
    view (snd st) = waiting nb s out /\ (forall v, In v (fst st) <-> In v (s :: flat_map nb out)) /\ forall v, In v out -> In v (fst st).
  Lemma ord_init : ord_inv [] (visit_from N Q s s).
  Proof. split; [cbn; now rewrite Hpush, Hempty|]. split; [intro v; reflexivity|intros v []]. Qed.
  (** One step, whichever waiting vertex it takes. *)
  Lemma ord_step out vis q a q1 l r : ord_inv out (vis, q) -> view q = l ++ a :: r -> view q1 = l ++ r ->
    ord_inv (out ++ [a]) (fold_left (visit_edge N Q (fun _ v => v) a) (outbound_edges g a) (vis, q1)).
  Proof.
    intros (H1 & H2 & H4) E1 E2. cbn [fst snd] in *. rewrite E1 in H1.
    assert (Ha : In a vis).
    { apply H2. assert (Hw : In a (waiting nb s out)) by (rewrite <- H1, in_app_iff; right; now left). apply filter_In in Hw. apply once_In. apply Hw. }
    destruct (visit_view a (outbound_edges g a) vis q1) as (vis' & q' & -> & F2 & F3). rewrite <- Hnb in F2, F3. split; [|split]; cbn [fst snd].
    - rewrite F2, E2. unfold waiting. rewrite flat_map_app. cbn [flat_map]. rewrite app_nil_r, app_comm_cons, once_app, filter_app. f_equal.
      + replace (filter (fun v => negb (existsb (N.eqb v) (out ++ [a]))) (once (s :: flat_map nb out)))
          with (filter (fun v => negb (N.eqb v a)) (waiting nb s out)).
        2:{ unfold waiting. rewrite filter_filter. apply filter_ext. intro v. rewrite existsb_app, negb_orb, andb_comm. cbn [existsb]. now rewrite orb_false_r. }
        assert (Hnd : NoDup (l ++ a :: r)) by (rewrite H1; apply NoDup_filter, once_NoDup). rewrite <- H1, filter_app. cbn [filter]. rewrite N.eqb_refl. cbn.
        apply NoDup_remove_2 in Hnd. rewrite in_app_iff in Hnd.
        assert (K : forall m, ~ In a m -> filter (fun v => negb (N.eqb v a)) m = m).
        { induction m as [|y m IHm]; [reflexivity|]. intro Hm. cbn. destruct (N.eqb_spec y a) as [->|]; [destruct Hm; now left|]. cbn. f_equal. apply IHm. intro. apply Hm. now right. }
        rewrite !K; [reflexivity|tauto|tauto].
      + rewrite filter_filter. apply filter_ext. intro v.
        destruct (existsb (N.eqb v) (s :: flat_map nb out)) eqn:Ex.
        * rewrite andb_false_r. apply memb_In in Ex. apply H2 in Ex. apply memb_In in Ex. now rewrite Ex.
        * rewrite andb_true_r. apply memb_out in Ex.
          destruct (existsb (N.eqb v) vis) eqn:Ev; [exfalso; apply memb_In in Ev; apply H2 in Ev; tauto|].
          destruct (existsb (N.eqb v) (out ++ [a])) eqn:Eo; [|reflexivity]. exfalso. apply memb_In in Eo. apply memb_out in Ev. apply Ev.
          apply in_app_iff in Eo. destruct Eo as [Eo|[<-|[]]]; [now apply H4|assumption].
    - intro v. rewrite F3, H2, flat_map_app. cbn [flat_map In]. rewrite app_nil_r, in_app_iff. tauto.
    - intros v Hv. apply F3. left. apply in_app_iff in Hv. destruct Hv as [Hv|[<-|[]]]; [now apply H4|assumption].
  Qed.

  (** The whole traversal. *)
  Variable rule : list N -> N -> Prop.
  Hypothesis Hpop : forall q, match q_pop Q q with
    | None => view q = []
    | Some (a, q1) => rule (view q) a /\ exists l r, view q = l ++ a :: r /\ view q1 = l ++ r
    end.
  Lemma ord_collect n : forall out st res, ord_inv out st -> collect (visit_next N Q g (fun v => Some v) (fun _ v => v)) n st = Done res ->
    waiting nb s (out ++ res) = [] /\ forall p v r, res = p ++ v :: r -> rule (waiting nb s (out ++ p)) v.
  Proof.
    induction n as [|n IH]; intros out [vis q] res HI H; [discriminate|]. cbn [collect visit_next] in H. pose proof (Hpop q) as Hp.
    destruct (q_pop Q q) as [[a q1]|].
    - destruct Hp as [Hr (l & r & E1 & E2)].
      destruct (collect _ n _) as [res'| |] eqn:Ec; try discriminate. injection H as <-.
      destruct (IH (out ++ [a]) _ _ (ord_step _ _ _ _ _ _ _ HI E1 E2) Ec) as [K1 K2]. rewrite <- app_assoc in K1. split; [exact K1|].
      intros p v t Ht. destruct p as [|b p]; [injection Ht as <- _|injection Ht as <- Ht].
      + rewrite app_nil_r. destruct HI as [<- _]. exact Hr.
      + specialize (K2 p v t Ht). now rewrite <- app_assoc in K2.
    - injection H as <-. rewrite app_nil_r. destruct HI as [<- _]. split; [exact Hp|]. intros [|] ? ?; discriminate.
  Qed.
End Vertices.

(** Rules that determine the next entry determine the list. *)
Lemma ruled A (w : list A -> list A) (next : list A -> option A) o1 o2 :
  (forall p v r, o1 = p ++ v :: r -> next (w p) = Some v) -> next (w o1) = None ->
  (forall p v r, o2 = p ++ v :: r -> next (w p) = Some v) -> next (w o2) = None -> o1 = o2.
Proof.
  intros H1 E1 H2 E2.
  assert (K : forall l1 l2 p, o1 = p ++ l1 -> o2 = p ++ l2 -> l1 = l2).
  { induction l1 as [|x l1 IH]; intros [|y l2] p F1 F2.
    - reflexivity.
    - exfalso. rewrite app_nil_r in F1. subst p. specialize (H2 _ _ _ F2). congruence.
    - exfalso. rewrite app_nil_r in F2. subst p. specialize (H1 _ _ _ F1). congruence.
    - pose proof (H1 _ _ _ F1) as G1. pose proof (H2 _ _ _ F2) as G2. assert (x = y) by congruence. subst y. f_equal.
      apply IH with (p ++ [x]); now rewrite <- app_assoc. }
  now apply (K o1 o2 []).
Qed.

Section Both.
  Variables (g : graph) (nb : N -> list N) (s : N).
  Hypothesis Hwf : wf g.
  Hypothesis Hnb : forall v, nb v = map snd (outbound_edges g v).
  Lemma bfs_oldest out : settles (fun n => collect (bfs_next g) n (bfs_iter_from s)) out -> oldest_first nb s out.
  Proof.
    intros [n H]. specialize (H n (le_n n)).
    destruct (ord_collect (Queue N) g nb s Hnb (fun q => q)) with (rule := fun w (v : N) => exists t, w = v :: t) (n := n) (out := @nil N) (st := bfs_iter_from s) (res := out) as [K1 K2].
    - reflexivity.
    - intros [|a q]; [reflexivity|]. split; [now exists q|]. now exists [], q.
    - apply (ord_init (Queue N) nb s (fun q => q)); reflexivity.
    - exact H.
    - split; assumption.
  Qed.
  Lemma dfs_newest out : settles (fun n => collect (dfs_next g) n (dfs_iter_from s)) out -> newest_first nb s out.
  Proof.
    intros [n H]. specialize (H n (le_n n)).
    destruct (ord_collect (Stack N) g nb s Hnb (fun q => q)) with (rule := fun w (v : N) => exists t, w = t ++ [v]) (n := n) (out := @nil N) (st := dfs_iter_from s) (res := out) as [K1 K2].
    - reflexivity.
    - intros q. cbn [q_pop Stack]. destruct (pop_back q) as [[a q1]|] eqn:E; [apply pop_back_some in E; subst q|now apply pop_back_none in E].
      split; [now exists q1|]. exists q1, []. now rewrite app_nil_r.
    - apply (ord_init (Stack N) nb s (fun q => q)); reflexivity.
    - exact H.
    - split; assumption.
  Qed.
  Lemma oldest_one o1 o2 : oldest_first nb s o1 -> oldest_first nb s o2 -> o1 = o2.
  Proof.
    intros [H1 E1] [H2 E2]. apply (ruled N (waiting nb s) (fun w => match w with [] => None | x :: _ => Some x end)).
    - intros p v r E. destruct (H1 p v r E) as [t ->]. reflexivity.
    - now rewrite E1.
    - intros p v r E. destruct (H2 p v r E) as [t ->]. reflexivity.
    - now rewrite E2.
  Qed.
  Lemma newest_one o1 o2 : newest_first nb s o1 -> newest_first nb s o2 -> o1 = o2.
  Proof.
    intros [H1 E1] [H2 E2]. apply (ruled N (waiting nb s) (fun w => match rev w with [] => None | x :: _ => Some x end)).
    - intros p v r E. destruct (H1 p v r E) as [t ->]. now rewrite rev_app_distr.
    - now rewrite E1.
    - intros p v r E. destruct (H2 p v r E) as [t ->]. now rewrite rev_app_distr.
    - now rewrite E2.
  Qed.

  (** *** Paths *)
  Lemma kids_extensions p : p <> [] -> path_kids g p = Some (extensions nb p).
  Proof.
    intro Hp. destruct p as [|u p _] using rev_ind; [contradiction|]. unfold path_kids, extensions. rewrite rev_app_distr. cbn [rev app].
    rewrite path_last_snoc. f_equal. rewrite Hnb. induction (outbound_edges g u) as [|e es IH]; [reflexivity|]. cbn [map filter].
    assert (E : path_contains_vertex (p ++ [u]) (snd e) = existsb (N.eqb (snd e)) (p ++ [u])).
    { destruct (existsb (N.eqb (snd e)) (p ++ [u])) eqn:Ex; [apply memb_In in Ex|apply memb_out in Ex].
      - now apply path_contains_vertex_spec.
      - destruct (path_contains_vertex (p ++ [u]) (snd e)) eqn:Ey; [|reflexivity]. now apply path_contains_vertex_spec in Ey. }
    rewrite E. destruct (existsb (N.eqb (snd e)) (p ++ [u])); cbn [negb]; [exact IH|]. cbn [map]. now f_equal.
  Qed.
  Lemma extensions_some p x : In x (extensions nb p) -> x <> [].
  Proof. unfold extensions. destruct (rev p); [intros []|]. rewrite in_map_iff. intros (v & <- & _) H. now apply app_eq_nil in H. Qed.

  Lemma push_all_queue A (xs l : list A) : push_all (Queue A) xs l = l ++ xs.
  Proof.
    unfold push_all. cbn. revert l. induction xs as [|x xs IH]; cbn; intro l; [now rewrite app_nil_r|].
    rewrite IH, <- app_assoc. reflexivity.
  Qed.
  Lemma level_collect n : forall done q out, (forall p, In p q -> p <> []) -> [s] :: flat_map (extensions nb) done = done ++ q ->
    collect (bfs_path_next g) n q = Done out ->
    (forall p x r, out = p ++ x :: r -> exists t, [s] :: flat_map (extensions nb) (done ++ p) = (done ++ p) ++ x :: t) /\
    [s] :: flat_map (extensions nb) (done ++ out) = done ++ out.
  Proof.
    induction n as [|n IH]; intros done q out Hne Hd H; [discriminate|].
    destruct q as [|a q].
    - cbn in H. injection H as <-. rewrite !app_nil_r in *. split; [intros [|] ? ?; discriminate|assumption].
    - assert (Hc : collect (bfs_path_next g) (S n) (a :: q) =
        obind (collect (bfs_path_next g) n (q ++ extensions nb a)) (fun l => Done (a :: l))).
      { rewrite <- push_all_queue. unfold bfs_path_next. cbn [collect]. unfold tree_next at 1. change (q_pop (Queue path) (a :: q)) with (Some (a, q)).
        cbv iota beta. rewrite (kids_extensions a (Hne a (or_introl eq_refl))). reflexivity. }
      rewrite Hc in H. clear Hc. destruct (collect (bfs_path_next g) n (q ++ extensions nb a)) as [out'| |] eqn:Ec; try discriminate. injection H as <-.
      destruct (IH (done ++ [a]) (q ++ extensions nb a) out') as [K1 K2]; [| |exact Ec|].
      + intros p Hp. apply in_app_iff in Hp. destruct Hp as [Hp|Hp]; [apply Hne; now right|now apply extensions_some in Hp].
      + rewrite flat_map_app. cbn [flat_map]. rewrite app_nil_r, app_comm_cons, Hd, <- !app_assoc. reflexivity.
      + rewrite <- app_assoc in K2. split; [|exact K2]. intros p x r E. destruct p as [|b p]; [injection E as <- _|injection E as <- E].
        * exists q. rewrite app_nil_r. exact Hd.
        * destruct (K1 p x r E) as [t Ht]. exists t. rewrite <- !app_assoc in Ht. rewrite <- app_assoc. exact Ht.
  Qed.
  Lemma bfs_level out : settles (fun n => collect (bfs_path_next g) n (bfs_path_iter_from s)) out -> level_order nb s out.
  Proof.
    intros [n H]. specialize (H n (le_n n)). apply (level_collect n [] [[s]] out); [|reflexivity|exact H].
    intros p [<-|[]]. discriminate.
  Qed.
  Lemma level_one o1 o2 : level_order nb s o1 -> level_order nb s o2 -> o1 = o2.
  Proof.
    intros [H1 E1] [H2 E2].
    apply (ruled (list N) (fun p => skipn (length p) ([s] :: flat_map (extensions nb) p)) (fun w => match w with [] => None | x :: _ => Some x end)).
    - intros p v r E. destruct (H1 p v r E) as [t ->]. now rewrite skipn_app, skipn_all, Nat.sub_diag.
    - now rewrite E1, skipn_all.
    - intros p v r E. destruct (H2 p v r E) as [t ->]. now rewrite skipn_app, skipn_all, Nat.sub_diag.
    - now rewrite E2, skipn_all.
  Qed.

  Lemma depth_orders_split l1 : forall l2 ls, depth_orders nb (l1 ++ l2) ls -> exists a b, ls = a ++ b /\ depth_orders nb l1 a /\ depth_orders nb l2 b.
  Proof.
    induction l1 as [|p l1 IH]; intros l2 ls H; cbn in H.
    - exists [], ls. split; [reflexivity|]. split; [constructor|assumption].
    - inversion H as [|p' ps l ls' H1 H2]; subst. destruct (IH _ _ H2) as (a & b & -> & Ha & Hb). exists (l ++ a), b.
      split; [now rewrite app_assoc|]. split; [now constructor|assumption].
  Qed.
  Lemma stack_run A (kids : A -> option (list A)) n (q : list A) a l : kids a = Some l ->
    collect (tree_next A (Stack A) kids) (S n) (q ++ [a]) = obind (collect (tree_next A (Stack A) kids) n (q ++ l)) (fun l => Done (a :: l)).
  Proof.
    intro H. cbn [collect]. unfold tree_next at 1. cbn [q_pop Stack]. rewrite (proj2 (pop_back_some _ _ _ _) eq_refl), H.
    rewrite push_all_stack. reflexivity.
  Qed.
  Lemma depth_collect n : forall q out, (forall p, In p q -> p <> []) -> collect (dfs_path_next g) n q = Done out -> depth_orders nb (rev q) out.
  Proof.
    induction n as [|n IH]; intros q out Hne H; [discriminate|].
    destruct q as [|a q' _] using rev_ind.
    - cbn in H. injection H as <-. constructor.
    - assert (Hc : collect (dfs_path_next g) (S n) (q' ++ [a]) =
        obind (collect (dfs_path_next g) n (q' ++ extensions nb a)) (fun l => Done (a :: l))).
      { apply stack_run. apply kids_extensions. apply Hne. rewrite in_app_iff. right. now left. }
      rewrite Hc in H. clear Hc. destruct (collect (dfs_path_next g) n (q' ++ extensions nb a)) as [out'| |] eqn:Ec; try discriminate. injection H as <-.
      apply IH in Ec.
      + rewrite rev_app_distr in Ec. apply depth_orders_split in Ec as (l1 & l2 & -> & H1 & H2).
        rewrite rev_app_distr. cbn [rev app]. change (a :: l1 ++ l2) with ((a :: l1) ++ l2). constructor; [now constructor|assumption].
      + intros p Hp. apply in_app_iff in Hp. destruct Hp as [Hp|Hp]; [apply Hne; rewrite in_app_iff; now left|now apply extensions_some in Hp].
  Qed.
  Lemma dfs_depth out : settles (fun n => collect (dfs_path_next g) n (dfs_iter_path_from s)) out -> depth_order nb [s] out.
  Proof.
    intros [n H]. specialize (H n (le_n n)). apply depth_collect in H; [|intros p [<-|[]]; discriminate].
    cbn in H. inversion H as [|p' ps l ls' H1 H2]; subst. inversion H2; subst. now rewrite app_nil_r.
  Qed.
  Scheme depth_order_mut := Induction for depth_order Sort Prop with depth_orders_mut := Induction for depth_orders Sort Prop.
  Lemma depth_one p l : depth_order nb p l -> forall l', depth_order nb p l' -> l = l'.
  Proof.
    apply (depth_order_mut nb (fun p l _ => forall l', depth_order nb p l' -> l = l') (fun ps ls _ => forall ls', depth_orders nb ps ls' -> ls = ls')).
    - intros p0 ls _ IH l' H. inversion H; subst. f_equal. now apply IH.
    - intros ls' H. now inversion H.
    - intros p0 ps l0 ls _ IH1 _ IH2 ls' H. inversion H; subst. f_equal; [now apply IH1|now apply IH2].
  Qed.
End Both.

(** *** The best-first order is determined when no two open paths have the same score. *)
Section Ties.
  Variables (E : rel) (f : list N -> Z) (s : N).
  Hypothesis Hno : forall ps p p', greedy E f s ps -> open_path E ps p -> open_path E ps p' -> f p = f p' -> p = p'.
  Lemma greedy_prefix ps : greedy E f s ps -> forall ps', greedy E f s ps' -> length ps <= length ps' -> exists r, ps' = ps ++ r.
  Proof.
    induction 1 as [|ps p Hg IH Ho Hm]; intros ps' Hg' Hl.
    - clear Hl. induction Hg' as [|ps' p' Hg' [r ->] _ _]; [now exists []|]. exists (r ++ [p']). now rewrite app_assoc.
    - rewrite app_length in Hl. cbn in Hl. destruct (IH ps' Hg') as [r Hr]; [lia|]. clear IH. revert r Hr.
      induction Hg' as [|ps' p' Hg' IH' Ho' Hm']; intros r Hr.
      + exfalso. apply (f_equal (@length _)) in Hr. rewrite app_length in Hr. cbn in *. inversion Hg; subst; rewrite ?app_length in *; cbn in *; lia.
      + destruct r as [|x r _] using rev_ind.
        * rewrite app_nil_r in Hr. apply (f_equal (@length _)) in Hr. rewrite app_length in *. cbn in *. lia.
        * rewrite app_assoc in Hr. apply app_inj_tail in Hr. destruct Hr as [Hr <-].
          destruct r as [|y r].
          -- rewrite app_nil_r in Hr. subst ps'. exists []. rewrite app_nil_r. f_equal. f_equal.
             apply (Hno ps); [assumption|assumption|assumption|]. pose proof (Hm _ Ho'). pose proof (Hm' _ Ho). lia.
          -- destruct (IH' ltac:(rewrite Hr, app_length; cbn; lia) _ Hr) as [t Ht]. exists (t ++ [p']). rewrite Ht. now rewrite app_assoc.
  Qed.
  Lemma greedy_one ps ps' : greedy_order E f s ps -> greedy_order E f s ps' -> ps = ps'.
  Proof.
    assert (K : forall a b, greedy_order E f s a -> greedy_order E f s b -> length a <= length b -> a = b).
    { intros a b [Ha Na] [Hb Nb] Hl. destruct (greedy_prefix a Ha b Hb Hl) as [r ->]. clear Nb. destruct r as [|x r]; [now rewrite app_nil_r|]. exfalso.
      assert (J : forall c, greedy E f s c -> forall t, c = a ++ x :: t -> open_path E a x).
      { induction 1 as [|c p Hc IH Ho _]; intros t Ht.
        - apply (f_equal (@length _)) in Ht. rewrite app_length in Ht. cbn in Ht. inversion Ha; subst; rewrite ?app_length in *; cbn in *; lia.
        - destruct t as [|y t _] using rev_ind; [apply app_inj_tail in Ht; destruct Ht as [-> ->]; exact Ho|].
          rewrite app_comm_cons, app_assoc in Ht. apply app_inj_tail in Ht. destruct Ht as [-> _]. now apply IH with t. }
      apply (Na x). now apply (J _ Hb r). }
    intros H1 H2. destruct (Nat.le_ge_cases (length ps) (length ps')); [now apply K|symmetry; now apply K].
  Qed.
End Ties.

(** ** The constrained search *)
Section WalkOrder.
  Variables (Q : squeue scored) (g : graph) (f : path -> Z) (cs : list constraint) (s t : N).
  Hypothesis Hwf : wf g.
  Hypothesis Hleast : pops_least Q sp_score.
  Let nd := node f.
  Let keep := fun p => check_all_partial cs (nd p) = true.
  Let opened := open_walk (gE g) keep.
  Let trying := tried_walks (gE g) f keep s.

  Lemma tried_ne ps : trying ps -> forall p, In p ps -> p <> [].
  Proof.
    induction 1 as [|ps p H IH Ho _]; intros q Hq; [destruct Hq as [<-|[]]; discriminate|].
    apply in_app_iff in Hq. destruct Hq as [Hq|[<-|[]]]; [now apply IH|].
    destruct Ho as (_ & _ & q & u & v & _ & -> & _) . intro E. now apply app_eq_nil in E.
  Qed.
  Lemma tried_parent ps : trying ps -> forall q v, q <> [] -> In (q ++ [v]) ps -> In q ps.
  Proof.
    induction 1 as [|ps p H IH Ho _]; intros q v Hq Hin.
    - destruct Hin as [Hin|[]]. change [s] with ([] ++ [s]) in Hin. apply app_inj_tail in Hin. destruct Hin as [<- _]. contradiction.
    - apply in_app_iff in Hin. apply in_app_iff. left. destruct Hin as [Hin|[Hin|[]]]; [now apply (IH q v)|].
      destruct Ho as (_ & _ & q' & u & w & Hq' & -> & _). apply app_inj_tail in Hin. now destruct Hin as [-> _].
  Qed.
  Lemma tried_split l x r : trying (l ++ x :: r) -> l <> [] -> trying l /\ opened l x /\ forall p, opened l p -> (f x <= f p)%Z.
  Proof.
    intros H Hl. remember (l ++ x :: r) as ps eqn:E. revert r E. induction H as [|ps p H IH Ho Hm]; intros r E.
    - destruct l as [|y l]; [contradiction|]. apply (f_equal (@length _)) in E. cbn in E. rewrite app_length in E. cbn in E. lia.
    - destruct r as [|y r _] using rev_ind.
      + apply app_inj_tail in E. destruct E as [-> ->]. auto.
      + rewrite app_comm_cons, app_assoc in E. apply app_inj_tail in E. destruct E as [-> _]. now apply (IH r).
  Qed.

  Definition walk_inv (out : list scored) (q : q_car Q) : Prop :=
    q_valid Q q /\ (forall a, In a out -> sp_score a = f (sp_path a)) /\
    ((out = [] /\ Permutation (q_content Q q) [nd [s]]) \/
     (trying (map sp_path out) /\ NoDup (q_content Q q) /\
      (forall b, In b (q_content Q q) <-> opened (map sp_path out) (sp_path b) /\ b = nd (sp_path b)))).

  Lemma walk_init : walk_inv [] (constrained_iter_from Q f s).
  Proof.
    unfold constrained_iter_from. split; [apply q_push_valid, q_empty_valid|]. split; [intros a []|]. left. split; [reflexivity|].
    rewrite q_push_content by apply q_empty_valid. rewrite q_empty_content. reflexivity.
  Qed.

  (** What comes next. *)
  Definition comes (out : list scored) (a : scored) : Prop :=
    a = nd (sp_path a) /\ (out = [] /\ sp_path a = [s] \/
     opened (map sp_path out) (sp_path a) /\ trying (map sp_path out) /\ forall p, opened (map sp_path out) p -> (f (sp_path a) <= f p)%Z).
  Lemma walk_step out q : walk_inv out q ->
    match constrained_next Q g f cs q with
    | Stop => out <> [] /\ forall p, ~ opened (map sp_path out) p
    | Crash => False
    | Yield a q' => comes out a /\ walk_inv (out ++ [a]) q'
    end.
  Proof.
    intros (Hv & Hsc & HI). unfold constrained_next, tree_next. destruct (q_pop Q q) as [[a q']|] eqn:Ep.
    2:{ apply q_pop_none in Ep; [|assumption]. rewrite Ep in HI. destruct HI as [[_ HI]|(Ht & _ & Hc)].
        - apply Permutation_nil in HI. discriminate.
        - split; [intros ->; inversion Ht as [|? ? ? ? ? E]; now apply app_eq_nil in E|].
          intros p Hp. apply (proj2 (Hc (nd p))). now split. }
    pose proof (q_pop_content _ _ _ _ _ Hv Ep) as Hp. pose proof (q_pop_valid _ _ _ _ _ Hv Ep) as Hv'.
    assert (Hin : In a (q_content Q q)) by (rewrite Hp; now left).
    assert (Hco : comes out a).
    { destruct HI as [[-> HI]|(Ht & _ & Hc)].
      - rewrite HI in Hin. destruct Hin as [<-|[]]. split; [reflexivity|]. left. now split.
      - apply Hc in Hin. destruct Hin as [Ho Ha]. split; [assumption|]. right. split; [assumption|]. split; [assumption|].
        intros p Hop. pose proof (Hleast q a q' (nd p) Hv Ep (proj2 (Hc (nd p)) (conj Hop eq_refl))) as Hle.
        rewrite Ha in Hle. exact Hle. }
    destruct Hco as [Ha Hco]. assert (Hne : sp_path a <> []).
    { destruct Hco as [[_ ->]|((_ & _ & w & u & v & _ & -> & _) & _)]; [discriminate|]. intro E. now apply app_eq_nil in E. }
    assert (Hk : exists l, constrained_kids g f cs a = Some l /\ NoDup l /\
              forall b, In b l <-> exists u v, ends_with u (sp_path a) /\ gE g u v /\ b = nd (sp_path a ++ [v]) /\ keep (sp_path a ++ [v])).
    { destruct (kids_node g f cs (sp_path a) Hne) as (u & Hu & Hk). fold nd in Hk. rewrite <- Ha in Hk. eexists. split; [exact Hk|]. split.
      - apply NoDup_filter, NoDup_map_in; [|now apply outbound_NoDup].
        intros [x v] [y v'] Hx Hy E. apply outbound_In in Hx as [-> _]. apply outbound_In in Hy as [-> _].
        apply (f_equal sp_path) in E. cbn in E. apply app_inj_tail in E. now destruct E as [_ ->].
      - intro b. pose proof (kids_spec g f cs Hwf (sp_path a) b Hne) as K. fold nd in K. rewrite <- Ha in K. unfold kidsl in K. rewrite Hk in K. exact K. }
    destruct Hk as (l & -> & Hndl & Hl). split; [now split|].
    split; [now apply push_all_valid|]. split.
    { intros b Hb. apply in_app_iff in Hb. destruct Hb as [Hb|[<-|[]]]; [now apply Hsc|now rewrite Ha]. }
    right. assert (Ht' : trying (map sp_path (out ++ [a]))).
    { rewrite map_app. cbn [map]. destruct Hco as [[-> E]|(H1 & H2 & H3)]; [cbn; rewrite E; constructor|now constructor]. }
    split; [assumption|]. rewrite map_app in *. cbn [map] in *.
    assert (Hpc : Permutation (q_content Q (push_all Q l q')) (l ++ q_content Q q')) by (now apply push_all_content).
    assert (Hq' : NoDup (q_content Q q') /\ forall b, In b (q_content Q q') <-> opened (map sp_path out) (sp_path b) /\ b = nd (sp_path b) /\ b <> a).
    { destruct HI as [[-> HI]|(Ht & Hnq & Hc)].
      - rewrite HI in Hp. apply Permutation_length in Hp. cbn in Hp. destruct (q_content Q q'); [|discriminate]. split; [constructor|].
        intro b. split; [intros []|]. now intros [(_ & _ & w & _ & _ & [] & _) _].
      - rewrite Hp in Hnq. inversion Hnq as [|? ? Hna Hnd']; subst. split; [assumption|]. intro b. split.
        + intro Hb. assert (Hb' : In b (q_content Q q)) by (rewrite Hp; now right). apply Hc in Hb'. destruct Hb' as [B1 B2].
          split; [assumption|]. split; [assumption|]. intros ->. contradiction.
        + intros (B1 & B2 & B3). assert (Hb' : In b (q_content Q q)) by (apply Hc; now split). rewrite Hp in Hb'. destruct Hb' as [->|Hb']; [contradiction|assumption]. }
    destruct Hq' as [Hnq' Hq'].
    assert (Hna : ~ In (sp_path a) (map sp_path out)).
    { destruct Hco as [[-> _]|(H1 & _)]; [intros []|apply H1]. }
    assert (Hpar : forall v, ~ In (sp_path a ++ [v]) (map sp_path out ++ [sp_path a])).
    { intros v Hi. apply in_app_iff in Hi. destruct Hi as [Hi|[Hi|[]]].
      - destruct Hco as [[-> _]|(_ & H2 & _)]; [destruct Hi|]. apply Hna. now apply (tried_parent _ H2 _ v Hne).
      - apply (f_equal (@length _)) in Hi. rewrite app_length in Hi. cbn in Hi. lia. }
    split.
    - rewrite Hpc. apply NoDup_app_iff. split; [assumption|]. split; [assumption|]. intros b Hb Hb'.
      apply Hl in Hb. destruct Hb as (u & v & _ & _ & -> & _). apply Hq' in Hb'. destruct Hb' as ((_ & _ & w & u' & v' & Hw & E & _) & _).
      cbn in E. apply app_inj_tail in E. destruct E as [<- _]. contradiction.
    - intro b. rewrite Hpc, in_app_iff, Hl, Hq'. split.
      + intros [(u & v & Hu & He & -> & Hk)|((B1 & B2 & w & u & v & Hw & Hrest) & B4 & B5)].
        * split; [|reflexivity]. cbn [nd node sp_path]. split; [apply Hpar|]. split; [exact Hk|]. exists (sp_path a), u, v.
          split; [rewrite in_app_iff; right; now left|]. now split.
        * split; [|assumption]. split; [|split; [assumption|exists w, u, v; split; [rewrite in_app_iff; now left|assumption]]].
          rewrite in_app_iff. intros [Hi|[Hi|[]]]; [contradiction|]. apply B5. rewrite B4, Ha. now rewrite Hi.
      + intros [(B1 & B2 & w & u & v & Hw & B3 & B4 & B5) B6]. rewrite in_app_iff in B1, Hw. destruct Hw as [Hw|[<-|[]]].
        * right. split; [|split; [assumption|]].
          -- split; [tauto|]. split; [assumption|]. exists w, u, v. now repeat (split; [assumption|]).
          -- intros ->. apply B1. right. now left.
        * left. exists u, v. split; [assumption|]. split; [assumption|]. rewrite <- B3. now split.
  Qed.

  (** The search returns the first that ends at the target and satisfies the constraints. *)
  Let goal (p : path) : Prop := ends_with t p /\ sat f cs p.
  Lemma walk_found n : forall out q r, walk_inv out q -> (forall b, In b out -> ~ goal (sp_path b)) ->
    iter_find (pred cs t) (constrained_next Q g f cs) n q = Done r ->
    exists ps, (forall p, In p ps -> ~ goal p) /\
      match r with
      | Some sp => trying (ps ++ [sp_path sp]) /\ goal (sp_path sp) /\ sp_score sp = f (sp_path sp)
      | None => trying ps /\ forall p, ~ opened ps p
      end.
  Proof.
    induction n as [|n IH]; intros out q r HI Hno H; [discriminate|]. cbn [iter_find] in H.
    pose proof (walk_step out q HI) as Hs. destruct (constrained_next Q g f cs q) as [a q'| |]; [| |contradiction].
    - destruct Hs as [[Ha Hc] HI']. destruct (pred cs t a) eqn:Ep.
      + injection H as <-. exists (map sp_path out). split.
        * intros p Hp. apply in_map_iff in Hp as (b & <- & Hb). now apply Hno.
        * rewrite Ha in Ep. apply pred_spec in Ep. split; [|split; [exact Ep|now rewrite Ha]].
          destruct Hc as [[-> E]|(H1 & H2 & H3)]; [cbn; rewrite E; constructor|now constructor].
      + apply (IH _ _ _ HI'); [|assumption]. intros b Hb. apply in_app_iff in Hb. destruct Hb as [Hb|[<-|[]]]; [now apply Hno|].
        intro Hg. apply pred_spec in Hg. fold nd in Hg. rewrite <- Ha in Hg. congruence.
    - injection H as <-. destruct Hs as [Hne Hop]. exists (map sp_path out). split.
      + intros p Hp. apply in_map_iff in Hp as (b & <- & Hb). now apply Hno.
      + split; [|assumption]. destruct HI as (_ & _ & [[-> _]|(Ht & _)]); [contradiction|assumption].
  Qed.

  Hypothesis Hties : forall ps p p', trying ps -> opened ps p -> opened ps p' -> f p = f p' -> p = p'.
  Lemma walk_follow rest : forall out q p, walk_inv out q -> trying (map sp_path out ++ rest ++ [p]) ->
    (forall x, In x rest -> ~ goal x) -> goal p ->
    iter_find (pred cs t) (constrained_next Q g f cs) (S (length rest)) q = Done (Some (nd p)).
  Proof.
    assert (K : forall out q x r, walk_inv out q -> trying (map sp_path out ++ x :: r) ->
              exists q', constrained_next Q g f cs q = Yield (nd x) q' /\ walk_inv (out ++ [nd x]) q').
    { intros out q x r HI Ht. pose proof (walk_step out q HI) as Hs.
      assert (Hx : out = [] /\ x = [s] \/ out <> [] /\ opened (map sp_path out) x /\ forall p, opened (map sp_path out) p -> (f x <= f p)%Z).
      { destruct out as [|b out]; [left|right].
        - split; [reflexivity|]. cbn [map app] in Ht. remember (x :: r) as l eqn:E. revert r E. induction Ht as [|ps p H IH _ _]; intros r E; [now injection E as <- _|].
          destruct ps as [|y ps]; [inversion H as [|? ? ? ? ? E']; now apply app_eq_nil in E'|]. injection E as <- _. now apply (IH ps).
        - split; [discriminate|]. apply tried_split in Ht; [tauto|discriminate]. }
      destruct (constrained_next Q g f cs q) as [a q'| |]; [| |contradiction].
      - exists q'. destruct Hs as [[Ha Hc] HI']. assert (Hax : sp_path a = x).
        { destruct Hx as [[-> ->]|(Hne & Ho & Hm)], Hc as [[Hn E]|(Ho' & Ht' & Hm')].
          - assumption.
          - exfalso. destruct Ho' as (_ & _ & w & _ & _ & [] & _).
          - contradiction.
          - apply (Hties _ _ _ Ht' Ho' Ho). specialize (Hm _ Ho'). specialize (Hm' _ Ho). lia. }
        assert (Hea : a = nd x) by (transitivity (nd (sp_path a)); [exact Ha|now rewrite Hax]). rewrite Hea in HI' |- *. now split.
      - exfalso. destruct Hs as [Hne Hop]. destruct Hx as [[-> _]|(_ & Ho & _)]; [contradiction|]. now apply (Hop x). }
    induction rest as [|x rest IH]; intros out q p HI Ht Hno Hg; cbn [length app iter_find] in *.
    - destruct (K out q p [] HI Ht) as (q' & -> & _). apply pred_spec in Hg. fold nd in Hg. now rewrite Hg.
    - destruct (K out q x _ HI Ht) as (q' & -> & HI').
      destruct (pred cs t (nd x)) eqn:Ep; [exfalso; apply pred_spec in Ep; apply (Hno x); [now left|exact Ep]|].
      apply (IH (out ++ [nd x]) q' p HI'); [|intros y Hy; apply Hno; now right|assumption].
      rewrite map_app, <- app_assoc. exact Ht.
  Qed.
End WalkOrder.
