(** * Facts about searches whose score may overflow *)
From Coq Require Import List NArith ZArith Bool Permutation Lia Arith.
From Verif Require Import Spec Base WalkFacts Graph GraphSpec GraphFacts Path PathFacts ConstraintSpec
  Queue Heap Iter IterFacts TreeFacts SearchFacts BestFacts ConstrainedFacts Topo Release ReleaseFacts Score.
Import ListNotations.
Local Open Scope nat_scope.

(** [f'] gives the value of [f] wherever [f] has one. *)
Definition extends (f : path -> option Z) (f' : path -> Z) : Prop :=
  forall p z, f p = Some z -> f' p = z.

(** Two iterators that step alike until the first one crashes for a reason. *)
Section Sim.
  Context {A S : Type} (next next' : S -> step A S) (pred : A -> bool) (J : list A -> S -> Prop) (W : Prop).
  Hypothesis Hstep : forall out s, J out s ->
    (next s = next' s \/ (next s = Crash /\ W)) /\
    match next' s with Yield a s' => J (out ++ [a]) s' | _ => True end.

  Lemma sim_find n : forall out s, J out s ->
    iter_find pred next n s = iter_find pred next' n s \/ (iter_find pred next n s = Panic /\ W).
  Proof.
    induction n as [|n IH]; intros out s HJ; [now left|]. cbn [iter_find].
    destruct (Hstep out s HJ) as [[-> | [-> HW]] Hs]; [|now right].
    destruct (next' s) as [a s'| |]; [|now left|now left].
    destruct (pred a); [now left|]. eapply IH, Hs.
  Qed.
End Sim.

Lemma iter_find_panic_mono A S (next : S -> step A S) pred n : forall s m,
  iter_find pred next n s = Panic -> n <= m -> iter_find pred next m s = Panic.
Proof.
  induction n as [|n IH]; intros s m H Hm; [discriminate|].
  destruct m as [|m]; [lia|]. cbn in *. destruct (next s) as [a s'| |]; try discriminate H; auto.
  destruct (pred a); [discriminate|]. apply IH; [assumption|lia].
Qed.

Section Facts.
  Variables (Q : squeue scored) (g : graph) (f : path -> option Z) (f' : path -> Z) (s : N).
  Hypothesis Hwf : wf g.
  Hypothesis Hext : extends f f'.

  Lemma p_child_cases a v :
    (p_child f a v = Some (scored_child f' a v)) \/ (p_child f a v = None /\ f (sp_path a ++ [v]) = None).
  Proof.
    unfold p_child, scored_child, path_append. destruct (f (sp_path a ++ [v])) as [z|] eqn:E; [|now right].
    left. now rewrite (Hext _ _ E).
  Qed.

  Lemma p_visit_fold a es : forall st,
    opt_fold (p_visit_edge Q f a) es st = Some (fold_left (visit_edge scored Q (scored_child f') a) es st) \/
    (opt_fold (p_visit_edge Q f a) es st = None /\
     exists v, In v (map snd es) /\ ~ In v (fst st) /\ f (sp_path a ++ [v]) = None).
  Proof.
    induction es as [|e es IH]; intros [vis q]; cbn [opt_fold fold_left map]; [now left|].
    cbn [p_visit_edge visit_edge]. destruct (memN (snd e) vis) eqn:Em; cbn [negb].
    - destruct (IH (vis, q)) as [H|(H & v & Hv & H2)]; [now left|]. right. split; [exact H|].
      exists v. split; [now right|exact H2].
    - apply memN_false in Em. destruct (p_child_cases a (snd e)) as [->|[-> Hn]].
      + destruct (IH (snd e :: vis, q_push Q q (scored_child f' a (snd e)))) as [H|(H & v & Hv & H2 & H3)];
          [now left|]. right. split; [exact H|]. exists v. split; [now right|]. split; [|exact H3].
        intro Hi. apply H2. now right.
      + right. split; [reflexivity|]. exists (snd e). split; [now left|]. split; [exact Em|exact Hn].
  Qed.

  Definition simple_undefined : Prop := exists p, simple_from (gE g) s p /\ f p = None.

  Lemma p_best_step out st : best_inv Q g f' s out st ->
    (p_best_next Q g f st = best_next Q g f' st \/ (p_best_next Q g f st = Crash /\ simple_undefined)) /\
    match best_next Q g f' st with Yield a st' => best_inv Q g f' s (out ++ [a]) st' | _ => True end.
  Proof.
    intro HI. pose proof (best_step Q g f' s Hwf out st HI) as Hs. split.
    2:{ destruct (best_next Q g f' st); auto. }
    destruct HI as [H1 H2]. destruct st as [vis q].
    pose proof (vinv_pop scored Q g (fun sp => path_last (sp_path sp)) (scored_child f')
      (fun sp => match path_last (sp_path sp) with Some x => x | None => 0%N end) Hwf
      (best_nodes f') {| sp_path := [s]; sp_score := f' [s] |} s eq_refl _ _ _ H1) as Hp.
    unfold best_next, visit_next, p_best_next in *.
    destruct (q_pop Q q) as [[a q']|] eqn:Epop; [|now left].
    destruct Hp as (new & Hn & Hperm & Hv' & Hder & _).
    destruct (best_derived g f' s a Hder) as [Hw _].
    destruct (path_last (sp_path a)) as [vid|] eqn:El; [|now left].
    destruct (p_visit_fold a (outbound_edges g vid) (vis, q')) as [-> | (-> & v & Hv & Hni & Hu)]; [now left|].
    right. split; [reflexivity|]. exists (sp_path a ++ [v]). split; [|exact Hu].
    destruct (H2 a) as [Hnd Hinc].
    { cbn [snd]. rewrite in_app_iff, Hperm. right. now left. }
    cbn [fst] in *. apply in_map_iff in Hv as ([x y] & Hy & Hin). cbn [snd] in Hy. subst y.
    pose proof Hin as Hin'. apply outbound_In in Hin as [-> _]. apply gE_outbound in Hin'; [|assumption].
    split.
    - apply walk_from_snoc. right. exists vid. split; assumption.
    - apply NoDup_snoc. split; [assumption|]. intro Hx. now apply Hni, Hinc.
  Qed.

  Theorem p_a_star_spec t n :
    let whole := iter_find (last_is t) (best_next Q g f') n (best_iter_from Q f' s) in
    p_a_star Q g f s t n = whole \/ (p_a_star Q g f s t n = Panic /\ simple_undefined).
  Proof.
    intro whole. unfold whole, p_a_star, p_best_iter_from. change (path_append path_empty s) with [s].
    destruct (f [s]) as [z|] eqn:E.
    - rewrite <- (Hext _ _ E).
      exact (sim_find (p_best_next Q g f) (best_next Q g f') (last_is t) (best_inv Q g f' s) simple_undefined
               p_best_step n [] _ (best_init Q g f' s)).
    - right. split; [reflexivity|]. exists [s]. split; [|exact E]. split; [|repeat constructor; intros []].
      split; [now exists []|apply chain_one].
  Qed.

  (** *** With constraints *)
  Variable cs : list constraint.

  Lemma p_constrained_fold a es : forall q,
    opt_fold (p_constrained_edge Q f cs a) es q =
      Some (push_all Q (filter (check_all_partial cs) (map (fun e => scored_child f' a (snd e)) es)) q) \/
    (opt_fold (p_constrained_edge Q f cs a) es q = None /\
     exists v, In v (map snd es) /\ f (sp_path a ++ [v]) = None).
  Proof.
    induction es as [|e es IH]; intro q; cbn [opt_fold map filter]; [now left|].
    unfold p_constrained_edge at 1 3. destruct (p_child_cases a (snd e)) as [->|[-> Hn]].
    - destruct (check_all_partial cs (scored_child f' a (snd e)));
        (match goal with |- context [opt_fold _ es ?q1] =>
           destruct (IH q1) as [H|(H & v & Hv & H2)] end;
         [left; exact H|right; split; [exact H|]; exists v; split; [now right|exact H2]]).
    - right. split; [reflexivity|]. exists (snd e). split; [now left|exact Hn].
  Qed.

  (** A walk from [s] whose score is undefined, every shorter part of which the search may extend. *)
  Definition walk_undefined : Prop := exists p, walk_from (gE g) s p /\ f p = None /\
    forall p1 p2, p = p1 ++ p2 -> p1 <> [] -> p2 <> [] -> live g f' cs s p1.

  Lemma p_constrained_step out q : cinv Q g f' cs s out q ->
    (p_constrained_next Q g f cs q = constrained_next Q g f' cs q \/
     (p_constrained_next Q g f cs q = Crash /\ walk_undefined)) /\
    match constrained_next Q g f' cs q with Yield a q' => cinv Q g f' cs s (out ++ [a]) q' | _ => True end.
  Proof.
    intro HI. pose proof (constrained_step Q g f' cs s Hwf out q HI) as Hs.
    destruct HI as [Hv Hd _ _ _].
    unfold p_constrained_next. unfold constrained_next, tree_next in *.
    destruct (q_pop Q q) as [[a q']|] eqn:Epop; [|split; [now left|exact I]].
    destruct Hs as (Hy & Hina & HI'). rewrite Hy. split; [|exact HI'].
    assert (Hda : exists p, a = node f' p /\ live g f' cs s p).
    { apply (dsc_live g f' cs s Hwf), Hd. rewrite in_app_iff. now right. }
    destruct Hda as (p & -> & Hl). pose proof (live_ne _ _ _ _ _ Hl) as Hne.
    destruct (kids_node g f' cs p Hne) as (u & Hu & Hk).
    unfold kidsl in Hy |- *. rewrite Hk in Hy |- *. cbn [node sp_path].
    pose proof Hu as Hu'. apply path_last_spec in Hu'. rewrite Hu'.
    destruct (p_constrained_fold (node f' p) (outbound_edges g u) q') as [-> | (-> & v & Hv1 & Hn)]; [now left|].
    right. split; [reflexivity|]. cbn [node sp_path] in Hn. exists (p ++ [v]).
    apply in_map_iff in Hv1 as ([x y] & Hy1 & Hin). cbn [snd] in Hy1. subst y.
    pose proof Hin as Hin'. apply outbound_In in Hin as [-> _]. apply gE_outbound in Hin'; [|assumption].
    destruct Hl as [Hw Hc].
    split; [|split; [exact Hn|]].
    - apply walk_from_snoc. right. exists u. split; [|assumption]. destruct Hw. repeat split; auto.
    - intros p1 p2 Heq Hp1 Hp2. destruct p2 as [|w p2 _] using rev_ind; [congruence|].
      rewrite app_assoc in Heq. apply app_inj_tail in Heq as [-> _]. split.
      + now apply walk_prefix in Hw.
      + intros x1 x x2 -> Hx1. apply (Hc x1 x (x2 ++ p2)); [now rewrite <- app_assoc|assumption].
  Qed.

  Theorem p_constrained_spec t n :
    let whole := iter_find (fun sp => last_is t sp && forallb (fun c => check_complete c sp) cs)
                   (constrained_next Q g f' cs) n (constrained_iter_from Q f' s) in
    p_constrained_shortest_path Q g f s t cs n = whole \/
    (p_constrained_shortest_path Q g f s t cs n = Panic /\ walk_undefined).
  Proof.
    intro whole. unfold whole, p_constrained_shortest_path, p_constrained_iter_from.
    change (path_append path_empty s) with [s].
    destruct (f [s]) as [z|] eqn:E.
    - rewrite <- (Hext _ _ E).
      exact (sim_find (p_constrained_next Q g f cs) (constrained_next Q g f' cs) _ (cinv Q g f' cs s) walk_undefined
               p_constrained_step n [] _ (constrained_init Q g f' cs s)).
    - right. split; [reflexivity|]. exists [s]. split; [|split; [exact E|]].
      + split; [now exists []|apply chain_one].
      + intros p1 p2 Heq H1 H2. destruct p1 as [|x [|y p1]]; try discriminate; [congruence|].
        injection Heq as _ Heq. now subst p2.
  Qed.
End Facts.

Lemma checked_extends cost heur : extends (checked_score cost heur) (fun p => (cost p + heur p)%Z).
Proof. intros p z. unfold checked_score. destruct (i64_ok _); congruence. Qed.
Lemma checked_none cost heur p :
  checked_score cost heur p = None <-> ~ (i64_min <= cost p + heur p <= i64_max)%Z.
Proof.
  unfold checked_score. destruct (i64_ok (cost p + heur p)) eqn:E; unfold i64_ok in E.
  - apply andb_true_iff in E as [E1 E2]. apply Z.leb_le in E1, E2. split; [discriminate|]. intro H. exfalso. auto.
  - split; [|reflexivity]. intros _ [H1 H2]. apply Z.leb_le in H1, H2. rewrite H1, H2 in E. discriminate.
Qed.
Lemma checked_wrapped cost heur : extends (checked_score cost heur) (fun p => wrap (cost p + heur p)%Z).
Proof.
  intros p z. unfold checked_score. destruct (i64_ok (cost p + heur p)) eqn:E; [|discriminate].
  unfold i64_ok in E. apply andb_true_iff in E as [E1 E2]. apply Z.leb_le in E1, E2.
  intro H. rewrite wrap_id by auto. congruence.
Qed.
Lemma wrapped_extends cost heur : extends (wrapped_score cost heur) (fun p => wrap (cost p + heur p)%Z).
Proof. intros p z. unfold wrapped_score. congruence. Qed.
