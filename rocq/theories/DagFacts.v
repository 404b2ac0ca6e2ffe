(** * Facts about the DAG shortest and longest paths *)
From Coq Require Import List NArith ZArith Bool Permutation Lia Arith.
From Verif Require Import Spec Base WalkFacts Graph GraphSpec GraphFacts Path SearchFacts Topo TopoFacts
  ShortSpec ShortFacts.
Import ListNotations.
Open Scope Z_scope.

Section Dag.
  Variables (g : graph) (w : edge -> Z) (s : N).
  Hypothesis W : wf g.

  Let E := gE g.
  Let wt (a b : N) : Z := w (a, b).

  Lemma dag_relax_done v x m m' : dag_relax w v m (v, x) = Done m' ->
    (exists sv, sc_get v m = Some sv) /\ exists b, relaxes w m v x m' b.
  Proof.
    unfold dag_relax. cbn [snd]. destruct (sc_get v m) as [sv|] eqn:Ev; [|discriminate].
    intro H. split; [eauto|]. apply obind_done in H as (we & Hwe & H). apply i64_inv in Hwe as [-> _].
    apply obind_done in H as (z & Hz & H). apply i64_inv in Hz as [-> _].
    destruct (sc_get x m) as [c|] eqn:Ex.
    - injection H as H. destruct (Z.ltb_spec (sp_score sv + w (v, x)) (sp_score c)) as [Hlt|Hge].
      + exists true. subst m'. apply relax_put; [assumption|]. intros c' Hc'.
        rewrite Ex in Hc'. injection Hc' as <-. assumption.
      + exists false. subst m'. now apply relax_keep with sv c.
    - injection H as <-. exists true. apply relax_put; [assumption|]. intros c' Hc'. congruence.
  Qed.

  Lemma inner_done v : forall es m m', (forall e, In e es -> fst e = v /\ E v (snd e) /\ snd e <> v) ->
    ofold (dag_relax w v) es m = Done m' ->
    (sound g w s m -> sound g w s m') /\ lower m m' /\
    (forall u, (forall e, In e es -> snd e <> u) -> sc_get u m' = sc_get u m) /\
    (forall x, In (v, x) es -> exists sv sx, sc_get v m = Some sv /\ sc_get x m' = Some sx /\
       sp_score sx <= sp_score sv + wt v x).
  Proof.
    induction es as [|e es IH]; intros m m' Hes H.
    - injection H as <-. split; [auto|]. split; [apply lower_refl|]. split; [reflexivity|]. intros x [].
    - cbn [ofold] in H. apply obind_done in H as (m1 & H1 & H).
      destruct (Hes e (or_introl eq_refl)) as (He1 & He2 & He3). destruct e as [a x]. cbn in He1, He2, He3. subst a.
      apply dag_relax_done in H1 as ((sv & Hsv) & b & Hr).
      destruct (IH m1 m') as (I1 & I2 & I3 & I4); [intros; apply Hes; now right|assumption|].
      split; [intro Hs; apply I1; eapply relaxes_sound; [exact He2|exact Hr|exact Hs]|].
      split; [eapply lower_trans; [eapply relaxes_lower; exact Hr|exact I2]|].
      split.
      + intros u Hu. rewrite I3 by (intros; apply Hu; now right).
        apply (relaxes_other w m v x m1 b u Hr). intros ->. now apply (Hu (v, x) (or_introl eq_refl)).
      + intros y Hy. destruct (relaxes_achieved w m v x m1 b sv Hr Hsv) as (sx & Hx1 & Hx2).
        destruct Hy as [Hy|Hy].
        * injection Hy as <-. apply I2 in Hx1 as (sx' & Hx1 & Hx3). exists sv, sx'.
          split; [assumption|]. split; [assumption|]. unfold wt. lia.
        * destruct (I4 y Hy) as (sv' & sy & H4 & H5 & H6). exists sv', sy. split; [|auto].
          rewrite <- H4. symmetry. apply (relaxes_other w m v x m1 b v Hr). congruence.
  Qed.

  Variable sfx : list N.
  Hypothesis Hnd : NoDup sfx.
  Hypothesis Hfwd : forall u x, In u sfx -> E u x -> before u x sfx.
  Hypothesis Hreach : forall u x, reachable E s u -> E u x -> In u sfx.

  Definition treated (m : scores) (u : N) : Prop :=
    forall x, E u x -> (exists su, sc_get u m = Some su) /\ settled w m u x.
  Definition dinv (D : list N) (m : scores) : Prop :=
    sound g w s m /\ rooted s m /\ forall u, In u D -> treated m u.

  Lemma before_split (u v : N) D todo : NoDup (D ++ v :: todo) -> before u v (D ++ v :: todo) -> In u D.
  Proof.
    intros Hn (p & q & r & H).
    replace (p ++ u :: q ++ v :: r) with ((p ++ u :: q) ++ v :: r) in H by now rewrite <- app_assoc.
    assert (HD : D = p ++ u :: q).
    { clear -Hn H. revert H Hn. generalize (p ++ u :: q). clear. induction D as [|a D IH]; intros l H Hn.
      - destruct l as [|b l]; [reflexivity|]. exfalso. injection H as <- H. inversion Hn as [|? ? Hn1 _].
        apply Hn1. cbn. rewrite H. apply in_app_iff. right. now left.
      - destruct l as [|b l].
        + exfalso. injection H as -> H. inversion Hn as [|? ? Hn1 _]. apply Hn1. apply in_app_iff. right. now left.
        + injection H as -> H. f_equal. apply IH; [assumption|]. now inversion Hn. }
    rewrite HD. apply in_app_iff. right. now left.
  Qed.

  Lemma later_target D v todo x : sfx = D ++ v :: todo -> E v x -> ~ In x (D ++ [v]).
  Proof.
    intros Hs He Hx. assert (Hb : before v x sfx).
    { apply Hfwd; [|assumption]. rewrite Hs. apply in_app_iff. right. now left. }
    rewrite Hs in Hb, Hnd.
    apply in_app_iff in Hx as [Hx|[<-|[]]].
    - apply in_split in Hx as (D1 & D2 & ->). rewrite <- app_assoc in Hb, Hnd. cbn in Hb, Hnd.
      apply before_split in Hb; [|assumption]. apply NoDup_app_iff in Hnd as (_ & _ & Hd).
      apply (Hd v); [assumption|]. right. apply in_app_iff. right. now left.
    - apply before_split in Hb; [|assumption]. apply NoDup_app_iff in Hnd as (_ & _ & Hd).
      apply (Hd v); [assumption|now left].
  Qed.

  Lemma dinv_step D v todo m m' : sfx = D ++ v :: todo -> dinv D m ->
    ofold (dag_relax w v) (outbound_edges g v) m = Done m' -> dinv (D ++ [v]) m'.
  Proof.
    intros Hs (I1 & I2 & I3) H.
    assert (Hes : forall e, In e (outbound_edges g v) -> fst e = v /\ E v (snd e) /\ ~ In (snd e) (D ++ [v])).
    { intros [a x] He. assert (a = v) as -> by now apply outbound_In in He.
      apply (gE_outbound g W) in He. cbn. split; [reflexivity|]. split; [assumption|].
      now apply later_target with todo. }
    destruct (inner_done v (outbound_edges g v) m m') as (J1 & J2 & J3 & J4); [|assumption|].
    { intros e He. destruct (Hes e He) as (H1 & H2 & H3). split; [assumption|]. split; [assumption|].
      intro Hv. apply H3. rewrite Hv. apply in_app_iff. right. now left. }
    assert (Hsame : forall u, In u (D ++ [v]) -> sc_get u m' = sc_get u m).
    { intros u Hu. apply J3. intros e He Heq. destruct (Hes e He) as (_ & _ & H3). apply H3. now rewrite Heq. }
    split; [auto|]. split; [now apply lower_rooted with m|].
    intros u Hu x Hx. pose proof (Hsame u Hu) as Hsu. apply in_app_iff in Hu as [Hu|[<-|[]]].
    - destruct (I3 u Hu x Hx) as ((su & H1) & H2). split; [exists su; congruence|].
      intros su' Hsu'. rewrite Hsu in Hsu'. destruct (H2 su' Hsu') as (sx & H3 & H4).
      apply J2 in H3 as (sx' & H5 & H6). exists sx'. split; [assumption|lia].
    - apply (gE_outbound g W) in Hx as Hi. destruct (J4 x Hi) as (sv & sx & H1 & H2 & H3).
      split; [exists sv; congruence|]. intros sv' Hsv'. exists sx. split; [assumption|].
      rewrite Hsu, H1 in Hsv'. injection Hsv' as <-. assumption.
  Qed.

  Lemma visit_done : forall todo D m m', sfx = D ++ todo -> dinv D m ->
    dag_visit g w todo m = Done m' -> dinv sfx m'.
  Proof.
    induction todo as [|v todo IH]; intros D m m' Hs Hi H.
    - rewrite app_nil_r in Hs. injection H as <-. now rewrite Hs.
    - unfold dag_visit in H. cbn [ofold] in H. apply obind_done in H as (m1 & H1 & H).
      apply (IH (D ++ [v]) m1 m'); [now rewrite <- app_assoc| |exact H].
      now apply (dinv_step D v todo m m1).
  Qed.

  Lemma init_dinv : dinv [] (m_init s).
  Proof. split; [apply init_sound|]. split; [apply init_rooted|]. intros u []. Qed.

  Lemma visit_answer m : dag_visit g w sfx (m_init s) = Done m ->
    shortest_answer E wt s (entry m) /\ (forall u x, In u sfx -> E u x -> reachable E s u).
  Proof.
    intro H. destruct (visit_done sfx [] (m_init s) m eq_refl init_dinv H) as (I1 & I2 & I3). split.
    - apply settled_answer; [assumption|assumption|]. intros u x He Hr.
      apply (I3 u); [|assumption]. now apply Hreach with x.
    - intros u x Hu He. destruct (I3 u Hu x He) as ((su & Hsu) & _). apply I1 in Hsu as [Hw _]. eexists. exact Hw.
  Qed.

  (** ** No panic with small weights *)
  Variable B : Z.
  Hypothesis HB0 : 0 <= B.
  Hypothesis HB : forall a b, E a b -> Z.abs (wt a b) <= B.
  Hypothesis Hsmall : B * Z.of_nat (length (vertices g) + 1) < i64_max.
  Hypothesis Hac : acyclic E.

  Lemma walk_small x l : walk_from_to E s x l -> Z.abs (weight wt l) <= B * Z.of_nat (length (vertices g)).
  Proof.
    intro Hw. pose proof (weight_bound g w B HB l s x HB0 Hw) as Hb.
    assert (Hl : (length l <= length (vertices g) + 1)%nat).
    { apply (simple_length g W s). split; [now apply walk_from_to_from with x|].
      apply acyclic_chain_NoDup with E; [assumption|]. apply Hw. }
    assert (Z.of_nat (hops l) <= Z.of_nat (length (vertices g))) by (unfold hops; lia).
    unfold wt, E in *. nia.
  Qed.

  Lemma inner_total v : forall es m, (forall e, In e es -> fst e = v /\ E v (snd e) /\ snd e <> v) ->
    sound g w s m -> (exists sv, sc_get v m = Some sv) -> exists m', ofold (dag_relax w v) es m = Done m'.
  Proof.
    induction es as [|e es IH]; intros m Hes Hso (sv & Hsv); [eexists; reflexivity|].
    destruct (Hes e (or_introl eq_refl)) as (He1 & He2 & He3). destruct e as [a x]. cbn in He1, He2, He3. subst a.
    assert (Hd : exists m1, dag_relax w v m (v, x) = Done m1).
    { unfold dag_relax. cbn [snd]. rewrite Hsv. destruct (Hso v sv Hsv) as [H1 H2].
      assert (Hw1 : Z.abs (w (v, x)) <= B) by apply (HB v x He2).
      assert (Hw2 : Z.abs (sp_score sv + w (v, x)) <= B * Z.of_nat (length (vertices g))).
      { pose proof (walk_small x _ (walk_snoc _ H1 He2)) as Hws.
        rewrite (weight_snoc _ x (proj1 (proj2 H1))) in Hws. unfold wt in Hws. rewrite <- H2. exact Hws. }
      rewrite i64_done by (apply (i64_small _ B); [assumption|nia]). cbn [obind].
      rewrite i64_done by (apply (i64_small _ _ Hw2); nia). cbn [obind].
      destruct (sc_get x m); eauto. }
    destruct Hd as (m1 & Hm1). cbn [ofold]. rewrite Hm1. cbn [obind].
    apply dag_relax_done in Hm1 as (_ & b & Hr). apply IH.
    - intros e' He'. apply Hes. now right.
    - eapply relaxes_sound; [exact He2|exact Hr|exact Hso].
    - exists sv. rewrite (relaxes_other w m v x m1 b v Hr) by congruence. assumption.
  Qed.

  Lemma visit_total : (forall u x, In u sfx -> E u x -> reachable E s u) ->
    forall todo D m, sfx = D ++ todo -> dinv D m -> exists m', dag_visit g w todo m = Done m'.
  Proof.
    intro Hall. induction todo as [|v todo IH]; intros D m Hs Hi; [eexists; reflexivity|].
    assert (Hes : forall e, In e (outbound_edges g v) -> fst e = v /\ E v (snd e) /\ snd e <> v).
    { intros [a x] He. assert (a = v) as -> by now apply outbound_In in He.
      apply (gE_outbound g W) in He. cbn. split; [reflexivity|]. split; [assumption|].
      intros ->. apply (later_target D v todo v Hs He). apply in_app_iff. right. now left. }
    assert (H1 : exists m1, ofold (dag_relax w v) (outbound_edges g v) m = Done m1).
    { destruct (outbound_edges g v) as [|e es] eqn:Eo; [eexists; reflexivity|].
      apply inner_total; [exact Hes|apply Hi|].
      destruct (Hes e (or_introl eq_refl)) as (_ & He & _).
      assert (Hv : In v sfx) by (rewrite Hs; apply in_app_iff; right; now left).
      destruct (Hall v _ Hv He) as [l Hl]. apply walk_inv in Hl as [[_ <-]|(l' & u & _ & Hwu & Heu)].
      - destruct Hi as (_ & (c & Hc & _) & _). eauto.
      - assert (Hu : In u D).
        { assert (Hu : In u sfx) by (apply Hreach with v; [now exists l'|assumption]).
          apply (before_split u v D todo); [now rewrite <- Hs|]. rewrite <- Hs. now apply Hfwd. }
        destruct Hi as (_ & _ & I3). destruct (I3 u Hu v Heu) as ((su & Hsu) & Hset).
        destruct (Hset su Hsu) as (sv & Hsv & _). eauto. }
    destruct H1 as (m1 & Hm1). unfold dag_visit. cbn [ofold]. rewrite Hm1. cbn [obind].
    apply (IH (D ++ [v])); [now rewrite <- app_assoc|]. now apply (dinv_step D v todo m m1).
  Qed.
End Dag.

(** The visit either finishes or panics. *)
Lemma ofold_outcome {A S} (f : S -> A -> outcome S) l : (forall s a, f s a <> OutOfFuel) ->
  forall s, ofold f l s <> OutOfFuel.
Proof.
  intro Hf. induction l as [|a l IH]; intros s; cbn; [discriminate|].
  specialize (Hf s a). destruct (f s a); cbn; [apply IH|discriminate|contradiction].
Qed.
Lemma i64_outcome z : i64 z <> OutOfFuel.
Proof. unfold i64. destruct (i64_ok z); discriminate. Qed.
Lemma visit_outcome g w order m : dag_visit g w order m <> OutOfFuel.
Proof.
  unfold dag_visit. apply ofold_outcome. intros m' v. apply ofold_outcome. clear. intros m e.
  unfold dag_relax. destruct (sc_get v m) as [sv|]; [|discriminate].
  pose proof (i64_outcome (w e)) as H. destruct (i64 (w e)) as [we| |]; [|discriminate|contradiction].
  cbn. pose proof (i64_outcome (sp_score sv + we)) as H'.
  destruct (i64 (sp_score sv + we)); [|discriminate|contradiction]. cbn.
  destruct (sc_get (snd e) m); discriminate.
Qed.

(** ** The part of the order from the start on *)
Lemma skip_while_spec (s : N) l :
  (~ In s l /\ skip_while (fun v => negb (N.eqb v s)) l = []) \/
  (exists p q, l = p ++ s :: q /\ skip_while (fun v => negb (N.eqb v s)) l = s :: q).
Proof.
  induction l as [|a l IH]; [left; cbn; tauto|]. cbn [skip_while].
  destruct (N.eqb_spec a s) as [->|Hne]; cbn [negb].
  - right. now exists [], l.
  - destruct IH as [[H1 H2]|(p & q & -> & H2)].
    + left. split; [|assumption]. intros [?|?]; contradiction.
    + right. exists (a :: p), q. split; [reflexivity|assumption].
Qed.

Lemma before_suffix (u x : N) p q : NoDup (p ++ q) -> In u q -> before u x (p ++ q) -> before u x q.
Proof.
  induction p as [|a p IH]; intros Hn Hu Hb; [assumption|]. cbn in *. inversion Hn as [|? ? Hn1 Hn2]; subst.
  apply IH; [assumption|assumption|]. destruct Hb as (p1 & q1 & r1 & H). destruct p1 as [|b p1].
  - injection H as -> H. exfalso. apply Hn1. apply in_app_iff. now right.
  - injection H as -> H. now exists p1, q1, r1.
Qed.

Section Order.
  Variables (g : graph) (s : N) (order : list N).
  Hypothesis W : wf g.
  Hypothesis Henum : enumerates order (fun v => contains_vertex g v = true).
  Hypothesis Hforward : forall u v, gE g u v -> before u v order.
  Let sfx := skip_while (fun v => negb (N.eqb v s)) order.

  Lemma sfx_nodup : NoDup sfx.
  Proof.
    destruct Henum as [Hn _]. unfold sfx. destruct (skip_while_spec s order) as [[_ ->]|(p & q & Hp & ->)]; [constructor|].
    rewrite Hp in Hn. now apply NoDup_app_iff in Hn as (_ & Hn & _).
  Qed.
  Lemma sfx_forward u x : In u sfx -> gE g u x -> before u x sfx.
  Proof.
    destruct Henum as [Hn _]. unfold sfx. destruct (skip_while_spec s order) as [[_ ->]|(p & q & Hp & ->)]; [intros []|].
    intros Hu He. apply Hforward in He. rewrite Hp in He, Hn. now apply before_suffix with p.
  Qed.
  Lemma sfx_reach u x : reachable (gE g) s u -> gE g u x -> In u sfx.
  Proof.
    intros Hr He.
    assert (Hs : starts_with s sfx).
    { assert (Hs : In s order).
      { apply Henum. apply vertices_In. destruct Hr as [l Hl]. destruct Hl as ([t ->] & Ht & Hadj).
        destruct t as [|b t].
        - apply ends_with_one in Ht. subst. now apply (gE_vertices g W) in He.
        - apply (gE_vertices g W s b). apply Hadj. now exists [], t. }
      unfold sfx. destruct (skip_while_spec s order) as [[H _]|(p & q & Hp & ->)]; [contradiction|]. now exists q. }
    clear He. destruct Hr as [l Hl]. revert u Hl. induction l as [|y l IH] using rev_ind; intros u Hl.
    - now apply walk_nonempty in Hl.
    - apply walk_inv in Hl as [[_ <-]|(l' & v & Heq & Hwv & He)]; [now apply starts_with_In|].
      apply app_inj_tail in Heq as [-> ->]. apply IH in Hwv. apply sfx_forward in He; [|assumption].
      destruct He as (p & q & r & ->). apply in_app_iff. right. right. apply in_app_iff. right. now left.
  Qed.
  Lemma sfx_In u : In u sfx <-> In s order /\ (u = s \/ before s u order).
  Proof.
    destruct Henum as [Hn _]. unfold sfx. destruct (skip_while_spec s order) as [[H ->]|(p & q & Hp & ->)].
    - split; [intros []|tauto].
    - split.
      + intro Hu. split; [rewrite Hp; apply in_app_iff; right; now left|]. destruct Hu as [<-|Hu]; [now left|right].
        apply in_split in Hu as (q1 & q2 & ->). now exists p, q1, q2.
      + intros [_ [->|Hb]]; [now left|]. rewrite Hp in Hb, Hn. apply before_suffix in Hb; [|assumption|now left].
        destruct Hb as (p1 & q1 & r1 & ->). apply in_app_iff. right. right. apply in_app_iff. right. now left.
  Qed.
End Order.

(** ** Negation *)
Lemma weight_neg (w : N -> N -> Z) l : weight (fun a b => -1 * w a b) l = - weight w l.
Proof.
  induction l as [|a l IH]; [reflexivity|]. destruct l as [|b l]; [reflexivity|].
  rewrite !weight_cons, IH. lia.
Qed.
Lemma negate_get m : forall m', negate_scores m = Done m' -> forall x,
  match sc_get x m with
  | Some sp => sc_get x m' = Some (scored_path_of (sp_path sp) (- sp_score sp))
  | None => sc_get x m' = None
  end.
Proof.
  unfold sc_get. induction m as [|[v sp] m IH]; intros m' H x.
  - injection H as <-. reflexivity.
  - cbn [negate_scores] in H. apply obind_done in H as (z & Hz & H). apply i64_inv in Hz as [-> _].
    apply obind_done in H as (t & Ht & H). injection H as <-. specialize (IH t Ht x). cbn [hm_get].
    destruct (N.eqb_spec x v) as [->|]; [|assumption]. reflexivity.
Qed.
Lemma negate_done m : (forall x sp, In (x, sp) m -> i64_min < sp_score sp <= i64_max) ->
  exists m', negate_scores m = Done m'.
Proof.
  induction m as [|[v sp] m IH]; intro H; [eexists; reflexivity|]. cbn [negate_scores].
  pose proof (H v sp (or_introl eq_refl)) as Hv.
  rewrite i64_done by (unfold i64_min, i64_max in *; lia). cbn [obind].
  destruct IH as (m' & ->); [intros; apply (H x); now right|]. cbn. eauto.
Qed.
