(** * Facts about the topological sort *)
From Coq Require Import List NArith ZArith Bool Permutation Lia Arith.
From Verif Require Import Spec Base WalkFacts Graph GraphSpec GraphFacts SearchFacts Topo.
Import ListNotations.

(** ** Walks without end contain a closed walk *)

Lemma not_NoDup_split (l : list N) : ~ NoDup l -> exists p x m r, l = p ++ x :: m ++ x :: r.
Proof.
  induction l as [|a l IH]; intro H; [destruct H; constructor|].
  destruct (in_dec N.eq_dec a l) as [Hi|Hi].
  - apply in_split in Hi as (m & r & ->). now exists [], a, m, r.
  - destruct IH as (p & x & m & r & ->).
    + intro Hn. apply H. now constructor.
    + now exists (a :: p), x, m, r.
Qed.

Lemma NoDup_decN (l : list N) : {NoDup l} + {~ NoDup l}.
Proof.
  induction l as [|a l [IH|IH]]; [left; constructor| |right; intro H; now inversion H].
  destruct (in_dec N.eq_dec a l); [right; intro H; now inversion H|left; now constructor].
Defined.

Lemma chain_closed (E : rel) p x m r : (forall a b, adjacent a b (p ++ x :: m ++ x :: r) -> E a b) ->
  closed_walk E (x :: m ++ [x]).
Proof.
  intro H. exists x. split; [|cbn; rewrite app_length; cbn; lia]. split; [now exists (m ++ [x])|].
  split; [now exists (x :: m)|]. intros a b (p' & q' & Hq). apply H.
  exists (p ++ p'), (q' ++ r). rewrite <- app_assoc. f_equal.
  change (p' ++ a :: b :: q' ++ r) with (p' ++ (a :: b :: q') ++ r). rewrite app_assoc, <- Hq.
  cbn. now rewrite <- app_assoc.
Qed.

Lemma acyclic_chain_NoDup (E : rel) l : acyclic E -> (forall a b, adjacent a b l -> E a b) -> NoDup l.
Proof.
  intros Ha H. destruct (NoDup_decN l) as [|Hn]; [assumption|]. exfalso.
  apply not_NoDup_split in Hn as (p & x & m & r & ->). now apply chain_closed in H; apply Ha in H.
Qed.

(** A finite set in which everybody has a predecessor contains a closed walk. *)
Lemma pred_cycle (E : rel) (D : list N) (x : N) : In x D ->
  (forall v, In v D -> exists u, In u D /\ E u v) ->
  exists l, closed_walk E l /\ incl l D.
Proof.
  intros Hx Hp.
  assert (H : forall n, exists l, length l = S n /\ incl l D /\ forall a b, adjacent a b l -> E a b).
  { induction n as [|n (l & H1 & H2 & H3)].
    - exists [x]. split; [reflexivity|]. split; [intros ? [<-|[]]; assumption|].
      intros a b Hab. now apply adjacent_one in Hab.
    - destruct l as [|v l]; [discriminate|]. destruct (Hp v) as (u & Hu & He); [apply H2; now left|].
      exists (u :: v :: l). split; [cbn in *; lia|]. split.
      + intros y [<-|Hy]; auto.
      + intros a b Hab. apply adjacent_cons in Hab as [[-> Hs]|Hab]; [|auto].
        apply starts_with_cons in Hs as ->. assumption. }
  destruct (H (length D)) as (l & H1 & H2 & H3). destruct (NoDup_decN l) as [Hn|Hn].
  - apply (NoDup_incl_length Hn) in H2. lia.
  - apply not_NoDup_split in Hn as (p & y & m & r & ->). exists (y :: m ++ [y]). split; [eapply chain_closed; exact H3|].
    intros z Hz. apply H2. rewrite in_app_iff. right. cbn in Hz. rewrite in_app_iff in Hz. cbn in Hz.
    cbn. rewrite in_app_iff. cbn. tauto.
Qed.

(** ** Kahn's loop *)
Section Kahn.
  Variable g : graph.
  Hypothesis W : wf g.

  Let E (a b : N) := gE g a b.

  (** All edges into [v] are in [rm]. *)
  Definition freed (rm : list edge) (v : N) : Prop := forall u, E u v -> In (u, v) rm.

  Lemma gE_inbound u v : E u v <-> In (u, v) (inbound_edges g v).
  Proof. unfold E, gE. rewrite contains_edge_hasE, inbound_In by assumption. tauto. Qed.

  Lemma freed_test rm v : forallb (fun x => memE x rm) (inbound_edges g v) = true <-> freed rm v.
  Proof.
    rewrite forallb_forall. unfold freed. split.
    - intros H u Hu. apply memE_In. apply H. now apply gE_inbound.
    - intros H [a b] Hx. apply memE_In. apply (inbound_In _ _ _ W) in Hx as Hx'.
      destruct Hx' as [-> _]. apply H. now apply gE_inbound.
  Qed.

  Record kinv (res q : list N) (rm : list edge) : Prop := {
    k_nodup : NoDup (res ++ q);
    k_rm : forall u v, In (u, v) rm <-> E u v /\ In u res;
    k_rm_nodup : NoDup rm;
    k_mem : forall v, In v (res ++ q) <-> In v (vertices g) /\ freed rm v;
    k_order : forall p v r, res = p ++ v :: r -> forall u, E u v -> In u p }.

  Lemma kinv_init : kinv [] (find_start_vertices g) [].
  Proof.
    constructor; cbn.
    - apply NoDup_filter. apply W.
    - intros; tauto.
    - constructor.
    - intro v. unfold find_start_vertices. rewrite filter_In. unfold is_start_vertex.
      rewrite Nat.eqb_eq. unfold freed. split; intros [H1 H2]; (split; [assumption|]).
      + intros u Hu. apply gE_inbound in Hu. apply length_zero_iff_nil in H2. now rewrite H2 in Hu.
      + destruct (inbound_edges g v) as [|[a b] l] eqn:El; [reflexivity|exfalso].
        assert (Hi : In (a, b) (inbound_edges g v)) by (rewrite El; now left).
        apply (inbound_In _ _ _ W) in Hi as Hi'. destruct Hi' as [-> _].
        now apply (H2 a), gE_inbound.
    - intros p v r H. destruct p; discriminate.
  Qed.

  Lemma hs_insert_In e x rm : In x (hs_insert e rm) <-> In x rm \/ x = e.
  Proof.
    unfold hs_insert. destruct (memE_spec e rm).
    - split; [tauto|]. intros [?| ->]; assumption.
    - rewrite in_app_iff. cbn. intuition congruence.
  Qed.
  Lemma hs_insert_NoDup e rm : NoDup rm -> NoDup (hs_insert e rm).
  Proof.
    unfold hs_insert. destruct (memE_spec e rm); [auto|]. intro H. apply NoDup_snoc; auto.
  Qed.

  (** The children loop: [seen] are the children already treated. *)
  Lemma children_inv start : forall children q rm q2 rm2,
    topo_children g children q rm = (q2, rm2) ->
    NoDup children ->
    (forall e, In e children -> fst e = start /\ E (fst e) (snd e) /\ ~ In e rm) ->
    NoDup rm ->
    NoDup rm2 /\
    (forall e, In e rm2 <-> In e rm \/ In e children) /\
    exists added, q2 = q ++ added /\ NoDup added /\
      forall v, In v added <-> (In (start, v) children /\ freed rm2 v).
  Proof.
    induction children as [|e t IH]; intros q rm q2 rm2 H Hn Hc Hr; cbn in H.
    - injection H as <- <-. split; [assumption|]. split; [cbn; intuition|].
      exists []. rewrite app_nil_r. split; [reflexivity|]. split; [constructor|]. cbn. tauto.
    - destruct e as [a v]. cbn [snd] in H.
      pose proof (Hc (a, v) (or_introl eq_refl)) as (Ha & Hav & Hrm). cbn in Ha, Hav. subst a.
      inversion Hn as [|? ? Hn1 Hn2]; subst.
      set (rm' := hs_insert (start, v) rm) in *.
      assert (Hc' : forall e, In e t -> fst e = start /\ E (fst e) (snd e) /\ ~ In e rm').
      { intros e He. destruct (Hc e (or_intror He)) as (H1 & H2 & H3).
        split; [assumption|]. split; [assumption|]. unfold rm'. rewrite hs_insert_In.
        intros [?| ->]; tauto. }
      assert (Hr' : NoDup rm') by now apply hs_insert_NoDup.
      destruct (forallb (fun x => memE x rm') (inbound_edges g v)) eqn:Ef.
      + destruct (IH _ _ _ _ H Hn2 Hc' Hr') as (I1 & I2 & added & -> & I3 & I4).
        apply freed_test in Ef. split; [assumption|]. split.
        { intro e. rewrite I2. unfold rm'. rewrite hs_insert_In. cbn. intuition congruence. }
        exists (v :: added). rewrite <- app_assoc. split; [reflexivity|]. split.
        * constructor; [|assumption]. rewrite I4. tauto.
        * intro x. cbn. rewrite I4. split.
          -- intros [<-|[H1 H2]]; [|tauto]. split; [now left|]. intros u Hu. apply I2. left. now apply Ef.
          -- intros [[H1|H1] H2]; [left; congruence|]. right. tauto.
      + destruct (IH _ _ _ _ H Hn2 Hc' Hr') as (I1 & I2 & added & -> & I3 & I4).
        split; [assumption|]. split.
        { intro e. rewrite I2. unfold rm'. rewrite hs_insert_In. cbn. intuition congruence. }
        exists added. split; [reflexivity|]. split; [assumption|]. intro x. rewrite I4. cbn. split.
        * tauto.
        * intros [[H1|H1] H2]; [|tauto]. exfalso. injection H1 as <-.
          apply not_true_iff_false in Ef. apply Ef. apply freed_test. intros u Hu.
          apply H2 in Hu. apply I2 in Hu as [Hu|Hu]; [assumption|].
          destruct (Hc' _ Hu) as (Hs & _). cbn in Hs. subst u. contradiction.
  Qed.

  Lemma kinv_step res start q rm q2 rm2 : kinv res (start :: q) rm ->
    topo_children g (filter (fun x => negb (memE x rm)) (outbound_edges g start)) q rm = (q2, rm2) ->
    kinv (res ++ [start]) q2 rm2.
  Proof.
    intros K H. destruct K as [K1 K2 K3 K4 K5].
    assert (Hs : ~ In start res).
    { apply NoDup_app_iff in K1 as (_ & _ & K1). intro Hs. apply (K1 start Hs). now left. }
    assert (Hch : filter (fun x => negb (memE x rm)) (outbound_edges g start) = outbound_edges g start).
    { apply filter_all. intros [a b] He. apply outbound_In in He as [-> _].
      apply negb_true_iff. apply not_true_iff_false. rewrite memE_In, K2. tauto. }
    rewrite Hch in H.
    assert (Hout : forall u v, In (u, v) (outbound_edges g start) <-> u = start /\ E u v).
    { intros u v. rewrite outbound_In by assumption. unfold E, gE. rewrite contains_edge_hasE by assumption.
      split; intros [-> ?]; tauto. }
    destruct (children_inv start _ _ _ _ _ H) as (I1 & I2 & added & -> & I3 & I4).
    - now apply outbound_NoDup.
    - intros [a b] He. apply Hout in He as [-> He]. cbn. split; [reflexivity|]. split; [assumption|].
      rewrite K2. tauto.
    - assumption.
    - assert (Hrm2 : forall u v, In (u, v) rm2 <-> E u v /\ In u (res ++ [start])).
      { intros u v. rewrite I2, Hout, K2, in_app_iff. cbn. intuition (subst; auto). }
      assert (Hst : In start (vertices g) /\ freed rm start).
      { apply K4. apply in_app_iff. right. now left. }
      assert (Hadd : forall v, In v added -> E start v /\ freed rm2 v /\ ~ In v (res ++ start :: q)).
      { intros v Hv. apply I4 in Hv as [H1 H2]. apply Hout in H1 as [_ H1].
        split; [assumption|]. split; [assumption|]. rewrite K4. intros [_ Hf].
        specialize (Hf start H1). apply K2 in Hf. tauto. }
      constructor.
      + rewrite <- app_assoc. cbn. change (start :: q ++ added) with ((start :: q) ++ added).
        rewrite app_assoc. apply NoDup_app_iff. split; [assumption|]. split; [assumption|].
        intros v H1 H2. apply Hadd in H2. tauto.
      + assumption.
      + assumption.
      + intro v. rewrite <- app_assoc. cbn. change (start :: q ++ added) with ((start :: q) ++ added).
        rewrite app_assoc, in_app_iff, K4. split.
        * intros [[H1 H2]|H1].
          -- split; [assumption|]. intros u Hu. apply I2. left. now apply H2.
          -- apply Hadd in H1 as (H1 & H2 & _). split; [|assumption].
             now apply (gE_vertices g W) in H1.
        * intros [H1 H2].
          destruct (in_dec (fun x y => Bool.reflect_dec _ _ (edge_eqb_spec x y)) (start, v) (outbound_edges g start)) as [Hd|Hd].
          -- right. apply I4. tauto.
          -- left. split; [assumption|]. intros u Hu. apply H2 in Hu as Hu'.
             apply I2 in Hu' as [Hu'|Hu']; [assumption|]. apply Hout in Hu' as Hu2.
             destruct Hu2 as [-> _]. contradiction.
      + intros p v r Hp u Hu. destruct (last_inv r) as [->|(r' & x & ->)].
        * apply app_inj_tail in Hp as [<- <-]. destruct Hst as [_ Hf]. apply Hf in Hu. now apply K2 in Hu.
        * change (v :: r' ++ [x]) with ((v :: r') ++ [x]) in Hp. rewrite app_assoc in Hp.
          apply app_inj_tail in Hp as [Hp _]. now apply (K5 p v r').
  Qed.

  Lemma topo_loop_spec fuel : forall res q rm, kinv res q rm ->
    length (vertices g) < fuel + length res ->
    exists res' rm', topo_loop g fuel q rm res = Done (res', rm') /\ kinv res' [] rm'.
  Proof.
    induction fuel as [|n IH]; intros res q rm K Hf.
    - destruct K as [K1 _ _ K4 _]. apply NoDup_app_iff in K1 as (K1 & _ & _).
      assert (Hi : incl res (vertices g)).
      { intros v Hv. apply K4. apply in_app_iff. now left. }
      apply (NoDup_incl_length K1) in Hi. lia.
    - cbn. destruct q as [|start q]; [now exists res, rm|].
      destruct (topo_children g _ q rm) as [q2 rm2] eqn:Ec.
      apply (kinv_step _ _ _ _ _ _ K) in Ec. apply IH; [assumption|]. rewrite app_length. cbn. lia.
  Qed.

  (** What the loop leaves behind. *)
  Lemma topo_run : exists res rm, kinv res [] rm /\
    forall n, S (length (vertices g)) <= n ->
      topo_loop g n (find_start_vertices g) [] [] = Done (res, rm).
  Proof.
    destruct (topo_loop_spec (S (length (vertices g))) [] _ [] kinv_init) as (res & rm & H1 & H2).
    { cbn. lia. }
    exists res, rm. split; [assumption|]. intros n Hn.
    assert (Hm : forall n m q rm0 res0 r, topo_loop g n q rm0 res0 = Done r -> n <= m ->
      topo_loop g m q rm0 res0 = Done r).
    { clear. induction n as [|n IH]; intros m q rm0 res0 r H Hm; [discriminate|].
      destruct m as [|m]; [lia|]. cbn in *. destruct q; [assumption|].
      destruct (topo_children g _ q rm0). apply IH; [assumption|lia]. }
    eapply Hm; eassumption.
  Qed.

  Lemma kinv_forward res rm : kinv res [] rm -> forall u v, E u v -> In v res -> before u v res.
  Proof.
    intros [K1 _ _ _ K5] u v He Hv. apply in_split in Hv as (p & r & ->).
    pose proof (K5 p v r eq_refl u He) as Hp. apply in_split in Hp as (p1 & p2 & ->).
    exists p1, p2, r. now rewrite <- app_assoc.
  Qed.

  (** Everything not listed sits behind a closed walk. *)
  Lemma kinv_rest res rm : kinv res [] rm ->
    forall v, In v (vertices g) -> ~ In v res -> exists u, ~ In u res /\ E u v.
  Proof.
    intros [K1 K2 _ K4 _] v Hv Hn. rewrite app_nil_r in K4.
    destruct (forallb (fun x => memE x rm) (inbound_edges g v)) eqn:Ef.
    - apply freed_test in Ef. exfalso. apply Hn. apply K4. tauto.
    - assert (Hx : exists x, In x (inbound_edges g v) /\ memE x rm = false).
      { clear -Ef. induction (inbound_edges g v) as [|a l IH]; [discriminate|]. cbn in Ef.
        destruct (memE a rm) eqn:Em.
        - destruct (IH Ef) as (x & H1 & H2). exists x. split; [now right|assumption].
        - exists a. split; [now left|assumption]. }
      destruct Hx as ([a b] & H1 & H2). apply (inbound_In _ _ _ W) in H1 as H1'.
      destruct H1' as [-> _]. apply gE_inbound in H1. exists a. split; [|assumption].
      intro Ha. apply not_true_iff_false in H2. apply H2. apply memE_In. apply K2. tauto.
  Qed.

  Lemma kinv_acyclic_all res rm : kinv res [] rm -> acyclic E ->
    forall v, In v (vertices g) -> In v res.
  Proof.
    intros K Ha v Hv. destruct (in_dec N.eq_dec v res) as [|Hn]; [assumption|exfalso].
    destruct (pred_cycle E (filter (fun x => negb (memN x res)) (vertices g)) v) as (l & Hl & _).
    - apply filter_In. split; [assumption|]. apply negb_true_iff. now apply memN_false.
    - intros x Hx. apply filter_In in Hx as [H1 H2]. apply negb_true_iff in H2. apply memN_false in H2.
      destruct (kinv_rest _ _ K x H1 H2) as (u & H3 & H4). exists u. split; [|assumption].
      apply filter_In. split; [now apply (gE_vertices g W) in H4|]. apply negb_true_iff. now apply memN_false.
    - now apply Ha in Hl.
  Qed.

  (** The listed part is acyclic. *)
  Lemma kinv_no_cycle res rm : kinv res [] rm -> forall l, closed_walk E l -> forall v, In v l -> ~ In v res.
  Proof.
    intros K l (s & Hw & Hl) v Hv Hr.
    destruct K as [K1 _ _ _ K5]. rewrite app_nil_r in K1.
    (* the first vertex of [res] lying on [l] *)
    assert (Hpred : forall x, In x l -> exists u, In u l /\ E u x).
    { intros x Hx. destruct Hw as (Hs & Ht & Hc). apply in_split in Hx as (p & r & ->).
      destruct (last_inv p) as [->|(p' & u & ->)].
      - cbn in *. apply starts_with_cons in Hs. subst x. destruct r as [|b r]; [cbn in Hl; lia|].
        rewrite ends_with_cons in Ht. destruct Ht as [t Ht]. rewrite Ht in Hc.
        destruct (last_inv t) as [->|(t' & u & ->)].
        + cbn in Hc. exists s. split; [now left|]. apply Hc. now exists [], [].
        + exists u. split.
          * rewrite Ht. cbn. right. apply in_app_iff. left. apply in_app_iff. right. now left.
          * apply Hc. exists (s :: t'), []. cbn. now rewrite <- app_assoc.
      - exists u. split.
        + rewrite <- app_assoc, in_app_iff. right. now left.
        + apply Hc. exists p', r. now rewrite <- app_assoc. }
    assert (Hfirst : forall p r, res = p ++ r -> forall x, In x p -> In x l -> False).
    { induction p as [|a p IH] using rev_ind; intros r Hp x Hx Hxl; [contradiction|].
      apply in_app_iff in Hx as [Hx|[<-|[]]].
      - rewrite <- app_assoc in Hp. now apply (IH _ Hp x).
      - destruct (Hpred a Hxl) as (u & Hu & He). rewrite <- app_assoc in Hp. cbn in Hp.
        pose proof (K5 p a r Hp u He) as Hup. now apply (IH _ Hp u). }
    eapply (Hfirst res []); eauto. now rewrite app_nil_r.
  Qed.
End Kahn.
