(** * Facts about Bellman-Ford and SPFA *)
From Coq Require Import List NArith ZArith Bool Permutation Lia Arith.
From Verif Require Import Spec Base WalkFacts Graph GraphSpec GraphFacts Path SearchFacts IterFacts Topo TopoFacts
  ShortSpec ShortFacts PropTopo.
Import ListNotations.
Open Scope Z_scope.

Lemma scale_small B (a b : nat) M : 0 <= B -> (a <= b)%nat -> B * Z.of_nat b < M -> B * Z.of_nat a < M.
Proof.
  intros HB Hab H. assert (B * Z.of_nat a <= B * Z.of_nat b) by (apply Z.mul_le_mono_nonneg_l; lia). lia.
Qed.

Section Bellman.
  Variables (g : graph) (w : edge -> Z) (s : N) (B : Z).
  Hypothesis W : wf g.
  Let E := gE g.
  Let wt (a b : N) : Z := w (a, b).
  Hypothesis HB0 : 0 <= B.
  Hypothesis HB : forall a b, E a b -> Z.abs (wt a b) <= B.

  Definition within (k : nat) (m : scores) : Prop :=
    forall x sp, sc_get x m = Some sp -> Z.abs (sp_score sp) <= B * Z.of_nat k.
  Lemma within_le k k' m : (k <= k')%nat -> within k m -> within k' m.
  Proof. intros Hk H x sp Hx. specialize (H x sp Hx). nia. Qed.

  (** One edge, with room for one more addition. *)
  Lemma relax_within k m u x : E u x -> within k m -> B * Z.of_nat (S k) < i64_max ->
    exists m' b, relax w m (u, x) = Done (m', b) /\ relaxes w m u x m' b /\ within (S k) m'.
  Proof.
    intros He Hk Hmax.
    assert (Hsum : forall su, sc_get u m = Some su -> Z.abs (sp_score su + wt u x) <= B * Z.of_nat (S k)).
    { intros su Hsu. specialize (Hk u su Hsu). specialize (HB u x He). nia. }
    destruct (relax_done w m u x) as (m' & b & Hr).
    { intros su Hsu. apply (i64_small _ _ (Hsum su Hsu) Hmax). }
    exists m', b. split; [assumption|].
    assert (Hrx : relaxes w m u x m' b).
    { apply relax_relaxes; [|assumption]. intros _ su Hsu. specialize (Hsum su Hsu). unfold wt in Hsum. lia. }
    split; [assumption|]. destruct Hrx as [H|su c H1 H2 H3|su H1 H2].
    - apply within_le with k; [lia|assumption].
    - apply within_le with k; [lia|assumption].
    - intros y sp Hy. unfold improved in Hy. rewrite sc_get_put in Hy.
      destruct (N.eqb_spec y x) as [->|].
      + injection Hy as <-. cbn [scored_path_of sp_score]. now apply Hsum.
      + specialize (Hk y sp Hy). nia.
  Qed.

  Lemma pass_spec : forall es k m, (forall a b, In (a, b) es -> E a b) -> sound g w s m -> within k m ->
    B * Z.of_nat (k + length es) < i64_max ->
    exists m', ofold (fun m e => obind (relax w m e) (fun r => Done (fst r))) es m = Done m' /\
      sound g w s m' /\ within (k + length es) m' /\ lower m m' /\
      forall u x, In (u, x) es -> forall su, sc_get u m = Some su ->
        exists sx, sc_get x m' = Some sx /\ sp_score sx <= sp_score su + wt u x.
  Proof.
    induction es as [|[u x] es IH]; intros k m Hes Hs Hk Hmax.
    - exists m. split; [reflexivity|]. split; [assumption|]. rewrite Nat.add_0_r. split; [assumption|].
      split; [apply lower_refl|]. intros u x [].
    - cbn [length] in Hmax. replace (k + S (length es))%nat with (S k + length es)%nat in * by lia.
      destruct (relax_within k m u x) as (m1 & b & H1 & H2 & H3); [apply Hes; now left|assumption|nia|].
      assert (Hs1 : sound g w s m1).
      { eapply relaxes_sound; [apply Hes; now left|exact H2|exact Hs]. }
      destruct (IH (S k) m1) as (m' & I1 & I2 & I3 & I4 & I5); try assumption.
      { intros a c Hac. apply Hes. now right. }
      pose proof (relaxes_lower _ _ _ _ _ _ H2) as Hl1.
      exists m'. cbn [ofold]. rewrite H1. cbn [obind fst]. split; [assumption|]. split; [assumption|].
      replace (k + length ((u, x) :: es))%nat with (S k + length es)%nat by (cbn; lia). split; [assumption|].
      split; [eapply lower_trans; eassumption|].
      intros a c Hac sa Hsa. destruct Hac as [Hac|Hac].
      + injection Hac as <- <-. destruct (relaxes_achieved _ _ _ _ _ _ _ H2 Hsa) as (sx & Hx1 & Hx2).
        apply I4 in Hx1 as (sx' & Hx3 & Hx4). exists sx'. split; [assumption|]. unfold wt in *. lia.
      + apply Hl1 in Hsa as (sa' & Ha1 & Ha2). destruct (I5 a c Hac sa' Ha1) as (sc & H4 & H5).
        exists sc. split; [assumption|lia].
  Qed.

  (** After [n] passes every walk of at most [n] edges is accounted for. *)
  Definition covers (n : nat) (m : scores) : Prop := forall l x, walk_from_to E s x l -> (hops l <= n)%nat ->
    exists sx, sc_get x m = Some sx /\ sp_score sx <= weight wt l.

  Let ne := length (edges g).
  Lemma edges_E a b : In (a, b) (edges g) <-> E a b.
  Proof. symmetry. now apply gE_edges. Qed.

  Lemma passes_spec : forall n j m, sound g w s m -> within (j * ne) m -> covers j m ->
    B * Z.of_nat ((j + n) * ne) < i64_max ->
    exists m', bf_passes g w n m = Done m' /\ sound g w s m' /\ within ((j + n) * ne) m' /\ covers (j + n) m'.
  Proof.
    induction n as [|n IH]; intros j m Hs Hk Hc Hmax.
    - exists m. rewrite Nat.add_0_r. split; [reflexivity|]. auto.
    - destruct (pass_spec (edges g) (j * ne) m) as (m1 & H1 & H2 & H3 & H4 & H5).
      + intros a b. apply edges_E.
      + assumption.
      + assumption.
      + change (length (edges g)) with ne. replace (j * ne + ne)%nat with (S j * ne)%nat by lia.
        apply scale_small with ((j + S n) * ne)%nat; [assumption| |assumption].
        apply Nat.mul_le_mono_r. lia.
      + change (length (edges g)) with ne in H3. destruct (IH (S j) m1) as (m' & I1 & I2 & I3 & I4).
        * assumption.
        * replace (S j * ne)%nat with (j * ne + ne)%nat by lia. assumption.
        * intros l x Hw Hl. apply walk_inv in Hw as Hinv. destruct Hinv as [[Hl0 Hx]|(l' & u & Hl0 & Hwu & He)].
          -- destruct (Hc l x Hw) as (sx & Hx1 & Hx2); [rewrite Hl0; cbn; lia|].
             apply H4 in Hx1 as (sx' & Hx3 & Hx4). exists sx'. split; [assumption|lia].
          -- subst l. rewrite hops_snoc in Hl by (eapply walk_nonempty; exact Hwu).
             destruct (Hc l' u Hwu) as (su & Hu1 & Hu2); [lia|].
             destruct (H5 u x (proj2 (edges_E u x) He) su Hu1) as (sx & Hx1 & Hx2).
             exists sx. split; [assumption|]. rewrite (weight_snoc _ x (proj1 (proj2 Hwu))). lia.
        * replace (S j + n)%nat with (j + S n)%nat by lia. assumption.
        * exists m'. cbn [bf_passes]. unfold bf_pass. rewrite H1. cbn [obind].
          replace (j + S n)%nat with (S j + n)%nat by lia. auto.
  Qed.

  Lemma init_covers : covers 0 (m_init s).
  Proof.
    intros l x Hw Hl. apply walk_inv in Hw as [[-> <-]|(l' & u & -> & Hwu & He)].
    - exists (scored_path_of_one s 0). rewrite init_get, N.eqb_refl. split; [reflexivity|cbn; lia].
    - rewrite hops_snoc in Hl by (eapply walk_nonempty; exact Hwu). lia.
  Qed.
  Lemma init_within k : within k (m_init s).
  Proof.
    intros x sp H. rewrite init_get in H. destruct (N.eqb x s); [|discriminate]. injection H as <-. cbn. nia.
  Qed.

  Lemma check_spec : forall es k m, (forall a b, In (a, b) es -> E a b) -> within k m ->
    B * Z.of_nat (S k) < i64_max ->
    exists b, bf_check w es m = Done b /\
      if b then exists u x su, In (u, x) es /\ sc_get u m = Some su /\
              forall sx, sc_get x m = Some sx -> sp_score su + wt u x < sp_score sx
      else forall u x, In (u, x) es -> settled w m u x.
  Proof.
    induction es as [|[u x] es IH]; intros k m Hes Hk Hmax.
    - exists false. split; [reflexivity|]. intros u x [].
    - destruct (relax_within k m u x) as (m1 & b & H1 & H2 & H3); [apply Hes; now left|assumption|nia|].
      cbn [bf_check]. rewrite H1. cbn [obind snd]. destruct b.
      + exists true. split; [reflexivity|]. inversion H2 as [| |su Hsu Hx]; subst.
        exists u, x, su. split; [now left|]. split; assumption.
      + assert (Hset : settled w m u x).
        { intros su Hsu. inversion H2 as [Hn|su' c Hsu' Hc Hle|]; subst; [congruence|].
          exists c. split; [assumption|]. congruence. }
        destruct (IH k m) as (b & Hb & Hb2); [intros; apply Hes; now right|assumption|assumption|].
        exists b. split; [assumption|]. destruct b.
        * destruct Hb2 as (a & c & sa & Hin & Hrest). exists a, c, sa. split; [now right|assumption].
        * intros a c [Hac|Hac]; [injection Hac as <- <-; assumption|]. now apply Hb2.
  Qed.

  Lemma simple_hops x l : simple_from_to E s x l -> (hops l <= length (vertices g) - 1)%nat.
  Proof.
    intros [Hw Hn]. destruct l as [|a [|b l]]; [cbn; lia|cbn; lia|].
    assert (Hi : incl (a :: b :: l) (vertices g)).
    { intros v Hv. destruct Hw as (_ & _ & Hadj). destruct Hv as [<-|Hv].
      - apply (gE_vertices g W a b). apply Hadj. now exists [], l.
      - apply in_split in Hv as (p & q & Hp).
        destruct (last_inv (a :: p)) as [Hbad|(p' & z & Hz)]; [discriminate|].
        apply (gE_vertices g W z v). apply Hadj. exists p', q. change (a :: b :: l) with ([a] ++ b :: l).
        rewrite Hp. cbn. change (a :: p ++ v :: q) with ((a :: p) ++ v :: q). rewrite Hz, <- app_assoc. reflexivity. }
    apply (NoDup_incl_length Hn) in Hi. unfold hops. lia.
  Qed.

  Theorem bellman_ford_spec : B * Z.of_nat (length (vertices g) * ne + 1) < i64_max ->
    exists r, bellman_ford g w s = Done r /\
      match r with
      | Some m => shortest_answer E wt s (entry m) /\ no_negative E wt s
      | None => exists x l, reachable E s x /\ walk_from_to E x x l /\ weight wt l < 0
      end.
  Proof.
    intro Hmax. set (n := (length (vertices g) - 1)%nat).
    destruct (passes_spec n 0 (m_init s)) as (m & H1 & H2 & H3 & H4).
    - apply init_sound.
    - apply init_within.
    - apply init_covers.
    - cbn [Nat.add]. apply scale_small with (length (vertices g) * ne + 1)%nat; [assumption| |assumption].
      assert (n * ne <= length (vertices g) * ne)%nat by (apply Nat.mul_le_mono_r; unfold n; lia). lia.
    - cbn [Nat.add] in H3, H4.
      destruct (check_spec (edges g) (n * ne) m) as (b & Hb1 & Hb2).
      + intros a c. apply edges_E.
      + assumption.
      + apply scale_small with (length (vertices g) * ne + 1)%nat; [assumption| |assumption].
        assert (n * ne <= length (vertices g) * ne)%nat by (apply Nat.mul_le_mono_r; unfold n; lia). lia.
      + unfold bellman_ford. rewrite vertex_count_len. fold (m_init s). fold n. rewrite H1. cbn [obind].
        rewrite Hb1. cbn [obind]. eexists. split; [reflexivity|]. destruct b.
        * destruct Hb2 as (u & x & su & Hin & Hsu & Hx). apply edges_E in Hin.
          destruct (H2 u su Hsu) as [Hw1 Hw2].
          pose proof (walk_snoc _ Hw1 Hin) as Hw.
          destruct (cut_cycles g w s _ _ x (le_n _) Hw) as [(l' & Hl1 & Hl2)|(y & c & Hc)]; [exfalso|exists y, c; exact Hc].
          destruct (H4 l' x (proj1 Hl1)) as (sx & Hsx1 & Hsx2).
          { now apply simple_hops with x. }
          rewrite (weight_snoc _ x (proj1 (proj2 Hw1))), Hw2 in Hl2. specialize (Hx sx Hsx1). unfold wt in *. lia.
        * assert (Hroot : rooted s m).
          { destruct (H4 [s] s (walk_one _ s)) as (c & Hc1 & Hc2); [cbn; lia|]. exists c. split; [assumption|].
            cbn in Hc2. lia. }
          assert (Hset : forall u x, gE g u x -> reachable (gE g) s u -> settled w m u x).
          { intros u x He _. apply Hb2. now apply edges_E. }
          split; [now apply settled_answer|]. eapply settled_no_negative; eassumption.
  Qed.
End Bellman.

(** ** SPFA *)
Section Spfa.
  Variables (g : graph) (w : edge -> Z) (s : N) (B : Z).
  Hypothesis W : wf g.
  Let E := gE g.
  Let wt (a b : N) : Z := w (a, b).
  Hypothesis HB0 : 0 <= B.
  Hypothesis HB : forall a b, E a b -> Z.abs (wt a b) <= B.
  Hypothesis Hmax : B * Z.of_nat (length (vertices g) + 1) < i64_max.

  (** Keys of the map and an upper bound of the scores by their number. *)
  Definition keys_ok (m : scores) : Prop :=
    NoDup (map fst m) /\ incl (map fst m) (s :: vertices g) /\
    forall x sp, sc_get x m = Some sp -> sp_score sp <= B * Z.of_nat (length m).

  Lemma sc_put_keys x sp m : map fst (sc_put x sp m) =
    match sc_get x m with Some _ => map fst m | None => map fst m ++ [x] end.
  Proof.
    pose proof (hm_keys_insert _ N.eqb_spec x sp m) as H. unfold hm_keys, hm_mem in H.
    unfold sc_put, sc_get. rewrite H. destruct (hm_get N.eqb x m); reflexivity.
  Qed.
  Lemma sc_get_key x m : sc_get x m = None -> ~ In x (map fst m).
  Proof. intros H Hi. apply (hm_get_in_keys _ N.eqb_spec x m) in Hi. contradiction. Qed.
  Lemma sc_put_length x sp m : length (sc_put x sp m) =
    (match sc_get x m with Some _ => length m | None => S (length m) end)%nat.
  Proof.
    rewrite <- (map_length fst). rewrite sc_put_keys. destruct (sc_get x m).
    - apply map_length.
    - rewrite app_length, map_length. cbn. lia.
  Qed.

  Lemma keys_len m x : keys_ok m -> In x (s :: vertices g) -> sc_get x m = None ->
    (length m + 1 <= length (vertices g) + 1)%nat.
  Proof.
    intros (K1 & K2 & _) Hx Hn. apply sc_get_key in Hn.
    assert (Hd : NoDup (x :: map fst m)) by now constructor.
    apply (NoDup_incl_length (l' := s :: vertices g)) in Hd; [cbn in Hd; rewrite map_length in Hd; lia|].
    intros y [<-|Hy]; auto.
  Qed.
  Lemma target_key u x : E u x -> In x (s :: vertices g).
  Proof. intro He. right. now apply (gE_vertices g W) in He. Qed.

  Lemma relax_max m u x su : keys_ok m -> E u x -> sc_get x m = None -> sc_get u m = Some su ->
    sp_score su + wt u x < i64_max.
  Proof.
    intros K He Hx Hu. pose proof (keys_len m x K (target_key u x He) Hx) as Hl.
    destruct K as (_ & _ & K3). specialize (K3 u su Hu). specialize (HB u x He).
    assert (B * Z.of_nat (length m + 1) <= B * Z.of_nat (length (vertices g) + 1)) by nia. nia.
  Qed.
  Lemma relaxes_keys m u x m' b : keys_ok m -> E u x -> relaxes w m u x m' b -> keys_ok m'.
  Proof.
    intros K He Hr. destruct Hr as [|su c _ _ _|su Hu Hx]; [assumption|assumption|].
    pose proof K as (K1 & K2 & K3). unfold improved.
    split; [|split].
    - rewrite sc_put_keys. destruct (sc_get x m) eqn:Ex; [assumption|].
      apply NoDup_snoc. split; [assumption|now apply sc_get_key].
    - rewrite sc_put_keys. destruct (sc_get x m) eqn:Ex; [assumption|].
      intros y Hy. apply in_app_iff in Hy as [Hy|[<-|[]]]; [auto|]. now apply (target_key u).
    - intros y sp Hy. rewrite sc_get_put in Hy. rewrite sc_put_length.
      destruct (N.eqb_spec y x) as [->|Hne].
      + injection Hy as <-. cbn [scored_path_of sp_score]. destruct (sc_get x m) as [c|] eqn:Ex.
        * specialize (Hx c eq_refl). specialize (K3 x c Ex). lia.
        * specialize (K3 u su Hu). specialize (HB u x He). unfold wt in *. nia.
      + specialize (K3 y sp Hy). destruct (sc_get x m); nia.
  Qed.

  (** ** What holds whenever SPFA returns *)
  Definition qinv (m : scores) (q : list N) (v : N) (todo : list edge) : Prop :=
    forall u su, sc_get u m = Some su -> In u q \/
      forall x, E u x -> (u = v /\ In (u, x) todo) \/
        exists sx, sc_get x m = Some sx /\ sp_score sx <= sp_score su + wt u x.
  Definition base (m : scores) : Prop := sound g w s m /\ rooted s m /\ keys_ok m.

  Lemma qinv_step m q v x todo m' b : base m -> E v x ->
    qinv m q v ((v, x) :: todo) -> relaxes w m v x m' b ->
    base m' /\ qinv m' (if b then q ++ [x] else q) v todo.
  Proof.
    intros (B1 & B2 & B3) He Hq Hr. split.
    { split; [eapply relaxes_sound; eassumption|]. split; [|eapply relaxes_keys; eassumption].
      eapply lower_rooted; [eapply relaxes_lower; exact Hr|assumption]. }
    destruct Hr as [Hv|sv c Hv Hx Hle|sv Hv Hx].
    - intros u su Hu. destruct (Hq u su Hu) as [?|H]; [now left|right]. intros y Hy.
      destruct (H y Hy) as [[-> Hin]|H']; [congruence|right; assumption].
    - intros u su Hu. destruct (Hq u su Hu) as [?|H]; [now left|right]. intros y Hy.
      destruct (H y Hy) as [[-> [Hin|Hin]]|H'].
      + injection Hin as <-. right. exists c. split; [assumption|]. rewrite Hv in Hu. injection Hu as <-. assumption.
      + left. now split.
      + right. assumption.
    - intros u su Hu. unfold improved in Hu. rewrite sc_get_put in Hu.
      destruct (N.eqb_spec u x) as [->|Hne]; [left; apply in_app_iff; right; now left|].
      destruct (Hq u su Hu) as [?|H]; [left; apply in_app_iff; now left|right]. intros y Hy.
      unfold improved. setoid_rewrite sc_get_put. destruct (N.eqb_spec y x) as [->|Hyx].
      + right. eexists. split; [reflexivity|]. cbn [scored_path_of sp_score].
        destruct (H x Hy) as [[-> _]|(sx & H1 & H2)].
        * rewrite Hv in Hu. injection Hu as ->. unfold wt. lia.
        * specialize (Hx sx H1). unfold wt in *. lia.
      + destruct (H y Hy) as [[-> [Hin|Hin]]|H'].
        * congruence.
        * left. now split.
        * right. assumption.
  Qed.

  Lemma spfa_edges_done v : forall es m q m' q',
    (forall e, In e es -> fst e = v /\ E v (snd e)) -> base m -> qinv m q v es ->
    ofold (spfa_edge w) es (m, q) = Done (m', q') -> base m' /\ qinv m' q' v [].
  Proof.
    induction es as [|[a x] es IH]; intros m q m' q' Hes Hb Hq H.
    - injection H as <- <-. split; assumption.
    - destruct (Hes (a, x) (or_introl eq_refl)) as [Ha He]. cbn in Ha, He. subst a.
      cbn [ofold] in H. apply obind_done in H as ([m1 q1] & H1 & H).
      unfold spfa_edge in H1. cbn [fst snd] in H1. apply obind_done in H1 as ([m2 b] & H1 & H2).
      assert (Hr : relaxes w m v x m2 b).
      { apply relax_relaxes; [|assumption]. intros Hx su Hu. apply (relax_max m v x su); [apply Hb|assumption..]. }
      destruct (qinv_step m q v x es m2 b Hb He Hq Hr) as [Hb2 Hq2].
      apply (IH m1 q1); [intros; apply Hes; now right| | |assumption];
        destruct b; cbn [fst snd] in H2; injection H2 as <- <-; assumption.
  Qed.

  Lemma out_es v e : In e (outbound_edges g v) -> fst e = v /\ E v (snd e).
  Proof.
    destruct e as [a x]. intro He. assert (a = v) as -> by now apply outbound_In in He.
    split; [reflexivity|]. now apply (gE_outbound g W).
  Qed.
  Lemma qinv_pop m q v : qinv m (v :: q) v [] -> qinv m q v (outbound_edges g v).
  Proof.
    intros H u su Hu. destruct (H u su Hu) as [[<-|Hin]|H'].
    - right. intros x Hx. left. split; [reflexivity|]. now apply (gE_outbound g W).
    - now left.
    - right. intros x Hx. destruct (H' x Hx) as [[_ []]|]. now right.
  Qed.
  Lemma qinv_any m q v v' : qinv m q v [] -> qinv m q v' [].
  Proof.
    intros H u su Hu. destruct (H u su Hu) as [|H']; [now left|right]. intros x Hx.
    destruct (H' x Hx) as [[_ []]|]. now right.
  Qed.

  Lemma spfa_loop_done fuel : forall m q v m', base m -> qinv m q v [] ->
    spfa_loop g w fuel (m, q) = Done m' -> base m' /\ qinv m' [] v [].
  Proof.
    induction fuel as [|n IH]; intros m q v m' Hb Hq H; [discriminate|].
    cbn [spfa_loop fst snd] in H. destruct q as [|y q]; [injection H as <-; split; assumption|].
    apply obind_done in H as ([m1 q1] & H1 & H).
    apply spfa_edges_done with (v := y) in H1 as [H2 H3].
    - apply (IH m1 q1); [assumption|now apply qinv_any with y|assumption].
    - apply out_es.
    - assumption.
    - apply qinv_pop. now apply qinv_any with v.
  Qed.

  Lemma init_base : base (m_init s).
  Proof.
    split; [apply init_sound|]. split; [apply init_rooted|]. split; [|split].
    - cbn. constructor; [tauto|constructor].
    - intros x [<-|[]]. now left.
    - intros x sp H. rewrite init_get in H. destruct (N.eqb x s); [|discriminate]. injection H as <-. cbn. nia.
  Qed.
  Lemma init_qinv v : qinv (m_init s) [s] v [].
  Proof.
    intros u su H. rewrite init_get in H. destruct (N.eqb_spec u s) as [->|]; [|discriminate]. left. now left.
  Qed.

  Theorem spfa_done n m : spfa g w s n = Done m -> shortest_answer E wt s (entry m) /\ no_negative E wt s.
  Proof.
    intro H. unfold spfa in H. fold (m_init s) in H.
    apply (spfa_loop_done n (m_init s) [s] s) in H as [(B1 & B2 & _) Hq]; [|apply init_base|apply init_qinv].
    assert (Hset : forall u x, gE g u x -> reachable (gE g) s u -> settled w m u x).
    { intros u x He _ su Hu. destruct (Hq u su Hu) as [[]|H]. destruct (H x He) as [[_ []]|H']. exact H'. }
    split; [now apply settled_answer|]. eapply settled_no_negative; eassumption.
  Qed.

  (** ** Termination without negative closed walks *)
  Hypothesis Hneg : no_negative E wt s.

  Definition prefixes_ok (m : scores) : Prop := forall x sp, sc_get x m = Some sp ->
    forall p y q, sp_path sp = p ++ y :: q ->
    exists sy, sc_get y m = Some sy /\ sp_score sy <= weight wt (p ++ [y]).
  Definition paths_simple (m : scores) : Prop := forall x sp, sc_get x m = Some sp -> NoDup (sp_path sp).
  Definition good (m : scores) : Prop := base m /\ prefixes_ok m /\ paths_simple m.

  Lemma relaxes_good m u x m' b : E u x -> relaxes w m u x m' b -> good m -> good m'.
  Proof.
    intros He Hr ((B1 & B2 & B3) & G2 & G3).
    assert (Hl : lower m m') by (eapply relaxes_lower; exact Hr).
    split.
    { split; [eapply relaxes_sound; eassumption|]. split; [|eapply relaxes_keys; eassumption].
      eapply lower_rooted; eassumption. }
    destruct Hr as [|su c _ _ _|su Hu Hx]; [split; assumption|split; assumption|].
    destruct (B1 u su Hu) as [Hw1 Hw2]. split.
    - intros y sp Hy p z q Hp. unfold improved in Hy. rewrite sc_get_put in Hy.
      destruct (N.eqb_spec y x) as [->|Hne].
      + injection Hy as <-. cbn [scored_path_of sp_path] in Hp. unfold path_append in Hp.
        destruct (last_inv q) as [->|(q' & a & ->)].
        * apply app_inj_tail in Hp as [<- <-]. unfold improved. rewrite sc_get_put, N.eqb_refl.
          eexists. split; [reflexivity|]. cbn [scored_path_of sp_score].
          change (wt u x) with (w (u, x)). rewrite (weight_snoc _ x (proj1 (proj2 Hw1))). unfold wt. lia.
        * change (z :: q' ++ [a]) with ((z :: q') ++ [a]) in Hp. rewrite app_assoc in Hp.
          apply app_inj_tail in Hp as [Hp _]. destruct (G2 u su Hu p z q' Hp) as (sz & H1 & H2).
          apply Hl in H1 as (sz' & H3 & H4). exists sz'. split; [assumption|lia].
      + destruct (G2 y sp Hy p z q Hp) as (sz & H1 & H2).
        apply Hl in H1 as (sz' & H3 & H4). exists sz'. split; [assumption|lia].
    - intros y sp Hy. unfold improved in Hy. rewrite sc_get_put in Hy.
      destruct (N.eqb_spec y x) as [->|Hne]; [|now apply G3 with y].
      injection Hy as <-. cbn [scored_path_of sp_path]. unfold path_append.
      apply NoDup_snoc. split; [now apply G3 with u|]. intro Hin. apply in_split in Hin as (p & q & Hp).
      destruct (G2 u su Hu p x q Hp) as (sx & H1 & H2). specialize (Hx sx H1).
      rewrite Hp in Hw1, Hw2. pose proof (walk_split _ _ _ Hw1) as [Hwp Hwq].
      assert (Hcyc : 0 <= weight wt ((x :: q) ++ [x])).
      { apply (Hneg x); [exists (p ++ [x]); exact Hwp|]. eapply walk_snoc; eassumption. }
      rewrite (weight_snoc _ x (proj1 (proj2 Hwq))) in Hcyc.
      rewrite weight_app in Hw2. unfold wt in *. lia.
  Qed.

  Let nV := Z.of_nat (length (vertices g)).
  Lemma good_score m x sp : good m -> sc_get x m = Some sp -> Z.abs (sp_score sp) <= B * nV.
  Proof.
    intros ((B1 & _) & _ & G3) Hx. destruct (B1 x sp Hx) as [H1 H2]. rewrite <- H2.
    pose proof (weight_bound g w B HB (sp_path sp) s x HB0 H1) as Hb.
    assert (Hl : (length (sp_path sp) <= length (vertices g) + 1)%nat).
    { apply (simple_length g W s). split; [now apply walk_from_to_from with x|]. now apply G3 with x. }
    assert (Z.of_nat (hops (sp_path sp)) <= nV) by (unfold hops, nV; lia). unfold E in *. nia.
  Qed.
  Lemma good_init : good (m_init s).
  Proof.
    split; [apply init_base|]. split.
    - intros x sp H p y q Hp. rewrite init_get in H. destruct (N.eqb_spec x s) as [->|]; [|discriminate].
      injection H as <-. cbn in Hp. destruct p as [|a [|? ?]]; try discriminate. injection Hp as <- <-.
      exists (scored_path_of_one s 0). rewrite init_get, N.eqb_refl. split; [reflexivity|cbn; lia].
    - intros x sp H. rewrite init_get in H. destruct (N.eqb_spec x s) as [->|]; [|discriminate].
      injection H as <-. cbn. constructor; [tauto|constructor].
  Qed.

  (** Room left for improvements. *)
  Definition room (m : scores) (x : N) : nat :=
    match sc_get x m with
    | Some sp => Z.to_nat (sp_score sp + B * nV)
    | None => Z.to_nat (2 * B * nV + 1)
    end.
  Definition total (f : N -> nat) (l : list N) : nat := fold_right (fun x n => f x + n)%nat 0%nat l.
  Lemma total_le f f' l : (forall x, f' x <= f x)%nat -> (total f' l <= total f l)%nat.
  Proof. intro H. induction l as [|a l IH]; cbn; [lia|]. specialize (H a). unfold total in *. lia. Qed.
  Lemma total_lt f f' l x : (forall x, f' x <= f x)%nat -> In x l -> (f' x < f x)%nat -> (total f' l < total f l)%nat.
  Proof.
    intros H Hx Hlt. induction l as [|a l IH]; [contradiction|]. cbn.
    pose proof (total_le f f' l H) as Hle. unfold total in *. destruct Hx as [->|Hx].
    - lia.
    - specialize (IH Hx). specialize (H a). lia.
  Qed.
  Definition potential (m : scores) : nat := total (room m) (vertices g).

  Lemma improved_potential m u x m' : E u x -> good m -> good m' -> relaxes w m u x m' true ->
    (potential m' < potential m)%nat.
  Proof.
    intros He G G' Hr. pose proof (relaxes_lower _ _ _ _ _ _ Hr) as Hl.
    assert (Hle : forall y, (room m' y <= room m y)%nat).
    { intro y. unfold room. destruct (sc_get y m) as [c|] eqn:Ey.
      - destruct (Hl y c Ey) as (c' & -> & Hc). lia.
      - destruct (sc_get y m') as [c'|] eqn:Ey'; [|lia]. pose proof (good_score m' y c' G' Ey'). lia. }
    apply total_lt with x; [assumption|now apply (gE_vertices g W) in He|].
    inversion Hr as [| |su Hu Hx]; subst. unfold room.
    assert (Hnew : sc_get x (improved w m u x su) = Some (scored_path_of (path_append (sp_path su) x) (sp_score su + w (u, x))))
      by (unfold improved; now rewrite sc_get_put, N.eqb_refl).
    pose proof (good_score _ x _ G' Hnew) as Hs. rewrite Hnew. cbn [scored_path_of sp_score] in *.
    destruct (sc_get x m) as [c|] eqn:Ex.
    - specialize (Hx c eq_refl). pose proof (good_score m x c G Ex). lia.
    - lia.
  Qed.

  Lemma spfa_edges_total v : forall es m q, (forall e, In e es -> fst e = v /\ E v (snd e)) -> good m ->
    exists m' q', ofold (spfa_edge w) es (m, q) = Done (m', q') /\ good m' /\
      (2 * potential m' + length q' <= 2 * potential m + length q)%nat.
  Proof.
    induction es as [|[a x] es IH]; intros m q Hes G.
    - exists m, q. split; [reflexivity|]. split; [assumption|lia].
    - destruct (Hes (a, x) (or_introl eq_refl)) as [Ha He]. cbn in Ha, He. subst a.
      destruct (relax_done w m v x) as (m1 & b & Hd).
      { intros su Hu. pose proof (good_score m v su G Hu) as Hs. specialize (HB v x He). unfold wt in HB.
        apply (i64_small _ (B * Z.of_nat (length (vertices g) + 1))); [unfold nV in Hs; nia|assumption]. }
      assert (Hr : relaxes w m v x m1 b).
      { apply relax_relaxes; [|assumption]. intros Hx su Hu.
        apply (relax_max m v x su); [apply G|assumption..]. }
      pose proof (relaxes_good m v x m1 b He Hr G) as G1.
      destruct (IH m1 (if b then q ++ [x] else q)) as (m' & q' & H1 & H2 & H3); [intros; apply Hes; now right|assumption|].
      exists m', q'. cbn [ofold]. unfold spfa_edge at 1. cbn [fst snd]. rewrite Hd. cbn [obind fst snd].
      replace (if b then (m1, q ++ [x]) else (m1, q)) with (m1, if b then q ++ [x] else q) by (destruct b; reflexivity).
      split; [assumption|]. split; [assumption|]. destruct b.
      + pose proof (improved_potential m v x m1 He G G1 Hr). rewrite app_length in H3. cbn in H3. lia.
      + assert (m1 = m) as -> by (inversion Hr; reflexivity). lia.
  Qed.

  Lemma spfa_loop_total fuel : forall m q, good m -> (2 * potential m + length q < fuel)%nat ->
    exists m', spfa_loop g w fuel (m, q) = Done m'.
  Proof.
    induction fuel as [|n IH]; intros m q G Hf; [lia|]. cbn [spfa_loop fst snd].
    destruct q as [|y q]; [eauto|].
    destruct (spfa_edges_total y (outbound_edges g y) m q (out_es y) G) as (m1 & q1 & H1 & H2 & H3).
    rewrite H1. cbn [obind]. apply IH; [assumption|]. cbn in Hf. lia.
  Qed.

  Lemma spfa_loop_mono n : forall k st r, spfa_loop g w n st = Done r -> (n <= k)%nat -> spfa_loop g w k st = Done r.
  Proof.
    induction n as [|n IH]; intros k st r H Hk; [discriminate|]. destruct k as [|k]; [lia|].
    cbn [spfa_loop] in *. destruct (snd st); [assumption|]. apply obind_done in H as (st' & H1 & H2).
    rewrite H1. cbn [obind]. apply IH; [assumption|lia].
  Qed.

  Theorem spfa_total : exists m, settles (spfa g w s) m.
  Proof.
    destruct (spfa_loop_total (S (2 * potential (m_init s) + 1)) (m_init s) [s] good_init) as (m & Hm); [cbn; lia|].
    exists m, (S (2 * potential (m_init s) + 1)). intros n Hn. eapply spfa_loop_mono; [exact Hm|exact Hn].
  Qed.
End Spfa.
