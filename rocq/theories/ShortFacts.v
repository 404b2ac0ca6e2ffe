(** * Facts about relaxation, the DAG algorithms, Bellman-Ford and SPFA *)
From Coq Require Import List NArith ZArith Bool Permutation Lia Arith.
From Verif Require Import Spec Base WalkFacts Graph GraphSpec GraphFacts Path SearchFacts Topo TopoFacts ShortSpec.
Import ListNotations.
Open Scope Z_scope.

Lemma sc_get_put v' v s m : sc_get v' (sc_put v s m) = if N.eqb v' v then Some s else sc_get v' m.
Proof. apply (hm_get_insert _ N.eqb_spec). Qed.

(** What a caller sees of a score map. *)
Definition entry (m : scores) (x : N) : option (list N * Z) :=
  match sc_get x m with Some sp => Some (sp_path sp, sp_score sp) | None => None end.

Lemma i64_done z : i64_min <= z <= i64_max -> i64 z = Done z.
Proof.
  intro H. unfold i64, i64_ok.
  replace (i64_min <=? z) with true by (symmetry; apply Z.leb_le; lia).
  replace (z <=? i64_max) with true by (symmetry; apply Z.leb_le; lia). reflexivity.
Qed.
Lemma i64_inv z z' : i64 z = Done z' -> z' = z /\ i64_min <= z <= i64_max.
Proof.
  unfold i64, i64_ok. intro H.
  destruct (Z.leb_spec i64_min z); cbn [andb] in H; [|discriminate].
  destruct (Z.leb_spec z i64_max); [|discriminate]. injection H as <-. auto.
Qed.
Lemma i64_small z k : Z.abs z <= k -> k < i64_max -> i64_min <= z <= i64_max.
Proof. unfold i64_min, i64_max. lia. Qed.

Lemma obind_done A B (x : outcome A) (f : A -> outcome B) b :
  obind x f = Done b -> exists a, x = Done a /\ f a = Done b.
Proof. destruct x; cbn; [eauto|discriminate|discriminate]. Qed.

Section Relax.
  Variables (g : graph) (w : edge -> Z) (s : N).
  Hypothesis W : wf g.

  Let E := gE g.
  Let wt (a b : N) : Z := w (a, b).

  Definition sound (m : scores) : Prop := forall x sp, sc_get x m = Some sp ->
    walk_from_to E s x (sp_path sp) /\ weight wt (sp_path sp) = sp_score sp.
  Definition settled (m : scores) (u x : N) : Prop := forall su, sc_get u m = Some su ->
    exists sx, sc_get x m = Some sx /\ sp_score sx <= sp_score su + wt u x.
  Definition lower (m m' : scores) : Prop := forall x c, sc_get x m = Some c ->
    exists c', sc_get x m' = Some c' /\ sp_score c' <= sp_score c.
  Definition rooted (m : scores) : Prop := exists c, sc_get s m = Some c /\ sp_score c <= 0.

  Lemma lower_refl m : lower m m.
  Proof. intros x c H. exists c. split; [assumption|lia]. Qed.
  Lemma lower_trans m1 m2 m3 : lower m1 m2 -> lower m2 m3 -> lower m1 m3.
  Proof.
    intros H1 H2 x c H. apply H1 in H as (c' & H & Hc). apply H2 in H as (c2 & H & Hc2).
    exists c2. split; [assumption|lia].
  Qed.
  Lemma lower_rooted m m' : lower m m' -> rooted m -> rooted m'.
  Proof. intros H (c & H1 & H2). apply H in H1 as (c' & H1 & H3). exists c'. split; [assumption|lia]. Qed.

  (** When every edge out of a reachable vertex is settled the map is the answer. *)
  Lemma settled_bound m : rooted m -> (forall u x, E u x -> reachable E s u -> settled m u x) ->
    forall l x, walk_from_to E s x l -> exists sx, sc_get x m = Some sx /\ sp_score sx <= weight wt l.
  Proof.
    intros (c0 & H0 & Hc0) Hset. induction l as [|y l IH] using rev_ind; intros x Hw.
    - now apply walk_nonempty in Hw.
    - apply walk_inv in Hw as Hinv. destruct Hinv as [[Hl <-]|(l' & u & Hl & Hwu & He)].
      + rewrite Hl. exists c0. split; [assumption|]. cbn. lia.
      + apply app_inj_tail in Hl as [-> ->]. destruct (IH u Hwu) as (su & H1 & H2).
        destruct (Hset u x He) with su as (sx & H3 & H4); [now exists l'|assumption|].
        exists sx. split; [assumption|]. rewrite (weight_snoc _ x (proj1 (proj2 Hwu))). unfold wt in *. lia.
  Qed.

  Lemma settled_answer m : sound m -> rooted m ->
    (forall u x, E u x -> reachable E s u -> settled m u x) -> shortest_answer E wt s (entry m).
  Proof.
    intros Hs Hr Hset x. unfold entry. destruct (sc_get x m) as [sp|] eqn:Ex.
    - destruct (Hs x sp Ex) as [H1 H2]. split; [assumption|]. split; [assumption|].
      intros l Hl. destruct (settled_bound m Hr Hset l x Hl) as (sx & H3 & H4). congruence.
    - intros [l Hl]. destruct (settled_bound m Hr Hset l x Hl) as (sx & H3 & H4). congruence.
  Qed.

  (** ... and going round a closed walk does not pay. *)
  Lemma settled_no_negative m : sound m -> rooted m ->
    (forall u x, E u x -> reachable E s u -> settled m u x) -> no_negative E wt s.
  Proof.
    intros Hs Hr Hset x l Hx Hl.
    destruct Hx as [lx Hlx]. destruct (settled_bound m Hr Hset lx x Hlx) as (sx & H1 & _).
    assert (H : forall l y, walk_from_to E x y l -> exists sy, sc_get y m = Some sy /\
      sp_score sy <= sp_score sx + weight wt l).
    { clear l Hl. induction l as [|y l IH] using rev_ind; intros z Hw; [now apply walk_nonempty in Hw|].
      apply walk_inv in Hw as Hinv. destruct Hinv as [[Hl <-]|(l' & u & Hl & Hwu & He)].
      - rewrite Hl. exists sx. split; [assumption|]. cbn. lia.
      - apply app_inj_tail in Hl as [-> ->]. destruct (IH u Hwu) as (su & H2 & H3).
        destruct (Hset u z He) with su as (sz & H4 & H5); [|assumption|].
        + eapply reachable_trans; [exists lx; exact Hlx|exists l'; exact Hwu].
        + exists sz. split; [assumption|]. rewrite (weight_snoc _ z (proj1 (proj2 Hwu))). unfold wt in *. lia. }
    destruct (H l x Hl) as (sy & H2 & H3). rewrite H1 in H2. injection H2 as <-. lia.
  Qed.

  (** ** One relaxation *)
  Definition improved (m : scores) (u x : N) (su : scored) : scores :=
    sc_put x (scored_path_of (path_append (sp_path su) x) (sp_score su + wt u x)) m.

  Inductive relaxes (m : scores) (u x : N) : scores -> bool -> Prop :=
  | relax_skip : sc_get u m = None -> relaxes m u x m false
  | relax_keep su c : sc_get u m = Some su -> sc_get x m = Some c ->
      sp_score c <= sp_score su + wt u x -> relaxes m u x m false
  | relax_put su : sc_get u m = Some su ->
      (forall c, sc_get x m = Some c -> sp_score su + wt u x < sp_score c) ->
      relaxes m u x (improved m u x su) true.

  Lemma relaxes_sound m u x m' b : E u x -> relaxes m u x m' b -> sound m -> sound m'.
  Proof.
    intros He H Hs. destruct H as [|su c _ _ _|su Hu _]; [assumption|assumption|].
    intros y sp Hy. unfold improved in Hy. rewrite sc_get_put in Hy. destruct (N.eqb_spec y x) as [->|Hne].
    - injection Hy as <-. cbn. unfold path_append. destruct (Hs u su Hu) as [H1 H2]. split.
      + now apply walk_snoc with u.
      + rewrite (weight_snoc _ x (proj1 (proj2 H1))). lia.
    - now apply Hs.
  Qed.
  Lemma relaxes_lower m u x m' b : relaxes m u x m' b -> lower m m'.
  Proof.
    intro H. destruct H as [|su c _ _ _|su Hu Hx]; [apply lower_refl|apply lower_refl|].
    intros y c Hy. unfold improved. rewrite sc_get_put. destruct (N.eqb_spec y x) as [->|Hne].
    - eexists. split; [reflexivity|]. cbn. specialize (Hx c Hy). lia.
    - exists c. split; [assumption|lia].
  Qed.
  Lemma relaxes_other m u x m' b y : relaxes m u x m' b -> y <> x -> sc_get y m' = sc_get y m.
  Proof.
    intros H Hy. destruct H; [reflexivity|reflexivity|]. unfold improved. rewrite sc_get_put.
    destruct (N.eqb_spec y x); [contradiction|reflexivity].
  Qed.
  (** The target ends at most at the old score of the source plus the weight. *)
  Lemma relaxes_achieved m u x m' b su : relaxes m u x m' b -> sc_get u m = Some su ->
    exists sx, sc_get x m' = Some sx /\ sp_score sx <= sp_score su + wt u x.
  Proof.
    intros H Hu. destruct H as [H|su' c H Hx Hle|su' H _].
    - congruence.
    - exists c. split; [assumption|]. congruence.
    - unfold improved. rewrite sc_get_put, N.eqb_refl. eexists. split; [reflexivity|]. cbn.
      rewrite H in Hu. injection Hu as ->. lia.
  Qed.

  (** The code of Bellman-Ford and SPFA does this. *)
  Lemma relax_relaxes m u x m' b :
    (sc_get x m = None -> forall su, sc_get u m = Some su -> sp_score su + wt u x < i64_max) ->
    relax w m (u, x) = Done (m', b) -> relaxes m u x m' b.
  Proof.
    intros Hmax H. unfold relax in H. cbn [fst snd] in H. destruct (sc_get u m) as [su|] eqn:Eu.
    - apply obind_done in H as (z & Hz & H). apply i64_inv in Hz as [-> _]. injection H as H.
      unfold current_score_of_vertex in H. destruct (sc_get x m) as [c|] eqn:Ex.
      + destruct (Z.ltb_spec (sp_score su + w (u, x)) (sp_score c)).
        * injection H as <- <-. apply relax_put; [assumption|]. intros c' Hc'.
          rewrite Ex in Hc'. injection Hc' as <-. assumption.
        * injection H as <- <-. now apply relax_keep with su c.
      + specialize (Hmax eq_refl su eq_refl). unfold wt in Hmax.
        destruct (Z.ltb_spec (sp_score su + w (u, x)) i64_max); [|lia].
        injection H as <- <-. apply relax_put; [assumption|]. intros c' Hc'. congruence.
    - injection H as <- <-. now apply relax_skip.
  Qed.
  Lemma relax_done m u x :
    (forall su, sc_get u m = Some su -> i64_min <= sp_score su + wt u x <= i64_max) ->
    exists m' b, relax w m (u, x) = Done (m', b).
  Proof.
    intro H. unfold relax. cbn [fst snd]. destruct (sc_get u m) as [su|]; [|eauto].
    specialize (H su eq_refl). unfold wt in H. rewrite i64_done by assumption. cbn.
    destruct (Z.ltb (sp_score su + w (u, x)) (current_score_of_vertex m x)); eauto.
  Qed.

  Definition m_init : scores := sc_put s (scored_path_of_one s 0) [].
  Lemma init_get x : sc_get x m_init = if N.eqb x s then Some (scored_path_of_one s 0) else None.
  Proof. unfold m_init. now rewrite sc_get_put. Qed.
  Lemma init_sound : sound m_init.
  Proof.
    intros x sp H. rewrite init_get in H. destruct (N.eqb_spec x s) as [->|]; [|discriminate].
    injection H as <-. cbn. split; [apply walk_one|reflexivity].
  Qed.
  Lemma init_rooted : rooted m_init.
  Proof. exists (scored_path_of_one s 0). rewrite init_get, N.eqb_refl. split; [reflexivity|cbn; lia]. Qed.

  (** ** Weights of walks *)
  Variable B : Z.
  Hypothesis HB : forall a b, E a b -> Z.abs (wt a b) <= B.

  Lemma weight_bound l x y : 0 <= B -> walk_from_to E x y l -> Z.abs (weight wt l) <= B * Z.of_nat (hops l).
  Proof.
    intro HB0. revert y. induction l as [|z l IH] using rev_ind; intros y Hw; [now apply walk_nonempty in Hw|].
    apply walk_inv in Hw as Hinv. destruct Hinv as [[Hl <-]|(l' & u & Hl & Hwu & He)].
    - rewrite Hl. cbn. lia.
    - apply app_inj_tail in Hl as [-> ->]. specialize (IH u Hwu).
      rewrite (weight_snoc _ y (proj1 (proj2 Hwu))). rewrite hops_snoc by (eapply walk_nonempty; exact Hwu).
      specialize (HB u y He). lia.
  Qed.

  (** Cutting out closed walks: a walk is at least as heavy as some simple one,
      or a negative closed walk is found. *)
  Lemma cut_cycles n : forall l x, (length l <= n)%nat -> walk_from_to E s x l ->
    (exists l', simple_from_to E s x l' /\ weight wt l' <= weight wt l) \/
    (exists y c, reachable E s y /\ walk_from_to E y y c /\ weight wt c < 0).
  Proof.
    induction n as [|n IH]; intros l x Hl Hw.
    - destruct l; [now apply walk_nonempty in Hw|cbn in Hl; lia].
    - destruct (NoDup_decN l) as [Hn|Hn].
      + left. exists l. split; [now split|lia].
      + apply not_NoDup_split in Hn as (p & y & c & r & ->).
        assert (Hcw : walk_from_to E y y (y :: c ++ [y])).
        { destruct Hw as (_ & _ & Hadj). apply chain_closed in Hadj as (y' & Hy & _).
          assert (y' = y) as -> by (destruct Hy as ([t [= -> _]] & _); reflexivity). assumption. }
        pose proof (walk_split _ _ _ Hw) as [Hp Hrest].
        change (y :: c ++ y :: r) with ((y :: c) ++ y :: r) in Hrest.
        pose proof (walk_split y (y :: c) r Hrest) as [_ Hsuf].
        destruct (Z.ltb_spec (weight wt (y :: c ++ [y])) 0) as [Hneg|Hpos].
        * right. exists y, (y :: c ++ [y]). split; [now exists (p ++ [y])|]. now split.
        * destruct (IH (p ++ y :: r) x) as [(l' & H1 & H2)|H]; [| | |right; assumption].
          -- rewrite !app_length in *. cbn in *. rewrite app_length in Hl. cbn in Hl. lia.
          -- replace (p ++ y :: r) with ((p ++ [y]) ++ r) by now rewrite <- app_assoc.
             now apply walk_app with y.
          -- left. exists l'. split; [assumption|].
             rewrite (weight_app _ p y (c ++ y :: r)), (weight_app _ p y r) in *.
             change (y :: c ++ y :: r) with ((y :: c) ++ y :: r). rewrite (weight_app _ (y :: c) y r).
             cbn [app]. cbn [app] in *. lia.
  Qed.
End Relax.
