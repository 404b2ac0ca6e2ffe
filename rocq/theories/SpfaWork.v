(** * How many turns SPFA takes: at most one per simple path from the start *)
From Coq Require Import List NArith ZArith Bool Permutation Lia Arith.
From Verif Require Import Spec Base WalkFacts Graph GraphSpec GraphFacts Path SearchFacts IterFacts Topo TopoFacts
  ShortSpec ShortFacts PropTopo BellmanFacts.
Import ListNotations.
Open Scope Z_scope.

Section Turns.
  Variables (g : graph) (w : edge -> Z) (s : N) (B : Z).
  Hypothesis W : wf g.
  Let E := gE g.
  Let wt (a b : N) : Z := w (a, b).
  Hypothesis HB0 : 0 <= B.
  Hypothesis HB : forall a b, E a b -> Z.abs (wt a b) <= B.
  Hypothesis Hmax : B * Z.of_nat (length (vertices g) + 1) < i64_max.
  Hypothesis Hneg : no_negative E wt s.

  Notation good := (good g w s B).
  (** The paths that have been stored so far. *)
  Definition logged (m : scores) (log : list (list N)) : Prop := NoDup log /\
    forall p, In p log -> simple_from E s p /\ exists x sp, ends_with x p /\ sc_get x m = Some sp /\ sp_score sp <= weight wt p.

  Lemma logged_step m v x m' log : E v x -> good m -> good m' -> relaxes w m v x m' true -> logged m log ->
    exists p, logged m' (p :: log).
  Proof.
    intros He G G' Hr [Hn Hl]. pose proof (relaxes_lower _ _ _ _ _ _ Hr) as Hlow.
    inversion Hr as [| |su Hu Hx]; subst. exists (path_append (sp_path su) x).
    assert (Hnew : sc_get x (improved w m v x su) = Some (scored_path_of (path_append (sp_path su) x) (sp_score su + w (v, x))))
      by (unfold improved; now rewrite sc_get_put, N.eqb_refl).
    pose proof G' as ((S' & _) & _ & P'). destruct (S' x _ Hnew) as [H1 H2]. specialize (P' x _ Hnew).
    cbn [scored_path_of sp_path sp_score] in *.
    assert (Hmono : forall p, In p log -> simple_from E s p /\ exists y sp, ends_with y p /\ sc_get y (improved w m v x su) = Some sp /\ sp_score sp <= weight wt p).
    { intros p Hp. destruct (Hl p Hp) as (Hs & y & sp & Hy & Hg & Hle). split; [assumption|].
      destruct (Hlow y sp Hg) as (sp' & Hg' & Hle'). exists y, sp'. split; [assumption|]. split; [assumption|lia]. }
    split.
    - constructor; [|assumption]. intro Hin. destruct (Hl _ Hin) as (_ & y & sp & Hy & Hg & Hle).
      assert (y = x) as -> by (destruct H1 as (_ & Hend & _); eapply ends_with_fun; eassumption).
      specialize (Hx sp Hg). change (fun a b => w (a, b)) with wt in H2. lia.
    - intros p [<-|Hp]; [|now apply Hmono]. split.
      + split; [now apply walk_from_to_from with x|assumption].
      + eexists x, _. split; [apply H1|]. split; [exact Hnew|]. cbn [scored_path_of sp_score]. change (fun a b => w (a, b)) with wt in H2. lia.
  Qed.

  Lemma edges_turns v : forall es m q log, (forall e, In e es -> fst e = v /\ E v (snd e)) -> good m -> logged m log ->
    exists m' q' log', ofold (spfa_edge w) es (m, q) = Done (m', q') /\ good m' /\ logged m' log' /\
      (length q' + length log = length q + length log')%nat.
  Proof.
    induction es as [|[a x] es IH]; intros m q log Hes G L.
    - exists m, q, log. split; [reflexivity|]. split; [assumption|]. split; [assumption|lia].
    - destruct (Hes (a, x) (or_introl eq_refl)) as [Ha He]. cbn in Ha, He. subst a.
      destruct (relax_done w m v x) as (m1 & b & Hd).
      { intros su Hu. pose proof (good_score g w s B W HB0 HB Hmax m v su G Hu) as Hs. specialize (HB v x He). unfold wt in HB.
        apply (i64_small _ (B * Z.of_nat (length (vertices g) + 1))); [nia|assumption]. }
      assert (Hr : relaxes w m v x m1 b).
      { apply relax_relaxes; [|assumption]. intros Hx su Hu.
        apply (relax_max g w s B W HB0 HB Hmax m v x su); [apply G|assumption..]. }
      pose proof (relaxes_good g w s B W HB0 HB Hmax Hneg m v x m1 b He Hr G) as G1.
      assert (HL : exists log1, logged m1 log1 /\ length log1 = (length log + if b then 1 else 0)%nat).
      { destruct b.
        - destruct (logged_step m v x m1 log He G G1 Hr L) as [p Hp]. exists (p :: log). split; [assumption|cbn; lia].
        - assert (m1 = m) as -> by (inversion Hr; reflexivity). exists log. split; [assumption|lia]. }
      destruct HL as (log1 & L1 & Hlen).
      destruct (IH m1 (if b then q ++ [x] else q) log1) as (m' & q' & log' & H1 & H2 & H3 & H4); [intros; apply Hes; now right|assumption|assumption|].
      exists m', q', log'. cbn [ofold]. unfold spfa_edge at 1. cbn [fst snd]. rewrite Hd. cbn [obind fst snd].
      replace (if b then (m1, q ++ [x]) else (m1, q)) with (m1, if b then q ++ [x] else q) by (destruct b; reflexivity).
      split; [assumption|]. split; [assumption|]. split; [assumption|]. destruct b; [rewrite app_length in H4; cbn [length] in H4|]; lia.
  Qed.

  Lemma loop_turns D : (forall p, simple_from E s p -> In p D) -> forall fuel m q log, good m -> logged m log ->
    (length D + length q < fuel + length log)%nat -> exists m', spfa_loop g w fuel (m, q) = Done m'.
  Proof.
    intro HD. assert (Hin : forall m log, logged m log -> (length log <= length D)%nat).
    { intros m log [Hn Hl]. apply NoDup_incl_length; [assumption|]. intros p Hp. apply HD, Hl, Hp. }
    induction fuel as [|n IH]; intros m q log G L Hf; [specialize (Hin m log L); lia|]. cbn [spfa_loop fst snd].
    destruct q as [|y q]; [eauto|].
    destruct (edges_turns y (outbound_edges g y) m q log (out_es g W y) G L) as (m1 & q1 & log1 & H1 & H2 & H3 & H4).
    rewrite H1. cbn [obind]. apply (IH m1 q1 log1); [assumption|assumption|]. cbn [length] in Hf. lia.
  Qed.

  Lemma spfa_turns D : (forall p, simple_from E s p -> In p D) -> exists m, spfa g w s (S (length D)) = Done m.
  Proof.
    intro HD. unfold spfa. apply (loop_turns D HD) with (log := [[s]]).
    - apply good_init; assumption.
    - split; [constructor; [tauto|constructor]|]. intros p [<-|[]]. split.
      + split; [|constructor; [tauto|constructor]]. apply walk_from_to_from with s. apply walk_one.
      + exists s, (scored_path_of_one s 0). split; [now exists []|]. split; [rewrite sc_get_put, N.eqb_refl; reflexivity|cbn; lia].
    - cbn. lia.
  Qed.
End Turns.
