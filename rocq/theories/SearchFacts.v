(** * Facts about the particular searches *)
From Coq Require Import List NArith ZArith Bool Permutation Lia Arith.
From Verif Require Import Spec Base WalkFacts Graph GraphSpec GraphFacts Path PathFacts ConstraintSpec
  Queue Heap Iter IterFacts TreeFacts.
Import ListNotations.

Lemma NoDup_map_in A B (f : A -> B) l :
  (forall x y, In x l -> In y l -> f x = f y -> x = y) -> NoDup l -> NoDup (map f l).
Proof.
  intros H Hn. induction Hn as [|x l Hx Hl IH]; cbn; [constructor|]. constructor.
  - intro Hin. apply in_map_iff in Hin as (y & He & Hy).
    assert (y = x) by (apply H; [now right|now left|assumption]). congruence.
  - apply IH. intros y z Hy Hz. apply H; now right.
Qed.
Lemma before_snoc_inv A (x y a : A) l : before x y (l ++ [a]) -> before x y l \/ (In x l /\ y = a).
Proof.
  intros (p & q & r & H). destruct r as [|b r _] using rev_ind.
  - right. replace (p ++ x :: q ++ [y]) with ((p ++ x :: q) ++ [y]) in H
      by (now rewrite <- app_assoc).
    apply app_inj_tail in H as [-> ->]. split; [|reflexivity]. rewrite in_app_iff. right. now left.
  - left. replace (p ++ x :: q ++ y :: r ++ [b]) with ((p ++ x :: q ++ y :: r) ++ [b]) in H.
    2:{ rewrite <- !app_assoc. cbn. now rewrite <- app_assoc. }
    apply app_inj_tail in H as [-> _]. now exists p, q, r.
Qed.
Lemma distance_fun E s v d d' : distance E s v d -> distance E s v d' -> d = d'.
Proof.
  intros [(l & H1 & H2) H3] [(l' & H1' & H2') H3']. specialize (H3 _ H1'). specialize (H3' _ H1). lia.
Qed.

(** ** First-in-first-out searches proceed level by level *)
Section Fifo.
  Variables (A : Type) (lvl : A -> nat -> Prop).
  Hypothesis lvl_fun : forall a k k', lvl a k -> lvl a k' -> k = k'.

  Definition by_level (out : list A) : Prop :=
    forall x y kx ky, before x y out -> lvl x kx -> lvl y ky -> kx <= ky.
  Definition fifo_inv (out : list A) (q : list A) : Prop :=
    exists d l1 l2, q = l1 ++ l2 /\
      (forall x, In x l1 -> lvl x d) /\ (forall x, In x l2 -> lvl x (S d)) /\
      (forall x, In x out -> exists k, lvl x k /\ k <= d) /\ by_level out.

  Lemma fifo_init a k : lvl a k -> fifo_inv [] [a].
  Proof.
    intro H. exists k, [a], []. repeat split.
    - intros x [<-|[]]. assumption.
    - intros x [].
    - intros x [].
    - intros x y kx ky (p & q & r & Hp). now destruct p.
  Qed.
  Lemma fifo_step out a q : fifo_inv out (a :: q) -> exists d, lvl a d /\
    (forall b, In b (a :: q) -> exists k, lvl b k /\ d <= k) /\
    (forall new, (forall x, In x new -> lvl x (S d)) -> fifo_inv (out ++ [a]) (q ++ new)).
  Proof.
    assert (Hmain : forall d l1 l2, q = l1 ++ l2 ->
      (forall x, In x (a :: l1) -> lvl x d) -> (forall x, In x l2 -> lvl x (S d)) ->
      (forall x, In x out -> exists k, lvl x k /\ k <= d) -> by_level out ->
      exists d, lvl a d /\
        (forall b, In b (a :: q) -> exists k, lvl b k /\ d <= k) /\
        (forall new, (forall x, In x new -> lvl x (S d)) -> fifo_inv (out ++ [a]) (q ++ new))).
    { intros d l1 l2 -> H1 H2 H3 H4. exists d. split; [apply H1; now left|]. split.
      - intros b [<-|Hb]; [exists d; split; [apply H1; now left|lia]|].
        apply in_app_iff in Hb as [Hb|Hb].
        + exists d. split; [apply H1; now right|lia].
        + exists (S d). split; [now apply H2|lia].
      - intros new Hnew. exists d, l1, (l2 ++ new).
        split; [symmetry; apply app_assoc|]. split; [intros; apply H1; now right|].
        split; [intros x Hx; apply in_app_iff in Hx as [Hx|Hx]; auto|]. split.
        + intros x Hx. apply in_app_iff in Hx as [Hx|[<-|[]]]; [auto|].
          exists d. split; [apply H1; now left|lia].
        + intros x y kx ky Hb Hx Hy. apply before_snoc_inv in Hb as [Hb|[Hb ->]].
          * eapply H4; eauto.
          * destruct (H3 x Hb) as (k & Hk & Hle). rewrite (lvl_fun x kx k) by assumption.
            rewrite (lvl_fun a ky d); auto. apply H1. now left. }
    intros (d & l1 & l2 & Hq & H1 & H2 & H3 & H4). destruct l1 as [|b l1].
    - cbn in Hq. subst l2. apply (Hmain (S d) q []); auto.
      + now rewrite app_nil_r.
      + intros x [].
      + intros x Hx. destruct (H3 x Hx) as (k & Hk & Hle). eauto.
    - cbn in Hq. injection Hq as <- ->. apply (Hmain d l1 l2); auto.
  Qed.
End Fifo.

(** ** Breadth-first and depth-first *)
Section BfsDfs.
  Variable g : graph.
  Hypothesis Hwf : wf g.
  Variable s : N.

  Let lastv := fun v : N => Some v.
  Let mk := fun _ v : N => v.
  Let lv := fun v : N => v.

  Lemma vertex_nodes a v : lastv a = Some (lv a) -> lastv (mk a v) = Some v /\ lv (mk a v) = v.
  Proof. now split. Qed.

  Lemma map_lv l : map lv l = l.
  Proof. apply map_id. Qed.

  Theorem dfs_collect : exists out,
    settles (fun n => collect (dfs_next g) n (dfs_iter_from s)) out /\
    enumerates out (reachable (gE g) s).
  Proof.
    destruct (visit_collect N (Stack N) g lastv mk lv Hwf vertex_nodes s s eq_refl eq_refl)
      as (out & H1 & H2 & _).
    exists out. rewrite map_lv in H2. auto.
  Qed.

  Let vi := vinv N (Queue N) g mk lv s s.
  Definition bfs_inv (out : list N) (st : vstate N (Queue N)) : Prop :=
    vi out st /\ fifo_inv N (distance (gE g) s) out (snd st).

  Lemma bfs_step out st : bfs_inv out st ->
    match bfs_next g st with
    | Stop => True
    | Crash => False
    | Yield a st' => bfs_inv (out ++ [a]) st'
    end.
  Proof.
    intros [H1 H2]. destruct st as [vis q]. cbn [snd] in H2.
    pose proof (vinv_pop N (Queue N) g lastv mk lv Hwf vertex_nodes s s eq_refl _ _ _ H1) as Hp.
    destruct q as [|a q].
    - exact I.
    - cbn [Queue q_pop pop_front] in Hp. destruct Hp as (new & Hn & _ & _ & _ & _ & Hnew & HI).
      unfold bfs_next. fold lastv mk. rewrite Hn. split; [exact HI|].
      cbn [snd]. apply fifo_step in H2 as (d & Hd & Hmin & Hout).
      2:{ intros v k k'. apply distance_fun. }
      rewrite push_all_list. apply Hout. intros v Hv.
      apply in_map_iff in Hv as (v' & Hv' & Hin). change (v' = v) in Hv'. subst v'.
      apply Hnew in Hin as [He Hni].
      apply (new_distance N (Queue N) g mk lv s s eq_refl out vis (a :: q) a q d v H1); auto.
  Qed.

  Theorem bfs_collect : exists out,
    settles (fun n => collect (bfs_next g) n (bfs_iter_from s)) out /\
    enumerates out (reachable (gE g) s) /\
    (forall v, In v out -> exists d, distance (gE g) s v d) /\
    by_level N (distance (gE g) s) out.
  Proof.
    destruct (collect_inv (bfs_next g) bfs_inv (length (vertices g) + 1)) with (s := bfs_iter_from s)
      as (out & st & H1 & [H2 (d & l1 & l2 & _ & _ & _ & Hle & Hlv)] & H4).
    - exact bfs_step.
    - intros out st [H _]. revert H.
      apply (vinv_bound N (Queue N) g lastv mk lv Hwf vertex_nodes s s eq_refl eq_refl).
    - split.
      + apply (vinv_init N (Queue N) g mk lv s s eq_refl).
      + apply fifo_init with 0. split; [exists [s]; split; [apply walk_one|reflexivity]|lia].
    - exists out. split; [assumption|]. split.
      + apply (vinv_final N (Queue N) g lastv mk lv Hwf vertex_nodes s s eq_refl eq_refl) in H2;
          [|assumption]. rewrite map_lv in H2. tauto.
      + split; [|assumption]. intros v Hv. destruct (Hle v Hv) as (k & Hk & _). eauto.
  Qed.
End BfsDfs.

(** Distances exist for reachable vertices (from the search itself). *)
Lemma distance_exists g s v : wf g -> reachable (gE g) s v -> exists d, distance (gE g) s v d.
Proof.
  intros Hwf Hr. destruct (bfs_collect g Hwf s) as (out & _ & [_ He] & Hd & _). apply Hd. now apply He.
Qed.

(** ** Simple paths *)
Section Paths.
  Variable g : graph.
  Hypothesis Hwf : wf g.
  Variable s : N.

  Lemma gE_outbound u v : gE g u v <-> In (u, v) (outbound_edges g u).
  Proof.
    unfold gE. rewrite contains_edge_hasE, outbound_In by assumption. tauto.
  Qed.
  Lemma gE_vertices u v : gE g u v -> In u (vertices g) /\ In v (vertices g).
  Proof.
    unfold gE. rewrite contains_edge_hasE by assumption. intro H. apply (wf_hasE_V Hwf) in H.
    rewrite !vertices_In, !contains_vertex_hasV. tauto.
  Qed.

  Lemma simple_length p : simple_from (gE g) s p -> length p <= length (vertices g) + 1.
  Proof.
    intros [H1 H2]. replace (length (vertices g) + 1) with (length (s :: vertices g)) by (cbn; lia).
    apply NoDup_incl_length; [assumption|]. intros v Hv.
    apply (walk_In_reachable _ H1) in Hv.
    apply reachable_hasV in Hv as [->|Hv]; cbn; auto.
  Qed.

  Lemma path_kids_spec p q : p <> [] -> NoDup p -> In q (kidsl path (path_kids g) p) <->
    exists u v, ends_with u p /\ q = p ++ [v] /\ gE g u v /\ ~ In v p.
  Proof.
    intros Hne Hnd. unfold kidsl, path_kids. destruct (path_last p) as [u|] eqn:El.
    - apply path_last_spec in El. rewrite in_map_iff. split.
      + intros ([x v] & <- & Hin). apply filter_In in Hin as [Hin Hc]. cbn [snd] in *.
        apply negb_true_iff, not_true_iff_false in Hc. rewrite path_contains_vertex_spec in Hc.
        pose proof Hin as Hin'. apply outbound_In in Hin as [-> _]. apply gE_outbound in Hin'.
        exists u, v. auto.
      + intros (u' & v & Hu & -> & He & Hni). rewrite (ends_with_fun Hu El) in He.
        exists (u, v). split; [reflexivity|]. apply filter_In. split; [now apply gE_outbound|].
        apply negb_true_iff, not_true_iff_false. now rewrite path_contains_vertex_spec.
    - exfalso. destruct (ends_with_ex Hne) as [u Hu]. apply path_last_spec in Hu. congruence.
  Qed.

  Let good := simple_from (gE g) s.
  Let rank (p : path) := length (vertices g) + 1 - length p.

  Lemma simple_ne p : good p -> p <> [].
  Proof. intros [[[t ->] _] _]. discriminate. Qed.
  Lemma simple_snoc p u v : good p -> ends_with u p -> gE g u v -> ~ In v p -> good (p ++ [v]).
  Proof.
    intros [H1 H2] Hu He Hni. split.
    - apply walk_from_snoc. right. exists u. split; [|assumption].
      destruct H1 as [H1 H1']. repeat split; auto.
    - now apply NoDup_snoc.
  Qed.

  Lemma path_kids_good a b : good a -> In b (kidsl path (path_kids g) a) -> good b /\ rank b < rank a.
  Proof.
    intros Ha Hb. pose proof Ha as [_ Hnd]. apply path_kids_spec in Hb; [|now apply simple_ne|assumption].
    destruct Hb as (u & v & Hu & -> & He & Hni).
    assert (Hg : good (a ++ [v])) by now apply simple_snoc with u.
    split; [assumption|]. apply simple_length in Hg. unfold rank. rewrite app_length in *. cbn in *. lia.
  Qed.
  Lemma path_kids_total a : good a -> path_kids g a <> None.
  Proof.
    intro Ha. unfold path_kids. destruct (ends_with_ex (simple_ne a Ha)) as [u Hu].
    apply path_last_spec in Hu. rewrite Hu. discriminate.
  Qed.
  Lemma path_kids_NoDup a : good a -> NoDup (kidsl path (path_kids g) a).
  Proof.
    intro Ha. unfold kidsl, path_kids. destruct (path_last a) as [u|]; [|constructor].
    apply NoDup_map_in.
    - intros [x y] [x' y'] H1 H2 Heq. apply filter_In in H1 as [H1 _]. apply filter_In in H2 as [H2 _].
      apply outbound_In in H1 as [-> _]. apply outbound_In in H2 as [-> _]. cbn in Heq.
      unfold path_append in Heq. apply app_inj_tail in Heq as [_ ->]. reflexivity.
    - apply NoDup_filter, outbound_NoDup. assumption.
  Qed.
  Lemma path_kids_parent a a' b : good a -> good a' -> In b (kidsl path (path_kids g) a) ->
    In b (kidsl path (path_kids g) a') -> a = a'.
  Proof.
    intros Ha Ha' H H'. apply path_kids_spec in H; [|now apply simple_ne|apply Ha].
    apply path_kids_spec in H'; [|now apply simple_ne|apply Ha'].
    destruct H as (u & v & _ & -> & _). destruct H' as (u' & v' & _ & Heq & _).
    apply app_inj_tail in Heq. tauto.
  Qed.
  Lemma path_desc p : desc path (path_kids g) [s] p <-> good p.
  Proof.
    assert (H0 : good [s]).
    { split; [split; [now exists []|apply chain_one]|]. repeat constructor. intros []. }
    split.
    - intro H. now apply (desc_good path (path_kids g) good rank path_kids_good [s]).
    - induction p as [|v p IH] using rev_ind; intros [H1 H2]; [destruct H1 as [[t Ht] _]; discriminate|].
      apply walk_from_snoc in H1 as [[-> ->]|(u & Hw & He)]; [constructor|].
      apply NoDup_snoc in H2 as [H2 H3].
      assert (Hp : good p) by (split; [now apply walk_from_to_from in Hw|assumption]).
      apply desc_step with p; [auto|]. apply path_kids_spec; [now apply simple_ne|assumption|].
      exists u, v. destruct Hw as (_ & Hu & _). auto.
  Qed.

  Lemma path_tree_enumerates out :
    Permutation out (flat_map (tree path (path_kids g) rank) [[s]]) ->
    enumerates out (simple_from (gE g) s).
  Proof.
    assert (H0 : good [s]) by (apply path_desc; constructor).
    cbn [flat_map]. rewrite app_nil_r. intro Hp. split.
    - symmetry in Hp. eapply Permutation_NoDup; [exact Hp|].
      apply (subtree_NoDup path (path_kids g) good rank path_kids_good path_kids_NoDup path_kids_parent);
        auto.
    - intro p. rewrite Hp. rewrite (tree_In path (path_kids g) good rank path_kids_good) by assumption.
      apply path_desc.
  Qed.

  Theorem dfs_path_collect : exists out,
    settles (fun n => collect (dfs_path_next g) n (dfs_iter_path_from s)) out /\
    enumerates out (simple_from (gE g) s).
  Proof.
    assert (H0 : good [s]) by (apply path_desc; constructor).
    destruct (tree_collect path (path_kids g) good rank path_kids_total path_kids_good (Stack path) [[s]])
      as (out & H1 & H2).
    - exact I.
    - intros a [<-|[]]. assumption.
    - exists out. split; [assumption|]. now apply path_tree_enumerates.
  Qed.

  Definition plvl (p : path) (k : nat) := length p = k.

  Theorem bfs_path_collect : exists out,
    settles (fun n => collect (bfs_path_next g) n (bfs_path_iter_from s)) out /\
    enumerates out (simple_from (gE g) s) /\
    by_level path plvl out.
  Proof.
    assert (H0 : good [s]) by (apply path_desc; constructor).
    set (total := flat_map (tree path (path_kids g) rank) [[s]]).
    set (J := fun out (q : list path) =>
                tinv path (path_kids g) good rank (Queue path) total out q /\ fifo_inv path plvl out q).
    destruct (collect_inv (bfs_path_next g) J (length total)) with (s := bfs_path_iter_from s)
      as (out & q & H1 & [H2 (d & l1 & l2 & _ & _ & _ & _ & Hlv)] & H4).
    - intros out q [HT HF].
      pose proof (tree_pop path (path_kids g) good rank path_kids_total path_kids_good
                    (Queue path) total out q HT) as Hp.
      destruct q as [|a q]; [exact I|].
      cbn [Queue q_pop pop_front] in Hp. destruct Hp as (Hn & Ha & _ & _ & HI).
      unfold bfs_path_next. rewrite Hn. split; [exact HI|].
      apply fifo_step in HF as (d & Hd & _ & Hout); [|intros; unfold plvl in *; congruence].
      rewrite push_all_list. apply Hout. intros x Hx. apply path_kids_spec in Hx.
      + destruct Hx as (u & v & _ & -> & _). unfold plvl in *. rewrite app_length. cbn. lia.
      + now apply simple_ne.
      + apply Ha.
    - intros out q [H _]. now apply tinv_bound in H.
    - split.
      + split; [exact I|]. split; [intros a [<-|[]]; assumption|]. reflexivity.
      + now apply fifo_init with 1.
    - exists out. split; [assumption|]. split; [|assumption].
      apply path_tree_enumerates. symmetry.
      eapply (tinv_final path (path_kids g) good rank path_kids_total path_kids_good); eassumption.
  Qed.
End Paths.
