(** * Facts about cycles *)
From Coq Require Import List NArith ZArith Bool Permutation Lia Arith.
From Verif Require Import Spec Base WalkFacts Graph GraphSpec GraphFacts Path PathFacts Queue Iter IterFacts
  TreeFacts SearchFacts TopoFacts CycleSpec Cycle.
Import ListNotations.

(** ** Rotations of duplicate-free lists *)
Lemma NoDup_mid A (m : A) p q p' q' : NoDup (p ++ m :: q) -> p ++ m :: q = p' ++ m :: q' -> p = p' /\ q = q'.
Proof.
  revert p'. induction p as [|a p IH]; intros p' Hn He; destruct p' as [|a' p']; cbn in *.
  - now injection He.
  - injection He as <- He. inversion Hn as [|? ? H1 H2]; subst. exfalso. apply H1, in_app_iff. right. now left.
  - injection He as -> He. inversion Hn as [|? ? H1 H2]; subst. exfalso. apply H1, in_app_iff. right. now left.
  - injection He as -> He. inversion Hn; subst. destruct (IH p') as [-> ->]; auto.
Qed.
Lemma rotation_starts A (c d : list A) m : rotation c d -> starts_with m d ->
  exists p q, c = p ++ m :: q /\ d = m :: q ++ p.
Proof.
  intros (p & q & -> & ->) [r Hr]. destruct q as [|x q].
  - cbn in Hr. exists [], r. rewrite !app_nil_r. auto.
  - cbn in Hr. injection Hr as -> _. exists p, q. auto.
Qed.
Lemma rotation_unique A (c d e : list A) m : NoDup c -> rotation c d -> rotation c e ->
  starts_with m d -> starts_with m e -> d = e.
Proof.
  intros Hn Hd He Hmd Hme.
  destruct (rotation_starts _ _ _ _ Hd Hmd) as (p & q & H1 & ->).
  destruct (rotation_starts _ _ _ _ He Hme) as (p' & q' & H2 & ->).
  rewrite H1 in Hn, H2. destruct (NoDup_mid _ _ _ _ _ _ Hn H2) as [-> ->]. reflexivity.
Qed.
Lemma rotation_NoDup A (c d : list A) : rotation c d -> NoDup c -> NoDup d.
Proof. intros H. apply Permutation_NoDup. now apply rotation_perm. Qed.
Lemma rotation_In A (c d : list A) x : rotation c d -> In x c <-> In x d.
Proof.
  intro H. apply rotation_perm in H. split; apply Permutation_in; [assumption|now symmetry].
Qed.
Lemma rotation_length A (c d : list A) : rotation c d -> length c = length d.
Proof. intro H. apply Permutation_length. now apply rotation_perm. Qed.

Lemma simple_cycle_ne E c : simple_cycle E c -> c <> [].
Proof. intros (_ & _ & x & y & [t ->] & _). discriminate. Qed.
Lemma simple_cycle_rotation E c d : simple_cycle E c -> rotation c d -> simple_cycle E d.
Proof.
  intros (Hn & Hadj & x & y & Hx & Hy & He) Hr. pose proof (rotation_NoDup _ _ _ Hr Hn) as Hn'.
  destruct Hr as (p & q & -> & ->). split; [assumption|].
  destruct p as [|a p]. { rewrite app_nil_r. cbn in *. split; [assumption|]. exists x, y. auto. }
  destruct q as [|b q]. { rewrite app_nil_r in *. cbn in *. split; [assumption|]. exists x, y. auto. }
  apply (ends_with_app y b (a :: p) q) in Hy. cbn [app] in Hx. apply starts_with_cons in Hx as ->. split.
  - intros u v Huv. apply adjacent_app in Huv as [Huv|[Huv|[Hu Hv]]].
    + apply Hadj. apply adjacent_app. auto.
    + apply Hadj. apply adjacent_app. auto.
    + apply starts_with_cons in Hv as ->. now rewrite (ends_with_fun Hu Hy).
  - destruct (ends_with_ex (l := a :: p)) as [z Hz]; [discriminate|]. exists b, z.
    split; [now exists (q ++ a :: p)|]. split; [now apply ends_with_app|].
    apply Hadj. apply adjacent_app. right. right. split; [assumption|]. now exists q.
Qed.

(** ** [from_vertices] *)
Lemma unique_from_spec l : forall seen,
  length (unique_from seen l) <= length l /\
  (length (unique_from seen l) = length l <-> NoDup l /\ forall x, In x l -> ~ In x seen).
Proof.
  induction l as [|x l IH]; intro seen; cbn [unique_from].
  - split; [lia|]. split; [intros _; split; [constructor|intros ? []]|reflexivity].
  - destruct (memN x seen) eqn:Em.
    + destruct (IH seen) as [H1 H2]. cbn [length]. split; [lia|]. split; [lia|].
      intros [_ H]. exfalso. apply memN_In in Em. apply (H x); [now left|assumption].
    + destruct (IH (x :: seen)) as [H1 H2]. cbn [length]. split; [lia|]. split.
      * intro He. destruct H2 as [H2 _]. destruct H2 as [H3 H4]; [lia|].
        assert (Hx : ~ In x seen).
        { intro Hi. apply memN_In in Hi. congruence. }
        split.
        -- constructor; [|assumption]. intro Hi. apply (H4 x Hi). now left.
        -- intros y [<-|Hy]; [assumption|]. intro Hi. apply (H4 y Hy). now right.
      * intros [Hn Hs]. inversion Hn as [|? ? Hn1 Hn2]; subst. f_equal. apply H2. split; [assumption|].
        intros y Hy [<-|Hi]; [contradiction|]. apply (Hs y); [now right|assumption].
Qed.
Lemma from_vertices_spec l c : from_vertices l = Some c <-> c = l /\ NoDup l /\ 2 <= length l.
Proof.
  unfold from_vertices, unique. destruct (unique_from_spec l []) as [_ H].
  assert (H' : length (unique_from [] l) = length l <-> NoDup l).
  { rewrite H. split; [tauto|]. intro. split; [assumption|]. intros ? _ []. }
  destruct (Nat.ltb_spec (length l) 2) as [Hl|Hl]; cbn [orb].
  - split; [discriminate|lia].
  - destruct (Nat.eqb_spec (length l) (length (unique_from [] l))) as [He|He]; cbn [negb].
    + split; [intros [= <-]|intros [-> _]; reflexivity]. split; [reflexivity|]. split; [|assumption].
      now apply H'.
    + split; [discriminate|]. intros (_ & Hn & _). apply H' in Hn. congruence.
Qed.

(** ** [canonical] *)
Lemma min_position_spec l : forall pre p v q, pre = p ++ v :: q -> (forall y, In y pre -> (v <= y)%N) ->
  exists p' m q', pre ++ l = p' ++ m :: q' /\ length p' = min_position (length pre) (length p, v) l /\
    forall y, In y (pre ++ l) -> (m <= y)%N.
Proof.
  induction l as [|x l IH]; intros pre p v q Hpre Hmin.
  - exists p, v, q. rewrite app_nil_r. cbn. auto.
  - cbn [min_position snd].
    assert (Ha : pre ++ x :: l = (pre ++ [x]) ++ l) by now rewrite <- app_assoc.
    assert (Hlen : length (pre ++ [x]) = S (length pre)) by (rewrite app_length; cbn; lia).
    rewrite Ha, <- Hlen. destruct (N.ltb_spec x v) as [Hlt|Hge].
    + apply (IH (pre ++ [x]) pre x []); [reflexivity|]. intros y Hy. apply in_app_iff in Hy as [Hy|[<-|[]]]; [|lia].
      specialize (Hmin y Hy). lia.
    + apply (IH (pre ++ [x]) p v (q ++ [x])).
      * rewrite Hpre, <- app_assoc. reflexivity.
      * intros y Hy. apply in_app_iff in Hy as [Hy|[<-|[]]]; [auto|lia].
Qed.
Lemma canonical_split c : c <> [] -> exists p m q, c = p ++ m :: q /\ canonical c = Some (m :: q ++ p) /\
  forall y, In y c -> (m <= y)%N.
Proof.
  destruct c as [|x t]; [congruence|]. intros _.
  destruct (min_position_spec t [x] [] x [] eq_refl) as (p & m & q & H1 & H2 & H3).
  { intros y [<-|[]]. lia. }
  exists p, m, q. cbn [app length] in *. split; [assumption|]. split; [|assumption].
  unfold canonical. rewrite <- H2, H1. unfold rotate_left.
  rewrite skipn_app, skipn_all, Nat.sub_diag, firstn_app, firstn_all, Nat.sub_diag. cbn.
  now rewrite app_nil_r.
Qed.
Lemma canonical_nil c : canonical c = None <-> c = [].
Proof. destruct c; [tauto|]. cbn. split; discriminate. Qed.
Lemma canonical_spec c d : NoDup c -> canonical c = Some d <-> rotation c d /\ least_first d.
Proof.
  intro Hn. destruct c as [|x t].
  - split; [discriminate|]. intros [Hr (m & Hm & _)]. destruct (rotation_starts _ _ _ _ Hr Hm) as (p & q & H & _).
    destruct p; discriminate.
  - destruct (canonical_split (x :: t)) as (p & m & q & H1 & H2 & H3); [discriminate|]. rewrite H2.
    assert (Hr : rotation (x :: t) (m :: q ++ p)) by (exists p, (m :: q); auto).
    assert (Hl : least_first (m :: q ++ p)).
    { exists m. split; [now exists (q ++ p)|]. intros y Hy. apply H3. now apply (rotation_In _ _ _ y Hr). }
    split; [intros [= <-]; auto|]. intros [Hr' (m' & Hm' & Hl')]. f_equal.
    assert (m = m').
    { apply N.le_antisymm.
      - apply H3. apply (rotation_In _ _ _ m' Hr'). now apply starts_with_In.
      - apply Hl'. apply (rotation_In _ _ _ m Hr'). rewrite H1. apply in_app_iff. right. now left. }
    subst m'. apply (rotation_unique _ (x :: t) _ _ m); auto. now exists (q ++ p).
Qed.

Lemma fold_min l : forall x m, fold_left N.min l x = m <-> In m (x :: l) /\ forall y, In y (x :: l) -> (m <= y)%N.
Proof.
  induction l as [|a l IH]; intros x m; cbn [fold_left].
  - split.
    + intros <-. split; [now left|]. intros y [<-|[]]. lia.
    + intros [[H|[]] _]. assumption.
  - rewrite IH. split.
    + intros [H1 H2]. split.
      * destruct H1 as [H1|H1]; [|right; now right]. destruct (N.min_spec x a) as [[_ H]|[_ H]]; rewrite H in H1; [now left|right; now left].
      * pose proof (H2 _ (or_introl eq_refl)) as H. intros y [<-|[<-|Hy]]; [lia|lia|]. apply H2. now right.
    + intros [H1 H2]. pose proof (H2 x (or_introl eq_refl)). pose proof (H2 a (or_intror (or_introl eq_refl))). split.
      * destruct H1 as [H1|[H1|H1]]; [left; lia|left; lia|now right].
      * intros y [<-|Hy]; [lia|]. apply H2. right. now right.
Qed.
Lemma is_canonical_spec c b : c <> [] -> is_canonical c = Some b -> (b = true <-> least_first c).
Proof.
  destruct c as [|x t]; [congruence|]. intros _ [= <-]. rewrite N.eqb_eq. split.
  - intro H. symmetry in H. apply fold_min in H as [_ H]. exists x. split; [now exists t|assumption].
  - intros (m & Hm & Hl). apply starts_with_cons in Hm as ->. symmetry. apply fold_min. split; [now left|assumption].
Qed.

(** ** [extract_canonical_cycle_from_last] *)
Lemma rposition_none v l : ~ In v l -> rposition v l = None.
Proof.
  induction l as [|x l IH]; intro H; [reflexivity|]. cbn. rewrite IH by (intro; apply H; now right).
  destruct (N.eqb_spec x v) as [->|]; [|reflexivity]. exfalso. apply H. now left.
Qed.
Lemma rposition_some v a b : ~ In v b -> rposition v (a ++ v :: b) = Some (length a).
Proof.
  intro H. induction a as [|x a IH]; cbn.
  - now rewrite rposition_none, N.eqb_refl.
  - now rewrite IH.
Qed.
Lemma last_snoc (r : path) (v : N) : path_last (r ++ [v]) = Some v.
Proof. unfold path_last. now rewrite rev_app_distr. Qed.
Lemma front_snoc A (r : list A) v : firstn (length (r ++ [v]) - 1) (r ++ [v]) = r.
Proof.
  rewrite app_length. cbn. rewrite Nat.add_sub, firstn_app, firstn_all, Nat.sub_diag. cbn. apply app_nil_r.
Qed.
Lemma extract_none r v : ~ In v r -> extract_canonical_cycle_from_last (r ++ [v]) = Some None.
Proof.
  intro H. unfold extract_canonical_cycle_from_last. now rewrite last_snoc, front_snoc, rposition_none.
Qed.
Lemma extract_some a b v : ~ In v b -> exists c, canonical (v :: b) = Some c /\
  extract_canonical_cycle_from_last ((a ++ v :: b) ++ [v]) = Some (Some c).
Proof.
  intro H. destruct (canonical (v :: b)) as [c|] eqn:Ec; [|now apply canonical_nil in Ec].
  exists c. split; [reflexivity|]. unfold extract_canonical_cycle_from_last.
  rewrite last_snoc, front_snoc, rposition_some by assumption.
  rewrite skipn_app, skipn_all, Nat.sub_diag. cbn [app skipn]. now rewrite Ec.
Qed.

(** ** The search tree *)
Definition cycle_kids (g : graph) (p : path) : option (list path) :=
  match extract_canonical_cycle_from_last p with
  | None => None
  | Some (Some _) => Some []
  | Some None =>
    match path_last p with
    | None => None
    | Some v => Some (map (fun e => path_append p (snd e)) (outbound_edges g v))
    end
  end.

Lemma push_all_stack A (xs l : list A) : push_all (Stack A) xs l = l ++ xs.
Proof. exact (push_all_list A xs l). Qed.

(** The successive items of an iterator. *)
Inductive runs {A S} (next : nat -> S -> outcome (option (A * S))) : S -> list A -> Prop :=
| runs_nil s : (exists n0, forall n, n0 <= n -> next n s = Done None) -> runs next s []
| runs_cons s a s' l : (exists n0, forall n, n0 <= n -> next n s = Done (Some (a, s'))) ->
    runs next s' l -> runs next s (a :: l).
Lemma runs_step A S (next : nat -> S -> outcome (option (A * S))) s s' l :
  (forall n, next (Datatypes.S n) s = next n s') -> runs next s' l -> runs next s l.
Proof.
  intros H Hr. inversion Hr as [? [n0 Hn]|? ? ? ? [n0 Hn] Hr']; subst.
  - apply runs_nil. exists (Datatypes.S n0). intros [|n] Hle; [lia|]. rewrite H. apply Hn. lia.
  - eapply runs_cons; [|exact Hr']. exists (Datatypes.S n0). intros [|n] Hle; [lia|]. rewrite H. apply Hn. lia.
Qed.
Lemma runs_collect A S (next : nat -> S -> outcome (option (A * S))) s l : runs next s l ->
  settles (fun n => fcollect A S next n n s) l.
Proof.
  intro H. assert (Hk : exists n0, forall n k, n0 <= n -> length l < k -> fcollect A S next n k s = Done l).
  { induction H as [s [n0 Hn]|s a s' l [n0 Hn] _ [n1 IH]].
    - exists n0. intros n k Hle Hk. destruct k as [|k]; [cbn in Hk; lia|]. cbn. now rewrite Hn.
    - exists (n0 + n1). intros n k Hle Hk. destruct k as [|k]; [cbn in Hk; lia|]. cbn.
      rewrite Hn by lia. cbn. rewrite IH; [reflexivity|lia|cbn in Hk; lia]. }
  destruct Hk as [n0 Hk]. exists (n0 + Datatypes.S (length l)). intros n Hn. apply Hk; lia.
Qed.
Lemma runs_find A S (next : nat -> S -> outcome (option (A * S))) pred s l : runs next s l ->
  settles (fun n => ffind A S next pred n n s) (find pred l).
Proof.
  intro H. assert (Hk : exists n0, forall n k, n0 <= n -> length l < k -> ffind A S next pred n k s = Done (find pred l)).
  { induction H as [s [n0 Hn]|s a s' l [n0 Hn] _ [n1 IH]].
    - exists n0. intros n k Hle Hk. destruct k as [|k]; [cbn in Hk; lia|]. cbn. now rewrite Hn.
    - exists (n0 + n1). intros n k Hle Hk. destruct k as [|k]; [cbn in Hk; lia|]. cbn.
      rewrite Hn by lia. cbn. destruct (pred a); [reflexivity|]. rewrite IH; [reflexivity|lia|cbn in Hk; lia]. }
  destruct Hk as [n0 Hk]. exists (n0 + Datatypes.S (length l)). intros n Hn. apply Hk; lia.
Qed.
Lemma runs_take A S (next : nat -> S -> outcome (option (A * S))) k s l : runs next s l ->
  settles (fun n => ftake A S next n k s) (firstn k l).
Proof.
  intro H. revert k. induction H as [s [n0 Hn]|s a s' l [n0 Hn] _ IH]; intro k.
  - exists n0. intros n Hle. destruct k; cbn; [reflexivity|]. now rewrite Hn.
  - destruct k as [|k]; [exists 0; reflexivity|]. destruct (IH k) as [n1 IHk]. exists (n0 + n1). intros n Hle. cbn.
    rewrite Hn by lia. cbn. rewrite IHk by lia. reflexivity.
Qed.
Lemma runs_first A S (next : nat -> S -> outcome (option (A * S))) s l : runs next s l ->
  settles (fun n => omap (option_map fst) (next n s)) (hd_error l).
Proof.
  intros [s' [n0 Hn]|s' a s'' l' [n0 Hn] _]; exists n0; intros n Hle; unfold omap; rewrite Hn by assumption; reflexivity.
Qed.

Section Cycles.
  Variable g : graph.
  Hypothesis W : wf g.
  Let E := gE g.
  Let kidsc := kidsl path (cycle_kids g).

  Definition good (p : path) : Prop :=
    p <> [] /\ NoDup (removelast p) /\ chain E p /\ incl p (vertices g).
  Definition crank (p : path) : nat := length (vertices g) + 2 - length p.

  Lemma good_snoc r v : good (r ++ [v]) <-> NoDup r /\ chain E (r ++ [v]) /\ incl (r ++ [v]) (vertices g).
  Proof.
    unfold good. rewrite removelast_last. split; [tauto|]. intros H. split; [|exact H]. now destruct r.
  Qed.
  Lemma good_inv p : good p -> exists r v, p = r ++ [v].
  Proof. intros [H _]. destruct (exists_last H) as (r & v & ->). eauto. Qed.

  Lemma kids_spec p : good p ->
    cycle_kids g p <> None /\
    forall q, In q (kidsc p) <-> NoDup p /\ exists u v, ends_with u p /\ E u v /\ q = p ++ [v].
  Proof.
    intro Hp. destruct (good_inv p Hp) as (r & v & ->). apply good_snoc in Hp as (Hn & Hc & Hi).
    unfold kidsc, kidsl, cycle_kids. destruct (in_dec N.eq_dec v r) as [Hv|Hv].
    - apply in_split in Hv as (a & b & ->).
      assert (Hb : ~ In v b).
      { apply NoDup_app_iff in Hn as (_ & Hn & _). now inversion Hn. }
      destruct (extract_some a b v Hb) as (c & _ & ->). split; [discriminate|]. intro q. split; [intros []|].
      intros [H _]. apply NoDup_snoc in H as [_ H]. exfalso. apply H, in_app_iff. right. now left.
    - rewrite extract_none, last_snoc by assumption. split; [discriminate|]. intro q. rewrite in_map_iff. split.
      + intros ([x y] & <- & Hin). cbn [snd]. split; [apply NoDup_snoc; auto|]. exists v, y.
        split; [now exists r|]. split; [|reflexivity]. apply outbound_In in Hin as Hx. destruct Hx as [-> _].
        now apply gE_outbound in Hin.
      + intros (_ & u & y & Hu & He & ->). apply ends_with_snoc in Hu as ->. exists (v, y). split; [reflexivity|].
        now apply gE_outbound.
  Qed.
  Lemma kids_some p : good p -> cycle_kids g p <> None.
  Proof. intro H. now apply kids_spec. Qed.
  Lemma kids_good a b : good a -> In b (kidsc a) -> good b /\ crank b < crank a.
  Proof.
    intros Ha Hb. apply kids_spec in Hb as (Hn & u & v & Hu & He & ->); [|assumption].
    destruct Ha as (Hne & _ & Hc & Hi). split.
    - apply good_snoc. split; [assumption|]. split.
      + apply chain_snoc. split; [assumption|]. intros x Hx. now rewrite (ends_with_fun Hx Hu).
      + intros x Hx. apply in_app_iff in Hx as [Hx|[<-|[]]]; [auto|]. now apply (gE_vertices g W u).
    - unfold crank. rewrite app_length. cbn. pose proof (NoDup_incl_length Hn Hi). unfold path in *. lia.
  Qed.
  Let treec := tree path (cycle_kids g) crank.
  Lemma tree_unfold_c p : good p -> treec p = p :: flat_map treec (kidsc p).
  Proof. intro H. now apply (tree_unfold path (cycle_kids g) good crank kids_good). Qed.

  Definition found (p : path) (c : cycle) : Prop := extract_canonical_cycle_from_last p = Some (Some c).

  Lemma memC_In c l : memC c l = true <-> In c l.
  Proof.
    unfold memC. rewrite existsb_exists. split.
    - intros (x & Hx & H). destruct (list_eq_dec N.eq_dec x c) as [->|]; [assumption|discriminate].
    - intro H. exists c. split; [assumption|]. now destruct (list_eq_dec N.eq_dec c c).
  Qed.

  Lemma search_runs n : forall stack returned, (forall p, In p stack -> good p) ->
    length (flat_map treec stack) <= n ->
    exists out, runs (cycle_next g) (stack, returned) out /\ NoDup out /\
      forall c, In c out <-> ~ In c returned /\ exists p, In p (flat_map treec stack) /\ found p c.
  Proof.
    induction n as [|n IH]; intros stack returned Hg Hn.
    - destruct stack as [|p stack].
      + exists []. split; [apply runs_nil; exists 1; intros [|m] Hm; [lia|reflexivity]|]. split; [constructor|].
        intro c. split; [intros []|intros (_ & p & [] & _)].
      + cbn [flat_map] in Hn. rewrite tree_unfold_c in Hn by (apply Hg; now left). cbn in Hn. lia.
    - destruct stack as [|p0 stack0].
      + exists []. split; [apply runs_nil; exists 1; intros [|m] Hm; [lia|reflexivity]|]. split; [constructor|].
        intro c. split; [intros []|intros (_ & p & [] & _)].
      + destruct (exists_last (l := p0 :: stack0)) as (st & p & Heq); [discriminate|]. rewrite Heq in *. clear p0 stack0 Heq.
        assert (Hp : good p) by (apply Hg; apply in_app_iff; right; now left).
        assert (Hst : forall q, In q st -> good q) by (intros; apply Hg; apply in_app_iff; now left).
        rewrite flat_map_app in Hn |- *. cbn [flat_map] in Hn |- *. rewrite app_nil_r in Hn |- *. rewrite tree_unfold_c in Hn |- * by assumption.
        rewrite app_length in Hn. cbn [length] in Hn.
        assert (Hpop : pop_back (st ++ [p]) = Some (p, st)) by now apply pop_back_some.
        pose proof (kids_some p Hp) as Hk. pose proof (kids_good p) as Hkg. unfold kidsc, kidsl, cycle_kids in *.
        destruct (extract_canonical_cycle_from_last p) as [[c|]|] eqn:Ex; [| |congruence].
        * cbn [flat_map] in Hn |- *. cbn [length] in Hn.
          destruct (memC c returned) eqn:Em.
          -- destruct (IH st returned Hst) as (out & H1 & H2 & H3); [lia|]. exists out. split.
             { eapply runs_step; [|exact H1]. intro k. cbn [cycle_next Stack q_pop]. rewrite Hpop, Ex, Em. reflexivity. }
             split; [assumption|]. intro d. rewrite H3. apply memC_In in Em. split.
             ++ intros (Hr & q & Hq & Hf). split; [assumption|]. exists q. split; [apply in_app_iff; now left|assumption].
             ++ intros (Hr & q & Hq & Hf). split; [assumption|]. apply in_app_iff in Hq as [Hq|[<-|[]]]; [eauto|].
                unfold found in Hf. rewrite Ex in Hf. injection Hf as ->. contradiction.
          -- destruct (IH st (c :: returned) Hst) as (out & H1 & H2 & H3); [lia|]. exists (c :: out). split.
             { eapply runs_cons; [|exact H1]. exists 1. intros [|k] Hle; [lia|]. cbn [cycle_next Stack q_pop]. rewrite Hpop, Ex, Em. reflexivity. }
             assert (Hc : ~ In c returned) by (intro Hi; apply memC_In in Hi; congruence).
             split.
             { constructor; [|assumption]. intro Hi. apply H3 in Hi as [Hi _]. apply Hi. now left. }
             intro d. cbn [In]. rewrite H3. split.
             ++ intros [<-|(Hr & q & Hq & Hf)].
                ** split; [assumption|]. exists p. split; [apply in_app_iff; right; now left|assumption].
                ** split; [intro; apply Hr; now right|]. exists q. split; [apply in_app_iff; now left|assumption].
             ++ intros (Hr & q & Hq & Hf). destruct (list_eq_dec N.eq_dec c d) as [->|Hne]; [now left|]. right.
                split; [intros [Heq|Hi]; [congruence|contradiction]|]. apply in_app_iff in Hq as [Hq|[<-|[]]]; [eauto|].
                unfold found in Hf. rewrite Ex in Hf. injection Hf as ->. congruence.
        * destruct (path_last p) as [v|] eqn:El; [|congruence].
          set (kids := map (fun e => path_append p (snd e)) (outbound_edges g v)) in *.
          destruct (IH (st ++ kids) returned) as (out & H1 & H2 & H3).
          { intros q Hq. apply in_app_iff in Hq as [Hq|Hq]; [auto|]. now apply Hkg. }
          { rewrite flat_map_app, app_length. lia. }
          exists out. split.
          { eapply runs_step; [|exact H1]. intro k. cbn [cycle_next Stack q_pop]. rewrite Hpop, Ex, El.
            rewrite push_all_stack. reflexivity. }
          split; [assumption|]. intro d. rewrite H3, flat_map_app. split.
          -- intros (Hr & q & Hq & Hf). split; [assumption|]. exists q. split; [|assumption].
             apply in_app_iff in Hq as [Hq|Hq]; apply in_app_iff; [now left|right; now right].
          -- intros (Hr & q & Hq & Hf). split; [assumption|]. exists q. split; [|assumption].
             apply in_app_iff in Hq as [Hq|[<-|Hq]]; apply in_app_iff; [now left| |now right].
             unfold found in Hf. congruence.
  Qed.

  (** What the search visits from one start vertex. *)
  Lemma desc_lollipop s p : In s (vertices g) ->
    desc path (cycle_kids g) [s] p <-> walk_from E s p /\ NoDup (removelast p).
  Proof.
    intro Hs.
    assert (H0 : good [s]).
    { apply (good_snoc []). split; [constructor|]. split; [apply chain_one|]. intros x [<-|[]]. assumption. }
    split.
    - intro H. assert (Hw : good p /\ walk_from E s p).
      { induction H as [|b c H [IH1 IH2] Hc].
        - split; [assumption|]. split; [now exists []|apply chain_one].
        - destruct (kids_good b c IH1 Hc) as [Hg _]. split; [assumption|].
          apply kids_spec in Hc as (_ & u & v & Hu & He & ->); [|assumption].
          apply walk_from_snoc. right. exists u. split; [|assumption]. destruct IH2 as [I1 I2]. split; [assumption|]. split; assumption. }
      split; [apply Hw|]. apply Hw.
    - induction p as [|v p IH] using rev_ind; intros [H1 H2]; [destruct H1 as [[t Ht] _]; discriminate|].
      rewrite removelast_last in H2.
      apply walk_from_snoc in H1 as [[-> ->]|(u & Hw & He)]; [constructor|].
      assert (Hd : desc path (cycle_kids g) [s] p).
      { apply IH. split; [now apply walk_from_to_from in Hw|]. destruct p as [|x p] using rev_ind; [constructor|].
        rewrite removelast_last. now apply NoDup_snoc in H2. }
      apply desc_step with p; [assumption|]. apply kids_spec.
      + now apply (desc_good path (cycle_kids g) good crank kids_good [s]).
      + split; [assumption|]. exists u, v. destruct Hw as (_ & Hu & _). auto.
  Qed.

  (** A cycle is extracted from a path reaching it and going round. *)
  Lemma found_sound s p c : walk_from E s p -> NoDup (removelast p) -> found p c ->
    simple_cycle E c /\ least_first c /\ exists x, In x c /\ reachable E s x.
  Proof.
    intros Hw Hn Hf. destruct p as [|v r _] using rev_ind; [destruct Hw as [[t Ht] _]; discriminate|].
    rewrite removelast_last in Hn. destruct (in_dec N.eq_dec v r) as [Hv|Hv].
    2:{ unfold found in Hf. rewrite extract_none in Hf by assumption. discriminate. }
    apply in_split in Hv as (a & b & ->).
    assert (Hb : NoDup (v :: b)) by now apply NoDup_app_iff in Hn.
    destruct (extract_some a b v) as (c' & Hc & Hx); [now inversion Hb|].
    unfold found in Hf. rewrite Hx in Hf. injection Hf as ->. apply canonical_spec in Hc as [Hr Hl]; [|assumption].
    assert (Hadj : forall x y, adjacent x y (v :: b ++ [v]) -> E x y).
    { intros x y Hxy. apply Hw. rewrite <- app_assoc. apply adjacent_app. right. left. exact Hxy. }
    split; [|split; [assumption|]].
    - apply simple_cycle_rotation with (v :: b); [|assumption]. split; [assumption|]. split.
      + intros x y Hxy. apply Hadj. change (v :: b ++ [v]) with ((v :: b) ++ [v]). apply adjacent_snoc. now left.
      + destruct (ends_with_ex (l := v :: b)) as [y Hy]; [discriminate|]. exists v, y. split; [now exists b|].
        split; [assumption|]. apply Hadj. change (v :: b ++ [v]) with ((v :: b) ++ [v]). apply adjacent_snoc. now right.
    - exists v. split; [apply (rotation_In _ _ _ v Hr); now left|]. apply (walk_In_reachable _ Hw).
      apply in_app_iff. right. now left.
  Qed.

  (** The first vertex of a list satisfying a decidable predicate. *)
  Lemma first_hit (P : N -> bool) (l : list N) : (exists x, In x l /\ P x = true) ->
    exists a x b, l = a ++ x :: b /\ P x = true /\ forall y, In y a -> P y = false.
  Proof.
    induction l as [|z l IH]; intros (x & Hx & Hp); [contradiction|]. destruct (P z) eqn:Ez.
    - exists [], z, l. split; [reflexivity|]. split; [assumption|]. intros ? [].
    - destruct Hx as [->|Hx]; [congruence|]. destruct IH as (a & y & b & -> & H1 & H2); [eauto|].
      exists (z :: a), y, b. split; [reflexivity|]. split; [assumption|]. intros w [<-|Hw]; auto.
  Qed.

  Lemma found_complete s c : simple_cycle E c -> least_first c -> (exists x, In x c /\ reachable E s x) ->
    exists p, walk_from E s p /\ NoDup (removelast p) /\ found p c.
  Proof.
    intros Hc Hl (x & Hx & Hr). apply reachable_simple in Hr as (l & Hw & Hn).
    destruct (first_hit (fun y => memN y c) l) as (a & y & b & -> & Hy & Ha).
    { exists x. split; [destruct Hw as (_ & Hw & _); now apply ends_with_In|now apply memN_In]. }
    apply memN_In in Hy. apply in_split in Hy as (c1 & c2 & Hc12).
    assert (Hrot : rotation c (y :: c2 ++ c1)) by (exists c1, (y :: c2); auto).
    pose proof (simple_cycle_rotation _ _ _ Hc Hrot) as (Hn' & Hadj & u & v & Hu & Hv & Hvu).
    apply starts_with_cons in Hu as ->.
    assert (Hw1 : walk_from E s (a ++ [y])).
    { apply (@walk_prefix E s (a ++ [y]) b); [|now destruct a]. rewrite <- app_assoc. now apply walk_from_to_from in Hw. }
    assert (Hnd : NoDup (a ++ y :: c2 ++ c1)).
    { apply NoDup_app_iff. split; [now apply NoDup_app_iff in Hn|]. split; [assumption|].
      intros z Hz Hz'. specialize (Ha z Hz). apply (rotation_In _ _ _ z Hrot) in Hz'. apply memN_In in Hz'. congruence. }
    exists ((a ++ y :: c2 ++ c1) ++ [y]). rewrite removelast_last. split; [|split; [assumption|]].
    - split.
      + apply starts_with_app. destruct Hw1 as [Hs _]. apply (starts_with_app (c2 ++ c1)) in Hs.
        now rewrite <- app_assoc in Hs.
      + destruct Hw1 as [_ Hch]. apply chain_snoc. split.
        * apply chain_app. split; [intros p q Hpq; apply Hch; apply adjacent_snoc; now left|]. split; [exact Hadj|].
          intros p q Hp Hq. apply starts_with_cons in Hq as ->. apply Hch. apply adjacent_snoc. now right.
        * intros p Hp. apply ends_with_app in Hp. now rewrite (ends_with_fun Hp Hv).
    - destruct (extract_some a (c2 ++ c1) y) as (c' & H1 & H2); [now inversion Hn'|]. unfold found. rewrite H2.
      do 2 f_equal. apply canonical_spec in H1 as [Hr1 (m & Hm & Hmin)]; [|assumption].
      destruct Hl as (m' & Hm' & Hmin').
      assert (m = m').
      { assert (Hr2 : rotation c c') by (eapply rotation_trans; eassumption). apply N.le_antisymm.
        - apply Hmin. apply (rotation_In _ _ _ m' Hr2). now apply starts_with_In.
        - apply Hmin'. apply (rotation_In _ _ _ m Hr2). now apply starts_with_In. }
      subst m'. apply (rotation_unique _ (y :: c2 ++ c1) _ _ m); auto. now apply rotation_sym.
  Qed.

  Lemma starts_spec : (forall v, In v (find_starting_edges g) -> In v (vertices g)) /\
    NoDup (find_starting_edges g) /\
    forall v, In v (find_starting_edges g) <->
      In v (vertices g) /\ (source E v \/ ((forall u, In u (vertices g) -> ~ source E u) /\ head_option g = Some v)).
  Proof.
    assert (Hsrc : forall v, Nat.eqb (length (inbound_edges g v)) 0 = true <-> source E v).
    { intro v. rewrite Nat.eqb_eq, length_zero_iff_nil. split.
      - intros H u Hu. apply (gE_inbound g W) in Hu. rewrite H in Hu. contradiction.
      - intro H. destruct (inbound_edges g v) as [|[a b] l] eqn:Ei; [reflexivity|]. exfalso.
        assert (Hi : In (a, b) (inbound_edges g v)) by (rewrite Ei; now left).
        pose proof Hi as Hi'. apply (inbound_In _ _ _ W) in Hi as [-> _]. apply (H a). now apply (gE_inbound g W). }
    unfold find_starting_edges. set (res := filter _ (vertices g)).
    assert (Hres : forall v, In v res <-> In v (vertices g) /\ source E v) by (intro v; unfold res; now rewrite filter_In, Hsrc).
    assert (Hnd : NoDup res) by (apply NoDup_filter, (wf_keys W)).
    assert (Hhead : forall h, head_option g = Some h -> In h (vertices g)).
    { unfold head_option. intros h Hh. destruct (vertices g); [discriminate|]. injection Hh as ->. now left. }
    destruct res as [|r res].
    - assert (Hno : forall u, In u (vertices g) -> ~ source E u) by (intros u Hu Hs; now apply (Hres u)).
      destruct (head_option g) as [h|] eqn:Eh.
      + split; [intros v [<-|[]]; auto|]. split; [repeat constructor; intros []|]. intro v. split.
        * intros [<-|[]]. auto.
        * intros [Hv [Hs|[_ [= <-]]]]; [exfalso; now apply (Hno v)|now left].
      + split; [intros v []|]. split; [constructor|]. intro v. split; [intros []|].
        intros [Hv [Hs|[_ H]]]; [now apply (Hno v)|discriminate].
    - split; [intros v Hv; now apply Hres|]. split; [assumption|]. intro v. rewrite Hres. split; [tauto|].
      intros [Hv [Hs|[Hno _]]]; [auto|]. exfalso. destruct (Hres r) as [H _]. destruct H as [H1 H2]; [now left|].
      now apply (Hno r).
  Qed.

  Theorem cycle_run : exists out, runs (cycle_next g) (cycle_iter g) out /\ NoDup out /\
    forall c, In c out <-> simple_cycle E c /\ least_first c /\
      exists s x, In s (find_starting_edges g) /\ In x c /\ reachable E s x.
  Proof.
    destruct starts_spec as (Hs1 & Hs2 & _). unfold cycle_iter. rewrite push_all_stack. cbn [app].
    set (stack := map (fun v => path_from [v]) (find_starting_edges g)).
    assert (Hg : forall p, In p stack -> exists s, p = [s] /\ In s (find_starting_edges g) /\ good p).
    { intros p Hp. apply in_map_iff in Hp as (s & <- & Hs). exists s. split; [reflexivity|]. split; [assumption|].
      apply (good_snoc []). split; [constructor|]. split; [apply chain_one|]. intros x [<-|[]]. auto. }
    destruct (search_runs (length (flat_map treec stack)) stack []) as (out & H1 & H2 & H3).
    { intros p Hp. destruct (Hg p Hp) as (s & _ & _ & H). assumption. }
    { reflexivity. }
    exists out. split; [assumption|]. split; [assumption|]. intro c. rewrite H3.
    assert (Ht : forall p, In p (flat_map treec stack) <->
      exists s, In s (find_starting_edges g) /\ walk_from E s p /\ NoDup (removelast p)).
    { intro p. rewrite in_flat_map. split.
      - intros (q & Hq & Hp). destruct (Hg q Hq) as (s & -> & Hs & Hgood). exists s. split; [assumption|].
        apply desc_lollipop; [auto|]. now apply (tree_In path (cycle_kids g) good crank kids_good) in Hp.
      - intros (s & Hs & Hw). assert (Hq : In [s] stack) by (apply in_map_iff; exists s; auto).
        exists [s]. split; [assumption|]. destruct (Hg [s] Hq) as (_ & _ & _ & Hgood).
        apply (tree_In path (cycle_kids g) good crank kids_good); [assumption|]. apply desc_lollipop; auto. }
    split.
    - intros (_ & p & Hp & Hf). apply Ht in Hp as (s & Hs & Hw & Hn).
      destruct (found_sound s p c Hw Hn Hf) as (I1 & I2 & x & Hx & Hr). split; [assumption|]. split; [assumption|]. eauto.
    - intros (I1 & I2 & s & x & Hs & Hx & Hr). split; [intros []|].
      destruct (found_complete s c I1 I2) as (p & Hw & Hn & Hf); [eauto|]. exists p. split; [|assumption].
      apply Ht. eauto.
  Qed.
End Cycles.
