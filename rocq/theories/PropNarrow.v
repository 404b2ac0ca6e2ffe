(** * Property C155: more options, fewer answers *)
From Coq Require Import String.
From Coq Require Import List NArith ZArith Bool Arith Lia Permutation.
From Verif Require Import Spec EverySpec Base WalkFacts Graph GraphSpec GraphFacts Path ConstraintSpec PathFacts
  Queue Heap Iter IterFacts TreeFacts SearchFacts BestFacts ConstrainedFacts PropSearch
  Cycle CycleSpec CycleFacts PropCycle
  Clap ClapSpec ClapManual ClapFacts Mains PropClap
  Text Format FormatSpec TextFacts FormatFacts Store StoreSpec StoreFacts CrashFacts PropFormat PropStore
  Cli CliSpec CliFacts Query QuerySpec QueryFacts PropQuery PropReverse PropEvery.
Import ListNotations.
Open Scope N_scope.

(** ** Requests that ask for more *)
(** The option is absent in the first request, or both give it and the values are related. *)
Definition more {A} (R : A -> A -> Prop) (o o' : option A) : Prop := forall a, o = Some a -> exists a', o' = Some a' /\ R a a'.
Definition tighter (b b' : bounds) : Prop :=
  more N.le (r_min_length b) (r_min_length b') /\ more N.ge (r_max_length b) (r_max_length b') /\
  more eq (r_exact_length b) (r_exact_length b') /\ more Z.le (r_min_score b) (r_min_score b') /\
  more Z.ge (r_max_score b) (r_max_score b') /\ more eq (r_exact_score b) (r_exact_score b').
Definition asks_more (r r' : csp_request) : Prop :=
  more (@incl N) (r_include r) (r_include r') /\ more (@incl N) (r_exclude r) (r_exclude r') /\
  more (fun l l' => forall x y, before x y l -> before x y l') (r_ordered r) (r_ordered r') /\
  (r_include_cycle r = true -> r_include_cycle r' = true) /\ (r_no_cycle r = true -> r_no_cycle r' = true) /\
  tighter (r_bounds r) (r_bounds r').
Definition cycle_asks_more (r r' : cycle_request) : Prop :=
  more (@incl N) (k_include r) (k_include r') /\ more (@incl N) (k_exclude r) (k_exclude r') /\
  more (@incl (N * N)) (k_include_edges r) (k_include_edges r') /\ more (@incl (N * N)) (k_exclude_edges r) (k_exclude_edges r') /\
  tighter (k_bounds r) (k_bounds r').

Lemma tighter_within b b' len score : tighter b b' -> within b' len score -> within b len score.
Proof.
  intros (T1 & T2 & T3 & T4 & T5 & T6) (W1 & W2 & W3 & W4 & W5 & W6).
  split; [|split; [|split; [|split; [|split]]]]; intros n E.
  - destruct (T1 n E) as (n' & E' & H). specialize (W1 n' E'). lia.
  - destruct (T2 n E) as (n' & E' & H). specialize (W2 n' E'). lia.
  - destruct (T3 n E) as (n' & E' & ->). now apply W3.
  - destruct (T4 n E) as (n' & E' & H). specialize (W4 n' E'). lia.
  - destruct (T5 n E) as (n' & E' & H). specialize (W5 n' E'). lia.
  - destruct (T6 n E) as (n' & E' & ->). now apply W6.
Qed.
Lemma more_meets r r' p : asks_more r r' -> meets r' p -> meets r p.
Proof.
  intros (A1 & A2 & A3 & A4 & A5 & A6) (M1 & M2 & M3 & M4 & M5 & M6).
  split; [|split; [|split; [|split; [|split]]]].
  - intros l v E Hv. destruct (A1 l E) as (l' & E' & H). apply (M1 l' v E'). now apply H.
  - intros l v E Hv. destruct (A2 l E) as (l' & E' & H). apply (M2 l' v E'). now apply H.
  - intros l x y E Hb. destruct (A3 l E) as (l' & E' & H). apply (M3 l' x y E'). now apply H.
  - auto.
  - auto.
  - now apply (tighter_within _ _ _ _ A6).
Qed.
Lemma more_cycle_meets r r' c : cycle_asks_more r r' -> cycle_meets r' c -> cycle_meets r c.
Proof.
  intros (A1 & A2 & A3 & A4 & A5) (M1 & M2 & M3 & M4 & M5).
  split; [|split; [|split; [|split]]].
  - intros l v E Hv. destruct (A1 l E) as (l' & E' & H). apply (M1 l' v E'). now apply H.
  - intros l v E Hv. destruct (A2 l E) as (l' & E' & H). apply (M2 l' v E'). now apply H.
  - intros l x y E Hb. destruct (A3 l E) as (l' & E' & H). apply (M3 l' x y E'). now apply H.
  - intros l x y E Hb. destruct (A4 l E) as (l' & E' & H). apply (M4 l' x y E'). now apply H.
  - now apply (tighter_within _ _ _ _ A5).
Qed.

(** ** gc-csp *)
Theorem C155_csp : forall nd order order' Q Q' s g a b x y opts opts' r r', hash_order order -> hash_order order' ->
  pops_least Q sp_score -> pops_least Q' sp_score -> loads nd s g -> id_argument a x -> id_argument b y ->
  csp_given opts r -> csp_given opts' r' -> usual r -> usual r' -> asks_more r r' ->
  exists header header' dx dy, canonical_numeral dx x /\ canonical_numeral dy y /\
  (* a path for the longer request: the shorter one is answered too, at no larger cost *)
  ((exists p, wanted g r' x y p) -> exists n n' d d' lines lines', n <= n' /\ canonical_numeral d n /\ canonical_numeral d' n' /\
    prints (gc_csp nd order Q a b opts) s (header ++ (txt "Constrained shortest path from vertex " ++ dx ++ txt " to vertex " ++ dy ++
              txt " with total cost of " ++ d ++ txt ".") :: lines) /\
    prints (gc_csp nd order' Q' a b opts') s (header' ++ (txt "Constrained shortest path from vertex " ++ dx ++ txt " to vertex " ++ dy ++
              txt " with total cost of " ++ d' ++ txt ".") :: lines')) /\
  (* if the shorter request ends without a path, the longer one never finds one *)
  (forall fuel, snd (run_prog (gc_csp nd order Q a b opts fuel) s) =
      Done (header ++ [txt "Vertex " ++ dy ++ txt " is not reachable from vertex " ++ dx ++ txt " within the given constraints."]) ->
    forall fuel' out, snd (run_prog (gc_csp nd order' Q' a b opts' fuel') s) = Done out ->
      out = header' ++ [txt "Vertex " ++ dy ++ txt " is not reachable from vertex " ++ dx ++ txt " within the given constraints."]) /\
  (* and if the shorter request bounds the length, so does the longer one: both end *)
  (bounded_request r -> exists out out',
     prints (gc_csp nd order Q a b opts) s out /\ prints (gc_csp nd order' Q' a b opts') s out').
Proof.
  intros nd order order' Q Q' s g a b x y opts opts' r r' O O' HQ HQ' HL Ha Hb HG HG' HU HU' HM.
  destruct (C85_csp opts r HG HU) as (ls & _ & H). destruct (C85_csp opts' r' HG' HU') as (ls' & _ & H').
  specialize (H nd order Q s g a b x y O HQ HL Ha Hb). specialize (H' nd order' Q' s g a b x y O' HQ' HL Ha Hb).
  set (header := txt "Constraint that will be applied to search are: " :: ls) in *.
  set (header' := txt "Constraint that will be applied to search are: " :: ls') in *.
  destruct H as (A1 & A2 & A3), H' as (B1 & B2 & B3).
  assert (W : forall p, wanted g r' x y p -> wanted g r x y p) by (intros p [W1 W2]; split; [assumption|now apply (more_meets r r')]).
  exists header, header', (show x), (show y). split; [apply show_spec|]. split; [apply show_spec|].
  assert (Ux : forall d, canonical_numeral d x -> d = show x) by (intros d Hd; apply (canonical_unique _ _ _ Hd), show_spec).
  assert (Uy : forall d, canonical_numeral d y -> d = show y) by (intros d Hd; apply (canonical_unique _ _ _ Hd), show_spec).
  split; [|split].
  - intros [p0 Hp0]. destruct A2 as (ans & (p & dx & dy & n & lines & Wp & Mp & Dx & Dy & Dn & Li & ->) & P); [exists p0; now apply W|].
    destruct B2 as (ans' & (p' & dx' & dy' & n' & lines' & Wp' & Mp' & Dx' & Dy' & Dn' & Li' & ->) & P'); [now exists p0|].
    apply Ux in Dx, Dx'. apply Uy in Dy, Dy'. subst.
    exists (N.of_nat (hops p)), (N.of_nat (hops p')), n, n', lines, lines'.
    split; [specialize (Mp p' (W p' Wp')); lia|]. do 2 (split; [assumption|]). now split.
  - intros fuel E fuel' out E'. destruct (A1 _ _ E) as (ans & Ea & K). apply app_inv_head in Ea. subst ans.
    assert (Hno : forall p, ~ wanted g r x y p).
    { destruct K as [(p & dx & dy & n & lines & Wp & _ & Dx & _ & _ & _ & Ea)|[Hno _]]; [|exact Hno].
      exfalso. injection Ea as Ea _. discriminate Ea. }
    destruct (B1 _ _ E') as (ans' & -> & [(p & _ & _ & _ & _ & Hp & _)|[_ (dx & dy & Dx & Dy & ->)]]); [elim (Hno p); now apply W|].
    now rewrite (Ux _ Dx), (Uy _ Dy).
  - intros Hbd. destruct A3 as (ans & P); [now left|]. destruct B3 as (ans' & P').
    + left. destruct HM as (_ & _ & _ & _ & M5 & (_ & T2 & T3 & _)). destruct Hbd as [Hbd|[Hbd|Hbd]].
      * left. auto.
      * right. left. destruct (r_max_length (r_bounds r)) as [n|]; [|congruence]. destruct (T2 n eq_refl) as (n' & -> & _). discriminate.
      * right. right. destruct (r_exact_length (r_bounds r)) as [n|]; [|congruence]. destruct (T3 n eq_refl) as (n' & -> & _). discriminate.
    + exists (header ++ ans), (header' ++ ans'). now split.
Qed.
Print Assumptions C155_csp.
(** *** On every command line

    [C155_csp] compares requests as they read.  What matters is what they do: on every pair of command lines, the one
    whose paths are all accepted by the other one has no cheaper answer. *)
Theorem C155_csp_effect : forall nd order order' Q Q' s g a b x y opts opts' r r', hash_order order -> hash_order order' ->
  pops_least Q sp_score -> pops_least Q' sp_score -> loads nd s g -> id_argument a x -> id_argument b y ->
  csp_understood opts r -> csp_understood opts' r' -> (forall p, obeys r' p -> obeys r p) ->
  exists header header' dx dy, canonical_numeral dx x /\ canonical_numeral dy y /\
  (* a path for the longer request: the shorter one is answered too, at no larger cost *)
  ((exists p, asked g r' x y p) -> exists n n' d d' lines lines', n <= n' /\ canonical_numeral d n /\ canonical_numeral d' n' /\
    prints (gc_csp nd order Q a b opts) s (header ++ (txt "Constrained shortest path from vertex " ++ dx ++ txt " to vertex " ++ dy ++
              txt " with total cost of " ++ d ++ txt ".") :: lines) /\
    prints (gc_csp nd order' Q' a b opts') s (header' ++ (txt "Constrained shortest path from vertex " ++ dx ++ txt " to vertex " ++ dy ++
              txt " with total cost of " ++ d' ++ txt ".") :: lines')) /\
  (* if the shorter request ends without a path, the longer one never finds one *)
  (forall fuel, snd (run_prog (gc_csp nd order Q a b opts fuel) s) =
      Done (header ++ [txt "Vertex " ++ dy ++ txt " is not reachable from vertex " ++ dx ++ txt " within the given constraints."]) ->
    forall fuel' out, snd (run_prog (gc_csp nd order' Q' a b opts' fuel') s) = Done out ->
      out = header' ++ [txt "Vertex " ++ dy ++ txt " is not reachable from vertex " ++ dx ++ txt " within the given constraints."]) /\
  (* and both end if both bound the length *)
  (bounded_request r -> bounded_request r' -> exists out out',
     prints (gc_csp nd order Q a b opts) s out /\ prints (gc_csp nd order' Q' a b opts') s out').
Proof.
  intros nd order order' Q Q' s g a b x y opts opts' r r' O O' HQ HQ' HL Ha Hb HG HG' HM.
  destruct (C160_csp opts r HG) as (ls & _ & H). destruct (C160_csp opts' r' HG') as (ls' & _ & H').
  specialize (H nd order Q s g a b x y O HQ HL Ha Hb). specialize (H' nd order' Q' s g a b x y O' HQ' HL Ha Hb).
  set (header := txt "Constraint that will be applied to search are: " :: ls) in *.
  set (header' := txt "Constraint that will be applied to search are: " :: ls') in *.
  destruct H as (A1 & A2 & A3), H' as (B1 & B2 & B3).
  assert (W : forall p, asked g r' x y p -> asked g r x y p) by (intros p [W1 W2]; split; [assumption|now apply HM]).
  exists header, header', (show x), (show y). split; [apply show_spec|]. split; [apply show_spec|].
  assert (Ux : forall d, canonical_numeral d x -> d = show x) by (intros d Hd; apply (canonical_unique _ _ _ Hd), show_spec).
  assert (Uy : forall d, canonical_numeral d y -> d = show y) by (intros d Hd; apply (canonical_unique _ _ _ Hd), show_spec).
  split; [|split].
  - intros [p0 Hp0]. destruct A2 as (ans & (p & dx & dy & n & lines & Wp & Mp & Dx & Dy & Dn & Li & ->) & P); [exists p0; now apply W|].
    destruct B2 as (ans' & (p' & dx' & dy' & n' & lines' & Wp' & Mp' & Dx' & Dy' & Dn' & Li' & ->) & P'); [now exists p0|].
    apply Ux in Dx, Dx'. apply Uy in Dy, Dy'. subst.
    exists (N.of_nat (hops p)), (N.of_nat (hops p')), n, n', lines, lines'.
    split; [specialize (Mp p' (W p' Wp')); lia|]. do 2 (split; [assumption|]). now split.
  - intros fuel E fuel' out E'. destruct (A1 _ _ E) as (ans & Ea & K). apply app_inv_head in Ea. subst ans.
    assert (Hno : forall p, ~ asked g r x y p).
    { destruct K as [(p & dx & dy & n & lines & Wp & _ & Dx & _ & _ & _ & Ea)|[Hno _]]; [|exact Hno].
      exfalso. injection Ea as Ea _. discriminate Ea. }
    destruct (B1 _ _ E') as (ans' & -> & [(p & _ & _ & _ & _ & Hp & _)|[_ (dx & dy & Dx & Dy & ->)]]); [elim (Hno p); now apply W|].
    now rewrite (Ux _ Dx), (Uy _ Dy).
  - intros Hbd Hbd'. destruct A3 as (ans & P); [now left|]. destruct B3 as (ans' & P'); [now left|]. exists (header ++ ans), (header' ++ ans'). now split.
Qed.
Print Assumptions C155_csp_effect.


(** ** gc-cycle *)
Lemma before_both {A} (x y : A) l : NoDup l -> before x y l -> before y x l -> False.
Proof.
  intros N1 (p & q & t & ->) (p' & q' & t' & E).
  assert (H : forall p q : list A, NoDup (p ++ x :: q) -> forall p' q', p ++ x :: q = p' ++ x :: q' -> p = p').
  { clear. induction p as [|u p IH]; intros q Hn [|u' p'] q' E; cbn [app] in E; [reflexivity| | |].
    - injection E as <- ->. apply NoDup_cons_iff in Hn. destruct Hn as [Hn _]. elim Hn. apply in_or_app. right. now left.
    - injection E as -> _. cbn [app] in Hn. apply NoDup_cons_iff in Hn. destruct Hn as [Hn _]. elim Hn. apply in_or_app. right. now left.
    - injection E as <- E. f_equal. cbn [app] in Hn. apply NoDup_cons_iff in Hn. now apply (IH q (proj2 Hn) p' q'). }
  pose proof E as E2. replace (p' ++ y :: q' ++ x :: t') with ((p' ++ y :: q') ++ x :: t') in E2 by now rewrite <- app_assoc.
  assert (p = p' ++ y :: q') by (apply (H p (q ++ y :: t) N1 _ _ E2)). subst p.
  rewrite <- app_assoc in N1. apply NoDup_remove_2 in N1. apply N1. cbn [app]. rewrite !in_app_iff. cbn [In]. rewrite in_app_iff. cbn [In]. tauto.
Qed.
Lemma same_order_eq {A} (seen : list A) : NoDup seen -> forall l l', NoDup l -> NoDup l' -> (forall c, In c l <-> In c l') ->
  (forall c d, before c d l -> before c d seen) -> (forall c d, before c d l' -> before c d seen) -> l = l'.
Proof.
  intros Hs. induction l as [|x l IH]; intros [|y l'] N1 N2 HI B1 B2; [reflexivity| | |].
  - elim (proj2 (HI y)). now left.
  - elim (proj1 (HI x)). now left.
  - apply NoDup_cons_iff in N1, N2. destruct N1 as [N1 N1'], N2 as [N2 N2'].
    assert (E : x = y).
    { destruct (proj1 (HI x) (or_introl eq_refl)) as [E|Hx]; [now symmetry|].
      destruct (proj2 (HI y) (or_introl eq_refl)) as [E|Hy]; [assumption|]. exfalso.
      apply (before_both x y seen Hs); [apply B1|apply B2]; apply before_cons; left; now split. }
    subst y. f_equal. apply IH; try assumption.
    + intro c. split; intro Hc.
      * destruct (proj1 (HI c) (or_intror Hc)) as [->|]; [contradiction|assumption].
      * destruct (proj2 (HI c) (or_intror Hc)) as [->|]; [contradiction|assumption].
    + intros c d Hb. apply B1. apply before_cons. now right.
    + intros c d Hb. apply B2. apply before_cons. now right.
Qed.
Theorem C155_cycle : forall nd order s g a a' r r', hash_order order -> loads nd s g ->
  cycle_given a r -> cycle_given a' r' -> r_max_score (k_bounds r) = None -> r_max_score (k_bounds r') = None -> cycle_asks_more r r' ->
  (* no larger count *)
  (asks a Count -> asks a' Count -> exists n n' d d', n' <= n /\ canonical_numeral d n /\ canonical_numeral d' n' /\
     prints (gc_cycle nd order a) s [txt "count: " ++ d] /\ prints (gc_cycle nd order a') s [txt "count: " ++ d']) /\
  (* no shorter shortest cycle, and none where there was none *)
  (asks a Shortest -> asks a' Shortest ->
     prints (gc_cycle nd order a') s [txt "shortest cycle: N/A"] \/
     exists c c' t t', (length c <= length c')%nat /\ cycle_meets r c /\ cycle_meets r' c' /\ vec_text c t /\ vec_text c' t' /\
       prints (gc_cycle nd order a) s [txt "shortest cycle: " ++ t] /\ prints (gc_cycle nd order a') s [txt "shortest cycle: " ++ t']) /\
  (* no longer longest one *)
  (asks a Longest -> asks a' Longest ->
     prints (gc_cycle nd order a') s [txt "longest cycle: N/A"] \/
     exists c c' t t', (length c' <= length c)%nat /\ cycle_meets r c /\ cycle_meets r' c' /\ vec_text c t /\ vec_text c' t' /\
       prints (gc_cycle nd order a) s [txt "longest cycle: " ++ t] /\ prints (gc_cycle nd order a') s [txt "longest cycle: " ++ t']) /\
  (* and every cycle listed for the longer request is listed for the shorter one, in the same order *)
  (asks a All -> asks a' All -> exists cs cs' ls ls', Forall2 vec_text cs ls /\ Forall2 vec_text cs' ls' /\ NoDup cs /\
     cs' = filter (fun c => if in_dec (list_eq_dec N.eq_dec) c cs' then true else false) cs /\
     prints (gc_cycle nd order a) s ls /\ prints (gc_cycle nd order a') s ls').
Proof.
  intros nd order s g a a' r r' O HL HG HG' HM HM' HA.
  destruct (C87_cycle nd order s g O HL) as (seen & [Hnd Hseen] & H).
  destruct (H a r HG HM) as (kept & N1 & I1 & B1 & K). destruct (H a' r' HG' HM') as (kept' & N2 & I2 & B2 & K').
  assert (S : incl kept' kept).
  { intros c Hc. apply I1. apply I2 in Hc. destruct Hc as [H1 H2]. split; [assumption|]. now apply (more_cycle_meets r r'). }
  assert (M1 : forall c, In c kept -> cycle_meets r c) by (intros c Hc; now apply I1 in Hc).
  assert (M2 : forall c, In c kept' -> cycle_meets r' c) by (intros c Hc; now apply I2 in Hc).
  split; [|split; [|split]]; intros A A'.
  - destruct (K Count A) as (l & P & d & Hd & ->). destruct (K' Count A') as (l' & P' & d' & Hd' & ->).
    exists (N.of_nat (length kept)), (N.of_nat (length kept')), d, d'.
    split; [pose proof (NoDup_incl_length N2 S); lia|]. do 2 (split; [assumption|]). now split.
  - destruct (K Shortest A) as (l & P & X). destruct (K' Shortest A') as (l' & P' & [[_ ->]|(p' & c' & q' & t' & E' & _ & _ & T' & ->)]); [now left|].
    right. assert (Hc' : In c' kept') by (rewrite E'; apply in_or_app; right; now left).
    destruct X as [[E _]|(p & c & q & t & E & H1 & H2 & T & ->)]; [apply S in Hc'; rewrite E in Hc'; destruct Hc'|].
    exists c, c', t, t'. split.
    + apply S in Hc'. rewrite E in Hc'. apply in_app_or in Hc'. destruct Hc' as [Hc'|[->|Hc']]; [apply H1 in Hc'; lia|lia|now apply H2].
    + split; [apply M1; rewrite E; apply in_or_app; right; now left|]. split; [now apply M2|]. do 2 (split; [assumption|]). now split.
  - destruct (K Longest A) as (l & P & X). destruct (K' Longest A') as (l' & P' & [[_ ->]|(p' & c' & q' & t' & E' & _ & _ & T' & ->)]); [now left|].
    right. assert (Hc' : In c' kept') by (rewrite E'; apply in_or_app; right; now left).
    destruct X as [[E _]|(p & c & q & t & E & H1 & H2 & T & ->)]; [apply S in Hc'; rewrite E in Hc'; destruct Hc'|].
    exists c, c', t, t'. split.
    + apply S in Hc'. rewrite E in Hc'. apply in_app_or in Hc'. destruct Hc' as [Hc'|[->|Hc']]; [now apply H1|lia|apply H2 in Hc'; lia].
    + split; [apply M1; rewrite E; apply in_or_app; right; now left|]. split; [now apply M2|]. do 2 (split; [assumption|]). now split.
  - destruct (K All A) as (l & P & X). destruct (K' All A') as (l' & P' & X'). cbn [cycle_output] in X, X'.
    exists kept, kept', l, l'. do 3 (split; [assumption|]). split; [|now split].
    apply (same_order_eq seen Hnd); try assumption.
    + now apply NoDup_filter.
    + intro c. rewrite filter_In. destruct (in_dec (list_eq_dec N.eq_dec) c kept') as [Hc|Hc]; split; try tauto; try easy. intros _. split; [now apply S|reflexivity].
    + intros c d Hb. apply B1. now apply filter_before in Hb.
Qed.
Print Assumptions C155_cycle.
Theorem C155_cycle_effect : forall nd order s g a a' r r', hash_order order -> loads nd s g ->
  cycle_understood a r -> cycle_understood a' r' -> (forall c, cycle_obeys r' c -> cycle_obeys r c) ->
  (* no larger count *)
  (asks a Count -> asks a' Count -> exists n n' d d', n' <= n /\ canonical_numeral d n /\ canonical_numeral d' n' /\
     prints (gc_cycle nd order a) s [txt "count: " ++ d] /\ prints (gc_cycle nd order a') s [txt "count: " ++ d']) /\
  (* no shorter shortest cycle, and none where there was none *)
  (asks a Shortest -> asks a' Shortest ->
     prints (gc_cycle nd order a') s [txt "shortest cycle: N/A"] \/
     exists c c' t t', (length c <= length c')%nat /\ cycle_obeys r c /\ cycle_obeys r' c' /\ vec_text c t /\ vec_text c' t' /\
       prints (gc_cycle nd order a) s [txt "shortest cycle: " ++ t] /\ prints (gc_cycle nd order a') s [txt "shortest cycle: " ++ t']) /\
  (* no longer longest one *)
  (asks a Longest -> asks a' Longest ->
     prints (gc_cycle nd order a') s [txt "longest cycle: N/A"] \/
     exists c c' t t', (length c' <= length c)%nat /\ cycle_obeys r c /\ cycle_obeys r' c' /\ vec_text c t /\ vec_text c' t' /\
       prints (gc_cycle nd order a) s [txt "longest cycle: " ++ t] /\ prints (gc_cycle nd order a') s [txt "longest cycle: " ++ t']) /\
  (* and every cycle listed for the longer request is listed for the shorter one, in the same order *)
  (asks a All -> asks a' All -> exists cs cs' ls ls', Forall2 vec_text cs ls /\ Forall2 vec_text cs' ls' /\ NoDup cs /\
     cs' = filter (fun c => if in_dec (list_eq_dec N.eq_dec) c cs' then true else false) cs /\
     prints (gc_cycle nd order a) s ls /\ prints (gc_cycle nd order a') s ls').
Proof.
  intros nd order s g a a' r r' O HL HG HG' HA.
  destruct (C160_cycle nd order s g O HL) as (seen & [Hnd Hseen] & H).
  destruct (H a r HG) as (kept & N1 & I1 & B1 & K). destruct (H a' r' HG') as (kept' & N2 & I2 & B2 & K').
  assert (S : incl kept' kept).
  { intros c Hc. apply I1. apply I2 in Hc. destruct Hc as [H1 H2]. split; [assumption|]. now apply HA. }
  assert (M1 : forall c, In c kept -> cycle_obeys r c) by (intros c Hc; now apply I1 in Hc).
  assert (M2 : forall c, In c kept' -> cycle_obeys r' c) by (intros c Hc; now apply I2 in Hc).
  split; [|split; [|split]]; intros A A'.
  - destruct (K Count A) as (l & P & d & Hd & ->). destruct (K' Count A') as (l' & P' & d' & Hd' & ->).
    exists (N.of_nat (length kept)), (N.of_nat (length kept')), d, d'.
    split; [pose proof (NoDup_incl_length N2 S); lia|]. do 2 (split; [assumption|]). now split.
  - destruct (K Shortest A) as (l & P & X). destruct (K' Shortest A') as (l' & P' & [[_ ->]|(p' & c' & q' & t' & E' & _ & _ & T' & ->)]); [now left|].
    right. assert (Hc' : In c' kept') by (rewrite E'; apply in_or_app; right; now left).
    destruct X as [[E _]|(p & c & q & t & E & H1 & H2 & T & ->)]; [apply S in Hc'; rewrite E in Hc'; destruct Hc'|].
    exists c, c', t, t'. split.
    + apply S in Hc'. rewrite E in Hc'. apply in_app_or in Hc'. destruct Hc' as [Hc'|[->|Hc']]; [apply H1 in Hc'; lia|lia|now apply H2].
    + split; [apply M1; rewrite E; apply in_or_app; right; now left|]. split; [now apply M2|]. do 2 (split; [assumption|]). now split.
  - destruct (K Longest A) as (l & P & X). destruct (K' Longest A') as (l' & P' & [[_ ->]|(p' & c' & q' & t' & E' & _ & _ & T' & ->)]); [now left|].
    right. assert (Hc' : In c' kept') by (rewrite E'; apply in_or_app; right; now left).
    destruct X as [[E _]|(p & c & q & t & E & H1 & H2 & T & ->)]; [apply S in Hc'; rewrite E in Hc'; destruct Hc'|].
    exists c, c', t, t'. split.
    + apply S in Hc'. rewrite E in Hc'. apply in_app_or in Hc'. destruct Hc' as [Hc'|[->|Hc']]; [now apply H1|lia|apply H2 in Hc'; lia].
    + split; [apply M1; rewrite E; apply in_or_app; right; now left|]. split; [now apply M2|]. do 2 (split; [assumption|]). now split.
  - destruct (K All A) as (l & P & X). destruct (K' All A') as (l' & P' & X'). cbn [cycle_output] in X, X'.
    exists kept, kept', l, l'. do 3 (split; [assumption|]). split; [|now split].
    apply (same_order_eq seen Hnd); try assumption.
    + now apply NoDup_filter.
    + intro c. rewrite filter_In. destruct (in_dec (list_eq_dec N.eq_dec) c kept') as [Hc|Hc]; split; try tauto; try easy. intros _. split; [now apply S|reflexivity].
    + intros c d Hb. apply B1. now apply filter_before in Hb.
Qed.
Print Assumptions C155_cycle_effect.


(** *** --max-score

    Options that ask for more do more, except for --max-score: a smaller value is a weaker demand.  There are
    command lines of which the one with the smaller --max-score finds a path where the other one finds none. *)
Lemma nth_before {A} (x y : A) l : forall i j, nth_error l i = Some x -> nth_error l j = Some y -> (i < j)%nat -> before x y l.
Proof.
  intros i j Hi Hj Hij. apply nth_error_split in Hi. destruct Hi as (p & q & -> & Hp).
  rewrite nth_error_app2 in Hj by lia. destruct (j - length p)%nat as [|k] eqn:K; [lia|]. cbn [nth_error] in Hj.
  apply nth_error_split in Hj. destruct Hj as (u & v & -> & _). now exists p, u, v.
Qed.
Lemma before_nth {A} (x y : A) l : before x y l -> exists i j, nth_error l i = Some x /\ nth_error l j = Some y /\ (i < j)%nat.
Proof.
  intros (p & q & r & ->). exists (length p), (length p + S (length q))%nat. split; [|split; [|lia]].
  - rewrite nth_error_app2, Nat.sub_diag by lia. reflexivity.
  - rewrite nth_error_app2 by lia. replace (length p + S (length q) - length p)%nat with (S (length q)) by lia. cbn [nth_error].
    rewrite nth_error_app2, Nat.sub_diag by lia. reflexivity.
Qed.
Lemma nodup_last (l : list N) x i : NoDup l -> nth_error l i = Some x -> last_position l x i.
Proof.
  intros H Hi. split; [assumption|]. intros j Hij Hj.
  assert (i = j); [|lia]. apply (proj1 (NoDup_nth_error l) H); [|congruence]. apply nth_error_Some. congruence.
Qed.
Theorem C155_more : forall r r' p, asks_more r r' -> (forall l, r_ordered r' = Some l -> NoDup l) ->
  more eq (r_max_score (r_bounds r)) (r_max_score (r_bounds r')) -> obeys r' p -> obeys r p.
Proof.
  intros r r' p (A1 & A2 & A3 & A4 & A5 & (T1 & T2 & T3 & T4 & _ & T6)) HN TM (M1 & M2 & M3 & M4 & M5 & (W1 & W2 & W3 & W4 & W5 & W6)).
  split; [|split; [|split; [|split; [|split]]]].
  - intros l v E Hv. destruct (A1 l E) as (l' & E' & H). apply (M1 l' v E'). now apply H.
  - intros l v E Hv. destruct (A2 l E) as (l' & E' & H). apply (M2 l' v E'). now apply H.
  - intros l E. destruct (A3 l E) as (l' & E' & H). specialize (M3 l' E'). specialize (HN l' E').
    intros x y i j [Hi _] [Hj _] Hij.
    assert (Hb : before x y l) by (apply (nth_before x y l i j); assumption). apply H in Hb.
    destruct (before_nth x y l' Hb) as (i' & j' & Hi' & Hj' & Hij').
    apply (M3 x y i' j'); [now apply nodup_last|now apply nodup_last|assumption].
  - auto.
  - auto.
  - split; [|split; [|split; [|split; [|split]]]]; intros n E.
    + destruct (T1 n E) as (n' & E' & H). specialize (W1 n' E'). lia.
    + destruct (T2 n E) as (n' & E' & H). specialize (W2 n' E'). lia.
    + destruct (T3 n E) as (n' & E' & ->). now apply W3.
    + destruct (T4 n E) as (n' & E' & H). specialize (W4 n' E'). lia.
    + destruct (TM n E) as (n' & E' & ->). now apply W5.
    + destruct (T6 n E) as (n' & E' & ->). now apply W6.
Qed.
Print Assumptions C155_more.
Definition one_step := txt "AddEdge 1 2".
Theorem C155_max_score_refuted : exists m m', get_matches app_csp true (map txt ["--start"; "1"; "--end"; "2"; "--max-score"; "3"]%string) = Parsed m /\
  get_matches app_csp true (map txt ["--start"; "1"; "--end"; "2"; "--max-score"; "1"]%string) = Parsed m' /\
  exists nd s g header header', loads nd s g /\ forall order Q, hash_order order -> pops_least Q sp_score ->
  prints (gc_csp nd order Q (Mains.given m (txt "start")) (Mains.given m (txt "end")) (csp_of m)) s
    (header ++ [txt "Vertex 2 is not reachable from vertex 1 within the given constraints."]) /\
  prints (gc_csp nd order Q (Mains.given m' (txt "start")) (Mains.given m' (txt "end")) (csp_of m')) s
    (header' ++ [txt "Constrained shortest path from vertex 1 to vertex 2 with total cost of 1."; txt "1"; txt "2"]).
Proof.
  eexists. eexists. split; [vm_compute; reflexivity|]. split; [vm_compute; reflexivity|].
  match goal with |- context[csp_of ?m] => set (o := csp_of m) end.
  match goal with |- context[gc_csp _ _ _ (Mains.given ?m _) (Mains.given ?m _) (csp_of ?m)] => set (o' := csp_of m) end.
  assert (Eo : o = {| q_include := None; q_exclude := None; q_ordered := None; q_include_cycle := false; q_no_cycle := false;
     q_bounds := {| b_min_length := None; b_max_length := None; b_exact_length := None; b_min_score := None; b_max_score := Some (txt "3"); b_exact_score := None |} |})
   by (vm_compute; reflexivity).
  assert (Eo' : o' = {| q_include := None; q_exclude := None; q_ordered := None; q_include_cycle := false; q_no_cycle := false;
     q_bounds := {| b_min_length := None; b_max_length := None; b_exact_length := None; b_min_score := None; b_max_score := Some (txt "1"); b_exact_score := None |} |})
   by (vm_compute; reflexivity).
  clearbody o o'. subst o o'.
  set (req z := {| r_include := None; r_exclude := None; r_ordered := None; r_include_cycle := false; r_no_cycle := false;
     r_bounds := {| r_min_length := None; r_max_length := None; r_exact_length := None; r_min_score := None; r_max_score := Some z; r_exact_score := None |} |}).
  match goal with |- context[gc_csp _ _ _ _ _ ?o] => assert (U : csp_understood o (req 3%Z)) end.
  { repeat apply conj; try reflexivity. left. exists 3%Z. split; [now apply parse_i64_spec|reflexivity]. }
  match goal with |- context[prints (gc_csp _ _ _ _ _ ?o) _ (_ ++ [_; _; _])] => assert (U' : csp_understood o (req 1%Z)) end.
  { repeat apply conj; try reflexivity. left. exists 1%Z. split; [now apply parse_i64_spec|reflexivity]. }
  destruct (C160_csp _ _ U) as (ls & _ & H). destruct (C160_csp _ _ U') as (ls' & _ & H').
  assert (HL : loads table (with_file one_step) (apply_commands [AddEdge 1 2] g_new)) by reflexivity.
  assert (E1 : forall a b, gE (apply_commands [AddEdge 1 2] g_new) a b <-> (1, 2) = (a, b)).
  { intros a b. rewrite run_edges. vm_compute. tauto. }
  exists table, (with_file one_step), (apply_commands [AddEdge 1 2] g_new).
  exists (txt "Constraint that will be applied to search are: " :: ls), (txt "Constraint that will be applied to search are: " :: ls').
  split; [exact HL|]. revert HL E1. generalize (apply_commands [AddEdge 1 2] g_new). intros g HL E1 order Q O HQ.
  assert (I1 : id_argument (txt "1") 1) by now apply parse_id_spec.
  assert (I2 : id_argument (txt "2") 2) by now apply parse_id_spec.
  assert (W : forall p, walk_from_to (gE g) 1 2 p <-> p = [1; 2]).
  { intro p. split.
    - intros ([t ->] & [q Hq] & Hw). destruct t as [|y t].
      + destruct q as [|? [|? ?]]; discriminate.
      + assert (y = 2). { assert (He : gE g 1 y) by (apply Hw; now exists [], t). apply E1 in He. congruence. }
        subst y. destruct t as [|z t]; [reflexivity|]. exfalso.
        assert (He : gE g 2 z) by (apply Hw; now exists [1], t). apply E1 in He. discriminate.
    - intros ->. split; [now exists [2]|]. split; [now exists [1]|]. intros a b Hab.
      apply WalkFacts.adjacent_cons in Hab. destruct Hab as [[-> [q Hq]]|Hab]; [|now apply adjacent_one in Hab].
      injection Hq as <- _. now apply E1. }
  assert (AC : acyclic (gE g)).
  { intros l (z & (([t Ht] & [q Hq] & Hw) & Hl)). subst l. destruct t as [|y t]; [cbn in Hl; lia|].
    assert (He : gE g z y) by (apply Hw; now exists [], t). apply E1 in He. injection He as <- <-.
    destruct t as [|y t]; [destruct q as [|? [|? [|? ?]]]; discriminate|].
    assert (He : gE g 2 y) by (apply Hw; now exists [1], t). apply E1 in He. discriminate. }
  destruct (H table order Q (with_file one_step) g _ _ 1 2 O HQ HL I1 I2) as (A1 & _ & A3).
  destruct (H' table order Q (with_file one_step) g _ _ 1 2 O HQ HL I1 I2) as (B1 & B2 & _).
  split.
  - destruct A3 as (ans & P); [now right|]. destruct P as (N0 & P). pose proof (P N0 ltac:(lia)) as P0.
    destruct (A1 _ _ P0) as (ans' & E & K). apply app_inv_head in E. subst ans'.
    destruct K as [(p & _ & _ & _ & _ & (Wp & Op) & _)|[_ (dx & dy & Dx & Dy & ->)]].
    + exfalso. apply W in Wp. subst p. destruct Op as (_ & _ & _ & _ & _ & (_ & _ & _ & _ & Op & _)).
      specialize (Op 3%Z eq_refl). unfold hops in Op. cbn in Op. lia.
    + rewrite (canonical_unique _ _ _ Dx (show_spec 1)), (canonical_unique _ _ _ Dy (show_spec 2)) in P. exists N0. exact P.
  - destruct B2 as (ans & (p & dx & dy & n & lines & (Wp & Op) & _ & Dx & Dy & Dn & Li & ->) & P).
    + exists [1; 2]. split; [now apply W|]. repeat apply conj; try discriminate. intros z [= <-]. unfold hops. cbn. lia.
    + apply W in Wp. subst p. rewrite (canonical_unique _ _ _ Dx (show_spec 1)), (canonical_unique _ _ _ Dy (show_spec 2)) in P.
      assert (En : n = show 1) by (apply (canonical_unique _ _ _ Dn), show_spec). subst n.
      assert (El : lines = [txt "1"; txt "2"]).
      { inversion Li as [|? ? ? ? L1 L2]; subst. inversion L2 as [|? ? ? ? L3 L4]; subst. inversion L4; subst.
        rewrite (canonical_unique _ _ _ L1 (show_spec 1)), (canonical_unique _ _ _ L3 (show_spec 2)). reflexivity. }
      subst lines. exact P.
Qed.
Print Assumptions C155_max_score_refuted.

(** *** --girth and --hamiltonian

    The help texts say that they do not allow constraints.  Lines with both are accepted, and the constraints
    change nothing: what is printed is the girth of the whole graph. *)
Theorem C155_ignored : forall nd order a a' fuel,
  (asks a Girth -> asks a' Girth -> gc_cycle nd order a fuel = gc_cycle nd order a' fuel) /\
  (asks a Hamiltonian -> asks a' Hamiltonian -> gc_cycle nd order a fuel = gc_cycle nd order a' fuel).
Proof.
  intros nd order a a' fuel. unfold asks, gc_cycle.
  split; intros [= H1 H2 _ _ _ _ _ _] [= H1' H2' _ _ _ _ _ _]; now rewrite H1, H1', ?H2, ?H2'.
Qed.
Print Assumptions C155_ignored.
Definition two_and_three := txt "AddEdge 1 2" ++ [10] ++ txt "AddEdge 2 1" ++ [10] ++ txt "AddEdge 2 3" ++ [10] ++ txt "AddEdge 3 1".
Lemma cycle_successor (E : rel) c x : simple_cycle E c -> In x c -> exists y, In y c /\ E x y.
Proof.
  intros (_ & Hc & u & v & [t Ht] & [p Hp] & He) Hx. apply in_split in Hx. destruct Hx as (q & w & E1).
  destruct w as [|y w].
  - rewrite E1 in Hp. apply app_inj_tail in Hp. destruct Hp as [_ ->]. exists u. split; [rewrite Ht; now left|assumption].
  - exists y. split; [rewrite E1; apply in_or_app; right; right; now left|]. apply Hc. rewrite E1. now exists q, w.
Qed.
Theorem C155_not_rejected_refuted : exists m, get_matches app_cycle true (map txt ["--girth"; "--include-all"; "3"]%string) = Parsed m /\
  exists nd s g, loads nd s g /\ (forall c, simple_cycle (gE g) c -> In 3 c -> length c = 3%nat) /\
  forall order, hash_order order -> prints (gc_cycle nd order (cycle_of m)) s [txt "girth: 2"].
Proof.
  eexists. split; [vm_compute; reflexivity|].
  set (cs := [AddEdge 1 2; AddEdge 2 1; AddEdge 2 3; AddEdge 3 1]).
  assert (HL : loads table (with_file two_and_three) (apply_commands cs g_new)) by reflexivity.
  assert (E1 : forall a b, gE (apply_commands cs g_new) a b <-> (1, 2) = (a, b) \/ (2, 1) = (a, b) \/ (2, 3) = (a, b) \/ (3, 1) = (a, b)).
  { intros a b. unfold cs. rewrite run_edges. vm_compute. tauto. }
  exists table, (with_file two_and_three), (apply_commands cs g_new). split; [exact HL|].
  assert (V : forall v, gV (apply_commands cs g_new) v -> v = 1 \/ v = 2 \/ v = 3).
  { intros v Hv. apply vertices_In in Hv. vm_compute in Hv. intuition congruence. }
  revert HL E1 V. generalize (apply_commands cs g_new). intros g HL E1 V. split.
  - intros c Hc H3. assert (H1 : In 1 c).
    { destruct (cycle_successor _ _ _ Hc H3) as (y & Hy & He). apply E1 in He. destruct He as [He|[He|[He|He]]]; try discriminate.
      now injection He as <-. }
    assert (H2 : In 2 c).
    { destruct (cycle_successor _ _ _ Hc H1) as (y & Hy & He). apply E1 in He. destruct He as [He|[He|[He|He]]]; try discriminate.
      now injection He as <-. }
    apply Nat.le_antisymm.
    + change 3%nat with (length [1; 2; 3]). apply NoDup_incl_length; [apply Hc|]. intros x Hx.
      destruct (cycle_successor _ _ _ Hc Hx) as (y & _ & He). apply E1 in He. cbn [In].
      destruct He as [He|[He|[He|He]]]; injection He as <- _; tauto.
    + change 3%nat with (length [1; 2; 3]). apply NoDup_incl_length; [repeat constructor; cbn; intuition discriminate|].
      intros x [<-|[<-|[<-|[]]]]; assumption.
  - intros order O. destruct (C87_cycle table order _ g O HL) as (seen & [_ Hseen] & H).
    assert (Hr : forall u v, gE g u v -> reachable (gE g) u v).
    { intros u v Huv. exists [u; v]. split; [now exists [v]|]. split; [now exists [u]|]. intros p q Hpq.
      apply WalkFacts.adjacent_cons in Hpq. destruct Hpq as [[-> [t Ht]]|Hpq]; [now injection Ht as <- _|now apply adjacent_one in Hpq]. }
    assert (R : forall u v, u = 1 \/ u = 2 \/ u = 3 -> v = 1 \/ v = 2 \/ v = 3 -> reachable (gE g) u v).
    { assert (R1 : forall u, u = 1 \/ u = 2 \/ u = 3 -> reachable (gE g) u 1).
      { intros u [ ->|[ ->| ->]]; [apply reachable_refl|apply Hr, E1; tauto|apply Hr, E1; tauto]. }
      assert (R2 : forall v, v = 1 \/ v = 2 \/ v = 3 -> reachable (gE g) 1 v).
      { intros v [ ->|[ ->| ->]]; [apply reachable_refl|apply Hr, E1; tauto|].
        apply (reachable_trans (u := 2)); apply Hr, E1; tauto. }
      intros u v Hu Hv. apply (reachable_trans (u := 1)); auto. }
    assert (S : forall c, In c seen <-> simple_cycle (gE g) c /\ least_first c).
    { intro c. rewrite Hseen. apply (C87_all_seen table order _ g O HL). right. intros u v Hu Hv. apply R; now apply V. }
    assert (L1 : forall c, simple_cycle (gE g) c -> (2 <= length c)%nat).
    { intros [|x [|y c]] Hc; [destruct Hc as (_ & _ & u & v & [t Hu] & _); discriminate|exfalso|cbn; lia].
      destruct Hc as (_ & _ & u & v & [t Hu] & [p Hv] & He). injection Hu as <- <-. destruct p as [|? p]; [|destruct p; discriminate].
      injection Hv as <-. apply E1 in He. destruct He as [He|[He|[He|He]]]; injection He; intros; lia. }
    assert (H12 : In [1; 2] seen).
    { apply S. split.
      - split; [repeat constructor; cbn; intuition discriminate|]. split.
        + intros a b Hab. apply E1. apply WalkFacts.adjacent_cons in Hab. destruct Hab as [[-> [q Hq]]|Hab]; [|now apply adjacent_one in Hab].
          injection Hq as <- _. tauto.
        + exists 1, 2. split; [now exists [2]|]. split; [now exists [1]|]. apply E1. tauto.
      - exists 1. split; [now exists [2]|]. intros y [<-|[<-|[]]]; lia. }
    set (req := {| k_include := None; k_exclude := None; k_include_edges := None; k_exclude_edges := None;
      k_bounds := {| r_min_length := None; r_max_length := None; r_exact_length := None;
                     r_min_score := None; r_max_score := None; r_exact_score := None |} |}).
    assert (HG : cycle_given ask_girth req).
    { refine (conj I (conj I (conj I (conj I (conj I (conj I (conj I (conj I (conj I I))))))))). }
    destruct (H ask_girth req HG eq_refl) as (kept & _ & _ & _ & K).
    destruct (K Girth eq_refl) as (ls & P & [[E _]|(c & d & Hc & Hmin & Hd & ->)]); [now rewrite E in H12|].
    specialize (Hmin _ H12). assert (L := L1 c). apply S in Hc. specialize (L (proj1 Hc)). cbn [length] in Hmin.
    assert (E : length c = 2%nat) by lia. rewrite E in Hd. rewrite (canonical_unique _ _ _ Hd (show_spec 2)) in P.
    match goal with |- prints (gc_cycle _ _ ?a) _ _ =>
      assert (EQ : forall fuel, gc_cycle table order a fuel = gc_cycle table order ask_girth fuel) by (intro fuel; apply (proj1 (C155_ignored _ _ _ _ _)); reflexivity) end.
    destruct P as (N0 & P). exists N0. intros fuel Hf. rewrite EQ. now apply P.
Qed.
Print Assumptions C155_not_rejected_refuted.

(** Path 1, 2, 3, 2 with --include-all 3 --exclude-all 4 --max-length 5 --min-score -1; path 1, 2 with --max-length 6. *)
Definition csp_fewer : csp_args := {| q_include := None; q_exclude := None; q_ordered := None; q_include_cycle := false; q_no_cycle := false;
  q_bounds := {| b_min_length := None; b_max_length := Some (txt "6"); b_exact_length := None;
                 b_min_score := None; b_max_score := None; b_exact_score := None |} |}.
Definition cycle_fewer : cycle_args := {| c_girth := false; c_hamiltonian := false; c_count := true;
  c_shortest := false; c_longest := false; c_head := false; c_take_n := None; c_all := false;
  c_include := None; c_exclude := None; c_include_edges := None; c_exclude_edges := None;
  c_bounds := {| b_min_length := None; b_max_length := None; b_exact_length := None;
                 b_min_score := None; b_max_score := None; b_exact_score := None |} |}.
Example C155_case : exists r r' g k k' h,
  loads table (with_file csp_file) g /\ csp_given csp_fewer r /\ csp_given csp_example r' /\ usual r /\ usual r' /\ asks_more r r' /\
  bounded_request r /\
  snd (run_prog (gc_csp table id_order (MinPriorityQueue sp_score) (txt "1") (txt "2") csp_fewer 100) (with_file csp_file)) =
  Done [txt "Constraint that will be applied to search are: "; txt "MaxLength(6)";
        txt "Constrained shortest path from vertex 1 to vertex 2 with total cost of 1."; txt "1"; txt "2"] /\
  loads table (with_file two_cycles_file) h /\ cycle_given cycle_fewer k /\ cycle_given (cycle_example true false) k' /\
  r_max_score (k_bounds k) = None /\ r_max_score (k_bounds k') = None /\ cycle_asks_more k k' /\ asks cycle_fewer Count /\
  asks (cycle_example true false) Count /\
  snd (run_prog (gc_cycle table id_order cycle_fewer 200) (with_file two_cycles_file)) = Done [txt "count: 3"].
Proof.
  exists {| r_include := None; r_exclude := None; r_ordered := None; r_include_cycle := false; r_no_cycle := false;
            r_bounds := {| r_min_length := None; r_max_length := Some 6; r_exact_length := None; r_min_score := None; r_max_score := None; r_exact_score := None |} |},
         csp_example_request. eexists.
  exists {| k_include := None; k_exclude := None; k_include_edges := None; k_exclude_edges := None;
    k_bounds := {| r_min_length := None; r_max_length := None; r_exact_length := None;
                   r_min_score := None; r_max_score := None; r_exact_score := None |} |},
   {| k_include := Some [2]; k_exclude := None; k_include_edges := None; k_exclude_edges := None;
    k_bounds := {| r_min_length := None; r_max_length := None; r_exact_length := Some 3;
                   r_min_score := None; r_max_score := None; r_exact_score := None |} |}. eexists.
  split; [reflexivity|]. split.
  { refine (conj I (conj I (conj I (conj eq_refl (conj eq_refl (conj I (conj _ (conj I (conj I (conj I I)))))))))); apply parse_id_spec; reflexivity. }
  split.
  { refine (conj _ (conj _ (conj I (conj eq_refl (conj eq_refl (conj I (conj _ (conj I (conj _ (conj I I))))))))));
      [apply parse_list_spec; reflexivity|apply parse_list_spec; reflexivity|apply parse_id_spec; reflexivity|
       apply parse_i64_spec; reflexivity]. }
  split; [split; [reflexivity|discriminate]|]. split; [split; [reflexivity|discriminate]|].
  assert (O1 : forall A (R : A -> A -> Prop) o, more R None o) by discriminate.
  split; [refine (conj (O1 _ _ _) (conj (O1 _ _ _) (conj (O1 _ _ _) (conj _ (conj _ (conj (O1 _ _ _) (conj _ (conj (O1 _ _ _) (conj (O1 _ _ _) (conj (O1 _ _ _) (O1 _ _ _)))))))))));
          [discriminate|discriminate|intros n [= <-]; exists 5; split; [reflexivity|lia]]|].
  split; [right; left; discriminate|]. split; [vm_compute; reflexivity|]. split; [reflexivity|].
  split; [refine (conj I (conj I (conj I (conj I (conj I (conj I (conj I (conj I (conj I I)))))))))|].
  split; [refine (conj _ (conj I (conj I (conj I (conj I (conj I (conj _ (conj I (conj I I)))))))));
    try (apply parse_list_spec; reflexivity); apply parse_id_spec; reflexivity|].
  do 2 (split; [reflexivity|]). split; [repeat split; apply O1|]. do 2 (split; [reflexivity|]). vm_compute. reflexivity.
Qed.
