(** * Property C189: all at once or one by one *)
From Coq Require Import String.
From Coq Require Import List NArith ZArith Bool Arith Lia Permutation.
From Verif Require Import Spec Base Graph GraphSpec GraphFacts Text Format FormatSpec TextFacts FormatFacts
  Store StoreSpec StoreFacts CrashFacts Cli CliSpec CliFacts PropFormat PropStore PropCli.
Import ListNotations.
Open Scope N_scope.

(** ** What it means *)
(** An invocation of gc-add asks for the vertices [V] and the edges [E] (the meaning of the options: C80). *)
Definition asks (args : add_args) (V : N -> Prop) (E : rel) : Prop :=
  exists lv le lc ly ls lq, denotes args lv le lc ly ls lq /\
    (forall x, In x lv <-> V x) /\ (forall x y, added (a_reverse args) le lc ly ls lq x y <-> E x y).
(** An invocation of gc-delete asks for the vertices [V] and the edges [E] to go (C82). *)
Definition asks_away (args : option (list text) * option (list text)) (V : N -> Prop) (E : rel) : Prop :=
  exists lv le, option_ids (fst args) lv /\ option_ids (snd args) le /\ Nat.even (length le) = true /\
    (forall x, In x lv <-> V x) /\ (forall x y, pairs_rel le x y <-> E x y).
Definition wishes := list ((N -> Prop) * rel).
Definition in_all_V (rs : wishes) : N -> Prop := fun x => exists r, In r rs /\ fst r x.
Definition in_all_E (rs : wishes) : rel := fun x y => exists r, In r rs /\ snd r x y.
(** Taken together, the same is asked for. *)
Definition same_wishes (rs qs : wishes) : Prop :=
  (forall x, in_all_V rs x <-> in_all_V qs x) /\ (forall x y, in_all_E rs x y <-> in_all_E qs x y).
(** Invocations one after the other, each with its own buffer. *)
Inductive one_by_one {A} (tool : (list text -> list text) -> A -> prog exit) : list A -> fs -> fs -> Prop :=
| ob_nil s : one_by_one tool [] s s
| ob_cons chunks a l s s1 s2 : buffering chunks -> run_prog (tool chunks a) s = (s1, Success) ->
    one_by_one tool l s1 s2 -> one_by_one tool (a :: l) s s2.
Definition deletes (chunks : list text -> list text) (args : option (list text) * option (list text)) : prog exit :=
  gc_delete chunks (fst args) (snd args).

Lemma in_all_V_cons r rs x : in_all_V (r :: rs) x <-> fst r x \/ in_all_V rs x.
Proof. split; [intros (q & [<-|H] & K); [now left|right; now exists q]|intros [H|(q & H & K)]; [exists r; split; [now left|exact H]|exists q; split; [now right|exact K]]]. Qed.
Lemma in_all_E_cons r rs x y : in_all_E (r :: rs) x y <-> snd r x y \/ in_all_E rs x y.
Proof. split; [intros (q & [<-|H] & K); [now left|right; now exists q]|intros [H|(q & H & K)]; [exists r; split; [now left|exact H]|exists q; split; [now right|exact K]]]. Qed.
Lemma union_same a b V W (E F : rel) : a_same a b -> (forall x, V x <-> W x) -> (forall x y, E x y <-> F x y) ->
  a_same (a_union a V E) (a_union b W F).
Proof.
  intros [S1 S2] HV HE. split; cbn.
  - intro x. rewrite S1, HV. split; (intros [H|[H|[y H]]]; [tauto|tauto|right; right; exists y]); [rewrite <- !HE|rewrite !HE]; exact H.
  - intros x y. now rewrite S2, HE.
Qed.
Lemma minus_same a b V W (E F : rel) : a_same a b -> (forall x, V x <-> W x) -> (forall x y, E x y <-> F x y) ->
  a_same (a_minus a V E) (a_minus b W F).
Proof.
  intros [S1 S2] HV HE. split; cbn.
  - intro x. now rewrite S1, HV.
  - intros x y. now rewrite S2, !HV, HE.
Qed.
Lemma union_cons a r rs : a_same (a_union (a_union a (fst r) (snd r)) (in_all_V rs) (in_all_E rs)) (a_union a (in_all_V (r :: rs)) (in_all_E (r :: rs))).
Proof.
  split; cbn.
  - intro x. rewrite in_all_V_cons. split.
    + intros [[H|[H|[y H]]]|[H|[y H]]]; [tauto|tauto|right; right; exists y|tauto|right; right; exists y]; rewrite !in_all_E_cons; tauto.
    + intros [H|[[H|H]|[y H]]]; [tauto|tauto|tauto|]. rewrite !in_all_E_cons in H.
      destruct H as [[H|H]|[H|H]]; [left; right; right; exists y; tauto|right; right; exists y; tauto|left; right; right; exists y; tauto|right; right; exists y; tauto].
  - intros x y. rewrite in_all_E_cons. tauto.
Qed.
Lemma minus_cons a r rs : a_same (a_minus (a_minus a (fst r) (snd r)) (in_all_V rs) (in_all_E rs)) (a_minus a (in_all_V (r :: rs)) (in_all_E (r :: rs))).
Proof.
  split; cbn.
  - intro x. rewrite in_all_V_cons. tauto.
  - intros x y. rewrite !in_all_V_cons, in_all_E_cons. tauto.
Qed.

(** ** C189 *)
(** gc-add any number of times: the graph is the old one with all that was asked for. *)
Lemma adds_hold nd l rs : digit_table nd -> Forall2 (fun args r => asks args (fst r) (snd r)) l rs ->
  forall s s' a, holds nd s a -> one_by_one gc_add l s s' -> holds nd s' (a_union a (in_all_V rs) (in_all_E rs)).
Proof.
  intros T F. induction F as [|args r l rs (lv & le & lc & ly & ls & lq & D & HV & HE) _ IH]; intros s s' a H K; inversion K; subst.
  - eapply holds_same; [exact H|]. split; cbn.
    + intro x. split; [tauto|]. intros [Hx|[(q & [] & _)|[y [(q & [] & _)|(q & [] & _)]]]]. exact Hx.
    + intros x y. split; [tauto|]. intros [Hx|(q & [] & _)]. exact Hx.
  - destruct (C80_gc_add nd chunks args lv le lc ly ls lq s a T) as (s2 & g & R & _ & _ & Sg & Hg); try assumption.
    match goal with R' : run_prog (gc_add chunks args) s = (s1, Success) |- _ => rewrite R in R'; injection R' as -> end.
    eapply holds_same; [apply (IH _ _ _ Hg); assumption|]. eapply a_same_trans; [|apply union_cons].
    apply union_same; [|tauto|tauto]. eapply a_same_trans; [exact Sg|]. apply union_same; [apply a_same_refl|exact HV|exact HE].
Qed.
Lemma deletes_hold nd l rs : digit_table nd -> Forall2 (fun args r => asks_away args (fst r) (snd r)) l rs ->
  forall s s' a, holds nd s a -> one_by_one deletes l s s' -> holds nd s' (a_minus a (in_all_V rs) (in_all_E rs)).
Proof.
  intros T F. induction F as [|args r l rs (lv & le & Dv & De & Ev & HV & HE) _ IH]; intros s s' a H K; inversion K; subst.
  - eapply holds_same; [exact H|]. split; cbn.
    + intro x. split; [|tauto]. intro Hx. split; [exact Hx|]. intros (q & [] & _).
    + intros x y. split; [|tauto]. intro Hx. split; [exact Hx|]. split; [|split]; intros (q & [] & _).
  - destruct (C82_gc_delete nd chunks (fst args) (snd args) lv le s a T) as (s2 & g & R & _ & _ & Sg & Hg); try assumption.
    match goal with R' : run_prog (deletes chunks args) s = (s1, Success) |- _ => unfold deletes in R'; rewrite R in R'; injection R' as -> end.
    eapply holds_same; [apply (IH _ _ _ Hg); assumption|]. eapply a_same_trans; [|apply minus_cons].
    apply minus_same; [|tauto|tauto]. eapply a_same_trans; [exact Sg|]. apply minus_same; [apply a_same_refl|exact HV|exact HE].
Qed.
Lemma holds_loads nd s a : digit_table nd -> holds nd s a -> exists g, loads nd s g /\ built g /\ a_same (shown g) a.
Proof.
  intros T H. destruct (holds_load nd s a T H) as (g & Hg & Hb & Hs). exists g.
  split; [unfold loads; rewrite run_load in *; cbn [snd] in Hg; now rewrite Hg|]. now split.
Qed.
(** However the additions are grouped into invocations, in whatever order they are made and however often each is repeated:
    if the same is asked for on the whole, the graph is the same. *)
Theorem C189_adds : forall nd l l' rs qs s t a s' t', digit_table nd ->
  Forall2 (fun args r => asks args (fst r) (snd r)) l rs -> Forall2 (fun args r => asks args (fst r) (snd r)) l' qs -> same_wishes rs qs ->
  holds nd s a -> holds nd t a -> one_by_one gc_add l s s' -> one_by_one gc_add l' t t' ->
  exists g h, loads nd s' g /\ loads nd t' h /\ a_same (shown g) (shown h) /\ a_same (shown g) (a_union a (in_all_V rs) (in_all_E rs)).
Proof.
  intros nd l l' rs qs s t a s' t' T F F' [WV WE] H H' K K'.
  destruct (holds_loads nd s' _ T (adds_hold nd l rs T F s s' a H K)) as (g & L & _ & S).
  destruct (holds_loads nd t' _ T (adds_hold nd l' qs T F' t t' a H' K')) as (h & L' & _ & S').
  exists g, h. split; [exact L|]. split; [exact L'|]. split; [|exact S]. eapply a_same_trans; [exact S|]. eapply a_same_trans; [|apply a_same_sym; exact S'].
  apply union_same; [apply a_same_refl|exact WV|exact WE].
Qed.
Print Assumptions C189_adds.
Theorem C189_deletes : forall nd l l' rs qs s t a s' t', digit_table nd ->
  Forall2 (fun args r => asks_away args (fst r) (snd r)) l rs -> Forall2 (fun args r => asks_away args (fst r) (snd r)) l' qs -> same_wishes rs qs ->
  holds nd s a -> holds nd t a -> one_by_one deletes l s s' -> one_by_one deletes l' t t' ->
  exists g h, loads nd s' g /\ loads nd t' h /\ a_same (shown g) (shown h) /\ a_same (shown g) (a_minus a (in_all_V rs) (in_all_E rs)).
Proof.
  intros nd l l' rs qs s t a s' t' T F F' [WV WE] H H' K K'.
  destruct (holds_loads nd s' _ T (deletes_hold nd l rs T F s s' a H K)) as (g & L & _ & S).
  destruct (holds_loads nd t' _ T (deletes_hold nd l' qs T F' t t' a H' K')) as (h & L' & _ & S').
  exists g, h. split; [exact L|]. split; [exact L'|]. split; [|exact S]. eapply a_same_trans; [exact S|]. eapply a_same_trans; [|apply a_same_sym; exact S'].
  apply minus_same; [apply a_same_refl|exact WV|exact WE].
Qed.
Print Assumptions C189_deletes.
(** Such a sequence always runs through. *)
Theorem C189_runs : forall nd chunks l s a, digit_table nd -> buffering chunks ->
  Forall (fun args => exists V E, asks args V E) l -> holds nd s a -> exists s', one_by_one gc_add l s s'.
Proof.
  intros nd chunks l s a T B F. revert s a. induction F as [|args l (V & E & lv & le & lc & ly & ls & lq & D & _) _ IH]; intros s a H; [exists s; constructor|].
  destruct (C80_gc_add nd chunks args lv le lc ly ls lq s a T B D H) as (s1 & g & R & _ & _ & _ & Hg).
  destruct (IH s1 _ Hg) as [s' K]. exists s'. now apply (ob_cons _ chunks _ _ _ s1).
Qed.
Print Assumptions C189_runs.
Theorem C189_runs_away : forall nd chunks l s a, digit_table nd -> buffering chunks ->
  Forall (fun args => exists V E, asks_away args V E) l -> holds nd s a -> exists s', one_by_one deletes l s s'.
Proof.
  intros nd chunks l s a T B F. revert s a. induction F as [|args l (V & E & lv & le & Dv & De & Ev & _) _ IH]; intros s a H; [exists s; constructor|].
  destruct (C82_gc_delete nd chunks (fst args) (snd args) lv le s a T B Dv De Ev H) as (s1 & g & R & _ & _ & _ & Hg).
  destruct (IH s1 _ Hg) as [s' K]. exists s'. now apply (ob_cons _ chunks _ _ _ s1).
Qed.
Print Assumptions C189_runs_away.
(** In particular: the order of the invocations, and repeating one. *)
Theorem C189_order : forall rs qs : wishes, Permutation rs qs -> same_wishes rs qs /\ forall r, In r rs -> same_wishes (r :: rs) rs.
Proof.
  intros rs qs P. split.
  - split; [intro x|intros x y]; split; intros (r & Hr & K); exists r; (split; [|exact K]); [apply (Permutation_in _ P)|apply (Permutation_in _ (Permutation_sym P))|apply (Permutation_in _ P)|apply (Permutation_in _ (Permutation_sym P))]; exact Hr.
  - intros r Hr. split; [intro x; rewrite in_all_V_cons|intros x y; rewrite in_all_E_cons]; (split; [intros [K|K]; [now exists r|exact K]|tauto]).
Qed.
Print Assumptions C189_order.

(** A chain at once, or its edges one by one in another order. *)
Definition only_chain (l : list text) : add_args :=
  {| a_vertex := None; a_reverse := false; a_edge := None; a_chain := Some l; a_cycle := None; a_star := None; a_clique := None |}.
Definition only_edge (l : list text) : add_args :=
  {| a_vertex := None; a_reverse := false; a_edge := Some l; a_chain := None; a_cycle := None; a_star := None; a_clique := None |}.
Example C189_case :
  asks (only_chain [txt "1"; txt "2"; txt "3"]) (fun _ => False) (fun x y => (x = 1 /\ y = 2) \/ (x = 2 /\ y = 3)) /\
  asks (only_edge [txt "2"; txt "3"]) (fun _ => False) (fun x y => x = 2 /\ y = 3) /\
  asks (only_edge [txt "1"; txt "2"]) (fun _ => False) (fun x y => x = 1 /\ y = 2) /\
  same_wishes [(fun _ => False, fun x y => (x = 1 /\ y = 2) \/ (x = 2 /\ y = 3))]
    [(fun _ => False, fun x y => x = 2 /\ y = 3); (fun _ => False, fun x y => x = 1 /\ y = 2)].
Proof.
  assert (Pairs : forall a b x y, pairs_rel [a; b] x y <-> x = a /\ y = b).
  { intros a b x y. split.
    - intros ([|[u v] p] & q & E); cbn in E; [injection E as -> -> _; tauto|]. injection E as _ _ E. destruct p as [|[? ?] p]; discriminate E.
    - intros [-> ->]. now exists [], []. }
  assert (Nil : forall x y, ~ pairs_rel [] x y) by (intros x y (p & q & E); destruct p as [|[? ?] p]; discriminate E).
  assert (NilC : forall x y, ~ chain_rel [] x y) by (intros x y (p & q & E); destruct p; discriminate E).
  assert (NilY : forall x y, ~ cycle_rel [] x y) by (intros x y [(p & q & E)|[[t E] _]]; [destruct p; discriminate E|destruct t; discriminate E]).
  assert (NilS : forall x y, ~ star_rel [] x y) by (intros x y (t & E & _); discriminate E).
  assert (NilQ : forall x y, ~ clique_rel [] x y) by (intros x y [(p & q & r & E)|(p & q & r & E)]; destruct p; discriminate E).
  assert (D : forall t l, id_arguments t l -> l <> [] -> denotes (only_chain t) [] [] l [] [] []).
  { intros t l Ht Hl. constructor; cbn; try reflexivity; try discriminate; try exact Ht. intro E. injection E as ->. inversion Ht. subst. contradiction. }
  split; [|split; [|split]].
  - exists [], [], [1; 2; 3], [], [], []. split; [apply D; [apply parse_all_done; vm_compute; reflexivity|discriminate]|]. split; [cbn; tauto|].
    intros x y. unfold added, flip. cbn [only_chain a_reverse]. split.
    + intros [K|[K|[K|[K|K]]]]; [now apply Nil in K| |now apply NilY in K|now apply NilS in K|now apply NilQ in K].
      unfold chain_rel in K. rewrite !adjacent_cons in K.
      destruct K as [[-> [q E]]|[[-> [q E]]|[[_ [q E]]|(p & q & E)]]]; [injection E as <- _; tauto|injection E as <- _; tauto|discriminate E|destruct p; discriminate E].
    + intros [[-> ->]|[-> ->]]; right; left; [now exists [], [3]|now exists [1], []].
  - exists [], [2; 3], [], [], [], []. split; [constructor; cbn; try reflexivity; try discriminate; apply parse_all_done; vm_compute; reflexivity|]. split; [cbn; tauto|].
    intros x y. unfold added, flip. cbn [only_edge a_reverse]. rewrite Pairs. specialize (NilC x y). specialize (NilY x y). specialize (NilS x y). specialize (NilQ x y). tauto.
  - exists [], [1; 2], [], [], [], []. split; [constructor; cbn; try reflexivity; try discriminate; apply parse_all_done; vm_compute; reflexivity|]. split; [cbn; tauto|].
    intros x y. unfold added, flip. cbn [only_edge a_reverse]. rewrite Pairs. specialize (NilC x y). specialize (NilY x y). specialize (NilS x y). specialize (NilQ x y). tauto.
  - split; [intro x; rewrite !in_all_V_cons|intros x y; rewrite !in_all_E_cons]; cbn [fst snd].
    + split; (intros [[]|H]); [destruct H as (q & [] & _)|]. destruct H as [[]|(q & [] & _)].
    + split.
      * intros [[H|H]|(q & [] & _)]; tauto.
      * intros [H|[H|(q & [] & _)]]; tauto.
Qed.
