(** * The order of commands, undoing them, and the size of a built file (C136-C138) *)
From Coq Require Import String.
From Coq Require Import List NArith ZArith Bool Arith Lia Permutation.
From Verif Require Import Spec Base Graph GraphSpec GraphFacts OrderFacts PropGraph
  Text Format FormatSpec TextFacts FormatFacts Store StoreSpec StoreFacts CrashFacts PropFormat PropStore
  Cli CliSpec CliFacts PropCli LogSpec.
Import ListNotations.
Open Scope N_scope.

(** ** C136 *)
Lemma last_snoc_yes (P : graph_command -> Prop) cs c d : P c -> (last_such P (cs ++ [c]) d <-> d = c).
Proof.
  intro H. split.
  - intros (p & q & E & Hd & Hq). destruct q as [|x q _] using rev_ind.
    + apply app_inj_tail in E. now destruct E.
    + replace (p ++ d :: q ++ [x]) with ((p ++ d :: q) ++ [x]) in E by now rewrite <- app_assoc. apply app_inj_tail in E. destruct E as [_ <-].
      exfalso. apply (Hq c); [|assumption]. apply in_or_app. right. now left.
  - intros ->. exists cs, []. split; [reflexivity|]. split; [assumption|]. intros ? [].
Qed.
Lemma last_snoc_no (P : graph_command -> Prop) cs c d : ~ P c -> (last_such P (cs ++ [c]) d <-> last_such P cs d).
Proof.
  intro H. split.
  - intros (p & q & E & Hd & Hq). destruct q as [|x q _] using rev_ind.
    + apply app_inj_tail in E. destruct E as [_ <-]. contradiction.
    + replace (p ++ d :: q ++ [x]) with ((p ++ d :: q) ++ [x]) in E by now rewrite <- app_assoc. apply app_inj_tail in E. destruct E as [-> <-].
      exists p, q. split; [reflexivity|]. split; [assumption|]. intros y Hy. apply Hq. apply in_or_app. now left.
  - intros (p & q & -> & Hd & Hq). exists p, (q ++ [c]). rewrite <- app_assoc. split; [reflexivity|]. split; [assumption|].
    intros y Hy. apply in_app_or in Hy. destruct Hy as [Hy|[<-|[]]]; [now apply Hq|assumption].
Qed.
Lemma about_edge_dec a b c : {about_edge a b c} + {~ about_edge a b c}.
Proof.
  unfold about_edge. destruct (command_dec c (AddEdge a b)), (command_dec c (RemoveEdge a b)),
    (command_dec c (RemoveVertex a)), (command_dec c (RemoveVertex b)); (left; tauto) || (right; tauto).
Defined.
Lemma about_vertex_dec v c : {about_vertex v c} + {~ about_vertex v c}.
Proof.
  destruct c as [w|w|x y|x y].
  - destruct (N.eq_dec w v) as [->|H]; [left; now left|right]. intros [E|[E|(u & [E|E])]]; congruence.
  - destruct (N.eq_dec w v) as [->|H]; [left; now right; left|right]. intros [E|[E|(u & [E|E])]]; congruence.
  - destruct (N.eq_dec x v) as [->|H]; [left; right; right; exists y; now right|].
    destruct (N.eq_dec y v) as [->|H']; [left; right; right; exists x; now left|right].
    intros [E|[E|(u & [E|E])]]; congruence.
  - right. intros [E|[E|(u & [E|E])]]; discriminate.
Defined.
Lemma last_edge cs a b : aE (a_run cs) a b <-> last_such (about_edge a b) cs (AddEdge a b).
Proof.
  induction cs as [|c cs IH] using rev_ind.
  - split; [intros []|]. intros (p & q & E & _). destruct p; discriminate.
  - rewrite run_snoc. destruct (about_edge_dec a b c) as [H|H].
    + rewrite (last_snoc_yes _ _ _ _ H). destruct H as [-> | [-> | [-> | ->]]]; cbn.
      * tauto.
      * split; [|discriminate]. tauto.
      * split; [|discriminate]. tauto.
      * split; [|discriminate]. tauto.
    + rewrite (last_snoc_no _ _ _ _ H), <- IH. unfold about_edge in H. destruct c as [w|w|x y|x y]; cbn.
      * tauto.
      * assert (a <> w /\ b <> w) by (split; intros ->; tauto). tauto.
      * assert (~ (a = x /\ b = y)) by (intros [-> ->]; tauto). tauto.
      * assert (~ (a = x /\ b = y)) by (intros [-> ->]; tauto). tauto.
Qed.
Lemma last_vertex cs v : aV (a_run cs) v <-> exists c, last_such (about_vertex v) cs c /\ c <> RemoveVertex v.
Proof.
  induction cs as [|c cs IH] using rev_ind.
  - split; [intros []|]. intros (c & (p & q & E & _) & _). destruct p; discriminate.
  - rewrite run_snoc. destruct (about_vertex_dec v c) as [H|H].
    + transitivity (c <> RemoveVertex v).
      2:{ split; [intro Hc; exists c; split; [now apply last_snoc_yes|assumption]|].
          intros (d & Hd & Hn). apply (last_snoc_yes _ _ _ _ H) in Hd. now subst d. }
      destruct H as [-> | [-> | (u & [-> | ->])]]; cbn; (split; [intro; try discriminate|intro; try tauto]).
      destruct H as [_ H]. now destruct H.
    + transitivity (aV (a_run cs) v).
      2:{ rewrite IH. split; intros (d & Hd & Hn); exists d; (split; [now apply (last_snoc_no _ _ _ _ H)|assumption]). }
      unfold about_vertex in H. destruct c as [w|w|x y|x y]; cbn.
      * assert (v <> w) by (intros ->; tauto). tauto.
      * assert (v <> w) by (intros ->; tauto). tauto.
      * assert (v <> x) by (intros ->; apply H; right; right; exists y; now right).
        assert (v <> y) by (intros ->; apply H; right; right; exists x; now left). tauto.
      * tauto.
Qed.

(** The last command about a vertex or an edge decides whether it is in the graph. *)
Theorem C136_last_decides : forall cs g, built_by cs g ->
  (forall a b, contains_edge g (a, b) = true <-> last_such (about_edge a b) cs (AddEdge a b)) /\
  (forall v, contains_vertex g v = true <-> exists c, last_such (about_vertex v) cs c /\ c <> RemoveVertex v).
Proof.
  intros cs g H. destruct (C01_graph_is_pair_of_sets _ _ H) as [H1 H2]. split.
  - intros a b. rewrite H2. apply last_edge.
  - intro v. rewrite H1. apply last_vertex.
Qed.
Print Assumptions C136_last_decides.

Lemma no_conflict_same s c d : ~ conflict c d -> a_same (a_step (a_step s c) d) (a_step (a_step s d) c).
Proof.
  destruct c as [v|v|a b|a b], d as [w|w|x y|x y]; cbn; intro H; split; cbn; intros; try tauto;
    try (split; intros K; destruct K; subst; tauto).
  all: try (split; [intros [[K|K] L]|intros [[K L]|K]]; subst; tauto).
  all: try (split; intros K; intuition (subst; intuition congruence)).
Qed.
Lemma no_conflict_dec c d : {conflict c d} + {~ conflict c d}.
Proof.
  destruct c as [v|v|a b|a b], d as [w|w|x y|x y]; cbn; try (right; tauto); try apply N.eq_dec.
  - destruct (N.eq_dec v x), (N.eq_dec v y); (left; tauto) || (right; tauto).
  - destruct (N.eq_dec w a), (N.eq_dec w b); (left; tauto) || (right; tauto).
  - destruct (N.eq_dec a x), (N.eq_dec b y); (left; tauto) || (right; tauto).
  - destruct (N.eq_dec x a), (N.eq_dec y b); (left; tauto) || (right; tauto).
Defined.

(** Two commands can be exchanged on every graph exactly when neither removes what the other adds. *)
Theorem C136_exchange_iff : forall c d,
  (forall g, built g -> a_same (shown (apply_commands [c; d] g)) (shown (apply_commands [d; c] g))) <-> ~ conflict c d.
Proof.
  intros c d. split.
  - intros H Hc. specialize (H g_new built_empty).
    pose proof (refines (built_by_apply [c; d])) as H1. pose proof (refines (built_by_apply [d; c])) as H2.
    assert (S : a_same (a_run [c; d]) (a_run [d; c])).
    { eapply a_same_trans; [apply a_same_sym; exact H1|]. eapply a_same_trans; [exact H|exact H2]. }
    destruct S as [S1 S2]. destruct c as [v|v|a b|a b], d as [w|w|x y|x y]; cbn in Hc; try contradiction.
    + subst w. specialize (S1 v). cbn in S1. tauto.
    + subst w. specialize (S1 v). cbn in S1. tauto.
    + specialize (S1 v). cbn in S1. tauto.
    + specialize (S1 w). cbn in S1. tauto.
    + specialize (S2 a b). cbn in S2. tauto.
    + specialize (S2 x y). cbn in S2. tauto.
  - intros Hn g Hg. apply built_wf in Hg.
    eapply a_same_trans; [now apply (shown_commands [c; d])|].
    eapply a_same_trans; [|apply a_same_sym; now apply (shown_commands [d; c])].
    now apply no_conflict_same.
Qed.
Print Assumptions C136_exchange_iff.

Lemma run_same l : forall s t, a_same s t -> a_same (fold_left a_step l s) (fold_left a_step l t).
Proof. induction l as [|c l IH]; intros s t H; [exact H|]. cbn. apply IH. now apply a_step_same. Qed.
Lemma move_front c p : forall s, (forall d, In d p -> ~ conflict c d) ->
  a_same (fold_left a_step (p ++ [c]) s) (fold_left a_step (c :: p) s).
Proof.
  induction p as [|d p IH]; intros s H; [apply a_same_refl|]. cbn [app fold_left].
  eapply a_same_trans; [apply IH; intros; apply H; now right|]. cbn [fold_left]. apply run_same.
  apply a_same_sym, no_conflict_same, H. now left.
Qed.
Lemma conflict_ne c d : conflict c d -> c <> d.
Proof. intros H ->. destruct d; exact H. Qed.
Lemma both_cons_l c d l : both c d (c :: l) = c :: both c d l.
Proof. cbn. destruct (command_dec c c); [reflexivity|congruence]. Qed.
Lemma both_cons_r c d l : both c d (d :: l) = d :: both c d l.
Proof. cbn. destruct (command_dec d c); [reflexivity|]. destruct (command_dec d d); [reflexivity|congruence]. Qed.
Lemma both_app c d p q : both c d (p ++ q) = both c d p ++ both c d q.
Proof. apply filter_app. Qed.
Lemma both_In c d x l : In x (both c d l) <-> In x l /\ (x = c \/ x = d).
Proof.
  unfold both. rewrite filter_In. split; intros [H K]; (split; [assumption|]).
  - destruct (command_dec x c); [now left|]. destruct (command_dec x d); [now right|discriminate].
  - destruct (command_dec x c); [reflexivity|]. destruct (command_dec x d); [reflexivity|tauto].
Qed.
Lemma first_split (c : graph_command) l : In c l -> exists p q, l = p ++ c :: q /\ ~ In c p.
Proof.
  induction l as [|x l IH]; [intros []|]. intro H. destruct (command_dec x c) as [->|Hn].
  - exists [], l. split; [reflexivity|intros []].
  - destruct H as [->|H]; [congruence|]. destruct (IH H) as (p & q & -> & Hp). exists (x :: p), q. split; [reflexivity|].
    intros [K|K]; [congruence|contradiction].
Qed.
Lemma reorder_same l : forall l' s, Permutation l l' -> (forall c d, conflict c d -> both c d l = both c d l') ->
  a_same (fold_left a_step l s) (fold_left a_step l' s).
Proof.
  induction l as [|c l IH]; intros l' s P H.
  - apply Permutation_nil in P. subst. apply a_same_refl.
  - destruct (first_split c l') as (p & q & -> & Hp); [eapply Permutation_in; [exact P|now left]|].
    assert (Hc : forall d, In d p -> ~ conflict c d).
    { intros d Hd Hcd. specialize (H c d Hcd). rewrite both_cons_l, both_app in H.
      assert (K : both c d p <> []) by (intro K; apply (in_nil (a := d)); rewrite <- K; apply both_In; tauto).
      destruct (both c d p) as [|x t] eqn:E; [congruence|]. injection H as <- _.
      apply Hp. apply (both_In c d c p). rewrite E. now left. }
    assert (P' : Permutation l (p ++ q)) by (eapply Permutation_cons_app_inv; exact P).
    cbn [fold_left]. eapply a_same_trans; [apply (IH (p ++ q))|].
    + exact P'.
    + intros x y Hxy. pose proof (H x y Hxy) as E. change (c :: l) with ([c] ++ l) in E. change (c :: q) with ([c] ++ q) in E.
      rewrite !both_app in E. rewrite both_app.
      destruct (command_dec c x) as [->|Hx]; [|destruct (command_dec c y) as [->|Hy]].
      * assert (Hnp : both x y p = []).
        { destruct (both x y p) as [|z t] eqn:Ez; [reflexivity|exfalso]. assert (Hz : In z (both x y p)) by (rewrite Ez; now left).
          apply both_In in Hz. destruct Hz as [Hz [-> | ->]]; [contradiction|]. now apply (Hc y). }
        rewrite Hnp in *. cbn [app]. cbn [app] in E. apply app_inv_head in E. exact E.
      * assert (Hnp : both x y p = []).
        { destruct (both x y p) as [|z t] eqn:Ez; [reflexivity|exfalso]. assert (Hz : In z (both x y p)) by (rewrite Ez; now left).
          apply both_In in Hz. destruct Hz as [Hz [-> | ->]]; [|contradiction]. apply (Hc x); [assumption|]. destruct x, y; cbn in *; tauto || now symmetry. }
        rewrite Hnp in *. cbn [app]. cbn [app] in E. apply app_inv_head in E. exact E.
      * assert (Hc0 : both x y [c] = []) by (cbn; destruct (command_dec c x); [congruence|]; destruct (command_dec c y); [congruence|reflexivity]).
        rewrite Hc0 in E. exact E.
    + replace (p ++ c :: q) with ((p ++ [c]) ++ q) by now rewrite <- app_assoc.
      rewrite (fold_left_app _ (p ++ [c]) q), (fold_left_app _ p q). apply run_same, a_same_sym.
      change (fold_left a_step p (a_step s c)) with (fold_left a_step (c :: p) s). now apply move_front.
Qed.

(** So a log may be reordered as long as conflicting commands stay in order; additions in any order. *)
Theorem C136_reorder : forall cs cs' g, built g -> Permutation cs cs' ->
  (forall c d, conflict c d -> both c d cs = both c d cs') ->
  a_same (shown (apply_commands cs g)) (shown (apply_commands cs' g)).
Proof.
  intros cs cs' g Hg P H. apply built_wf in Hg.
  eapply a_same_trans; [now apply shown_commands|]. eapply a_same_trans; [|apply a_same_sym; now apply shown_commands].
  now apply reorder_same.
Qed.
Print Assumptions C136_reorder.
Theorem C136_additions : forall cs cs' g, built g -> Permutation cs cs' -> Forall addition cs ->
  a_same (shown (apply_commands cs g)) (shown (apply_commands cs' g)).
Proof.
  intros cs cs' g Hg P HA. rewrite Forall_forall in HA. apply C136_reorder; [assumption..|].
  intros c d Hcd.
  assert (K : forall l, (forall x, In x l -> addition x) -> exists z, both c d l = repeat z (length (both c d l)) /\ (z = c \/ z = d) /\ addition z \/ both c d l = []).
  { intros l Hl. destruct (both c d l) as [|z t] eqn:E; [exists c; now right|].
    assert (Hz : In z (both c d l)) by (rewrite E; now left). apply both_In in Hz. destruct Hz as [Hz1 Hz2].
    exists z. left. split; [|split; [assumption|now apply Hl]]. apply Forall_eq_repeat. rewrite Forall_forall. intros x Hx.
    rewrite <- E in Hx. apply both_In in Hx. destruct Hx as [Hx1 Hx2]. pose proof (Hl x Hx1) as Ax. pose proof (Hl z Hz1) as Az.
    destruct Hz2 as [-> | ->], Hx2 as [-> | ->]; try reflexivity; destruct c, d; cbn in *; tauto. }
  assert (HP : Permutation (both c d cs) (both c d cs')) by (unfold both; clear -P; induction P; cbn; repeat (destruct (command_dec _ _)); eauto using perm_skip, perm_swap, perm_trans, Permutation_refl).
  destruct (K cs HA) as (z & [(E & Hz & Az)|E]).
  2:{ rewrite E in *. apply Permutation_nil in HP. now symmetry. }
  rewrite E in HP. apply Permutation_sym, Permutation_repeat in HP. rewrite HP, E. now rewrite repeat_length.
Qed.
Print Assumptions C136_additions.
Example C136_case :
  both (AddVertex 1) (RemoveVertex 1) [AddVertex 1; AddEdge 2 3; RemoveVertex 1] =
  both (AddVertex 1) (RemoveVertex 1) [AddVertex 1; RemoveVertex 1; AddEdge 2 3] /\
  conflict (AddEdge 1 2) (RemoveVertex 2) /\ ~ conflict (RemoveEdge 1 2) (RemoveVertex 2) /\
  last_such (about_edge 1 2) [AddEdge 1 2; RemoveVertex 3] (AddEdge 1 2).
Proof.
  split; [reflexivity|]. split; [now right|]. split; [intros []|]. exists [], [RemoveVertex 3].
  split; [reflexivity|]. split; [now left|]. intros d [<-|[]] [E|[E|[E|E]]]; discriminate.
Qed.

(** ** C137: undoing with gc-delete, and exchanging gc-add and gc-delete *)
Lemma holds_ends nd s a x y : digit_table nd -> holds nd s a -> aE a x y -> aV a x /\ aV a y.
Proof.
  intros T H He. destruct (holds_load nd s a T H) as (g & _ & Bg & S1 & S2). apply built_wf in Bg.
  apply S2 in He. cbn in He. apply (contains_edge_hasE x y Bg) in He. apply (wf_hasE_V Bg) in He.
  destruct He as [Hx Hy]. apply contains_vertex_hasV in Hx, Hy. split; now apply S1.
Qed.

(** gc-delete after gc-add: back to the old graph exactly when it deletes nothing that was
    there before and everything that was not. *)
Theorem C137_undo_iff : forall nd chunks args lv le lc ly ls lq vertex edge wv we s a,
  digit_table nd -> buffering chunks -> denotes args lv le lc ly ls lq ->
  option_ids vertex wv -> option_ids edge we -> Nat.even (length we) = true -> holds nd s a ->
  exists s1 s2 g, run_prog (gc_add chunks args) s = (s1, Success) /\
    run_prog (gc_delete chunks vertex edge) s1 = (s2, Success) /\ loads nd s2 g /\
    (a_same (shown g) a <->
      (forall x, In x wv -> ~ aV a x) /\ (forall x y, pairs_rel we x y -> ~ aE a x y) /\
      (forall x, In x lv \/ (exists y, added (a_reverse args) le lc ly ls lq x y \/ added (a_reverse args) le lc ly ls lq y x) ->
         ~ In x wv -> aV a x) /\
      (forall x y, added (a_reverse args) le lc ly ls lq x y -> ~ In x wv -> ~ In y wv -> ~ pairs_rel we x y -> aE a x y)).
Proof.
  intros nd chunks args lv le lc ly ls lq vertex edge wv we s a T B D Hv He Hev H.
  pose proof (fun x y => holds_ends nd s a x y T H) as Hends.
  destruct (C80_gc_add nd chunks args lv le lc ly ls lq s a T B D H) as (s1 & g1 & R1 & _ & _ & [S1 S2] & H1).
  destruct (C82_gc_delete nd chunks vertex edge wv we s1 _ T B Hv He Hev H1) as (s2 & g & R2 & L2 & _ & [S3 S4] & _).
  exists s1, s2, g. split; [assumption|]. split; [assumption|]. split; [assumption|].
  set (E := added (a_reverse args) le lc ly ls lq) in *.
  assert (KV : forall x, aV (shown g) x <-> (aV a x \/ In x lv \/ exists y, E x y \/ E y x) /\ ~ In x wv).
  { intro x. rewrite (S3 x). cbn [aV a_minus]. rewrite (S1 x). reflexivity. }
  assert (KE : forall x y, aE (shown g) x y <-> (aE a x y \/ E x y) /\ ~ In x wv /\ ~ In y wv /\ ~ pairs_rel we x y).
  { intros x y. rewrite (S4 x y). cbn [aE a_minus]. rewrite (S2 x y). reflexivity. }
  split.
  - intros [G1 G2]. split; [intros x Hx Hax; apply G1, KV in Hax; tauto|].
    split; [intros x y Hx Hax; apply G2, KE in Hax; tauto|].
    split; [intros x Hx Hn; apply G1, KV; tauto|]. intros x y Hx N1 N2 N3. apply G2, KE. tauto.
  - intros (A1 & A2 & A3 & A4). split.
    + intro x. rewrite KV. split.
      * intros [[K|K] Hn]; [assumption|]. now apply A3.
      * intro K. split; [now left|]. intro Hw. now apply (A1 x).
    + intros x y. rewrite KE. split.
      * intros ([K|K] & N1 & N2 & N3); [assumption|]. now apply A4.
      * intro K. destruct (Hends x y K) as [Vx Vy]. split; [now left|].
        split; [intro Hw; now apply (A1 x)|]. split; [intro Hw; now apply (A1 y)|]. intro Hw. now apply (A2 x y).
Qed.
Print Assumptions C137_undo_iff.

(** So deleting what was just added does not undo it in general: the ends of the edges stay,
    and what was there before goes. *)
Definition add_edge_12 : add_args :=
  {| a_vertex := None; a_reverse := false; a_edge := Some [txt "1"; txt "2"]; a_chain := None; a_cycle := None; a_star := None; a_clique := None |}.
Definition add_vertex_1 : add_args :=
  {| a_vertex := Some [txt "1"]; a_reverse := false; a_edge := None; a_chain := None; a_cycle := None; a_star := None; a_clique := None |}.
Lemma denotes_12 : denotes add_edge_12 [] [1; 2] [] [] [] [].
Proof.
  split; cbn [a_vertex a_edge a_chain a_cycle a_star a_clique option_ids add_edge_12]; try reflexivity; try discriminate.
  apply parse_all_done. reflexivity.
Qed.
Lemma denotes_1 : denotes add_vertex_1 [1] [] [] [] [] [].
Proof.
  split; cbn [a_vertex a_edge a_chain a_cycle a_star a_clique option_ids add_vertex_1]; try reflexivity; try discriminate.
  apply parse_all_done. reflexivity.
Qed.
Theorem C137_undo_refuted : forall nd chunks, digit_table nd -> buffering chunks ->
  (forall s, holds nd s a_empty -> exists s1 s2 g, run_prog (gc_add chunks add_edge_12) s = (s1, Success) /\
     run_prog (gc_delete chunks None (Some [txt "1"; txt "2"])) s1 = (s2, Success) /\ loads nd s2 g /\ contains_vertex g 1 = true) /\
  (forall s a, holds nd s a -> aV a 1 -> exists s1 s2 g, run_prog (gc_add chunks add_vertex_1) s = (s1, Success) /\
     run_prog (gc_delete chunks (Some [txt "1"]) None) s1 = (s2, Success) /\ loads nd s2 g /\ contains_vertex g 1 = false).
Proof.
  intros nd chunks T B. split.
  - intros s H. destruct (C80_gc_add nd chunks _ _ _ _ _ _ _ s _ T B denotes_12 H) as (s1 & g1 & R1 & _ & _ & [S1 S2] & H1).
    destruct (C82_gc_delete nd chunks None (Some [txt "1"; txt "2"]) [] [1; 2] s1 (shown g1) T B eq_refl) as (s2 & g & R2 & L2 & _ & [S3 S4] & _);
      [apply parse_all_done; reflexivity|reflexivity|exact H1|].
    exists s1, s2, g. split; [assumption|]. split; [assumption|]. split; [assumption|]. apply S3. split; [|intros []].
    apply S1. right. right. exists 2. left. left. now exists [], [].
  - intros s a H Ha. destruct (C80_gc_add nd chunks _ _ _ _ _ _ _ s _ T B denotes_1 H) as (s1 & g1 & R1 & _ & _ & [S1 S2] & H1).
    destruct (C82_gc_delete nd chunks (Some [txt "1"]) None [1] [] s1 (shown g1) T B) as (s2 & g & R2 & L2 & _ & [S3 S4] & _);
      [apply parse_all_done; reflexivity|reflexivity|reflexivity|exact H1|].
    exists s1, s2, g. split; [assumption|]. split; [assumption|]. split; [assumption|].
    destruct (contains_vertex g 1) eqn:E; [|reflexivity]. apply S3 in E. destruct E as [_ E]. exfalso. apply E. now left.
Qed.
Print Assumptions C137_undo_refuted.
Example C137_case : holds table (with_file []) a_empty /\ denotes add_edge_12 [] [1; 2] [] [] [] [] /\
  option_ids (Some [txt "1"; txt "2"]) [1; 2] /\ option_ids None [] /\
  (forall x, In x [1; 2] -> ~ aV a_empty x) /\ (forall x y, pairs_rel [] x y -> ~ aE a_empty x y) /\
  (forall x y, added false [1; 2] [] [] [] [] x y -> In x [1; 2] /\ In y [1; 2]).
Proof.
  split; [apply C80_case|]. split; [exact denotes_12|]. split; [apply parse_all_done; reflexivity|]. split; [reflexivity|].
  split; [intros x _ []|]. split; [intros x y _ []|].
  intros x y [(p & q & E)|[(p & q & E)|[[(p & q & E)|[(t & E) _]]|[(t & E & _)|[(p & q & r & E)|(p & q & r & E)]]]]];
    try (destruct p; discriminate); try discriminate; [|destruct t; discriminate].
  destruct p as [|[u v] p]; cbn in E; injection E as -> -> E; [cbn; tauto|]. destruct p; discriminate.
Qed.

(** gc-add and gc-delete can be exchanged exactly when the one deletes nothing the other adds. *)
Theorem C137_exchange_iff : forall nd chunks args lv le lc ly ls lq vertex edge wv we s a,
  digit_table nd -> buffering chunks -> denotes args lv le lc ly ls lq ->
  option_ids vertex wv -> option_ids edge we -> Nat.even (length we) = true -> holds nd s a ->
  exists s1 s2 g s3 s4 g', run_prog (gc_add chunks args) s = (s1, Success) /\
    run_prog (gc_delete chunks vertex edge) s1 = (s2, Success) /\ loads nd s2 g /\
    run_prog (gc_delete chunks vertex edge) s = (s3, Success) /\
    run_prog (gc_add chunks args) s3 = (s4, Success) /\ loads nd s4 g' /\
    (a_same (shown g) (shown g') <->
      (forall x, In x lv \/ (exists y, added (a_reverse args) le lc ly ls lq x y \/ added (a_reverse args) le lc ly ls lq y x) -> ~ In x wv) /\
      (forall x y, added (a_reverse args) le lc ly ls lq x y -> ~ pairs_rel we x y)).
Proof.
  intros nd chunks args lv le lc ly ls lq vertex edge wv we s a T B D Hv He Hev H.
  destruct (C80_gc_add nd chunks args lv le lc ly ls lq s a T B D H) as (s1 & g1 & R1 & _ & _ & [S1 S2] & H1).
  destruct (C82_gc_delete nd chunks vertex edge wv we s1 _ T B Hv He Hev H1) as (s2 & g & R2 & L2 & _ & [S3 S4] & _).
  destruct (C82_gc_delete nd chunks vertex edge wv we s _ T B Hv He Hev H) as (s3 & g3 & R3 & _ & _ & [S5 S6] & H3).
  destruct (C80_gc_add nd chunks args lv le lc ly ls lq s3 _ T B D H3) as (s4 & g' & R4 & L4 & _ & [S7 S8] & _).
  exists s1, s2, g, s3, s4, g'. split; [assumption|]. split; [assumption|]. split; [assumption|].
  split; [assumption|]. split; [assumption|]. split; [assumption|].
  set (E := added (a_reverse args) le lc ly ls lq) in *.
  assert (KV : forall x, aV (shown g) x <-> (aV a x \/ In x lv \/ exists y, E x y \/ E y x) /\ ~ In x wv).
  { intro x. rewrite (S3 x). cbn [aV a_minus]. rewrite (S1 x). reflexivity. }
  assert (KE : forall x y, aE (shown g) x y <-> (aE a x y \/ E x y) /\ ~ In x wv /\ ~ In y wv /\ ~ pairs_rel we x y).
  { intros x y. rewrite (S4 x y). cbn [aE a_minus]. rewrite (S2 x y). reflexivity. }
  assert (KV' : forall x, aV (shown g') x <-> (aV a x /\ ~ In x wv) \/ In x lv \/ exists y, E x y \/ E y x).
  { intro x. rewrite (S7 x). cbn [aV a_union]. rewrite (S5 x). reflexivity. }
  assert (KE' : forall x y, aE (shown g') x y <-> (aE a x y /\ ~ In x wv /\ ~ In y wv /\ ~ pairs_rel we x y) \/ E x y).
  { intros x y. rewrite (S8 x y). cbn [aE a_union]. rewrite (S6 x y). reflexivity. }
  split.
  - intros [G1 G2]. split.
    + intros x Hx. assert (K : aV (shown g) x) by (apply G1, KV'; tauto). now apply KV in K.
    + intros x y Hx. assert (K : aE (shown g) x y) by (apply G2, KE'; tauto). now apply KE in K.
  - intros [A1 A2]. split.
    + intro x. rewrite KV, KV'. specialize (A1 x). tauto.
    + intros x y. rewrite KE, KE'. specialize (A2 x y). split; [tauto|]. intros [K|K]; [tauto|].
      split; [now right|]. split; [apply A1; right; exists y; now left|]. split; [apply A1; right; exists x; now right|now apply A2].
Qed.
Print Assumptions C137_exchange_iff.

(** ** C138: the size of the file gc-build writes *)
Definition line_breaks (t : text) : nat := count_occ N.eq_dec t 10.
Lemma breaks_app p q : line_breaks (p ++ q) = (line_breaks p + line_breaks q)%nat.
Proof. apply count_occ_app. Qed.
Lemma breaks_commands cs : line_breaks (commands_text cs) = length cs.
Proof.
  rewrite commands_text_lines. induction cs as [|c cs IH]; [reflexivity|]. cbn [map concat].
  rewrite !breaks_app, IH. replace (line_breaks (command_into_line c)) with O; [reflexivity|].
  symmetry. apply count_occ_not_In. apply (written_plain c).
Qed.
Lemma length_commands cs cs' : Permutation cs cs' -> length (commands_text cs) = length (commands_text cs').
Proof.
  intro P. rewrite !commands_text_lines. induction P; cbn; rewrite ?app_length; lia.
Qed.
Lemma enumerates_perm A (l l' : list A) P : enumerates l P -> enumerates l' P -> Permutation l l'.
Proof. intros [N1 I1] [N2 I2]. apply NoDup_Permutation; [assumption..|]. intro x. now rewrite I1, I2. Qed.
(** One line for each vertex and one for each edge. *)
Theorem C138_built_lines : forall nd chunks order s s' r g vs es, digit_table nd -> buffering chunks -> hash_order order ->
  loads nd s g -> run_prog (gc_build nd chunks order) s = (s', r) ->
  enumerates vs (fun v => contains_vertex g v = true) -> enumerates es (fun e => contains_edge g e = true) ->
  exists content, commands_entry s' = File content /\ closed content /\ line_breaks content = (length vs + length es)%nat.
Proof.
  intros nd chunks order s s' r g vs es T B O HL HR Hvs Hes.
  destruct (proj1 (C23_build nd chunks order s s' r T B O HR) g HL) as (_ & _ & vs' & es' & N1 & I1 & N2 & I2 & E).
  eexists. split; [exact E|]. split; [apply closed_commands|]. rewrite breaks_commands, app_length, !map_length.
  rewrite (Permutation_length (enumerates_perm _ _ _ _ Hvs (conj N1 I1))).
  now rewrite (Permutation_length (enumerates_perm _ _ _ _ Hes (conj N2 (fun e => let '(a, b) := e in I2 a b)))).
Qed.
Print Assumptions C138_built_lines.
(** Files built from the same graph, written however and whatever the hash order, have the same size;
    in particular a second gc-build changes the order of the lines only. *)
Theorem C138_built_size : forall nd chunks chunks' order order' s s' r t t' r' g h, digit_table nd -> buffering chunks -> buffering chunks' ->
  hash_order order -> hash_order order' -> loads nd s g -> loads nd t h -> a_same (shown g) (shown h) ->
  run_prog (gc_build nd chunks order) s = (s', r) -> run_prog (gc_build nd chunks' order') t = (t', r') ->
  exists cs cs', commands_entry s' = File (commands_text cs) /\ commands_entry t' = File (commands_text cs') /\
    Permutation cs cs' /\ length (commands_text cs) = length (commands_text cs').
Proof.
  intros nd chunks chunks' order order' s s' r t t' r' g h T B B' O O' HL HL' [G1 G2] HR HR'.
  destruct (proj1 (C23_build nd chunks order s s' r T B O HR) g HL) as (_ & _ & vs & es & N1 & I1 & N2 & I2 & E).
  destruct (proj1 (C23_build nd chunks' order' t t' r' T B' O' HR') h HL') as (_ & _ & vs' & es' & N1' & I1' & N2' & I2' & E').
  do 2 eexists. split; [exact E|]. split; [exact E'|].
  assert (P : Permutation (map AddVertex vs ++ map (fun e => AddEdge (fst e) (snd e)) es) (map AddVertex vs' ++ map (fun e => AddEdge (fst e) (snd e)) es')).
  { apply Permutation_app; apply Permutation_map; apply NoDup_Permutation; try assumption.
    - intro v. rewrite I1, I1'. apply G1.
    - intros [a b]. rewrite I2, I2'. apply G2. }
  split; [exact P|]. now apply length_commands.
Qed.
Print Assumptions C138_built_size.

Lemma size_bound cs : exists vs es, NoDup vs /\ NoDup es /\ (forall v, In v vs <-> aV (a_run cs) v) /\
  (forall a b, In (a, b) es <-> aE (a_run cs) a b) /\ (length vs + length es <= 3 * length cs)%nat.
Proof.
  assert (Hf : forall g, wf g -> exists vs es, NoDup vs /\ NoDup es /\ (forall v, In v vs <-> contains_vertex g v = true) /\
    (forall a b, In (a, b) es <-> contains_edge g (a, b) = true)).
  { intros g W. exists (vertices g), (edges g). destruct (vertices_spec W) as [V1 V2]. destruct (edges_spec W) as [E1 E2].
    split; [assumption|]. split; [assumption|]. split; [exact V2|]. intros a b. rewrite (edges_In a b W). symmetry. apply (contains_edge_hasE a b W). }
  assert (Hl : exists lv le, (forall v, aV (a_run cs) v -> In v lv) /\ (forall a b, aE (a_run cs) a b -> In (a, b) le) /\
    (length lv + length le <= 3 * length cs)%nat).
  { induction cs as [|c cs (lv & le & H1 & H2 & H3)] using rev_ind; [exists [], []; split; [intros ? []|]; split; [intros ? ? []|]; cbn; lia|].
    rewrite run_snoc, app_length. destruct c as [v|v|a b|a b]; cbn [a_step a_add_vertex a_remove_vertex a_add_edge a_remove_edge aV aE].
    - exists (v :: lv), le. split; [intros u [K|K]; [right; auto|now left]|]. split; [assumption|]. cbn; lia.
    - exists lv, le. split; [intros u [K _]; auto|]. split; [intros x y [K _]; auto|]. cbn; lia.
    - exists (a :: b :: lv), ((a, b) :: le). split; [intros u [K|[-> | ->]]; cbn; auto|].
      split; [intros x y [K|[-> ->]]; cbn; auto|]. cbn; lia.
    - exists lv, le. split; [assumption|]. split; [intros x y [K _]; auto|]. cbn; lia. }
  destruct Hl as (lv & le & H1 & H2 & H3).
  destruct (Hf (apply_commands cs g_new)) as (vs & es & N1 & N2 & I1 & I2); [apply (built_by_wf (built_by_apply cs))|].
  destruct (C01_graph_is_pair_of_sets _ _ (built_by_apply cs)) as [S1 S2].
  exists vs, es. split; [assumption|]. split; [assumption|]. split; [intro v; rewrite I1; apply S1|]. split; [intros a b; rewrite I2; apply S2|].
  assert (length vs <= length lv)%nat by (apply NoDup_incl_length; [assumption|]; intros v Hv; now apply H1, S1, I1).
  assert (length es <= length le)%nat by (apply NoDup_incl_length; [assumption|]; intros [a b] Hv; now apply H2, S2, I2).
  lia.
Qed.
(** At most three lines for each command that was there. *)
Theorem C138_at_most_three : forall nd chunks order s s' r c cs, digit_table nd -> buffering chunks -> hash_order order ->
  commands_entry s = File c -> gcmd_read_as_commands nd c = Done (Ok cs) -> run_prog (gc_build nd chunks order) s = (s', r) ->
  exists content, commands_entry s' = File content /\ (line_breaks content <= 3 * length cs)%nat.
Proof.
  intros nd chunks order s s' r c cs T B O Ec Hr HR.
  assert (HL : loads nd s (apply_commands cs g_new)).
  { unfold loads. rewrite run_load, Ec. f_equal. apply gcmd_read_ok. eauto. }
  destruct (size_bound cs) as (vs & es & N1 & N2 & I1 & I2 & Hle).
  destruct (C01_graph_is_pair_of_sets _ _ (built_by_apply cs)) as [S1 S2].
  destruct (C138_built_lines nd chunks order s s' r _ vs es T B O HL HR) as (content & E & _ & Hn).
  - split; [assumption|]. intro v. rewrite I1. symmetry. apply S1.
  - split; [assumption|]. intros [a b]. rewrite I2. symmetry. apply S2.
  - exists content. split; [assumption|]. now rewrite Hn.
Qed.
Print Assumptions C138_at_most_three.
(** So gc-build can make a file longer, and the factor three is reached. *)
Theorem C138_shorter_refuted : forall nd chunks order, digit_table nd -> buffering chunks -> hash_order order ->
  exists s' content, run_prog (gc_build nd chunks order) (with_file (txt "AddEdge 1 2" ++ [10])) = (s', Success) /\
    commands_entry s' = File content /\ line_breaks content = 3%nat /\ length content = 36%nat /\ length (txt "AddEdge 1 2" ++ [10]) = 12%nat.
Proof.
  intros nd chunks order T B O. set (s := with_file (txt "AddEdge 1 2" ++ [10])).
  destruct (run_prog (gc_build nd chunks order) s) as [s' r] eqn:HR.
  assert (Hrd : gcmd_read_as_commands nd (commands_text [AddEdge 1 2]) = Done (Ok [AddEdge 1 2]))
    by (apply read_commands_text; [assumption|]; repeat constructor).
  assert (HL : loads nd s (apply_commands [AddEdge 1 2] g_new)).
  { unfold loads. rewrite run_load. f_equal. apply gcmd_read_ok. exists [AddEdge 1 2]. split; [exact Hrd|reflexivity]. }
  destruct (proj1 (C23_build nd chunks order s s' r T B O HR) _ HL) as (-> & _ & vs & es & N1 & I1 & N2 & I2 & E).
  exists s'. eexists. split; [reflexivity|]. split; [exact E|].
  assert (Pv : Permutation vs [1; 2]).
  { apply NoDup_Permutation; [assumption|repeat constructor; cbn; intuition discriminate|]. intro v. rewrite I1.
    rewrite (proj1 (C01_graph_is_pair_of_sets _ _ (built_by_apply [AddEdge 1 2])) v). cbn. intuition. }
  assert (Pe : Permutation es [(1, 2)]).
  { apply NoDup_Permutation; [assumption|repeat constructor; cbn; tauto|]. intros [a b]. rewrite I2.
    rewrite (proj2 (C01_graph_is_pair_of_sets _ _ (built_by_apply [AddEdge 1 2])) a b). cbn. split; [intros [[]|[-> ->]]; now left|intros [[= <- <-]|[]]; now right]. }
  assert (P : Permutation (map AddVertex vs ++ map (fun e => AddEdge (fst e) (snd e)) es) [AddVertex 1; AddVertex 2; AddEdge 1 2]).
  { change [AddVertex 1; AddVertex 2; AddEdge 1 2] with (map AddVertex [1; 2] ++ map (fun e => AddEdge (fst e) (snd e)) [(1, 2)]).
    apply Permutation_app; now apply Permutation_map. }
  rewrite breaks_commands, (Permutation_length P), (length_commands _ _ P). now vm_compute.
Qed.
Print Assumptions C138_shorter_refuted.
Example C138_case : exists g, loads table (with_file (txt "AddEdge 1 2" ++ [10] ++ txt "RemoveVertex 1" ++ [10])) g /\
  enumerates [2] (fun v => contains_vertex g v = true) /\ enumerates [] (fun e => contains_edge g e = true).
Proof.
  exists (apply_commands [AddEdge 1 2; RemoveVertex 1] g_new). split; [reflexivity|].
  destruct (C01_graph_is_pair_of_sets _ _ (built_by_apply [AddEdge 1 2; RemoveVertex 1])) as [S1 S2]. split.
  - split; [repeat constructor; intros []|]. intro v. rewrite S1. cbn. split; [intros [<-|[]]; split; [tauto|discriminate]|].
    intros [[[]|[-> | ->]] K]; [congruence|now left].
  - split; [constructor|]. intros [a b]. rewrite S2. cbn. tauto.
Qed.
