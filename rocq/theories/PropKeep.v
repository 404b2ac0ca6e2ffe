(** * Property C154: gc-build and saved files keep the order of the edges that leave a vertex *)
From Coq Require Import String.
From Coq Require Import List NArith ZArith Bool Arith Lia Permutation.
From Verif Require Import Spec Base WalkFacts Graph GraphSpec GraphFacts OrderFacts Path PathFacts
  Queue Heap Iter IterFacts Score Topo Cycle
  Text Format FormatSpec TextFacts FormatFacts Store StoreSpec StoreFacts CrashFacts PropFormat PropStore
  Cli CliSpec CliFacts Query QuerySpec QueryFacts PropQuery PropLocal.
Import ListNotations.
Open Scope N_scope.

(** The edges of a list that leave [v], in its order. *)
Definition leaving (v : N) (l : list (N * N)) : list (N * N) := filter (fun e => fst e =? v) l.
Definition same_out (l l' : list (N * N)) : Prop := forall v, leaving v l = leaving v l'.

Lemma leaving_In v b l : In (v, b) (leaving v l) <-> In (v, b) l.
Proof. unfold leaving. rewrite filter_In. cbn [fst]. rewrite N.eqb_refl. tauto. Qed.
Lemma same_out_In l l' a b : same_out l l' -> (In (a, b) l <-> In (a, b) l').
Proof. intro H. now rewrite <- (leaving_In a b l), <- (leaving_In a b l'), (H a). Qed.
Lemma o_step_out l l' c : same_out l l' -> same_out (o_step l c) (o_step l' c).
Proof.
  intros H v. specialize (H v) as Hv. destruct c as [w|w|a b|a b]; cbn [o_step]; unfold leaving in *.
  - exact Hv.
  - now rewrite (filter_swap _ (fun e : N * N => fst e =? v) _ l), (filter_swap _ (fun e : N * N => fst e =? v) _ l'), Hv.
  - pose proof (same_out_In l l' a b H) as Hi.
    destruct (in_dec pair_dec (a, b) l) as [H1|H1], (in_dec pair_dec (a, b) l') as [H2|H2]; try tauto.
    rewrite !filter_app. now rewrite Hv.
  - rewrite !remove_filter. unfold keep.
    now rewrite (filter_swap _ (fun e : N * N => fst e =? v) _ l), (filter_swap _ (fun e : N * N => fst e =? v) _ l'), Hv.
Qed.
Lemma run_out cs : forall l l', same_out l l' -> same_out (fold_left o_step cs l) (fold_left o_step cs l').
Proof. induction cs as [|c cs IH]; intros l l' H; [exact H|]. cbn [fold_left]. apply IH. now apply o_step_out. Qed.

(** What [as_commands] says, read back. *)
Lemma edges_leaving (g : graph) v : wf g -> leaving v (edges g) = outbound_edges g v.
Proof.
  intro W. pose proof (wf_keys W) as Hk. unfold outbound_edges, edges, leaving. unfold g_get. clear W. unfold hm_keys in Hk.
  induction g as [|[k es] g IH]; [reflexivity|]. cbn [map fst] in Hk. inversion Hk as [|? ? Hni Hnd]; subst.
  cbn [flat_map fst snd hm_get]. rewrite filter_app, (IH Hnd). destruct (N.eqb_spec v k) as [->|Hne].
  - rewrite filter_filter_imp by (intros x Hx; apply N.eqb_eq in Hx; rewrite Hx; apply N.eqb_refl).
    destruct (hm_get N.eqb k g) as [es'|] eqn:E; [|apply app_nil_r]. exfalso. apply Hni.
    apply (hm_get_some_keys _ N.eqb_spec) in E. exact E.
  - assert (K : filter (fun e : N * N => fst e =? v) (filter (fun e : N * N => k =? fst e) es) = []).
    { clear -Hne. induction es as [|[a b] es IH]; [reflexivity|]. cbn [filter fst]. destruct (N.eqb_spec k a) as [->|H]; [|exact IH].
      cbn [filter fst]. destruct (N.eqb_spec a v) as [->|]; [congruence|exact IH]. }
    now rewrite K.
Qed.
Lemma vertices_said vs : forall l, fold_left o_step (map AddVertex vs) l = l.
Proof. induction vs as [|v vs IH]; intro l; [reflexivity|]. cbn [map fold_left o_step]. apply IH. Qed.
Lemma edges_said es : forall l, NoDup (l ++ es) -> fold_left o_step (map (fun e => AddEdge (fst e) (snd e)) es) l = l ++ es.
Proof.
  induction es as [|[a b] es IH]; intros l H; [now rewrite app_nil_r|]. cbn [map fold_left o_step fst snd].
  destruct (in_dec pair_dec (a, b) l) as [Hi|Hi].
  - apply NoDup_remove_2 in H. elim H. apply in_or_app. now left.
  - rewrite IH; rewrite <- app_assoc; [reflexivity|exact H].
Qed.
Lemma said_edges g : wf g -> insertion_order (as_commands g) = edges g.
Proof.
  intro W. unfold insertion_order, as_commands. rewrite fold_left_app, vertices_said.
  apply (edges_said (edges g) []). now apply NoDup_edges.
Qed.
Lemma rehash_out (g h : graph) v : wf g -> Permutation g h -> outbound_edges h v = outbound_edges g v.
Proof. intros W P. unfold outbound_edges, g_get. now rewrite (hm_get_perm _ N.eqb_spec v (wf_keys W) P). Qed.

(** *** Saved and read back, in either format *)
Theorem C154_saved : forall nd g, digit_table nd -> built g -> u64_graph g ->
  exists g', gcmd_read nd (gcmd_text g) = Done (Ok g') /\ tgf_read nd (tgf_text g) = Done (Ok g') /\
    forall v, outbound_edges g' v = outbound_edges g v.
Proof.
  intros nd g T B U. pose proof (built_wf B) as W. exists (apply_commands (as_commands g) g_new).
  split; [now apply gcmd_roundtrip|]. split; [now apply tgf_roundtrip|]. intro v.
  rewrite (outbound_order _ _ v (built_by_apply (as_commands g))), (said_edges g W). now apply edges_leaving.
Qed.
Print Assumptions C154_saved.

(** *** gc-build *)
Lemma build_says nd chunks order s s' cs : digit_table nd -> buffering chunks -> hash_order order -> file_says nd s cs ->
  run_prog (gc_build nd chunks order) s = (s', Success) ->
  exists c', commands_entry s' = File c' /\ closed c' /\ fs_lock s' = fs_lock s /\
    gcmd_read_as_commands nd c' = Done (Ok (as_commands (order (apply_commands cs g_new)))) /\
    same_out (insertion_order (as_commands (order (apply_commands cs g_new)))) (insertion_order cs).
Proof.
  intros T B O (c & E & H) R. rewrite run_build in R by assumption. rewrite E in R.
  assert (Er : gcmd_read nd c = Done (Ok (apply_commands cs g_new))) by (apply gcmd_read_ok; eauto).
  rewrite Er in R. injection R as <-. set (g := apply_commands cs g_new).
  assert (Bg : built_by cs g) by apply built_by_apply. assert (Wg : wf g) by now apply (built_by_wf Bg).
  assert (Wo : wf (order g)) by (eapply wf_perm; [exact Wg|apply O]).
  assert (So : a_same (shown (order g)) (shown g)) by (apply shown_perm; [assumption|apply O]).
  assert (Uo : u64_graph (order g)).
  { intros v Hv. apply (built_by_u64 cs g Bg); [now apply (read_u64 nd c)|]. now apply (proj1 So). }
  exists (gcmd_text (order g)). split; [apply commands_entry_dir in E; unfold commands_entry; cbn; reflexivity|].
  rewrite gcmd_text_commands. split; [apply closed_commands|]. split; [reflexivity|].
  split; [apply read_commands_text; [assumption|now apply as_commands_u64]|].
  intro v. rewrite (said_edges _ Wo), (edges_leaving _ v Wo), (rehash_out g _ v Wg (O g)). now apply outbound_order.
Qed.

(** gc-short-path and gc-csp print the same path before and after gc-build, whatever the hash orders. *)
Theorem C154_build : forall nd chunks order order1 order2 Q s s' cs a b x y opts fuel, digit_table nd -> buffering chunks ->
  hash_order order -> hash_order order1 -> hash_order order2 -> file_says nd s cs ->
  run_prog (gc_build nd chunks order) s = (s', Success) -> id_argument a x -> id_argument b y ->
  snd (run_prog (gc_short_path nd order1 Q a b fuel) s) = snd (run_prog (gc_short_path nd order2 Q a b fuel) s') /\
  snd (run_prog (gc_csp nd order1 Q a b opts fuel) s) = snd (run_prog (gc_csp nd order2 Q a b opts fuel) s').
Proof.
  intros nd chunks order order1 order2 Q s s' cs a b x y opts fuel T B O O1 O2 H R Ha Hb.
  destruct (build_says nd chunks order s s' cs T B O H R) as (c' & E & _ & _ & Hr & Hs).
  apply (C152_programs nd order1 order2 Q s s' cs (as_commands (order (apply_commands cs g_new))) a b x y opts fuel); try assumption.
  - exists c'. now split.
  - intros v _. symmetry. apply Hs.
Qed.
Print Assumptions C154_build.

(** *** Whole histories: wherever gc-build was called in between, the edges that leave a vertex are listed in the
    order in which the invocations added them. *)
Definition asks_for (i : invocation) : list graph_command :=
  match i with
  | Init | Build => []
  | AddVertices vids => map AddVertex vids
  | AddEdges es => map (fun e => AddEdge (fst e) (snd e)) es
  | RemoveVertices vids => map RemoveVertex vids
  | RemoveEdges es => map (fun e => RemoveEdge (fst e) (snd e)) es
  end.
(** The directory holds a file that ends with a line end and whose edges leave each vertex as those of [l] do. *)
Definition keeps (nd : N -> bool) (s : fs) (l : list (N * N)) : Prop :=
  openable (fs_lock s) = true /\ exists c cs, fs_graph s = GraphDir (File c) /\ closed c /\
    gcmd_read_as_commands nd c = Done (Ok cs) /\ same_out (insertion_order cs) l.
Lemma keeps_invoke nd chunks order i s s' l : digit_table nd -> buffering chunks -> hash_order order ->
  u64_invocation i -> keeps nd s l -> run_prog (invoke nd chunks order i) s = (s', Success) ->
  keeps nd s' (fold_left o_step (asks_for i) l).
Proof.
  intros T B O U (Hl & c & cs & E & Hc & Hr & Hs) R.
  assert (Hap : forall i, u64_invocation i ->
    run_prog (exit_of (apply_graph_commands chunks (invocation_commands i))) s = (s', Success) ->
    keeps nd s' (fold_left o_step (asks_for i) l)).
  { intros j Uj Rj. unfold exit_of in Rj. rewrite run_bind, run_apply, Hl in Rj by assumption. unfold commands_entry in Rj. rewrite E in Rj.
    cbn [fst snd run_prog] in Rj. injection Rj as <-. split; [reflexivity|].
    exists (c ++ commands_text (invocation_commands j)), (cs ++ invocation_commands j). split; [reflexivity|].
    pose proof (C18_append nd c cs (invocation_commands j) T Hc (invocation_commands_u64 j Uj) Hr) as [A1 A2].
    split; [exact A2|]. split; [exact A1|]. unfold insertion_order. rewrite fold_left_app.
    replace (asks_for j) with (invocation_commands j) by (destruct j; reflexivity). now apply run_out. }
  destruct i as [|vids|es|vids|es|]; cbn [invoke] in R.
  - unfold gc_init in R. rewrite run_bind, run_init in R. rewrite E in R. cbn [fst snd run_prog openable created] in R. injection R as <-.
    split; [exact Hl|]. exists c, cs. split; [reflexivity|]. now split.
  - now apply (Hap (AddVertices vids) U).
  - now apply (Hap (AddEdges es) U).
  - now apply (Hap (RemoveVertices vids) U).
  - now apply (Hap (RemoveEdges es) U).
  - assert (F : file_says nd s cs) by (exists c; unfold commands_entry; now rewrite E).
    destruct (build_says nd chunks order s s' cs T B O F R) as (c' & E' & Hc' & Hl' & Hr' & Hs').
    split; [now rewrite Hl'|]. apply commands_entry_dir in E'. exists c', (as_commands (order (apply_commands cs g_new))).
    split; [exact E'|]. split; [exact Hc'|]. split; [exact Hr'|]. intro v. now rewrite Hs', Hs.
Qed.
Lemma keeps_history nd s is s' : digit_table nd -> history nd s is s' -> forall l,
  Forall u64_invocation is -> keeps nd s l -> keeps nd s' (fold_left o_step (concat (map asks_for is)) l).
Proof.
  intro T. induction 1 as [s|s i is s1 s2 chunks order B O E H IH]; intros l U Hl; [exact Hl|].
  inversion U; subst. cbn [map concat]. rewrite fold_left_app. apply IH; [assumption|].
  now apply (keeps_invoke nd chunks order i s s1 l).
Qed.
Lemma keeps_from_init nd s is s' : digit_table nd -> openable (fs_lock s) = true -> (fs_graph s = NoGraph \/ fs_graph s = GraphDir Absent) ->
  Forall u64_invocation is -> history nd s (Init :: is) s' -> keeps nd s' (insertion_order (concat (map asks_for is))).
Proof.
  intros T Hl Hg U H. inversion H as [|? ? ? s1 ? chunks order B O E H']; subst.
  apply (keeps_history nd s1 is s' T H'); [assumption|].
  cbn [invoke] in E. unfold gc_init in E. rewrite run_bind, run_init in E.
  destruct Hg as [Hg|Hg]; rewrite Hg in E; cbn in E; injection E as <-;
    (split; [exact Hl|]); exists [], []; (split; [reflexivity|]); (split; [now left|]); (split; [reflexivity|]); intro v; reflexivity.
Qed.
Theorem C154_histories : forall nd s is s', digit_table nd ->
  openable (fs_lock s) = true -> (fs_graph s = NoGraph \/ fs_graph s = GraphDir Absent) ->
  Forall u64_invocation is -> history nd s (Init :: is) s' ->
  exists g, loads nd s' g /\ built g /\
    forall v, outbound_edges g v = filter (fun e => fst e =? v) (insertion_order (concat (map asks_for is))).
Proof.
  intros nd s is s' T Hl Hg U H. destruct (keeps_from_init nd s is s' T Hl Hg U H) as (_ & c & cs & E & _ & Hr & Hs).
  assert (F : file_says nd s' cs) by (exists c; unfold commands_entry; now rewrite E).
  destruct (says_loads _ _ _ F) as [HL B]. exists (apply_commands cs g_new). split; [exact HL|]. split; [now exists cs|].
  intro v. rewrite (outbound_order _ _ v B). apply Hs.
Qed.
Print Assumptions C154_histories.
(** So that the same work, done with gc-build called at other moments, leads to the same printed paths. *)
Theorem C154_any_builds : forall nd order order' Q s t is js s' t' a b x y opts fuel, digit_table nd ->
  openable (fs_lock s) = true -> (fs_graph s = NoGraph \/ fs_graph s = GraphDir Absent) ->
  openable (fs_lock t) = true -> (fs_graph t = NoGraph \/ fs_graph t = GraphDir Absent) ->
  Forall u64_invocation is -> Forall u64_invocation js ->
  concat (map asks_for is) = concat (map asks_for js) ->
  history nd s (Init :: is) s' -> history nd t (Init :: js) t' ->
  hash_order order -> hash_order order' -> id_argument a x -> id_argument b y ->
  snd (run_prog (gc_short_path nd order Q a b fuel) s') = snd (run_prog (gc_short_path nd order' Q a b fuel) t') /\
  snd (run_prog (gc_csp nd order Q a b opts fuel) s') = snd (run_prog (gc_csp nd order' Q a b opts fuel) t').
Proof.
  intros nd order order' Q s t is js s' t' a b x y opts fuel T Ls Gs Lt Gt Ui Uj Eq H1 H2 O O' Ha Hb.
  destruct (keeps_from_init nd s is s' T Ls Gs Ui H1) as (_ & c & cs & E & _ & Hr & Hs).
  destruct (keeps_from_init nd t js t' T Lt Gt Uj H2) as (_ & c' & cs' & E' & _ & Hr' & Hs').
  apply (C152_programs nd order order' Q s' t' cs cs' a b x y opts fuel); try assumption.
  - exists c. unfold commands_entry. now rewrite E.
  - exists c'. unfold commands_entry. now rewrite E'.
  - intros v _. change (leaving v (insertion_order cs) = leaving v (insertion_order cs')). now rewrite Hs, Hs', Eq.
Qed.
Print Assumptions C154_any_builds.

(** *** The order of the incoming edges is not kept. *)
Definition three_in : graph := apply_commands [AddEdge 1 3; AddEdge 2 3] g_new.
Theorem C154_incoming_refuted : forall nd, digit_table nd -> exists g, built g /\ u64_graph g /\
  inbound_edges g 3 = [(1, 3); (2, 3)] /\
  exists order g', hash_order order /\ gcmd_read nd (gcmd_text (order g)) = Done (Ok g') /\ inbound_edges g' 3 = [(2, 3); (1, 3)].
Proof.
  intros nd T. exists three_in. assert (B : built three_in) by apply built_apply_commands, built_empty.
  assert (U : u64_graph three_in).
  { intros v Hv. apply vertices_In in Hv. change (In v [1; 3; 2]) in Hv. destruct Hv as [<-|[<-|[<-|[]]]]; reflexivity. }
  split; [exact B|]. split; [exact U|]. split; [reflexivity|].
  exists (@rev _), (apply_commands (as_commands (rev three_in)) g_new).
  assert (O : hash_order (@rev _)) by (intro g; apply Permutation_rev).
  split; [exact O|]. split; [|vm_compute; reflexivity].
  assert (W : wf (rev three_in)) by (eapply wf_perm; [exact (built_wf B)|apply O]).
  apply gcmd_roundtrip; [assumption|exact W|].
  intros v Hv. apply U. apply (proj1 (shown_perm (built_wf B) (O three_in))). exact Hv.
Qed.
Print Assumptions C154_incoming_refuted.

Example C154_case : exists s', 
  history table empty_dir [Init; AddEdges [(1, 5); (1, 2)]; Build; AddEdges [(2, 3); (5, 3)]; Build] s' /\
  concat (map asks_for [AddEdges [(1, 5); (1, 2)]; Build; AddEdges [(2, 3); (5, 3)]; Build]) =
  concat (map asks_for [AddEdges [(1, 5); (1, 2); (2, 3); (5, 3)]]) /\
  snd (run_prog (gc_short_path table id_order (MinPriorityQueue sp_score) (txt "1") (txt "3") 20) s') =
  Done [txt "Shortest path from vertex 1 to vertex 3 with total cost of 2"; txt "1"; txt "5"; txt "3"].
Proof.
  eexists. split; [|split; [reflexivity|]].
  - eapply (h_cons table _ _ _ _ _ at_once id_order at_once_ok id_order_ok); [vm_compute; reflexivity|].
    eapply (h_cons table _ _ _ _ _ at_once id_order at_once_ok id_order_ok); [vm_compute; reflexivity|].
    eapply (h_cons table _ _ _ _ _ at_once (@rev _) at_once_ok (fun g => Permutation_rev g)); [vm_compute; reflexivity|].
    eapply (h_cons table _ _ _ _ _ at_once id_order at_once_ok id_order_ok); [vm_compute; reflexivity|].
    eapply (h_cons table _ _ _ _ _ at_once (@rev _) at_once_ok (fun g => Permutation_rev g)); [vm_compute; reflexivity|]. constructor.
  - vm_compute. reflexivity.
Qed.
