(** * Property C184: tgf files whose saving was cut short *)
From Coq Require Import String.
From Coq Require Import List NArith Bool Arith Lia Permutation.
From Verif Require Import Spec Base Graph GraphSpec GraphFacts Text Format FormatSpec TextFacts FormatFacts
  Store StoreSpec StoreFacts CrashFacts Disk DiskFacts TgfSave PropFormat.
Import ListNotations.
Open Scope N_scope.

(** What may be read in place of a command whose line was cut. *)
Inductive torn : graph_command -> graph_command -> Prop :=
| torn_vertex m v : cut_numeral m v -> torn (AddVertex m) (AddVertex v)
| torn_source m a b : cut_numeral m a -> torn (AddVertex m) (AddEdge a b)
| torn_target m a b : cut_numeral m b -> torn (AddEdge a m) (AddEdge a b).

Definition endings (ls : list text) : text := concat (map (fun l => l ++ [10]) ls).
Lemma cut_text (a b p q : text) : a ++ b = p ++ q -> (exists r, p = a ++ r /\ b = r ++ q) \/ (exists r, a = p ++ r /\ r <> [] /\ q = r ++ b).
Proof.
  revert b p q. induction a as [|x a IH]; intros b p q E.
  - left. exists p. now split.
  - destruct p as [|y p].
    + right. exists (x :: a). split; [reflexivity|]. split; [discriminate|]. symmetry. exact E.
    + injection E as <- E. destruct (IH _ _ _ E) as [(r & -> & ->)|(r & -> & Hr & ->)].
      * left. now exists r.
      * right. now exists r.
Qed.
Lemma prefix_endings ls : forall p, prefix p (endings ls) ->
  exists k w, p = endings (firstn k ls) ++ w /\
    ((w = [] /\ (k <= length ls)%nat) \/ exists l, nth_error ls k = Some l /\ w <> [] /\ prefix w l).
Proof.
  induction ls as [|l ls IH]; intros p [q Hq].
  - exists O, []. cbn in Hq. symmetry in Hq. apply app_eq_nil in Hq. destruct Hq as [-> _].
    split; [reflexivity|]. left. cbn. auto.
  - unfold endings in Hq. cbn [map concat] in Hq. fold (endings ls) in Hq.
    destruct (cut_text _ _ _ _ Hq) as [(r & -> & E)|(r & E & Hr & _)].
    + destruct (IH r) as (k & w & -> & Hw); [now exists q|]. exists (S k), w. split.
      * unfold endings. cbn [firstn map concat]. now rewrite <- !app_assoc.
      * destruct Hw as [[-> Hk]|Hw]; [left; split; [reflexivity|cbn; lia]|right; exact Hw].
    + exists O, p. split; [reflexivity|]. destruct p as [|x p]; [left; split; [reflexivity|lia]|].
      right. exists l. split; [reflexivity|]. split; [discriminate|].
      destruct r as [|y r _] using rev_ind; [congruence|]. rewrite app_assoc in E. apply app_inj_tail in E.
      destruct E as [-> _]. now exists r.
Qed.
Lemma endings_closed ls : closed (endings ls).
Proof.
  destruct ls as [|l ls _] using rev_ind; [now left|]. right. unfold endings.
  rewrite map_app, concat_app. cbn [map concat]. rewrite app_nil_r, app_assoc. eauto.
Qed.

Section Table.
  Variable nd : N -> bool.
  Hypothesis T : digit_table nd.
  Local Notation isd := (fun c => nd c = true).
  Lemma part_numeral d q n : u64 n -> d <> [] -> show n = d ++ q -> exists m, numeral d m /\ cut_numeral m n.
  Proof.
    intros U Hd E. assert (R : run isd d).
    { split; [assumption|]. pose proof (show_isd nd T n) as [_ H]. rewrite E in H. now apply Forall_app in H. }
    destruct (prefix_show_numeral nd d q n U R E) as [m Hm]. exists m. split; [assumption|].
    exists d, q. split; [rewrite <- E; apply show_spec|assumption].
  Qed.
  Lemma torn_line_tgf w c : u64_command c -> (forall v, c <> RemoveVertex v) -> (forall a b, c <> RemoveEdge a b) ->
    w <> [] -> prefix w (tgf_written c) -> exists c', tgf_line isd numeral w c' /\ torn c' c.
  Proof.
    intros U N1 N2 Hw [q Hq].
    assert (V : forall d n, numeral d n -> tgf_line isd numeral d (AddVertex n)).
    { intros d n H. rewrite <- (app_nil_r d). constructor; [assumption|]. split; [apply label_nil|].
      intros [|? ?] x t E; discriminate. }
    destruct c as [v|v|a b|a b]; cbn [tgf_written u64_command] in *; [|now destruct (N1 v)| |now destruct (N2 a b)].
    - destruct (part_numeral w q v U Hw Hq) as (m & Hm & C). exists (AddVertex m). split; [now apply V|now constructor].
    - destruct U as [Ua Ub]. destruct (cut_text _ _ _ _ Hq) as [(r & -> & E)|(r & E & _ & _)].
      + destruct r as [|x r].
        { rewrite app_nil_r in *. destruct (part_numeral (show a) [] a Ua Hw) as (m & Hm & C); [now rewrite app_nil_r|].
          exists (AddVertex m). split; [now apply V|now constructor]. }
        injection E as <- E. destruct r as [|y r].
        { destruct (part_numeral (show a) [] a Ua) as (m & Hm & C); [apply (show_run a)|now rewrite app_nil_r|].
          exists (AddVertex m). split; [|now constructor]. constructor; [assumption|].
          assert (H32 : nd 32 <> true) by (intro H; apply (proj2 T) in H; apply H; apply ws_blank; reflexivity).
          split; [split|].
          - intros [H|[]]. discriminate H.
          - intros z t [= <- _]. exact H32.
          - intros [|z w'] z' t Ez [Hne _]; [congruence|]. injection Ez as _ Ez. destruct w'; discriminate. }
        destruct (part_numeral (y :: r) q b Ub ltac:(discriminate) E) as (m & Hm & C).
        exists (AddEdge a m). split; [|now constructor].
        change (32 :: y :: r) with (txt " " ++ (y :: r)). rewrite <- (app_nil_r (y :: r)).
        constructor; [now apply show_numeral|apply blank_space|assumption|apply label_nil].
      + destruct (part_numeral w r a Ua Hw E) as (m & Hm & C). exists (AddVertex m). split; [now apply V|now constructor].
  Qed.
End Table.

(** Every part of a saved file reads without an error: as the commands of its
    whole lines, and one more for a line that was cut. *)
Theorem C184_read : forall nd g w, digit_table nd -> built g -> u64_graph g -> prefix w (tgf_text g) ->
  exists k, (k <= length (as_commands g))%nat /\
    (tgf_read_as_commands nd w = Done (Ok (firstn k (as_commands g))) \/
     exists c c', nth_error (as_commands g) k = Some c /\ torn c' c /\
       tgf_read_as_commands nd w = Done (Ok (firstn k (as_commands g) ++ [c']))).
Proof.
  intros nd g w T B U P. pose proof (built_wf B) as W. rewrite tgf_text_commands in P.
  destruct (prefix_endings _ _ P) as (k & r & -> & Hr). rewrite map_length in Hr.
  set (cs := as_commands g) in *.
  assert (Hc : forall c, In c cs -> u64_command c /\ (forall v, c <> RemoveVertex v) /\ (forall a b, c <> RemoveEdge a b)).
  { intros c Hc. split; [pose proof (as_commands_u64 g W U) as F; rewrite Forall_forall in F; now apply F|].
    unfold cs, as_commands in Hc. apply in_app_or in Hc. destruct Hc as [Hc|Hc]; apply in_map_iff in Hc;
      destruct Hc as (x & <- & _); split; discriminate. }
  assert (R : reads (accepts (tgf_parse_line nd)) (map tgf_written (firstn k cs)) (firstn k cs)).
  { assert (Hi : forall c, In c (firstn k cs) -> In c cs) by (intros c Hi; rewrite <- (firstn_skipn k cs); apply in_or_app; now left).
    induction (firstn k cs) as [|c l IH]; cbn [map]; [apply reads_end|].
    destruct (Hc c (Hi c (or_introl eq_refl))) as (U1 & N1 & N2).
    pose proof (tgf_line_written nd c U1 N1 N2) as L.
    apply reads_line; [exact (tgf_line_shape nd _ _ L)|exact (proj2 (tgf_parse_ok nd T _ _) L)|]. apply IH. intros x Hx. apply Hi. now right. }
  assert (Hl : lines (endings (firstn k (map tgf_written cs))) = map tgf_written (firstn k cs)).
  { rewrite firstn_map. apply lines_writelns. apply Forall_forall. intros l Hl. apply in_map_iff in Hl.
    destruct Hl as (c & <- & _). apply tgf_written_plain. }
  destruct Hr as [[-> Hk]|(l & Hn & Hne & Hp)].
  - exists k. split; [assumption|]. left. apply read_as_commands_ok. rewrite app_nil_r, Hl. exact R.
  - rewrite nth_error_map in Hn. destruct (nth_error cs k) as [c|] eqn:En; [|discriminate]. injection Hn as <-.
    assert (Hlt : (k < length cs)%nat) by (apply nth_error_Some; congruence).
    exists k. split; [lia|]. right. destruct (Hc c (nth_error_In _ _ En)) as (U1 & N1 & N2).
    destruct (torn_line_tgf nd T r c U1 N1 N2 Hne Hp) as (c' & L & K). exists c, c'. split; [exact En|]. split; [assumption|].
    assert (Nr : no_lf r).
    { destruct (tgf_written_plain c) as [H _]. destruct Hp as [q E]. rewrite E in H. apply no_lf_app in H. apply H. }
    apply read_as_commands_ok. rewrite lines_app_closed by apply endings_closed. rewrite Hl, (lines_last r Nr Hne).
    apply reads_app; [exact R|]. apply reads_line; [exact (tgf_line_shape nd _ _ L)|exact (proj2 (tgf_parse_ok nd T _ _) L)|apply reads_end].
Qed.
Print Assumptions C184_read.

(** Additions within a set of vertices and edges stay within it. *)
Definition allowed (V : N -> Prop) (E : N -> N -> Prop) (c : graph_command) : Prop :=
  match c with
  | AddVertex v => V v
  | AddEdge a b => V a /\ V b /\ E a b
  | _ => False
  end.
Lemma run_within (V : N -> Prop) (E : N -> N -> Prop) cs : Forall (allowed V E) cs ->
  (forall v, aV (a_run cs) v -> V v) /\ (forall a b, aE (a_run cs) a b -> E a b).
Proof.
  intro F. unfold a_run. assert (K : forall s, (forall v, aV s v -> V v) /\ (forall a b, aE s a b -> E a b) ->
    (forall v, aV (fold_left a_step cs s) v -> V v) /\ (forall a b, aE (fold_left a_step cs s) a b -> E a b)).
  { induction F as [|c cs Hc _ IH]; intros s [H1 H2]; [now split|]. cbn [fold_left]. apply IH.
    destruct c as [v|v|a b|a b]; cbn [allowed] in Hc; try tauto; cbn [a_step a_add_vertex a_add_edge aV aE]; split.
    - intros x [Hx| ->]; [now apply H1|assumption].
    - assumption.
    - intros x Hx. destruct Hc as (Ha & Hb & He). destruct Hx as [Hx|[-> | ->]]; [now apply H1|assumption|assumption].
    - intros x y Hx. destruct Hc as (Ha & Hb & He). destruct Hx as [Hx|[-> ->]]; [now apply H2|assumption]. }
  apply K. split; intros; contradiction.
Qed.

(** So the graph read from a part of the file has the vertices and edges of the
    saved graph, except for at most one id [m], which is an id of the graph cut
    short; it may occur as a vertex and as the target of one edge. *)
Theorem C184_graph : forall nd g w, digit_table nd -> built g -> u64_graph g -> prefix w (tgf_text g) ->
  exists g', tgf_read nd w = Done (Ok g') /\ built g' /\
    ((forall v, contains_vertex g' v = true -> contains_vertex g v = true) /\
     (forall a b, contains_edge g' (a, b) = true -> contains_edge g (a, b) = true) \/
     exists m n src, contains_vertex g n = true /\ cut_numeral m n /\
       (forall v, contains_vertex g' v = true -> contains_vertex g v = true \/ v = m) /\
       (forall a b, contains_edge g' (a, b) = true -> contains_edge g (a, b) = true \/
          contains_vertex g src = true /\ a = src /\ b = m)).
Proof.
  intros nd g w T B U P. pose proof (built_wf B) as W. destruct (C184_read nd g w T B U P) as (k & _ & R).
  set (V := fun v => contains_vertex g v = true). set (E := fun a b => contains_edge g (a, b) = true).
  assert (A : Forall (allowed V E) (as_commands g)).
  { apply Forall_forall. intros c Hc. unfold as_commands in Hc. apply in_app_or in Hc. destruct Hc as [Hc|Hc];
      apply in_map_iff in Hc; destruct Hc as (x & <- & Hx); cbn [allowed].
    - now apply vertices_In.
    - destruct x as [a b]. cbn [fst snd]. apply (edges_In _ _ W) in Hx. destruct (wf_hasE_V W Hx) as [Ha Hb].
      split; [now apply contains_vertex_hasV|]. split; [now apply contains_vertex_hasV|]. now apply contains_edge_hasE. }
  assert (Ak : Forall (allowed V E) (firstn k (as_commands g))).
  { rewrite <- (firstn_skipn k (as_commands g)) in A. now apply Forall_app in A. }
  assert (G : forall cs, tgf_read_as_commands nd w = Done (Ok cs) -> tgf_read nd w = Done (Ok (apply_commands cs g_new)))
    by (intros cs H; unfold tgf_read, read; unfold tgf_read_as_commands in H; now rewrite H).
  assert (S : forall cs V E, Forall (allowed V E) cs ->
    (forall v, contains_vertex (apply_commands cs g_new) v = true -> V v) /\
    (forall a b, contains_edge (apply_commands cs g_new) (a, b) = true -> E a b)).
  { intros cs V0 E0 H. destruct (refines (built_by_apply cs)) as [S1 S2]. destruct (run_within V0 E0 cs H) as [K1 K2].
    split; [intros v Hv; now apply K1, S1|intros a b Hab; now apply K2, S2]. }
  destruct R as [R|(c & c' & Hn & K & R)].
  - exists (apply_commands (firstn k (as_commands g)) g_new). split; [now apply G|].
    split; [eexists; apply built_by_apply|]. left. exact (S _ V E Ak).
  - exists (apply_commands (firstn k (as_commands g) ++ [c']) g_new). split; [now apply G|].
    split; [eexists; apply built_by_apply|]. right.
    assert (Hc : allowed V E c) by (rewrite Forall_forall in A; apply A; eapply nth_error_In; eassumption).
    assert (M : forall (V V' : N -> Prop) (E E' : N -> N -> Prop) cs, (forall v, V v -> V' v) -> (forall a b, E a b -> E' a b) ->
      Forall (allowed V E) cs -> Forall (allowed V' E') cs).
    { intros V1 V2 E1 E2 cs HV HE H. eapply Forall_impl; [|exact H]. intros [?|?|? ?|? ?]; cbn [allowed]; try tauto; [apply HV|].
      intros (H1 & H2 & H3). split; [now apply HV|]. split; [now apply HV|now apply HE]. }
    destruct K as [m v C|m a b C|m a b C]; cbn [allowed] in Hc.
    + exists m, v, v. split; [exact Hc|]. split; [exact C|]. apply (S _ (fun x => V x \/ x = m) (fun x y => E x y \/ V v /\ x = v /\ y = m)).
      apply Forall_app. split; [eapply M; [| |exact Ak]; intros; cbn; tauto|]. constructor; [cbn; now right|constructor].
    + destruct Hc as (Ha & _ & _). exists m, a, a. split; [exact Ha|]. split; [exact C|].
      apply (S _ (fun x => V x \/ x = m) (fun x y => E x y \/ V a /\ x = a /\ y = m)).
      apply Forall_app. split; [eapply M; [| |exact Ak]; intros; cbn; tauto|]. constructor; [cbn; now right|constructor].
    + destruct Hc as (Ha & Hb & _). exists m, b, a. split; [exact Hb|]. split; [exact C|].
      apply (S _ (fun x => V x \/ x = m) (fun x y => E x y \/ V a /\ x = a /\ y = m)).
      apply Forall_app. split; [eapply M; [| |exact Ak]; intros; cbn; tauto|]. constructor; [cbn; tauto|constructor].
Qed.
Print Assumptions C184_graph.

(** ** The calls of [save] *)
Lemma tgf_pieces_text g : concat (tgf_pieces g) = tgf_text g.
Proof.
  unfold tgf_pieces, tgf_text, writeln. rewrite concat_app. f_equal.
  - induction (vertices g) as [|v l IH]; [reflexivity|]. cbn [map concat]. rewrite concat_app, IH. cbn [concat].
    now rewrite app_nil_r.
  - induction (edges g) as [|[a b] l IH]; [reflexivity|]. cbn [map concat fst snd]. rewrite concat_app, IH. cbn [concat].
    now rewrite app_nil_r, <- !app_assoc.
Qed.
Lemma firstn_prefix {A} (l : list (list A)) n : prefix (concat (firstn n l)) (concat l).
Proof. exists (concat (skipn n l)). rewrite <- concat_app. now rewrite firstn_skipn. Qed.

(** Whatever the disk answers, killed or not, the file holds the text up to some
    byte; a reported failure has a reason; [Ok] means that at most one buffer is
    missing, and nothing if the disk takes something of each call. *)
Theorem C184_save : forall cap d g,
  (forall n, prefix (tgf_left cap d g n) (tgf_text g)) /\
  exists p q, tgf_text g = p ++ q /\ p = concat (fst (tgf_save cap d g)) /\
    (snd (tgf_save cap d g) = false -> exists i, d i = Refused \/ d i = Takes 0) /\
    (snd (tgf_save cap d g) = true -> (length q <= cap)%nat) /\
    (working d -> snd (tgf_save cap d g) = true /\ q = []).
Proof.
  intros cap d g. destruct (disk_writes_prefix cap d (tgf_pieces g) 0 []) as (q & E & H1 & H2).
  rewrite tgf_pieces_text in E. cbn [app] in E. split.
  - intro n. destruct (firstn_prefix (fst (tgf_save cap d g)) n) as [r Hr]. exists (r ++ q).
    unfold tgf_left. rewrite app_assoc. transitivity (concat (fst (tgf_save cap d g)) ++ q); [exact E|]. f_equal. exact Hr.
  - exists (concat (fst (tgf_save cap d g))), q. split; [exact E|]. split; [reflexivity|]. split; [exact H2|].
    split; [intro H; apply H1; [cbn; lia|exact H]|]. intro Wd.
    destruct (disk_writes_working cap d (tgf_pieces g) Wd 0 []) as [K1 K2]. split; [exact K1|].
    rewrite tgf_pieces_text in K2. cbn [app] in K2. rewrite K2 in E. rewrite <- (app_nil_r (tgf_text g)) in E at 1.
    now apply app_inv_head in E.
Qed.
Print Assumptions C184_save.

(** "[Ok] means that the graph is in the file" fails: on a full disk [save] of a
    small graph returns [Ok] and the file reads as the empty graph. *)
Theorem C184_ok_refuted : forall nd cap g n, (length (tgf_text g) < cap)%nat ->
  snd (tgf_save cap full_disk g) = true /\ tgf_read nd (tgf_left cap full_disk g n) = Done (Ok g_new).
Proof.
  intros nd cap g n H. assert (E : tgf_save cap full_disk g = ([], true)).
  { apply full_disk_writes; [rewrite tgf_pieces_text; cbn [length]; lia|]. intros p Hp. rewrite <- tgf_pieces_text in H.
    apply in_split in Hp. destruct Hp as (l1 & l2 & Hp). rewrite Hp, concat_app in H. cbn [concat] in H. rewrite !app_length in H. lia. }
  unfold tgf_left. rewrite E. split; [reflexivity|]. destruct n; reflexivity.
Qed.
Print Assumptions C184_ok_refuted.
(** "A file that was cut short is noticed, or at least holds nothing that was not
    saved" fails as well. *)
Theorem C184_invented_refuted : forall nd, digit_table nd -> exists g w g', built g /\ u64_graph g /\ prefix w (tgf_text g) /\
  tgf_read nd w = Done (Ok g') /\ contains_vertex g 1 = false /\ contains_vertex g' 1 = true.
Proof.
  intros nd T. set (g := apply_commands [AddVertex 12] g_new).
  assert (B : built g) by (exists [AddVertex 12]; apply built_by_apply).
  assert (L : tgf_parse_line nd [49] = Done (Ok (AddVertex 1))).
  { apply tgf_parse_ok; [assumption|]. change [49] with (show 1 ++ []). constructor; [apply show_numeral; reflexivity|].
    split; [apply label_nil|]. intros [|? ?] c t E; discriminate. }
  exists g, [49], (apply_commands [AddVertex 1] g_new). split; [exact B|]. split.
  { apply (built_by_u64 [AddVertex 12] g); [apply built_by_apply|]. repeat constructor. }
  split; [exists [50; 10]; reflexivity|]. split; [|split; reflexivity].
  unfold tgf_read, read.
  assert (R : read_as_commands (tgf_parse_line nd) is_comment [49] = Done (Ok [AddVertex 1])).
  { apply read_as_commands_ok. assert (E1 : lines [49] = [[49]]) by reflexivity. rewrite E1. apply reads_line; [|exact L|apply reads_end].
    intros [H|([|x w] & t & E & Hw)]; try discriminate. injection E as _ E. destruct w; discriminate. }
  now rewrite R.
Qed.
Print Assumptions C184_invented_refuted.

Example C184_case :
  let g := apply_commands [AddEdge 10 234; AddVertex 7] g_new in
  built g /\ prefix (txt "10" ++ [10] ++ txt "234" ++ [10] ++ txt "7" ++ [10] ++ txt "10 2") (tgf_text g) /\
  tgf_read_as_commands table (txt "10" ++ [10] ++ txt "234" ++ [10] ++ txt "7" ++ [10] ++ txt "10 2") =
    Done (Ok [AddVertex 10; AddVertex 234; AddVertex 7; AddEdge 10 2]) /\
  tgf_left 8 (fun i => if Nat.ltb i 2 then Takes 4 else Refused) g 9 = txt "10" ++ [10] ++ txt "234" ++ [10] ++ txt "7" /\
  snd (tgf_save 8 (fun i => if Nat.ltb i 2 then Takes 4 else Refused) g) = true.
Proof.
  cbv zeta. split; [eexists; apply built_by_apply|]. split; [|repeat split; vm_compute; reflexivity].
  vm_compute. eexists. reflexivity.
Qed.
