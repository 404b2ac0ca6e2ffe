(** * Several gc-builds at the same time (C150) *)
From Coq Require Import String.
From Coq Require Import List NArith Bool Arith Lia Permutation.
From Verif Require Import Spec Base Graph GraphSpec GraphFacts Text Format FormatSpec TextFacts FormatFacts
  Store StoreSpec StoreFacts CrashFacts Writer WriterFacts PropFormat PropStore PropWriter PropBeside PropLog.
Import ListNotations.
Open Scope N_scope.

(** A text gc-build may write for a graph with vertices and edges [a]. *)
Definition rewritten (a : aset) (t : text) : Prop := exists g, t = gcmd_text g /\ wf g /\ u64_graph g /\ a_same (shown g) a.
Lemma rewritten_length a t t' : rewritten a t -> rewritten a t' -> length t = length t'.
Proof.
  intros (g & -> & W & _ & S) (h & -> & W' & _ & S'). rewrite !gcmd_text_commands. apply length_commands.
  assert (SS : a_same (shown g) (shown h)) by (eapply a_same_trans; [exact S|now apply a_same_sym]). destruct SS as [S1 S2].
  destruct (vertices_spec W) as [N1 I1]. destruct (vertices_spec W') as [N1' I1']. destruct (edges_spec W) as [N2 I2]. destruct (edges_spec W') as [N2' I2'].
  unfold as_commands. apply Permutation_app; apply Permutation_map; apply NoDup_Permutation; try assumption.
  - intro v. rewrite I1, I1'. apply S1.
  - intros [x y]. rewrite I2, I2'. apply S2.
Qed.
Lemma rewritten_order a g order : wf g -> u64_graph g -> a_same (shown g) a -> hash_order order -> rewritten a (gcmd_text (order g)).
Proof.
  intros W U S O. assert (Wo : wf (order g)) by (eapply wf_perm; [exact W|apply O]).
  assert (So : a_same (shown (order g)) (shown g)) by (apply shown_perm; [assumption|apply O]).
  exists (order g). split; [reflexivity|]. split; [assumption|]. split; [|eapply a_same_trans; eassumption].
  intros x Hx. apply U. now apply (proj1 So).
Qed.
(** Reading a file gives a well-formed graph of 64-bit ids. *)
Lemma read_good nd c g : digit_table nd -> gcmd_read nd c = Done (Ok g) -> wf g /\ u64_graph g.
Proof.
  intros T H. apply gcmd_read_ok in H. destruct H as (cs & Hr & ->). split; [apply (built_by_wf (built_by_apply cs))|].
  apply (built_by_u64 cs); [apply built_by_apply|now apply (read_u64 nd c)].
Qed.
Lemma read_rewritten nd a t : digit_table nd -> rewritten a t -> exists g, gcmd_read nd t = Done (Ok g) /\ wf g /\ u64_graph g /\ a_same (shown g) a.
Proof.
  intros T (g & -> & W & U & S). exists (apply_commands (as_commands g) g_new).
  assert (E : gcmd_read nd (gcmd_text g) = Done (Ok (apply_commands (as_commands g) g_new))).
  { apply gcmd_read_ok. exists (as_commands g). split; [|reflexivity]. rewrite gcmd_text_commands. apply read_commands_text; [assumption|]. now apply as_commands_u64. }
  split; [exact E|]. destruct (read_good nd _ _ T E) as [W' U']. split; [assumption|]. split; [assumption|].
  eapply a_same_trans; [now apply as_commands_roundtrip|assumption].
Qed.
Lemma write_whole (t old : text) : old = [] \/ length old = length t -> write_at 0 t old = t.
Proof.
  intros H. unfold write_at. cbn [firstn Nat.sub repeat app Nat.add]. rewrite skipn_all2; [apply app_nil_r|].
  destruct H as [-> | ->]; cbn; lia.
Qed.

(** ** Files written by one call *)
Section Small.
  Variable nd : N -> bool.
  Hypothesis T : digit_table nd.
  Variable c : text.
  Variable a : aset.
  (** The graphs a gc-build may have read. *)
  Definition seen (g : graph) : Prop := g = g_new \/ (wf g /\ u64_graph g /\ a_same (shown g) a).
  (** [early]: nothing has been truncated yet. *)
  Inductive stage (early : bool) : prog exit -> Prop :=
  | sg_start chunks order : buffering chunks -> hash_order order ->
      (forall g, wf g -> a_same (shown g) a -> (length (chunks (save_pieces (order g))) <= 1)%nat) -> stage early (gc_build nd chunks order)
  | sg_read chunks order g : buffering chunks -> hash_order order ->
      (forall g, wf g -> a_same (shown g) a -> (length (chunks (save_pieces (order g))) <= 1)%nat) -> seen g ->
      stage early (to_write (save_graph_as_commands chunks (order g)))
  | sg_write t : early = false -> rewritten a t \/ t = [] -> stage early (to_write (write_chunks 0 [t]))
  | sg_writes ts : early = false -> Forall (eq []) ts -> stage early (to_write (write_chunks 0 ts))
  | sg_done : early = false -> stage early (Ret Success).
  Definition contents (early : bool) (f : text) : Prop := if early then f = c else f = [] \/ rewritten a f.

  Lemma stage_late early p : stage early p -> stage false p.
  Proof.
    intros [ch o B O L|ch o g B O L S|t E R|ts E R|E]; [now constructor|now constructor|now constructor|now constructor|now constructor].
  Qed.
  Hypothesis Hc : exists g, gcmd_read nd c = Done (Ok g) /\ a_same (shown g) a.
  Lemma contents_read early f : contents early f -> exists g, gcmd_read nd f = Done (Ok g) /\ seen g.
  Proof.
    destruct early; cbn.
    - intros ->. destruct Hc as (g & E & S). exists g. split; [assumption|]. right. destruct (read_good nd c g T E). tauto.
    - intros [-> | R].
      + exists g_new. split; [|now left]. apply gcmd_read_ok. exists []. split; reflexivity.
      + destruct (read_rewritten nd a f T R) as (g & E & W & U & S). exists g. split; [assumption|]. right. tauto.
  Qed.
  Lemma small_step early s f upd k : calm s f -> contents early f -> stage early (Act upd k) ->
    exists early' f', (early = false -> early' = false) /\ calm (upd s) f' /\ contents early' f' /\ stage early' (k s).
  Proof.
    intros (Hr & Hl & Hg) Hf H. remember (Act upd k) as w eqn:Ew. destruct H as [ch o B O L|ch o g B O L S|t E R|ts E R|E].
    - unfold gc_build, load_graph in Ew. cbn [bind] in Ew. injection Ew as <- <-. exists early, f.
      split; [auto|]. split; [now repeat split|]. split; [assumption|]. unfold commands_entry. rewrite Hg.
      destruct (contents_read early f Hf) as (g & Eg & S). rewrite Eg. now apply (sg_read early ch o g).
    - unfold to_write, save_graph_as_commands in Ew. cbn [bind] in Ew. injection Ew as <- <-. exists false, [].
      split; [auto|]. rewrite Hg. split; [now repeat split|]. split; [now left|].
      assert (Ht : concat (ch (save_pieces (o g))) = gcmd_text (o g)) by now rewrite B, concat_save_pieces.
      destruct S as [-> | (W & U & S)].
      + assert (En : o g_new = g_new) by (apply Permutation_nil; exact (O [])). rewrite En in *.
        change (stage false (to_write (write_chunks 0 (ch (save_pieces g_new))))). apply sg_writes; [reflexivity|].
        change (gcmd_text g_new) with (@nil N) in Ht. clear - Ht. induction (ch (save_pieces g_new)) as [|x l IH]; [constructor|].
        cbn [concat] in Ht. apply app_eq_nil in Ht as [-> Ht]. constructor; [reflexivity|auto].
      + specialize (L g W S). destruct (ch (save_pieces (o g))) as [|t [|t' l]] eqn:El; [| |cbn in L; lia].
        * apply (sg_done false eq_refl).
        * apply (sg_write false t eq_refl). left. cbn in Ht. rewrite app_nil_r in Ht. rewrite Ht. now apply rewritten_order.
    - cbn in Ew. injection Ew as <- <-. exists false. exists (write_at 0 t f). split; [auto|].
      split; [unfold write_chunk, commands_entry; rewrite Hg; now repeat split|]. subst early. cbn in Hf. cbn [contents].
      split; [|apply (sg_done false eq_refl)]. destruct R as [R| ->].
      + right. rewrite write_whole; [assumption|]. destruct Hf as [-> | Hf]; [now left|right; now apply (rewritten_length a)].
      + assert (E0 : write_at 0 [] f = f) by reflexivity. now rewrite E0.
    - destruct R as [|x ts <- R]; [discriminate Ew|]. cbn in Ew. injection Ew as <- <-. exists false, f.
      subst early. split; [auto|]. split; [unfold write_chunk, commands_entry; rewrite Hg; now repeat split|]. split; [assumption|].
      now apply sg_writes.
    - discriminate Ew.
  Qed.
  Definition small_inv (cfg : fs * list (prog exit)) : Prop :=
    exists early f, calm (fst cfg) f /\ contents early f /\ Forall (stage early) (snd cfg).
  Lemma small_steps cfg cfg' : isteps cfg cfg' -> small_inv cfg -> small_inv cfg'.
  Proof.
    induction 1 as [|cfg cfg1 cfg2 St _ IH]; intro H; [assumption|]. apply IH. clear IH.
    destruct cfg as [s ps], cfg1 as [s1 ps1]. destruct H as (early & f & H1 & H2 & H3). destruct St as (pre & upd & k & post & E1 & E2 & E3).
    cbn [fst snd] in *. subst ps s1 ps1. apply Forall_app in H3 as [F1 F2]. inversion F2 as [|? ? F3 F4]; subst.
    destruct (small_step early s f upd k H1 H2 F3) as (early' & f' & He & Hs & Hf & Hk). exists early', f'. cbn [fst snd].
    split; [assumption|]. split; [assumption|].
    assert (Up : forall p, stage early p -> stage early' p).
    { intros p Hp. destruct early, early'; try assumption; [now apply stage_late in Hp|]. now discriminate He. }
    apply Forall_app. split; [eapply Forall_impl; [|exact F1]; exact Up|]. constructor; [assumption|]. eapply Forall_impl; [|exact F4]; exact Up.
  Qed.
End Small.

(** A file that fits in the buffer is written by at most one call. *)
Lemma piece_short g p : In p (save_pieces g) -> (length p < length (gcmd_text g))%nat.
Proof.
  assert (G : forall (X : Type) (f : X -> list text) l, (forall x p, In p (f x) -> (length p < length (concat (f x)))%nat) ->
    In p (concat (map f l)) -> (length p < length (concat (concat (map f l))))%nat).
  { intros X f l Hf. induction l as [|x l IH]; [intros []|]. cbn [map concat]. rewrite concat_app, app_length, in_app_iff.
    intros [H|H]; [specialize (Hf x p H)|specialize (IH H)]; lia. }
  rewrite <- concat_save_pieces. unfold save_pieces. rewrite concat_app, app_length, in_app_iff. intros [H|H]; apply G in H; try lia.
  - intros x q Hq. cbn [concat]. rewrite !app_length. assert (E1 : length (txt "AddVertex ") = 10%nat) by reflexivity.
    destruct Hq as [<-|[<-|[<-|[]]]]; cbn [length]; lia.
  - intros x q Hq. cbn [concat]. rewrite !app_length. assert (E1 : length (txt "AddEdge ") = 8%nat) by reflexivity.
    assert (E2 : length (txt " ") = 1%nat) by reflexivity. destruct Hq as [<-|[<-|[<-|[<-|[<-|[]]]]]]; cbn [length]; lia.
Qed.
Lemma build_one_write cap g : (length (gcmd_text g) <= cap)%nat -> (length (buffered cap (save_pieces g)) <= 1)%nat.
Proof.
  intro H. unfold buffered. rewrite buf_writes_small.
  - destruct ([] ++ concat (save_pieces g)); cbn; lia.
  - now rewrite concat_save_pieces.
  - intros p Hp. apply piece_short in Hp. lia.
Qed.

(** Any number of gc-builds on a graph whose text fits in the buffer, under every schedule and stopped anywhere: the file
    is untouched, empty, or a rewriting of the whole graph; when all have ended all report success and the file is
    empty or a rewriting of the whole graph. *)
Theorem C150_small : forall nd cap (orders : list (graph -> graph)) s c g s' ps, digit_table nd ->
  fs_root s = true -> openable (fs_lock s) = true -> fs_graph s = GraphDir (File c) -> gcmd_read nd c = Done (Ok g) ->
  (length (gcmd_text g) <= cap)%nat -> orders <> [] -> Forall hash_order orders ->
  isteps (s, map (gc_build nd (buffered cap)) orders) (s', ps) ->
  exists f, commands_entry s' = File f /\ (f = c \/ f = [] \/ rewritten (shown g) f) /\
    (Forall (fun p => exists r, p = Ret r) ps -> Forall (eq (Ret Success)) ps /\ (f = [] \/ rewritten (shown g) f)).
Proof.
  intros nd cap bs s c g s' ps T Hr Hl Hg Hc Hcap Hb F H.
  assert (Hex : exists g0, gcmd_read nd c = Done (Ok g0) /\ a_same (shown g0) (shown g)) by (exists g; split; [assumption|apply a_same_refl]).
  assert (I0 : small_inv nd c (shown g) (s, map (gc_build nd (buffered cap)) bs)).
  { exists true, c. split; [now repeat split|]. split; [reflexivity|]. cbn [snd]. rewrite Forall_map.
    eapply Forall_impl; [|exact F]. intros o O. constructor; [apply buffered_ok|assumption|]. intros h W S. apply build_one_write.
    destruct (read_good nd c g T Hc) as [Wg Ug].
    assert (Rg : rewritten (shown g) (gcmd_text g)) by (exists g; split; [reflexivity|]; split; [assumption|]; split; [assumption|apply a_same_refl]).
    assert (Uh : u64_graph h) by (intros x Hx; apply Ug; now apply (proj1 S)).
    now rewrite (rewritten_length (shown g) _ _ (rewritten_order (shown g) h o W Uh S O) Rg). }
  pose proof (small_steps nd T c (shown g) Hex _ _ H I0) as (early & f & (_ & _ & Hf) & Hcon & Hst). cbn [fst snd] in *.
  exists f. unfold commands_entry. rewrite Hf. split; [reflexivity|]. split; [destruct early; cbn in Hcon; tauto|].
  intro Hd. assert (Hlen : length ps = length bs).
  { clear - H. remember (s, map (gc_build nd (buffered cap)) bs) as x eqn:E. remember (s', ps) as y eqn:E'.
    assert (K : length (snd y) = length (snd x)).
    { clear - H. induction H as [|x y z (pre & upd & k & post & E1 & E2 & E3) _ IH]; [reflexivity|]. rewrite IH, E1, E3, !app_length. reflexivity. }
    subst x y. cbn [snd] in K. now rewrite map_length in K. }
  assert (Hs : Forall (eq (Ret Success)) ps).
  { rewrite Forall_forall in *. intros p Hp. destruct (Hd p Hp) as [r ->]. specialize (Hst _ Hp). remember (Ret r) as w eqn:Ew.
    destruct Hst as [ch o ? ? ?|ch o h ? ? ? ?|t ? ?|ts ? R|?]; try discriminate Ew; [|reflexivity].
    destruct R; [|discriminate Ew]. reflexivity. }
  split; [assumption|]. destruct early; [|exact Hcon]. exfalso. destruct ps as [|p ps]; [destruct bs; [congruence|discriminate Hlen]|].
  inversion Hs as [|? ? Hp _]; subst. inversion Hst as [|? ? Hq _]; subst. inversion Hq; try discriminate.
Qed.
Print Assumptions C150_small.

(** Expected but false: the graph is kept.  The second gc-build reads the file just truncated by the first. *)
Theorem C150_lost_refuted : forall nd order, digit_table nd -> hash_order order ->
  exists s', isteps (with_file (commands_text [AddVertex 1]), [gc_build nd (buffered default_capacity) order; gc_build nd (buffered default_capacity) order])
    (s', [Ret Success; Ret Success]) /\ commands_entry s' = File [] /\ loads nd s' g_new.
Proof.
  intros nd order T O. set (s := with_file (commands_text [AddVertex 1])). set (b := gc_build nd (buffered default_capacity) order).
  assert (Eg : gcmd_read nd (commands_text [AddVertex 1]) = Done (Ok (apply_commands [AddVertex 1] g_new))).
  { apply gcmd_read_ok. exists [AddVertex 1]. split; [|reflexivity]. apply (read_commands_text nd T [AddVertex 1]). repeat constructor. }
  set (g := apply_commands [AddVertex 1] g_new) in *.
  assert (Eo : order g = g) by (specialize (O g); cbn in O |- *; now apply Permutation_length_1_inv in O).
  assert (En : order g_new = g_new) by (apply Permutation_nil; exact (O [])).
  assert (Er : gcmd_read nd [] = Done (Ok g_new)) by (apply gcmd_read_ok; exists []; split; reflexivity).
  set (empty := set_commands (File []) s).
  assert (Ew : buffered default_capacity (save_pieces g) = [commands_text [AddVertex 1]]) by reflexivity.
  assert (S1 : isteps (s, [b; b]) (s, [to_write (save_graph_as_commands (buffered default_capacity) g); b])).
  { eapply is_step; [|constructor]. eexists [], _, _, [b]. split; [reflexivity|]. split; [reflexivity|].
    cbn [fst snd app]. unfold s at 1. cbn [commands_entry with_file fs_graph bind]. rewrite Eg, Eo. reflexivity. }
  assert (S2 : isteps (s, [to_write (save_graph_as_commands (buffered default_capacity) g); b])
     (empty, [to_write (write_chunks 0 [commands_text [AddVertex 1]]); b])).
  { rewrite <- Ew. eapply is_step; [|constructor]. eexists [], _, _, [b]. split; [reflexivity|]. split; reflexivity. }
  assert (S3 : isteps (empty, [to_write (write_chunks 0 [commands_text [AddVertex 1]]); b])
     (empty, [to_write (write_chunks 0 [commands_text [AddVertex 1]]); to_write (save_graph_as_commands (buffered default_capacity) g_new)])).
  { eapply is_step; [|constructor]. eexists [_], _, _, []. split; [reflexivity|]. split; [reflexivity|].
    cbn [fst snd app]. unfold empty at 1, s at 1. cbn [commands_entry set_commands set_graph with_file fs_graph bind]. rewrite Er, En. reflexivity. }
  exists empty. split.
  - eapply isteps_trans; [exact S1|]. eapply isteps_trans; [exact S2|]. eapply isteps_trans; [exact S3|].
    pose proof (run_schedule_isteps _ [0; 1]%nat empty [to_write (write_chunks 0 [commands_text [AddVertex 1]]);
      to_write (save_graph_as_commands (buffered default_capacity) g_new)]) as H. exact H.
  - split; [reflexivity|]. unfold loads. rewrite run_load. now rewrite <- Er.
Qed.
Print Assumptions C150_lost_refuted.

(** ** Files of any size, once all have read the graph *)
Lemma nth_repeat0 n j : nth j (repeat 0 n) 0 = 0.
Proof. revert j. induction n as [|n IH]; intros [|j]; cbn; auto. Qed.
Lemma nth_write off (c old : list N) j : nth j (write_at off c old) 0 =
  if Nat.ltb j off then nth j old 0 else if Nat.ltb j (off + length c) then nth (j - off) c 0 else nth j old 0.
Proof.
  unfold write_at. assert (Hl : (length (firstn off old) + length (repeat 0%N (off - length old)) = off)%nat) by (rewrite firstn_length, repeat_length; lia).
  destruct (Nat.ltb_spec j off) as [H|H].
  - destruct (le_lt_dec (length (firstn off old)) j) as [H1|H1].
    + rewrite app_nth2 by lia. rewrite app_nth1 by lia. rewrite nth_repeat0. rewrite firstn_length in H1. rewrite nth_overflow; [reflexivity|lia].
    + rewrite app_nth1 by exact H1. rewrite <- (firstn_skipn off old) at 2. now rewrite app_nth1 by exact H1.
  - rewrite app_nth2 by lia. rewrite app_nth2 by lia. replace (j - _ - _)%nat with (j - off)%nat by lia.
    destruct (Nat.ltb_spec j (off + length c)) as [H1|H1]; [apply app_nth1; lia|]. rewrite app_nth2 by lia.
    destruct (le_lt_dec (length old) j) as [H2|H2].
    + rewrite !nth_overflow; [reflexivity|lia|rewrite skipn_length; lia].
    + rewrite <- (firstn_skipn (off + length c) old) at 2. rewrite app_nth2; rewrite firstn_length; [f_equal; lia|lia].
Qed.
Lemma length_write off (c old : list N) : length (write_at off c old) = Nat.max (length old) (off + length c).
Proof. unfold write_at. rewrite !app_length, firstn_length, repeat_length, skipn_length. lia. Qed.

Section Large.
  Variable ts : list text.
  Variable L : nat.
  Hypothesis HL : forall t, In t ts -> length t = L.
  Variable c : text.
  (** The character that one of the texts has at this place. *)
  Definition ours (j : nat) (x : N) : Prop := exists t, In t ts /\ (j < L)%nat /\ nth j t 0 = x.
  (** Where a gc-build is: before its truncation, or with [x] written and [rest] to write. *)
  Inductive wst : option (text * list text) -> prog exit -> Prop :=
  | w_read chunks g : buffering chunks -> In (gcmd_text g) ts -> wst None (to_write (save_graph_as_commands chunks g))
  | w_write x rest : In (x ++ concat rest) ts -> wst (Some (x, rest)) (to_write (write_chunks (length x) rest)).
  Definition filled (f x : text) : Prop := (length x <= length f)%nat /\ forall j, (j < length x)%nat -> ours j (nth j f 0).
  Definition patched (f : text) (ds : list (option (text * list text))) : Prop :=
    (length f <= L)%nat /\ (forall j, nth j f 0 = 0 \/ ours j (nth j f 0)) /\ exists x rest, In (Some (x, rest)) ds /\ filled f x.
  Definition linv (cfg : fs * list (prog exit)) : Prop := exists ds f, calm (fst cfg) f /\ Forall2 wst ds (snd cfg) /\
    ((f = c /\ Forall (eq None) ds) \/ patched f ds).

  Lemma ours_text t j : In t ts -> (j < L)%nat -> ours j (nth j t 0).
  Proof. intros H Hj. now exists t. Qed.
  Lemma write_ours t x y z f : In t ts -> t = x ++ y ++ z -> (length f <= L)%nat -> (forall j, nth j f 0 = 0 \/ ours j (nth j f 0)) ->
    (length (write_at (length x) y f) <= L)%nat /\ (forall j, nth j (write_at (length x) y f) 0 = 0 \/ ours j (nth j (write_at (length x) y f) 0)) /\
    (forall x', filled f x' -> filled (write_at (length x) y f) x') /\ (filled f x -> filled (write_at (length x) y f) (x ++ y)).
  Proof.
    intros Ht E Hf Hn. assert (Hl := HL t Ht). assert (Hlt : length t = (length x + length y + length z)%nat) by (rewrite E, !app_length; lia).
    assert (Hy : forall j, (length x <= j)%nat -> (j < length x + length y)%nat -> ours j (nth (j - length x) y 0)).
    { intros j H1 H2. assert (En : nth (j - length x) y 0 = nth j t 0) by (rewrite E, app_nth2, app_nth1 by lia; reflexivity). rewrite En. apply ours_text; [assumption|lia]. }
    split; [rewrite length_write; lia|]. split; [|split].
    - intro j. rewrite nth_write. destruct (Nat.ltb_spec j (length x)); [apply Hn|]. destruct (Nat.ltb_spec j (length x + length y)); [|apply Hn].
      right. now apply Hy.
    - intros x' [H1 H2]. split; [rewrite length_write; lia|]. intros j Hj. rewrite nth_write.
      destruct (Nat.ltb_spec j (length x)); [now apply H2|]. destruct (Nat.ltb_spec j (length x + length y)); [now apply Hy|now apply H2].
    - intros [H1 H2]. split; [rewrite length_write, app_length; lia|]. intros j Hj. rewrite app_length in Hj. rewrite nth_write.
      destruct (Nat.ltb_spec j (length x)); [now apply H2|]. destruct (Nat.ltb_spec j (length x + length y)); [now apply Hy|lia].
  Qed.
  Lemma linv_step cfg cfg' : linv cfg -> istep cfg cfg' -> linv cfg'.
  Proof.
    destruct cfg as [s ps], cfg' as [s' ps']. intros (ds & f & (Hr & Hl & Hg) & HF & Hx) (pre & upd & k & post & E1 & E2 & E3). cbn [fst snd] in *. subst ps s' ps'.
    apply Forall2_app_inv_r in HF as (d1 & d2 & F1 & F2 & ->). inversion F2 as [|d p d3 ps Hst F3]; subst.
    remember (Act upd k) as w eqn:Ew. destruct Hst as [ch g B Ht|x rest Ht].
    - unfold to_write, save_graph_as_commands in Ew. cbn [bind] in Ew. injection Ew as <- <-.
      exists (d1 ++ Some ([], ch (save_pieces g)) :: d3), []. cbn [fst snd]. rewrite Hg.
      assert (Hc2 : concat (ch (save_pieces g)) = gcmd_text g) by now rewrite B, concat_save_pieces. rewrite <- Hc2 in Ht.
      split; [now repeat split|]. split; [apply Forall2_app; [assumption|constructor; [|assumption]]|].
      + now apply (w_write [] (ch (save_pieces g))).
      + right. split; [cbn; lia|]. split; [intros [|j]; now left|]. exists [], (ch (save_pieces g)).
        split; [apply in_or_app; right; now left|]. split; [cbn; lia|]. intros j Hj. cbn in Hj. lia.
    - destruct rest as [|y rest]; [discriminate Ew|]. cbn [to_write write_chunks bind] in Ew. injection Ew as <- <-.
      destruct Hx as [[_ Hx]|Hx]; [apply Forall_app in Hx as [_ Hx]; inversion Hx; discriminate|].
      destruct Hx as (Hlf & Hn & x' & rest' & Hin & Hfill). cbn [concat] in Ht.
      destruct (write_ours _ x y (concat rest) f Ht eq_refl Hlf Hn) as (W1 & W2 & W3 & W4).
      exists (d1 ++ Some (x ++ y, rest) :: d3), (write_at (length x) y f). cbn [fst snd].
      split; [unfold write_chunk, commands_entry; rewrite Hg; now repeat split|].
      assert (Es : to_write (write_chunks (length x + length y) rest) = to_write (write_chunks (length (x ++ y)) rest)) by now rewrite app_length.
      split; [apply Forall2_app; [assumption|constructor; [|assumption]]|].
      + change (wst (Some (x ++ y, rest)) (to_write (write_chunks (length x + length y) rest))). rewrite Es. apply w_write. rewrite <- app_assoc. exact Ht.
      + right. split; [assumption|]. split; [assumption|]. apply in_app_or in Hin. destruct Hin as [Hin|[Hin|Hin]].
        * exists x', rest'. split; [apply in_or_app; now left|now apply W3].
        * injection Hin as -> _. exists (x' ++ y), rest. split; [apply in_or_app; right; now left|now apply W4].
        * exists x', rest'. split; [apply in_or_app; right; now right|now apply W3].
  Qed.
  Lemma linv_steps cfg cfg' : isteps cfg cfg' -> linv cfg -> linv cfg'.
  Proof. induction 1; intro; [assumption|]. eauto using linv_step. Qed.
End Large.

(** Any number of gc-builds that have all read the graph before the first of them truncates the file, files of any size,
    every schedule.  Stopped anywhere: the file is untouched, or each place of it holds a zero or what one of the
    gc-builds writes there.  When all have ended they report success, the file has the size each of them gives
    it and each place holds what one of them writes there. *)
Theorem C150_places : forall nd (bs : list ((list text -> list text) * (graph -> graph))) s c g s' ps, digit_table nd ->
  fs_root s = true -> openable (fs_lock s) = true -> fs_graph s = GraphDir (File c) -> gcmd_read nd c = Done (Ok g) -> bs <> [] ->
  Forall (fun b => buffering (fst b) /\ hash_order (snd b)) bs ->
  isteps (s, map (fun b => to_write (save_graph_as_commands (fst b) (snd b g))) bs) (s', ps) ->
  let writes j x := exists b, In b bs /\ nth j (gcmd_text (snd b g)) 0 = x in
  exists f, commands_entry s' = File f /\
    (f = c \/ (length f <= length (gcmd_text g))%nat /\ forall j, nth j f 0 = 0 \/ writes j (nth j f 0)) /\
    (Forall (fun p => exists r, p = Ret r) ps -> Forall (eq (Ret Success)) ps /\
      length f = length (gcmd_text g) /\ forall j, (j < length f)%nat -> writes j (nth j f 0)).
Proof.
  intros nd bs s c g s' ps T Hr Hl Hg Hc Hb F H writes.
  set (ts := map (fun b => gcmd_text (snd b g)) bs). set (L := length (gcmd_text g)).
  destruct (read_good nd c g T Hc) as [Wg Ug].
  assert (Rg : rewritten (shown g) (gcmd_text g)) by (exists g; split; [reflexivity|]; split; [assumption|]; split; [assumption|apply a_same_refl]).
  assert (HL : forall t, In t ts -> length t = L).
  { intros t Ht. apply in_map_iff in Ht. destruct Ht as (b & <- & Hi). rewrite Forall_forall in F. destruct (F b Hi) as [_ O].
    apply (rewritten_length (shown g)); [|assumption]. apply rewritten_order; [assumption|assumption|apply a_same_refl|assumption]. }
  assert (I : linv ts L c (s, map (fun b => to_write (save_graph_as_commands (fst b) (snd b g))) bs)).
  { exists (map (fun _ => None) bs), c. split; [now repeat split|]. cbn [fst snd]. split.
    - assert (G : Forall (fun b => buffering (fst b) /\ In (gcmd_text (snd b g)) ts) bs).
      { rewrite Forall_forall in *. intros b Hi. split; [apply (F b Hi)|]. apply in_map_iff. now exists b. }
      clear - G. clearbody ts. induction G as [|b bs' [H1 H2] _ IH]; cbn [map]; constructor; [now constructor|assumption].
    - left. split; [reflexivity|]. rewrite Forall_map. now apply Forall_forall. }
  apply (linv_steps ts L HL c _ _ H) in I. destruct I as (ds & f & (_ & _ & Hf) & HF & Hx). cbn [fst snd] in *.
  assert (Ours : forall j x, ours ts L j x -> writes j x).
  { intros j x (t & Ht & _ & <-). apply in_map_iff in Ht. destruct Ht as (b & <- & Hi). now exists b. }
  exists f. unfold commands_entry. rewrite Hf. split; [reflexivity|]. split.
  - destruct Hx as [[Hx _]|(H1 & H2 & _)]; [now left|right]. split; [assumption|]. intro j. destruct (H2 j); auto.
  - intro Hd. assert (Hdone : forall d p, In p ps -> wst ts d p -> exists t, d = Some (t, []) /\ In t ts /\ p = Ret Success).
    { intros d p Hp Hst. rewrite Forall_forall in Hd. destruct (Hd p Hp) as [r ->]. remember (Ret r) as w eqn:Ew.
      destruct Hst as [ch h B Ht|x rest Ht]; [discriminate Ew|]. destruct rest as [|y rest]; [|discriminate Ew].
      cbn [concat] in Ht. rewrite app_nil_r in Ht. now exists x. }
    assert (Hlen : length ds <> 0%nat).
    { assert (K : length ps = length bs).
      { clear - H. remember (s, map (fun b => to_write (save_graph_as_commands (fst b) (snd b g))) bs) as x eqn:E. remember (s', ps) as y eqn:E'.
        assert (K : length (snd y) = length (snd x)).
        { clear - H. induction H as [|x y z (pre & upd & k & post & E1 & E2 & E3) _ IH]; [reflexivity|]. rewrite IH, E1, E3, !app_length. reflexivity. }
        subst x y. cbn [snd] in K. now rewrite map_length in K. }
      assert (K2 : length ds = length ps) by (clear - HF; induction HF; cbn; congruence). destruct bs; [congruence|]. cbn in K. lia. }
    split; [|assert (HP : patched ts L f ds)].
    + clear - HF Hdone. induction HF as [|d p ds ps Hst _ IH]; constructor.
      * destruct (Hdone d p (or_introl eq_refl) Hst) as (t & _ & _ & ->). reflexivity.
      * apply IH. intros d' p' Hp. apply Hdone. now right.
    + destruct Hx as [[_ Hx]|Hx]; [|assumption]. exfalso. destruct HF as [|d p ds ps Hst _]; [now apply Hlen|].
      destruct (Hdone d p (or_introl eq_refl) Hst) as (t & -> & _). inversion Hx; discriminate.
    + destruct HP as (H1 & _ & x & rest & Hin & H2 & H3).
      assert (Hx0 : rest = [] /\ In x ts).
      { clear - HF Hdone Hin. induction HF as [|d p ds ps Hst _ IH]; [destruct Hin|]. destruct Hin as [->|Hin].
        - destruct (Hdone _ p (or_introl eq_refl) Hst) as (t & E & Ht & _). injection E as -> ->. now split.
        - apply IH; [|assumption]. intros d' p' Hp. apply Hdone. now right. }
      destruct Hx0 as [-> Hx0]. assert (Ex := HL x Hx0). split; [apply Nat.le_antisymm; [exact H1|]; fold L; now rewrite <- Ex|].
      intros j Hj. apply Ours. apply H3. rewrite Ex. apply (Nat.lt_le_trans _ _ _ Hj). exact H1.
Qed.
Print Assumptions C150_places.

(** A graph of 600 vertices, two writes of the buffer of 8192 bytes. *)
Definition many_vertices : list graph_command := map (fun k => AddVertex (N.of_nat k)) (seq 100 600).
Definition other_order (g : graph) : graph := rev g.
Lemma many_hundred : aV (a_run many_vertices) 100.
Proof.
  assert (H : contains_vertex (apply_commands many_vertices g_new) 100 = true) by (vm_compute; reflexivity).
  pose proof (refines (built_by_apply many_vertices)) as [X _]. exact (proj1 (X 100) H).
Qed.
Lemma load_check (t : fs) (P : graph -> bool) :
  match snd (run_prog (load_graph table) t) with Done (Ok g) => P g | _ => false end = true -> exists g, loads table t g /\ P g = true.
Proof.
  unfold loads. rewrite run_load. cbn [snd]. destruct (match commands_entry t with File _ => _ | _ => _ end) as [[g|]| |]; try discriminate. now exists g.
Qed.
Lemma file_check (t : fs) (k : nat) :
  match commands_entry t with
  | File f => (if list_eq_dec N.eq_dec (firstn k f) (repeat 0 k) then true else false) && match gcmd_read table f with Done (Err _) => true | _ => false end
  | _ => false end = true ->
  exists f, commands_entry t = File f /\ firstn k f = repeat 0 k /\ exists msg, snd (run_prog (load_graph table) t) = Done (Err msg).
Proof.
  rewrite run_load. cbn [snd]. destruct (commands_entry t) as [|f|]; try discriminate. intro H. apply andb_true_iff in H as [H1 H2]. exists f. split; [reflexivity|].
  destruct (list_eq_dec N.eq_dec (firstn k f) (repeat 0 k)); [|discriminate]. split; [assumption|].
  destruct (gcmd_read table f) as [[|msg]| |]; try discriminate. now exists msg.
Qed.
Definition build_many (order : graph -> graph) : prog exit := gc_build table (buffered default_capacity) order.
Definition mixing : list nat := [0; 1; 0; 1; 0; 1; 1; 0]%nat.
Definition mixed : fs * list (prog exit) :=
  run_schedule mixing (with_file (commands_text many_vertices)) [build_many id_order; build_many other_order].
Lemma mixed_done : snd mixed = [Ret Success; Ret Success].
Proof. vm_compute. reflexivity. Qed.
Lemma mixed_graph : exists g, loads table (fst mixed) g /\ contains_vertex g 300 && negb (contains_vertex g 100) = true.
Proof. apply load_check. vm_compute. reflexivity. Qed.
(** Expected but false: gc-builds that have all read the whole graph keep it.  Each makes two writes; after the
    first one has truncated and written, the second one runs up to its last write, the first one
    writes the end. *)
Theorem C150_mixed_refuted :
  let b := gc_build table (buffered default_capacity) in
  hash_order id_order /\ hash_order other_order /\
  exists sch s' g, run_schedule sch (with_file (commands_text many_vertices)) [b id_order; b other_order] = (s', [Ret Success; Ret Success]) /\
    isteps (with_file (commands_text many_vertices), [b id_order; b other_order]) (s', [Ret Success; Ret Success]) /\
    firstn 2 sch = [0; 1]%nat /\
    loads table s' g /\ contains_vertex g 300 = true /\ aV (a_run many_vertices) 100 /\ contains_vertex g 100 = false.
Proof.
  cbv zeta. split; [intro g; apply Permutation_refl|]. split; [intro g; apply Permutation_rev|].
  destruct mixed_graph as (g & Kg & Kb). apply andb_true_iff in Kb as [K1 K2]. apply negb_true_iff in K2.
  assert (E : mixed = (fst mixed, [Ret Success; Ret Success])) by (rewrite <- mixed_done; apply surjective_pairing).
  exists mixing, (fst mixed), g. split; [exact E|]. split; [rewrite <- E; apply run_schedule_isteps|]. split; [reflexivity|]. split; [exact Kg|].
  split; [exact K1|]. split; [exact many_hundred|exact K2].
Qed.
Print Assumptions C150_mixed_refuted.
Definition zeroed : fs * list (prog exit) :=
  run_schedule [0; 1; 0; 0; 1; 0]%nat (with_file (commands_text many_vertices)) [build_many id_order; build_many id_order].
Lemma zeroed_file : exists f, commands_entry (fst zeroed) = File f /\ firstn (N.to_nat 8190) f = repeat 0 (N.to_nat 8190) /\ exists msg, snd (run_prog (load_graph table) (fst zeroed)) = Done (Err msg).
Proof. apply file_check. vm_compute. reflexivity. Qed.
Lemma zeroed_first : exists p, snd zeroed = [Ret Success; p].
Proof.
  assert (H : match snd zeroed with [Ret Success; _] => true | _ => false end = true) by (vm_compute; reflexivity).
  destruct (snd zeroed) as [|[[|]|] [|p [|]]]; try discriminate H. now exists p.
Qed.
(** One of two gc-builds is killed after its truncation: the other one reports success and leaves zeros in place
    of its first write. *)
Theorem C150_zeros_refuted :
  let b := gc_build table (buffered default_capacity) in
  exists s' p f, isteps (with_file (commands_text many_vertices), [b id_order; b id_order]) (s', [Ret Success; p]) /\
    commands_entry s' = File f /\ firstn (N.to_nat 8190) f = repeat 0 (N.to_nat 8190) /\
    exists msg, snd (run_prog (load_graph table) s') = Done (Err msg).
Proof.
  cbv zeta. destruct zeroed_file as (f & K1 & K2 & K3). destruct zeroed_first as [p Kp].
  assert (E : zeroed = (fst zeroed, [Ret Success; p])) by (rewrite <- Kp; apply surjective_pairing).
  exists (fst zeroed), p, f. split; [rewrite <- E; apply run_schedule_isteps|]. split; [exact K1|]. split; [exact K2|exact K3].
Qed.
Print Assumptions C150_zeros_refuted.
(** Three gc-builds on a file of two commands, killed or not: the hypotheses of C150_small and C150_places. *)
Example C150_case : exists g, gcmd_read table (commands_text [AddVertex 1; AddEdge 1 2]) = Done (Ok g) /\ length (gcmd_text g) = 36%nat /\
  Forall hash_order [id_order; other_order; id_order] /\ Forall (fun b => buffering (fst b) /\ hash_order (snd b)) [(at_once, id_order); (buffered 5, other_order)].
Proof.
  assert (O1 : hash_order id_order) by (intro g; apply Permutation_refl). assert (O2 : hash_order other_order) by (intro g; apply Permutation_rev).
  eexists. split; [vm_compute; reflexivity|]. split; [reflexivity|]. split; [now repeat constructor|].
  constructor; [split; [apply at_once_ok|assumption]|]. constructor; [split; [apply buffered_ok|assumption]|constructor].
Qed.
