(** * What readers can see beside gc-build (C107) *)
From Coq Require Import String.
From Coq Require Import List NArith Bool Arith Lia Permutation.
From Verif Require Import Spec Base Graph GraphSpec GraphFacts Text Format FormatSpec TextFacts FormatFacts
  Store StoreSpec StoreFacts CrashFacts PropFormat PropStore Reader ReaderFacts PropReader.
Import ListNotations.
Open Scope N_scope.

(** ** Texts that begin with one text and go on with another *)
(** The first [p] code points of [c], then those of [d] from the [p]-th on, up to some point. *)
Definition spliced (c d t : text) : Prop :=
  exists p q, (p <= length c)%nat /\ t = firstn p c ++ firstn q (skipn p d).

Lemma spliced_prefix c d t : prefix t c -> spliced c d t.
Proof.
  intros [q ->]. exists (length t), 0%nat. split; [rewrite app_length; lia|].
  rewrite firstn_app, firstn_all, Nat.sub_diag. cbn [firstn]. now rewrite !app_nil_r.
Qed.
Lemma spliced_shorter c d t u : spliced c d (t ++ u) -> spliced c d t.
Proof.
  intros (p & q & Hp & E). destruct (le_lt_dec (length t) p) as [Hle|Hlt].
  - apply spliced_prefix. exists (skipn (length t) c).
    assert (Et : t = firstn (length t) c).
    { apply (f_equal (firstn (length t))) in E. rewrite firstn_app, firstn_all, Nat.sub_diag in E. cbn [firstn] in E. rewrite app_nil_r in E.
      rewrite firstn_app, firstn_firstn, Nat.min_l, firstn_length_le in E by lia.
      replace (length t - p)%nat with 0%nat in E by lia. cbn [firstn] in E. now rewrite app_nil_r in E. }
    rewrite Et at 1. symmetry. apply firstn_skipn.
  - exists p, (Nat.min (length t - p) q). split; [assumption|].
    apply (f_equal (firstn (length t))) in E. rewrite firstn_app, firstn_all, Nat.sub_diag in E. cbn [firstn] in E. rewrite app_nil_r in E.
    rewrite firstn_app, firstn_firstn, Nat.min_r, firstn_length_le in E by lia. rewrite firstn_firstn in E. exact E.
Qed.
Lemma spliced_length c d t : spliced c d t -> (length t <= length c + length d)%nat.
Proof.
  intros (p & q & Hp & ->). rewrite app_length, firstn_length_le by assumption.
  rewrite firstn_length, skipn_length. unfold text in *. lia.
Qed.
Lemma skip_twice (d : text) : forall p n, skipn n (skipn p d) = skipn (p + n) d.
Proof.
  induction d as [|a d IH]; intros p n; [now rewrite !skipn_nil|]. destruct p as [|p]; [reflexivity|]. cbn [skipn Nat.add]. apply IH.
Qed.
(** Reading on in [d] at the place reached keeps the shape. *)
Lemma spliced_more c d t d1 k : spliced c d t -> prefix d1 d -> spliced c d (t ++ firstn k (skipn (length t) d1)).
Proof.
  intros (p & q & Hp & E) [d2 Hd].
  assert (Lt : length t = (p + length (firstn q (skipn p d)))%nat) by (rewrite E, app_length, firstn_length_le by assumption; reflexivity).
  set (u := firstn q (skipn p d)) in *.
  assert (Hu : u = firstn (length u) (skipn p d)).
  { unfold u. rewrite firstn_length. symmetry. destruct (le_lt_dec q (length (skipn p d))) as [H|H].
    - now rewrite Nat.min_l.
    - rewrite Nat.min_r by lia. rewrite firstn_all. symmetry. apply firstn_all2. lia. }
  set (x := firstn k (skipn (length t) d1)).
  assert (Hx : prefix x (skipn (length t) d)).
  { rewrite Hd, skipn_app. unfold x. exists (skipn k (skipn (length t) d1) ++ skipn (length t - length d1) d2).
    rewrite app_assoc, firstn_skipn. reflexivity. }
  assert (Hux : prefix (u ++ x) (skipn p d)).
  { destruct Hx as [y Hy]. exists y. rewrite <- app_assoc, <- Hy, Lt. rewrite Hu at 1.
    rewrite <- (firstn_skipn (length u) (skipn p d)) at 1. f_equal. apply skip_twice. }
  destruct Hux as [y Hy]. exists p, (length (u ++ x)). split; [assumption|].
  rewrite Hy, firstn_app, firstn_all, Nat.sub_diag. cbn [firstn]. now rewrite app_nil_r, E, app_assoc.
Qed.

Lemma last_step A (rs : list A) w pre x post : rs ++ [w] = pre ++ x :: post ->
  (post = [] /\ pre = rs /\ x = w) \/ exists post', post = post' ++ [w] /\ rs = pre ++ x :: post'.
Proof.
  intro E. destruct post as [|y post].
  - left. apply app_inj_tail in E as [-> ->]. now repeat split.
  - right. destruct (@exists_last _ (y :: post)) as (l & z & Ez); [discriminate|]. exists l. rewrite Ez in E |- *.
    change (pre ++ x :: l ++ [z]) with (pre ++ (x :: l) ++ [z]) in E. rewrite app_assoc in E. apply app_inj_tail in E as [-> ->]. now split.
Qed.

Section Beside.
  Variable nd : N -> bool.
  Variable chunks : list text -> list text.
  Variable order : graph -> graph.
  Variables (c0 d0 : text) (g0 : graph).
  Hypothesis B : buffering chunks.
  Hypothesis Hg0 : gcmd_read nd c0 = Done (Ok g0).
  Hypothesis Hd0 : d0 = gcmd_text (order g0).

  (** gc-build under way *)
  Definition finish (p : prog (io unit)) : proc :=
    as_tool (bind p (fun w => Ret (match w with IoOk _ => Success | IoErr => Failure end))).
  (** A reader under way: before the file is truncated it has read a part of the old text. *)
  Definition untouched (s : fs) (w : proc) : Prop :=
    commands_entry s = File c0 /\ (w = as_tool (gc_build nd chunks order) \/ w = finish (save_graph_as_commands chunks (order g0))).
  Definition rewritten (s : fs) : Prop := exists w, commands_entry s = File w /\ prefix w d0.
  Inductive seen (old : bool) : proc -> Prop :=
  | se_start takes fuel : (2 * (length c0 + length d0) < fuel)%nat -> seen old (as_reader (load_stepwise nd takes fuel))
  | se_rest takes n segs seg : (if old then prefix (concat segs ++ seg) c0 else spliced c0 d0 (concat segs ++ seg)) ->
      (2 * (length c0 + length d0 - length (concat segs ++ seg)) + (if ends_line seg then 0 else 1) < n)%nat ->
      seen old (as_reader (read_rest nd takes n segs seg))
  | se_end r segs seg : r = read_pieces nd (segs ++ [seg]) -> spliced c0 d0 (concat segs ++ seg) -> seen old (Ret (inr r)).

  Lemma seen_weaker p : seen true p -> seen false p.
  Proof.
    intros [takes fuel H|takes n segs seg H1 H2|r segs seg H1 H2].
    - now constructor.
    - apply se_rest; [now apply spliced_prefix|assumption].
    - now apply (se_end false r segs seg).
  Qed.

  Lemma seen_step old s upd k : seen old (Act upd k) ->
    (if old then commands_entry s = File c0 else rewritten s) -> upd s = s /\ seen old (k s).
  Proof.
    intros H Hs. remember (Act upd k) as p eqn:Ep. destruct H as [takes fuel H|takes n segs seg H1 H2|r segs seg H1 H2]; [| |discriminate Ep].
    - cbn [as_reader load_stepwise bind] in Ep. injection Ep as <- <-. split; [reflexivity|].
      assert (He : exists c, commands_entry s = File c) by (destruct old; [eauto|destruct Hs as (w & Hw & _); eauto]).
      destruct He as [c ->]. fold (as_reader (read_rest nd takes fuel [] [])). apply se_rest; [|cbn; lia].
      destruct old; [now exists c0|]. apply spliced_prefix. now exists c0.
    - destruct n as [|n]; [lia|]. rewrite rest_eq in Ep. injection Ep as <- <-. split; [reflexivity|].
      set (t := concat segs ++ seg) in *. set (c := content s).
      set (new := firstn (S (takes segs seg)) (skipn (length t) c)).
      assert (Hmore : if old then prefix (t ++ new) c0 else spliced c0 d0 (t ++ new)).
      { destruct old.
        - unfold new, c, content. rewrite Hs. now apply firstn_skipn_prefix.
        - destruct Hs as (w & Hw & Hp). unfold new, c, content. rewrite Hw. now apply spliced_more. }
      assert (Hsp : spliced c0 d0 (t ++ new)) by (destruct old; [now apply spliced_prefix|assumption]).
      pose proof (spliced_length _ _ _ Hsp) as Hlen. unfold advance. fold t. fold new. fold c.
      destruct new as [|x new'] eqn:En.
      + rewrite app_nil_r in Hsp.
        match goal with |- context [if ?b then _ else _] => destruct b eqn:Ee end.
        * apply (se_end old _ segs seg); [reflexivity|exact Hsp].
        * apply orb_false_iff in Ee as [Ee Eo]. apply se_rest.
          -- rewrite concat_app. cbn [concat]. rewrite !app_nil_r. assumption.
          -- rewrite concat_app. cbn [concat]. rewrite !app_nil_r. fold t. rewrite Ee in H2. cbn [ends_line rev]. lia.
      + match goal with |- context [if ?b then _ else _] => destruct b eqn:Eo end.
        * apply se_rest.
          -- rewrite app_assoc. exact Hmore.
          -- rewrite app_assoc. fold t. rewrite app_length in Hlen |- *. cbn [length] in *.
             destruct (ends_line (seg ++ x :: new')), (ends_line seg); lia.
        * apply (se_end old _ segs (complete (seg ++ x :: new'))); [reflexivity|].
          destruct (complete_split (seg ++ x :: new')) as (z & Ez & _).
          apply (spliced_shorter c0 d0 _ z). rewrite <- app_assoc, <- Ez, app_assoc. exact Hsp.
  Qed.

  (** The whole system. *)
  Definition going (cfg : fs * list proc) : Prop :=
    exists rs w old, snd cfg = rs ++ [w] /\ Forall (seen old) rs /\
      if old then untouched (fst cfg) w
      else (exists x rest, commands_entry (fst cfg) = File x /\ d0 = x ++ concat rest /\ w = finish (write_chunks (length x) rest)).

  Lemma going_step cfg cfg' : going cfg -> istep cfg cfg' -> going cfg'.
  Proof.
    destruct cfg as [s ps], cfg' as [s' ps']. intros (rs & w & old & E & Hr & Hw) (pre & upd & k & post & E1 & E2 & E3).
    cbn [fst snd] in *. rewrite E in E1.
    destruct (last_step _ rs w pre (Act upd k) post E1) as [(-> & -> & <-)|(post' & -> & ->)].
    - subst ps'. destruct old.
      + destruct Hw as [Hc [Hw|Hw]].
        * unfold gc_build, load_graph in Hw. cbn [as_tool bind] in Hw. injection Hw as Hu Hk. subst upd k s'.
          exists rs, (finish (save_graph_as_commands chunks (order g0))), true. rewrite Hc, Hg0. cbn [bind].
          split; [reflexivity|]. split; [assumption|]. split; [exact Hc|now right].
        * unfold finish, save_graph_as_commands in Hw. cbn [as_tool bind] in Hw. injection Hw as Hu Hk. subst upd k s'.
          assert (Hg : fs_graph s = GraphDir (File c0)).
          { unfold commands_entry in Hc. destruct (fs_graph s) as [| |] eqn:Eg; try discriminate Hc. now rewrite Hc. }
          rewrite Hg. exists rs, (finish (write_chunks 0 (chunks (save_pieces (order g0))))), false.
          split; [reflexivity|]. split; [apply (Forall_impl _ seen_weaker Hr)|].
          exists [], (chunks (save_pieces (order g0))). split; [reflexivity|]. split; [|reflexivity].
          cbn [app]. rewrite B, concat_save_pieces. exact Hd0.
      + destruct Hw as (x & rest & Hc & Hd & Hw). destruct rest as [|y rest]; [discriminate Hw|].
        cbn [write_chunks finish as_tool bind] in Hw. injection Hw as Hu Hk. subst upd k s'.
        exists rs, (finish (write_chunks (length x + length y) rest)), false. split; [reflexivity|]. split; [assumption|].
        exists (x ++ y), rest. cbn [fst]. split; [unfold write_chunk; rewrite Hc, write_at_end; reflexivity|].
        split; [rewrite <- app_assoc; exact Hd|]. now rewrite app_length.
    - apply Forall_app in Hr as [Hr1 Hr2]. inversion Hr2 as [|? ? Hr3 Hr4]; subst.
      destruct (seen_step old s upd k Hr3) as [Eu Hk].
      { destruct old; [apply Hw|]. destruct Hw as (x & rest & Hc & Hd & _). exists x. split; [assumption|]. now exists (concat rest). }
      exists (pre ++ k s :: post'), w, old. cbn [fst snd]. rewrite Eu. split; [now rewrite <- app_assoc|]. split; [|exact Hw].
      apply Forall_app. split; [assumption|]. now constructor.
  Qed.
End Beside.

(** ** C107: what is true *)
(** Any number of readers, each reading in any pieces, beside one gc-build: every reader given enough fuel
    ends, and has read the beginning of the old text up to some place, and from the same place on what
    gc-build has written. *)
Theorem C107_splice : forall nd chunks order s c g readers s' ps, buffering chunks ->
  commands_entry s = File c -> loads nd s g ->
  Forall (fun r => 2 * (length c + length (gcmd_text (order g))) < snd r)%nat readers ->
  isteps (s, map (fun r => as_reader (load_stepwise nd (fst r) (snd r))) readers ++ [as_tool (gc_build nd chunks order)]) (s', ps) ->
  forall r, In (Ret (inr r)) ps -> r <> OutOfFuel /\
    exists segs seg, r = read_pieces nd (segs ++ [seg]) /\ spliced c (gcmd_text (order g)) (concat (segs ++ [seg])).
Proof.
  intros nd chunks order s c g readers s' ps B Hc Hl Hf H r Hr.
  assert (Hg : gcmd_read nd c = Done (Ok g)).
  { unfold loads in Hl. rewrite run_load, Hc in Hl. now apply (f_equal snd) in Hl. }
  set (d := gcmd_text (order g)) in *.
  assert (G : going nd chunks order c d g (s', ps)).
  { apply (isteps_snoc _ _ _ (going nd chunks order c d g) H).
    - exists (map (fun r => as_reader (load_stepwise nd (fst r) (snd r))) readers), (as_tool (gc_build nd chunks order)), true.
      split; [reflexivity|]. split; [|split; [exact Hc|now left]].
      apply Forall_forall. intros p Hp. apply in_map_iff in Hp as (x & <- & Hx). rewrite Forall_forall in Hf. constructor. now apply Hf.
    - intros x y _ Hx Hxy. exact (going_step nd chunks order c d g B Hg eq_refl x y Hx Hxy). }
  destruct G as (rs & w & old & E & Hs & Hw). cbn [fst snd] in *. subst ps. apply in_app_or in Hr as [Hr|[Hr|[]]].
  - rewrite Forall_forall in Hs. specialize (Hs _ Hr). remember (Ret (inr r)) as p eqn:Ep.
    destruct Hs as [takes fuel H1|takes n segs seg H1 H2|r' segs seg H1 H2].
    + discriminate Ep.
    + destruct n as [|n]; [lia|]. rewrite rest_eq in Ep. discriminate Ep.
    + injection Ep as <-. split; [rewrite H1; apply read_pieces_fuel|]. exists segs, seg. split; [assumption|].
      rewrite concat_app. cbn [concat]. rewrite app_nil_r. assumption.
  - exfalso. subst w. destruct old.
    + destruct Hw as [_ [Hw|Hw]]; discriminate Hw.
    + destruct Hw as (x & rest & _ & _ & Hw). destruct rest; discriminate Hw.
Qed.
Print Assumptions C107_splice.

(** So if gc-build writes the text that is already there, no reader sees anything that is not in it. *)
Theorem C107_unchanged_text : forall nd chunks order s c g readers s' ps, buffering chunks ->
  commands_entry s = File c -> loads nd s g -> gcmd_text (order g) = c ->
  Forall (fun r => 4 * length c < snd r)%nat readers ->
  isteps (s, map (fun r => as_reader (load_stepwise nd (fst r) (snd r))) readers ++ [as_tool (gc_build nd chunks order)]) (s', ps) ->
  forall r, In (Ret (inr r)) ps -> r <> OutOfFuel /\
    exists segs seg, r = read_pieces nd (segs ++ [seg]) /\ prefix (concat (segs ++ [seg])) c.
Proof.
  intros nd chunks order s c g readers s' ps B Hc Hl Hsame Hf H r Hr.
  destruct (C107_splice nd chunks order s c g readers s' ps B Hc Hl) with (r := r) as (H1 & segs & seg & H2 & H3); try assumption.
  - rewrite Hsame. apply (Forall_impl _) with (2 := Hf). intros a Ha. lia.
  - split; [assumption|]. exists segs, seg. split; [assumption|]. rewrite Hsame in H3. destruct H3 as (p & q & _ & ->).
    exists (skipn q (skipn p c)). now rewrite <- app_assoc, firstn_skipn, firstn_skipn.
Qed.
Print Assumptions C107_unchanged_text.
(** Two readers, one of which has read the first three bytes when the file is rewritten. *)
Definition beside_build : list proc :=
  map (fun r => as_reader (load_stepwise table (fst r) (snd r))) [(one_by_one, 200%nat); (one_by_one, 200%nat)] ++
  [as_tool (gc_build table at_once reversed)].
Example C107_case : buffering at_once /\ (exists g, loads table (with_file (commands_text [AddVertex 10; AddVertex 2])) g /\
    (2 * (length (commands_text [AddVertex 10; AddVertex 2]) + length (gcmd_text (reversed g))) < 200)%nat) /\
  exists s' ps g g', isteps (with_file (commands_text [AddVertex 10; AddVertex 2]), beside_build) (s', ps) /\
    In (Ret (inr (Done (Ok g)))) ps /\ In (Ret (inr (Done (Ok g')))) ps /\
    contains_vertex g 1 = true /\ contains_vertex g' 1 = false.
Proof.
  split; [apply at_once_ok|]. split; [eexists; split; [reflexivity|vm_compute; lia]|].
  set (sch := (repeat 0 12 ++ repeat 2 4 ++ repeat 0 30 ++ repeat 1 30)%nat).
  pose proof (run_schedule_isteps _ sch (with_file (commands_text [AddVertex 10; AddVertex 2])) beside_build) as R.
  match type of R with isteps _ ?e => let e' := eval vm_compute in e in assert (E : e = e') by (vm_cast_no_check (eq_refl e')); rewrite E in R; clear E end.
  do 4 eexists. split; [exact R|]. split; [left; reflexivity|]. split; [right; left; reflexivity|]. split; reflexivity.
Qed.
