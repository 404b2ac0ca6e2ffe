(** * Property C187: the schedule *)
From Coq Require Import String.
From Coq Require Import List NArith ZArith Bool Arith Lia Permutation.
From Verif Require Import Spec Base Graph GraphSpec GraphFacts OrderFacts PropGraph
  Text Format FormatSpec TextFacts FormatFacts Store StoreSpec StoreFacts CrashFacts PropFormat PropStore
  Cli CliSpec CliFacts PropCli LogSpec PropLog.
Import ListNotations.
Open Scope N_scope.

(** ** What it means *)
(** Neither request removes what the other adds. *)
Definition independent (x y : list graph_command) : Prop := forall c d, In c x -> In d y -> ~ conflict c d.
(** Requests of different processes are independent of each other; within a request anything goes. *)
Definition all_independent (w : list (list graph_command)) : Prop :=
  forall i j x y, i <> j -> nth_error w i = Some x -> nth_error w j = Some y -> independent x y.
(** Every process has come to its end. *)
Definition all_ended {A} (ps : list (prog A)) : Prop := Forall (fun p => exists r, p = Ret r) ps.

Lemma conflict_sym c d : conflict c d -> conflict d c.
Proof. destruct c, d; cbn; tauto. Qed.
Lemma independent_sym x y : independent x y -> independent y x.
Proof. intros H c d Hc Hd K. exact (H d c Hd Hc (conflict_sym _ _ K)). Qed.
Lemma fold_same cs : forall a b, a_same a b -> a_same (fold_left a_step cs a) (fold_left a_step cs b).
Proof. induction cs as [|c cs IH]; intros a b H; [exact H|]. cbn [fold_left]. apply IH. now apply a_step_same. Qed.
Lemma past_one c y : forall a, (forall d, In d y -> ~ conflict c d) ->
  a_same (fold_left a_step y (a_step a c)) (a_step (fold_left a_step y a) c).
Proof.
  induction y as [|d y IH]; intros a H; [apply a_same_refl|]. cbn [fold_left].
  eapply a_same_trans; [|apply IH; intros e He; apply H; now right].
  apply fold_same. apply no_conflict_same. apply H. now left.
Qed.
Lemma exchange_blocks x y : independent x y -> forall a,
  a_same (fold_left a_step (x ++ y) a) (fold_left a_step (y ++ x) a).
Proof.
  induction x as [|c x IH]; intros H a; [rewrite app_nil_r; apply a_same_refl|].
  cbn [app fold_left]. eapply a_same_trans; [apply IH; intros e d He Hd; apply H; [now right|exact Hd]|].
  rewrite !fold_left_app. cbn [fold_left]. apply fold_same. apply past_one. intros d Hd. apply H; [now left|exact Hd].
Qed.
(** The same notion, as an ordered one, for the induction. *)
Lemma pairs_of w : all_independent w -> ForallOrdPairs independent w.
Proof.
  induction w as [|x w IH]; intro H; constructor.
  - apply Forall_forall. intros y Hy. apply In_nth_error in Hy. destruct Hy as [j Hj]. apply (H 0%nat (S j)); [lia|reflexivity|exact Hj].
  - apply IH. intros i j u v Hij Hi Hj. apply (H (S i) (S j)); [lia|exact Hi|exact Hj].
Qed.
Lemma pairs_perm v w : Permutation v w -> ForallOrdPairs independent v -> ForallOrdPairs independent w.
Proof.
  induction 1 as [|x v w P IH|x y v|u v w P1 IH1 P2 IH2]; intro H; auto.
  - inversion H as [|? ? H1 H2]; subst. constructor; [|now apply IH]. apply (Permutation_Forall P H1).
  - inversion H as [|? ? H1 H2]; subst. inversion H2 as [|? ? H3 H4]; subst. inversion H1 as [|? ? H5 H6]; subst.
    constructor; [constructor; [now apply independent_sym|exact H3]|]. now constructor.
Qed.
Lemma permuted_same v w : Permutation v w -> ForallOrdPairs independent v -> forall a,
  a_same (fold_left a_step (concat v) a) (fold_left a_step (concat w) a).
Proof.
  induction 1 as [|x v w P IH|x y v|u v w P1 IH1 P2 IH2]; intros H a.
  - apply a_same_refl.
  - inversion H as [|? ? H1 H2]; subst. cbn [concat]. rewrite !fold_left_app. now apply IH.
  - inversion H as [|? ? H1 H2]; subst. inversion H1 as [|? ? H5 H6]; subst. cbn [concat]. rewrite !app_assoc, (fold_left_app _ (y ++ x)), (fold_left_app _ (x ++ y)).
    apply fold_same. now apply exchange_blocks.
  - eapply a_same_trans; [now apply IH1|]. apply IH2. exact (pairs_perm _ _ P1 H).
Qed.

(** ** C187 *)
(** Any number of processes, each with a request that is written with one call, none of which removes what another adds, in
    any schedule: when all have ended the graph is that of the requests made one after the other in the order listed. *)
Theorem C187_any_schedule : forall nd (ws : list ((list text -> list text) * list graph_command)) s c cs s' ps,
  digit_table nd -> fs_root s = true -> openable (fs_lock s) = true -> fs_graph s = GraphDir (File c) ->
  closed c -> gcmd_read_as_commands nd c = Done (Ok cs) ->
  Forall (fun w => buffering (fst w) /\ (length (fst w (add_pieces (snd w))) <= 1)%nat) ws ->
  Forall (Forall u64_command) (map snd ws) -> all_independent (map snd ws) ->
  isteps (s, map (fun w => apply_graph_commands (fst w) (snd w)) ws) (s', ps) -> all_ended ps ->
  exists g, loads nd s' g /\ built g /\ a_same (shown g) (a_run (cs ++ concat (map snd ws))).
Proof.
  intros nd ws s c cs s' ps T Hr Hl Hg Hc Hread One U Ind H F.
  destruct (C26_concurrent_appends nd ws s c cs s' ps T Hr Hl Hg Hc Hread One U H) as (w & r & P & Hrest & c' & E & _ & Hread').
  rewrite (Hrest F), app_nil_r in P. exists (apply_commands (cs ++ concat w) g_new).
  split; [|split; [eexists; apply built_by_apply|]].
  - unfold loads. rewrite run_load, E. cbn [snd]. f_equal. apply gcmd_read_ok. now exists (cs ++ concat w).
  - eapply a_same_trans; [exact (refines (built_by_apply (cs ++ concat w)))|]. unfold a_run. rewrite !fold_left_app.
    apply permuted_same; [exact P|]. apply (pairs_perm (map snd ws)); [now apply Permutation_sym|now apply pairs_of].
Qed.
Print Assumptions C187_any_schedule.

(** *** Processes that are killed *)
(** The requests marked. *)
Fixpoint chosen {A} (took : list bool) (l : list A) : list A :=
  match took, l with
  | b :: t, x :: l' => if b then x :: chosen t l' else chosen t l'
  | _, _ => []
  end.
Lemma chosen_app A (t t' : list bool) : forall l l' : list A, length t = length l -> chosen (t ++ t') (l ++ l') = chosen t l ++ chosen t' l'.
Proof.
  induction t as [|b t IH]; intros [|x l] l' H; try discriminate H; [reflexivity|]. cbn. injection H as H. rewrite (IH l l' H). now destruct b.
Qed.
Lemma chosen_Forall A (P : A -> Prop) t : forall l, Forall P l -> Forall P (chosen t l).
Proof. induction t as [|b t IH]; intros [|x l] H; try constructor. cbn. inversion H; subst. destruct b; [constructor|]; auto. Qed.
Lemma chosen_pairs t : forall w, ForallOrdPairs independent w -> ForallOrdPairs independent (chosen t w).
Proof.
  induction t as [|b t IH]; intros [|x w] H; try constructor. cbn. inversion H; subst. destruct b; [constructor; [now apply chosen_Forall|]|]; auto.
Qed.
Lemma paired_length A B (R : A -> B -> Prop) l l' : Forall2 R l l' -> length l = length l'.
Proof. induction 1 as [|x y l l' _ _ IH]; [reflexivity|]. cbn. now rewrite IH. Qed.
Definition none_left (r : list text) : bool := match r with [] => true | _ => false end.
(** Which requests are in the file: those of the writers that have nothing left. *)
Lemma emits_chosen (ws : list ((list text -> list text) * list graph_command)) m rs :
  Forall (fun w => buffering (fst w) /\ (length (fst w (add_pieces (snd w))) <= 1)%nat) ws ->
  emits (map (fun w => fst w (add_pieces (snd w))) ws) m rs ->
  exists written, concat m = texts written /\ Permutation written (chosen (map none_left rs) (map snd ws)) /\
    Forall2 (fun w r => r = [] \/ r = [commands_text (snd w)]) ws rs.
Proof.
  intros F H. remember (map (fun w => fst w (add_pieces (snd w))) ws) as ls eqn:El.
  induction H as [ls|ls m pre x r post H IH]; subst ls.
  - exists (chosen (map none_left (map (fun w => fst w (add_pieces (snd w))) ws)) (map snd ws)). split; [|split; [apply Permutation_refl|]].
    + induction F as [|w ws [B Hl] F IH]; [reflexivity|]. cbn [map chosen].
      destruct (one_write_cases _ _ B Hl) as [[E1 E2]|E2]; rewrite E2; cbn [none_left]; [|exact IH].
      rewrite E1. unfold texts in *. cbn [map concat]. exact IH.
    + induction F as [|w ws [B Hl] F IH]; constructor; [|exact IH].
      destruct (one_write_cases _ _ B Hl) as [[E1 E2]|E2]; rewrite E2; auto.
  - destruct (IH eq_refl) as (written & Ew & P & F2). apply Forall2_app_inv_r in F2. destruct F2 as (w1 & w2 & F1 & F2 & ->).
    inversion F2 as [|w ? ws2 ? Hw F3]; subst. destruct Hw as [Hw|Hw]; [discriminate Hw|]. injection Hw as -> ->.
    exists (written ++ [snd w]). split; [|split].
    + rewrite concat_app, Ew. unfold texts. rewrite map_app, concat_app. reflexivity.
    + rewrite !map_app in *. cbn [map none_left] in *.
      assert (L : length (map none_left pre) = length (map snd w1)) by (rewrite !map_length; symmetry; exact (paired_length _ _ _ _ _ F1)).
      rewrite (chosen_app _ _ _ _ _ L). rewrite (chosen_app _ _ _ _ _ L) in P. cbn [chosen] in *.
      eapply Permutation_trans; [apply Permutation_app_tail; exact P|]. rewrite <- app_assoc. apply Permutation_app_head.
      apply Permutation_sym. apply Permutation_cons_append.
    + apply Forall2_app; [exact F1|]. constructor; [now left|exact F3].
Qed.
(** At any moment of any schedule, so also when some of the processes are killed and never move again: the graph is that of
    some of the requests, every request whose process has ended among them, made in the order listed. *)
Theorem C187_some_killed : forall nd (ws : list ((list text -> list text) * list graph_command)) s c cs s' ps,
  digit_table nd -> fs_root s = true -> openable (fs_lock s) = true -> fs_graph s = GraphDir (File c) ->
  closed c -> gcmd_read_as_commands nd c = Done (Ok cs) ->
  Forall (fun w => buffering (fst w) /\ (length (fst w (add_pieces (snd w))) <= 1)%nat) ws ->
  Forall (Forall u64_command) (map snd ws) -> all_independent (map snd ws) ->
  isteps (s, map (fun w => apply_graph_commands (fst w) (snd w)) ws) (s', ps) ->
  exists took g, length took = length ws /\
    (forall i r, nth_error ps i = Some (Ret r) -> nth_error took i = Some true) /\
    loads nd s' g /\ built g /\ a_same (shown g) (a_run (cs ++ concat (chosen took (map snd ws)))).
Proof.
  intros nd ws s c cs s' ps T Hr Hl Hg Hc Hread One U Ind H.
  destruct (winv_steps c _ _ _ H (winv_init s c ws (conj Hr (conj Hl Hg)))) as (xs & m & HF & Hm & (_ & _ & Hs) & _).
  cbn [fst snd] in *. destruct (emits_chosen ws m _ One Hm) as (w & Em & P & F2).
  exists (map none_left (map snd xs)), (apply_commands (cs ++ concat w) g_new).
  split; [rewrite map_length; symmetry; exact (paired_length _ _ _ _ _ F2)|]. split; [|split; [|split; [eexists; apply built_by_apply|]]].
  - clear - HF. induction HF as [|x p xs ps Hw _ IH]; intros i r Hi; [destruct i; discriminate Hi|].
    destruct i as [|i]; [|exact (IH i r Hi)]. cbn in Hi. injection Hi as ->.
    inversion Hw as [ch cs E E'|ch cs E E'|ch cs E E'|r0 E E'|res E E']; subst; try discriminate E'; [destruct r0; discriminate E'|]. reflexivity.
  - unfold loads. rewrite run_load. unfold commands_entry. rewrite Hs, Em, texts_concat. f_equal. apply gcmd_read_ok. exists (cs ++ concat w).
    split; [|reflexivity]. apply C18_append; try assumption.
    apply Forall_concat. rewrite Forall_forall in *. intros x Hx. apply (Permutation_in _ P) in Hx.
    pose proof (chosen_Forall _ (Forall u64_command) (map none_left (map snd xs)) (map snd ws)) as K. rewrite !Forall_forall in K. now apply K.
  - eapply a_same_trans; [exact (refines (built_by_apply (cs ++ concat w)))|]. unfold a_run. rewrite !fold_left_app.
    apply permuted_same; [exact P|]. apply (pairs_perm (chosen (map none_left (map snd xs)) (map snd ws))); [now apply Permutation_sym|].
    apply chosen_pairs. now apply pairs_of.
Qed.
Print Assumptions C187_some_killed.

(** Two schedules, from files that may be written differently but hold the same graph. *)
Theorem C187_two_schedules : forall nd ws s t c d cs ds s' t' ps qs,
  digit_table nd -> fs_root s = true -> openable (fs_lock s) = true -> fs_graph s = GraphDir (File c) -> closed c ->
  fs_root t = true -> openable (fs_lock t) = true -> fs_graph t = GraphDir (File d) -> closed d ->
  gcmd_read_as_commands nd c = Done (Ok cs) -> gcmd_read_as_commands nd d = Done (Ok ds) -> a_same (a_run cs) (a_run ds) ->
  Forall (fun w => buffering (fst w) /\ (length (fst w (add_pieces (snd w))) <= 1)%nat) ws ->
  Forall (Forall u64_command) (map snd ws) -> all_independent (map snd ws) ->
  isteps (s, map (fun w => apply_graph_commands (fst w) (snd w)) ws) (s', ps) -> all_ended ps ->
  isteps (t, map (fun w => apply_graph_commands (fst w) (snd w)) ws) (t', qs) -> all_ended qs ->
  exists g h, loads nd s' g /\ loads nd t' h /\ a_same (shown g) (shown h).
Proof.
  intros nd ws s t c d cs ds s' t' ps qs T Hr Hl Hg Hc Hr' Hl' Hg' Hc' R R' Sm One U Ind H F H' F'.
  destruct (C187_any_schedule nd ws s c cs s' ps T Hr Hl Hg Hc R One U Ind H F) as (g & L1 & _ & E1).
  destruct (C187_any_schedule nd ws t d ds t' qs T Hr' Hl' Hg' Hc' R' One U Ind H' F') as (h & L2 & _ & E2).
  exists g, h. split; [exact L1|]. split; [exact L2|]. eapply a_same_trans; [exact E1|]. eapply a_same_trans; [|apply a_same_sym; exact E2].
  unfold a_run in *. rewrite !fold_left_app. now apply fold_same.
Qed.
Print Assumptions C187_two_schedules.

(** All of them add, or all of them remove: independent. *)
Theorem C187_same_kind : forall w,
  (forall x c, In x w -> In c x -> match c with AddVertex _ | AddEdge _ _ => True | _ => False end) \/
  (forall x c, In x w -> In c x -> match c with RemoveVertex _ | RemoveEdge _ _ => True | _ => False end) -> all_independent w.
Proof.
  intros w H i j x y _ Hi Hj c d Hc Hd. apply nth_error_In in Hi, Hj.
  destruct H as [H|H]; pose proof (H x c Hi Hc) as A; pose proof (H y d Hj Hd) as B; destruct c, d; cbn in *; tauto.
Qed.
Print Assumptions C187_same_kind.

(** Two requests of one command each: the schedule decides the graph as soon as one removes what the other adds. *)
Lemma conflict_differs c d : conflict c d -> ~ a_same (a_run [c; d]) (a_run [d; c]).
Proof.
  intros K [S1 S2]. destruct c as [v|v|a b|a b], d as [w|w|x y|x y]; cbn in K; try contradiction.
  - subst w. specialize (S1 v). cbn in S1. tauto.
  - subst w. specialize (S1 v). cbn in S1. tauto.
  - specialize (S1 v). cbn in S1. tauto.
  - specialize (S1 w). cbn in S1. tauto.
  - specialize (S2 a b). cbn in S2. tauto.
  - specialize (S2 x y). cbn in S2. tauto.
Qed.
Lemma in_turn chunks c d (s : fs) :
  let p := apply_graph_commands chunks [c] in let q := apply_graph_commands chunks [d] in
  let s1 := fst (run_prog p s) in let s2 := fst (run_prog q s1) in
  exists ps, isteps (s, [p; q]) (s2, ps) /\ all_ended ps.
Proof.
  cbv zeta. exists [Ret (snd (run_prog (apply_graph_commands chunks [c]) s)); Ret (snd (run_prog (apply_graph_commands chunks [d]) (fst (run_prog (apply_graph_commands chunks [c]) s))))].
  split; [|repeat constructor; eexists; reflexivity].
  eapply isteps_trans; [exact (run_isteps _ (apply_graph_commands chunks [c]) s [] [apply_graph_commands chunks [d]])|].
  exact (run_isteps _ (apply_graph_commands chunks [d]) _ [Ret (snd (run_prog (apply_graph_commands chunks [c]) s))] []).
Qed.
Lemma in_turn_back chunks c d (s : fs) :
  let p := apply_graph_commands chunks [c] in let q := apply_graph_commands chunks [d] in
  let s1 := fst (run_prog q s) in let s2 := fst (run_prog p s1) in
  exists ps, isteps (s, [p; q]) (s2, ps) /\ all_ended ps.
Proof.
  cbv zeta. exists [Ret (snd (run_prog (apply_graph_commands chunks [c]) (fst (run_prog (apply_graph_commands chunks [d]) s)))); Ret (snd (run_prog (apply_graph_commands chunks [d]) s))].
  split; [|repeat constructor; eexists; reflexivity].
  eapply isteps_trans; [exact (run_isteps _ (apply_graph_commands chunks [d]) s [apply_graph_commands chunks [c]] [])|].
  exact (run_isteps _ (apply_graph_commands chunks [c]) _ [] [Ret (snd (run_prog (apply_graph_commands chunks [d]) s))]).
Qed.
Lemma both_done nd chunks c d : digit_table nd -> buffering chunks -> u64_command c -> u64_command d ->
  exists g, loads nd (fst (run_prog (apply_graph_commands chunks [d]) (fst (run_prog (apply_graph_commands chunks [c]) (with_file []))))) g /\
    a_same (shown g) (a_run [c; d]).
Proof.
  intros T B Uc Ud.
  assert (H0 : holds nd (with_file []) a_empty).
  { split; [reflexivity|]. exists [], []. split; [reflexivity|]. split; [now left|]. split; [reflexivity|apply a_same_refl]. }
  destruct (holds_apply nd chunks [c] _ _ T B (Forall_cons _ Uc (Forall_nil _)) H0) as [_ H1].
  destruct (holds_apply nd chunks [d] _ _ T B (Forall_cons _ Ud (Forall_nil _)) H1) as [_ H2].
  destruct (holds_load nd _ _ T H2) as (g & Hg & _ & Hs). exists g. split; [|exact Hs]. unfold loads. rewrite run_load in *. cbn [snd] in Hg. now rewrite Hg.
Qed.
Theorem C187_schedule_decides : forall nd chunks c d, digit_table nd -> buffering chunks -> u64_command c -> u64_command d ->
  let ps := [apply_graph_commands chunks [c]; apply_graph_commands chunks [d]] in
  (conflict c d -> exists s1 s2 qs1 qs2 g1 g2, isteps (with_file [], ps) (s1, qs1) /\ all_ended qs1 /\ isteps (with_file [], ps) (s2, qs2) /\ all_ended qs2 /\
     loads nd s1 g1 /\ loads nd s2 g2 /\ ~ a_same (shown g1) (shown g2)).
Proof.
  intros nd chunks c d T B Uc Ud ps K.
  destruct (in_turn chunks c d (with_file [])) as (qs1 & I1 & F1). destruct (in_turn_back chunks c d (with_file [])) as (qs2 & I2 & F2).
  destruct (both_done nd chunks c d T B Uc Ud) as (g1 & L1 & E1). destruct (both_done nd chunks d c T B Ud Uc) as (g2 & L2 & E2).
  do 4 eexists. exists g1, g2. split; [exact I1|]. split; [exact F1|]. split; [exact I2|]. split; [exact F2|]. split; [exact L1|]. split; [exact L2|].
  intro S. apply (conflict_differs c d K). eapply a_same_trans; [apply a_same_sym; exact E1|]. eapply a_same_trans; [exact S|exact E2].
Qed.
Print Assumptions C187_schedule_decides.

(** Three processes: two that add overlapping edges, one that removes something else and adds it again. *)
Example C187_case :
  let ws := [(at_once, [AddEdge 1 2; AddEdge 2 3]); (at_once, [AddEdge 2 3; AddVertex 9]); (at_once, [RemoveVertex 5; AddVertex 5; RemoveEdge 6 7])] in
  all_independent (map snd ws) /\ Forall (Forall u64_command) (map snd ws) /\
  Forall (fun w => buffering (fst w) /\ (length (fst w (add_pieces (snd w))) <= 1)%nat) ws /\
  conflict (AddEdge 1 2) (RemoveVertex 2).
Proof.
  cbv zeta. split; [|split; [|split; [|cbn; tauto]]].
  - intros i j x y Hij Hi Hj c d Hc Hd.
    destruct i as [|[|[|i]]], j as [|[|[|j]]]; cbn in Hi, Hj; try (destruct i; discriminate); try (destruct j; discriminate); try lia;
      injection Hi as <-; injection Hj as <-; cbn in Hc, Hd;
      repeat match goal with H : _ \/ _ |- _ => destruct H as [<-|H] | H : False |- _ => destruct H end; cbn; lia.
  - repeat constructor.
  - repeat (constructor; [split; [apply at_once_ok|cbn; lia]|]). constructor.
Qed.
(** The first has ended, the second never moves. *)
Example C187_killed_case : exists s',
  let p := apply_graph_commands at_once [AddEdge 1 2] in let q := apply_graph_commands at_once [AddVertex 9] in
  isteps (with_file [], [p; q]) (s', [Ret (IoOk tt); q]) /\ chosen [true; false] [[AddEdge 1 2]; [AddVertex 9]] = [[AddEdge 1 2]] /\
  fs_graph s' = GraphDir (File (txt "AddEdge 1 2" ++ [10])).
Proof.
  eexists. cbv zeta. split; [exact (run_isteps _ (apply_graph_commands at_once [AddEdge 1 2]) (with_file []) [] [apply_graph_commands at_once [AddVertex 9]])|].
  split; reflexivity.
Qed.
