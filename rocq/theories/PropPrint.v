(** * A failure status means nothing was changed (C122) *)
From Coq Require Import String.
From Coq Require Import List NArith Bool Arith Lia Permutation.
From Verif Require Import Spec Base Graph GraphSpec GraphFacts Text Format FormatSpec TextFacts FormatFacts
  Store StoreSpec StoreFacts CrashFacts PropFormat PropStore Cli CliSpec CliFacts PropCli Verbose PropKill Print.
Import ListNotations.
Local Open Scope nat_scope.

(** ** What is expected *)
(** From [s], a program that prints the lines [L] if it can: it stops at the first line that cannot be printed, with a
    failure status.  Before line number [before] nothing is changed; from there on all of the work, leading to
    [s1], has been done.  [r1] is the exit status if everything can be printed. *)
Definition stops_at_first_failure (p : (nat -> bool) -> prog (list text * exit)) (s : fs)
  (L : list text) (before : nat) (s1 : fs) (r1 : exit) : Prop :=
  forall out,
    ((forall k, k < length L -> out k = true) -> run_prog (p out) s = (s1, (L, r1))) /\
    (forall n, n < length L -> (forall k, k < n -> out k = true) -> out n = false ->
       run_prog (p out) s = (if n <? before then s else s1, (firstn n L, Failure))).

Lemma say_run out past line rest s : run_prog (say out past line rest) s =
  if out (length past) then run_prog (rest (past ++ [line])) s else (s, (past, Failure)).
Proof. unfold say. now destruct (out (length past)). Qed.


(** Case by case: which is the first line that cannot be printed. *)
Ltac by_line :=
  cbn [length] in *;
  repeat match goal with
  | H : forall k, k < ?n -> ?o k = true |- _ =>
    first [ rewrite (H 0) by lia | rewrite (H 1) by lia | rewrite (H 2) by lia ]; cbn [length app run_prog fst snd]; rewrite ?say_run, ?run_bind; cbn [length app run_prog fst snd]
  end;
  repeat match goal with H : ?o _ = false |- _ => rewrite H end; try reflexivity.

Theorem C122_build : forall nd chunks order verbose s, buffering chunks ->
  exists s1 L r1,
    run_prog (gc_build nd chunks order) s = (s1, r1) /\
    run_prog (gc_build_print nd chunks order verbose) s = (s1, (L, r1)) /\
    stops_at_first_failure (gc_build_out nd chunks order verbose) s L (if verbose then 2 else 0) s1 r1.
Proof.
  intros nd chunks order verbose s B. unfold stops_at_first_failure, gc_build, gc_build_print, gc_build_out.
  setoid_rewrite run_bind. rewrite run_load. cbn [fst snd].
  destruct (match commands_entry s with Absent => _ | File c => _ | Directory => _ end) as [[g|m]| |].
  2, 3, 4: cbn [run_prog]; exists s, [], Failure; repeat split; intros; cbn in *; lia.
  cbn zeta. rewrite !run_bind. destruct (run_prog (save_graph_as_commands chunks (order g)) s) as [s1 w] eqn:Ew. cbn [fst snd].
  assert (Hs : w = IoErr -> s1 = s).
  { rewrite run_save in Ew by assumption. destruct (fs_graph s) as [| |[|c|]]; injection Ew as <- <-; congruence. }
  exists s1. destruct w as [u|]; eexists; eexists.
  - split; [reflexivity|]. split; [reflexivity|]. intro out. split.
    + intro H. destruct verbose; cbn [count_lines app length] in *; rewrite ?say_run, ?run_bind; cbn [length app]; rewrite ?Ew; by_line.
      all: rewrite ?say_run, ?run_bind, ?Ew; cbn [length app fst snd]; rewrite ?say_run; by_line.
    + intros n Hn H F. destruct verbose; cbn [count_lines app length] in *; rewrite ?say_run, ?run_bind; cbn [length app]; rewrite ?Ew.
      * destruct n as [|[|[|n]]]; [..|lia]; by_line; rewrite ?Ew; cbn [fst snd]; rewrite ?say_run; cbn [length app]; by_line.
      * destruct n as [|n]; [|lia]. cbn [fst snd]. rewrite say_run. by_line.
  - specialize (Hs eq_refl). subst s1. split; [reflexivity|]. split; [reflexivity|]. intro out. split.
    + intro H. destruct verbose; cbn [count_lines app length] in *; rewrite ?say_run, ?run_bind; cbn [length app]; rewrite ?Ew; by_line.
      all: rewrite ?say_run, ?run_bind, ?Ew; cbn [length app fst snd]; by_line.
    + intros n Hn H F. destruct verbose; cbn [count_lines app length] in *; rewrite ?say_run, ?run_bind; cbn [length app]; rewrite ?Ew; [|lia].
      destruct n as [|[|n]]; [..|lia]; by_line.
Qed.
Print Assumptions C122_build.

(** The same for programs whose work is left folded. *)
Ltac say_line :=
  cbn [length] in *;
  repeat match goal with
  | H : forall k, k < ?n -> ?o k = true |- _ =>
    first [ rewrite (H 0) by lia | rewrite (H 1) by lia | rewrite (H 2) by lia ]; cbn [length app run_prog fst snd]; rewrite ?say_run; cbn [length app run_prog fst snd]
  end;
  repeat match goal with H : ?o _ = false |- _ => rewrite H end; try reflexivity.

Definition clean_question (path : text) : text := txt "Are you sure you want to clean graph at '" ++ path ++ txt "' ? (yes/no)".
Definition random_question (path : text) : text :=
  txt "Creating a random graph will clean existing graph at '" ++ path ++ txt "' ? (yes/no)".
Definition cleaning (path : text) : text := txt "Cleaning graph under '" ++ path ++ txt "' ...".
Definition question (force : bool) (q : text) : list text := if force then [] else [q].

Theorem C122_clean : forall path (force silent : bool) answer s,
  (* told to, or allowed to *)
  (force = true \/ (exists a, answer = Some a /\ confirmed a = true) ->
   exists s1 r1, run_prog (gc_clean true []) s = (s1, r1) /\
     let first := question force (clean_question path) ++ (if silent then [] else [cleaning path]) in
     stops_at_first_failure (gc_clean_out path force silent answer) s
       (first ++ (match r1, silent with Success, false => [txt "Done."] | _, _ => [] end)) (length first) s1 r1) /\
  (* told not to *)
  (force = false -> forall a, answer = Some a -> confirmed a = false ->
   stops_at_first_failure (gc_clean_out path force silent answer) s [clean_question path; txt "Aborting."] 2 s Success) /\
  (* no answer *)
  (force = false -> answer = None ->
   stops_at_first_failure (gc_clean_out path force silent answer) s [clean_question path] 1 s Failure).
Proof.
  intros path force silent answer s. unfold stops_at_first_failure, gc_clean_out, asked. split; [|split].
  - intro G. unfold gc_clean. cbn [negb andb]. rewrite run_bind. destruct (run_prog clean s) as [s1 w] eqn:Ew. cbn [fst snd run_prog].
    assert (Hw : forall (past : list text) out, run_prog
        (bind clean (fun r => match r with IoErr => Ret (past, Failure)
           | IoOk _ => if silent then Ret (past, Success) else say out past (txt "Done.") (fun past => Ret (past, Success)) end)) s =
      match w with IoErr => (s1, (past, Failure))
      | IoOk _ => if silent then (s1, (past, Success)) else
          if out (length past) then (s1, (past ++ [txt "Done."], Success)) else (s1, (past, Failure)) end).
    { intros past out. rewrite run_bind, Ew. cbn [fst snd]. destruct w, silent; try reflexivity. rewrite say_run. reflexivity. }
    exists s1, (match w with IoOk _ => Success | IoErr => Failure end). split; [reflexivity|]. intro out.
    assert (Ha : force = false -> match answer with Some a => confirmed a = true | None => False end).
    { intros ->. destruct G as [G|(a & -> & G)]; [discriminate|exact G]. }
    split.
    + intro H. destruct force; [|specialize (Ha eq_refl); destruct answer as [a|]; [|contradiction]].
      * destruct silent; cbn [question app length] in *; [|rewrite say_run; cbn [length app]].
        -- rewrite (Hw _ out). destruct w; cbn [app length] in *; reflexivity.
        -- destruct w; cbn [app length] in *; say_line; rewrite (Hw _ out); cbn [length]; say_line.
      * rewrite say_run. cbn [length app question] in *. rewrite Ha.
        destruct silent; cbn [app length] in *; rewrite ?say_run; cbn [app length]; rewrite ?(Hw _ out); cbn [app length].
        -- destruct w; cbn [app length] in *; say_line.
        -- destruct w; cbn [app length] in *; say_line; rewrite (Hw _ out); cbn [length]; say_line.
    + intros n Hn H F. destruct force; [|specialize (Ha eq_refl); destruct answer as [a|]; [|contradiction]].
      * destruct silent; cbn [question app length] in *; [destruct w; cbn in Hn; lia|rewrite say_run; cbn [length app]].
        destruct w; cbn [app length] in *; [destruct n as [|[|n]]; [..|lia]|destruct n as [|n]; [|lia]];
          say_line; rewrite (Hw _ out); cbn [length]; say_line.
      * rewrite say_run. cbn [length app question] in *. rewrite Ha.
        destruct silent; cbn [app length] in *; rewrite ?say_run; cbn [app length]; rewrite ?(Hw _ out); cbn [app length].
        -- destruct w; cbn [app length] in *; (destruct n as [|n]; [|lia]); say_line.
        -- destruct w; cbn [app length] in *; [destruct n as [|[|[|n]]]; [..|lia]|destruct n as [|[|n]]; [..|lia]];
             say_line; rewrite (Hw _ out); cbn [length]; say_line.
  - intros -> a -> Hc out. rewrite !say_run, Hc. cbn [length app]. rewrite say_run. cbn [length app]. split.
    + intro H. say_line.
    + intros n Hn H F. destruct n as [|[|n]]; [..|cbn in Hn; lia]; say_line.
  - intros -> -> out. rewrite !say_run. cbn [length app]. split.
    + intro H. say_line.
    + intros n Hn H F. destruct n as [|n]; [|cbn in Hn; lia]; say_line.
Qed.
Print Assumptions C122_clean.

(** gc-random prints only its question and, after a no, "Aborting.": all of it before the work. *)
Theorem C122_random : forall path chunks g force answer s,
  (force = true \/ (exists a, answer = Some a /\ confirmed a = true) ->
   exists s1 r1, run_prog (gc_random chunks g true []) s = (s1, r1) /\
     stops_at_first_failure (gc_random_out path chunks g force answer) s (question force (random_question path)) 1 s1 r1) /\
  (force = false -> forall a, answer = Some a -> confirmed a = false ->
   stops_at_first_failure (gc_random_out path chunks g force answer) s [random_question path; txt "Aborting."] 2 s Success) /\
  (force = false -> answer = None ->
   stops_at_first_failure (gc_random_out path chunks g force answer) s [random_question path] 1 s Failure).
Proof.
  intros path chunks g force answer s. unfold stops_at_first_failure, gc_random_out, asked. split; [|split].
  - intro G. unfold gc_random. cbn [negb andb].
    assert (Hw : forall past, exists s1 r1,
      run_prog (bind clean (fun r => match r with IoErr => Ret Failure | IoOk _ =>
        bind init (fun r => match r with IoErr => Ret Failure | IoOk _ =>
          bind (save_graph_as_commands chunks g) (fun r => Ret (match r with IoOk _ => Success | IoErr => Failure end)) end) end)) s = (s1, r1) /\
      run_prog (bind clean (fun r => match r with IoErr => Ret (past, Failure) | IoOk _ =>
        bind init (fun r => match r with IoErr => Ret (past, Failure) | IoOk _ =>
          bind (save_graph_as_commands chunks g) (fun r => Ret (past, match r with IoOk _ => Success | IoErr => Failure end)) end) end)) s
        = (s1, (past : list text, r1))).
    { intro past. rewrite !run_bind. destruct (run_prog clean s) as [s0 [u|]]; cbn [fst snd]; [|do 2 eexists; split; reflexivity].
      rewrite !run_bind. destruct (run_prog init s0) as [s2 [u'|]]; cbn [fst snd]; [|do 2 eexists; split; reflexivity].
      rewrite !run_bind. cbn [run_prog fst snd]. do 2 eexists; split; reflexivity. }
    destruct force.
    + destruct (Hw []) as (s1 & r1 & H1 & H2). exists s1, r1. split; [exact H1|]. intro out. split; [intros _; exact H2|].
      intros n Hn. cbn in Hn. lia.
    + destruct G as [G|(a & -> & Ha)]; [discriminate|]. cbn [question].
      destruct (Hw [random_question path]) as (s1 & r1 & H1 & H2). exists s1, r1. split; [exact H1|]. intro out.
      rewrite say_run, Ha. cbn [length app]. fold (random_question path). split.
      * intro H. rewrite (H 0) by (cbn; lia). exact H2.
      * intros n Hn H F. destruct n as [|n]; [|cbn in Hn; lia]. rewrite F. reflexivity.
  - intros -> a -> Hc out. rewrite !say_run, Hc. cbn [length app]. rewrite say_run. cbn [length app]. split.
    + intro H. say_line.
    + intros n Hn H F. destruct n as [|[|n]]; [..|cbn in Hn; lia]; say_line.
  - intros -> -> out. rewrite !say_run. cbn [length app]. split.
    + intro H. say_line.
    + intros n Hn H F. destruct n as [|n]; [|cbn in Hn; lia]; say_line.
Qed.
Print Assumptions C122_random.

(** What a user can count on, whatever can be printed: a success status means that the work was done, and for
    gc-build and gc-clean without [--silent], when something had to be done, that "Done." was the last line. *)
Theorem C122_success : forall nd chunks order verbose path (silent : bool) out s s' L, buffering chunks ->
  (run_prog (gc_build_out nd chunks order verbose out) s = (s', (L, Success)) ->
     run_prog (gc_build nd chunks order) s = (s', Success) /\ exists l, L = l ++ [txt "Done."]) /\
  (run_prog (gc_clean_out path true silent None out) s = (s', (L, Success)) ->
     run_prog (gc_clean true []) s = (s', Success) /\ (silent = false -> exists l, L = l ++ [txt "Done."])).
Proof.
  assert (G : forall p s K b s1 r1 out s' L, stops_at_first_failure p s K b s1 r1 ->
    run_prog (p out) s = (s', (L, Success)) -> s' = s1 /\ L = K /\ r1 = Success).
  { intros p s K b s1 r1 out s' L H E. destruct (H out) as [H1 H2].
    assert (D : forall m, m <= length K -> (forall k, k < m -> out k = true) \/
       exists n, n < length K /\ (forall k, k < n -> out k = true) /\ out n = false).
    { induction m as [|m IH]; intro Hm; [left; intros; lia|]. destruct (IH ltac:(lia)) as [H0|H0]; [|now right].
      destruct (out m) eqn:Em; [left; intros k Hk; destruct (Nat.eq_dec k m) as [->|]; [assumption|apply H0; lia]|].
      right. exists m. split; [lia|]. split; assumption. }
    destruct (D (length K) (le_n _)) as [Hd|(n & Hn & Hk & Hf)].
    - rewrite (H1 Hd) in E. now injection E as <- <- <-.
    - rewrite (H2 n Hn Hk Hf) in E. discriminate. }
  intros nd chunks order verbose path silent out s s' L B. split; intro E.
  - destruct (C122_build nd chunks order verbose s B) as (s1 & K & r1 & H1 & H2 & H3).
    destruct (G _ _ _ _ _ _ _ _ _ H3 E) as (-> & -> & ->). split; [assumption|].
    unfold gc_build_print in H2. rewrite run_bind in H2. destruct (snd (run_prog (load_graph nd) s)) as [[g|m]| |]; try discriminate.
    rewrite run_bind in H2. cbn [run_prog] in H2. destruct (snd (run_prog (save_graph_as_commands _ _) _)); [|discriminate].
    injection H2 as _ <-. eauto.
  - destruct (proj1 (C122_clean path true silent None s) (or_introl eq_refl)) as (s1 & r1 & H1 & H3).
    destruct (G _ _ _ _ _ _ _ _ _ H3 E) as (-> & -> & ->). split; [assumption|]. intros ->. eauto.
Qed.
Print Assumptions C122_success.

(** Refuted: gc-clean and gc-build do their work, then fail to say so. *)
Definition closed_after (n k : nat) : bool := k <? n.
Theorem C122_unchanged_refuted :
  (exists s s' L, run_prog (gc_clean_out (txt ".") true false None (closed_after 1)) s = (s', (L, Failure)) /\
     (exists c, commands_entry s = File c /\ c <> []) /\ fs_graph s' = NoGraph) /\
  (forall nd, digit_table nd ->
   exists s s' L, run_prog (gc_build_out nd at_once id_order false (closed_after 0)) s = (s', (L, Failure)) /\ s' <> s).
Proof.
  split.
  - exists (with_file (txt "AddVertex 5")). do 2 eexists. split; [vm_compute; reflexivity|].
    split; [eexists; split; [reflexivity|discriminate]|reflexivity].
  - intros nd T. exists (with_file (txt "# nothing")). do 2 eexists. split; [reflexivity|]. vm_compute. discriminate.
Qed.
Print Assumptions C122_unchanged_refuted.
Example C122_case :
  run_prog (gc_clean_out (txt "p") false true (Some (txt "y")) (closed_after 1)) (with_file (txt "AddVertex 5")) =
    (fst (run_prog (gc_clean true []) (with_file (txt "AddVertex 5"))), ([clean_question (txt "p")], Success)) /\
  confirmed (txt "y") = true /\ confirmed (txt "no") = false /\
  snd (run_prog (gc_build_out table at_once id_order true (closed_after 1)) (with_file (txt "AddVertex 5"))) = ([txt "Vertices: 1"], Failure).
Proof. repeat split; vm_compute; reflexivity. Qed.
