(** * Property C190: several users at the same time *)
From Coq Require Import String.
From Coq Require Import List NArith ZArith Bool Arith Lia Permutation.
From Verif Require Import Spec Base Graph GraphSpec GraphFacts OrderFacts PropGraph
  Text Format FormatSpec TextFacts FormatFacts Store StoreSpec StoreFacts CrashFacts PropFormat PropStore
  Cli CliSpec CliFacts PropCli LogSpec PropLog PropSchedule PropSplit.
Import ListNotations.
Open Scope N_scope.

(** ** What it means *)
(** A process that makes its requests one after the other, whatever they report. *)
Fixpoint in_sequence (chunks : list text -> list text) (l : list (list graph_command)) : prog exit :=
  match l with
  | [] => Ret Success
  | cs :: l' => bind (apply_graph_commands chunks cs) (fun _ => in_sequence chunks l')
  end.
(** Each of them is written with at most one call. *)
Definition small (chunks : list text -> list text) (l : list (list graph_command)) : Prop :=
  buffering chunks /\ Forall (fun cs => (length (chunks (add_pieces cs)) <= 1)%nat) l.

(** [w] is made of the lists [ds], one element at a time and each list in its order. *)
Inductive merged {A} : list (list A) -> list A -> Prop :=
| mg_start ds : Forall (eq []) ds -> merged ds []
| mg_next pre d x post w : merged (pre ++ d :: post) w -> merged (pre ++ (d ++ [x]) :: post) (w ++ [x]).

(** ** The invariant *)
Lemma merged_add {A} (pre : list (list A)) post x : forall d w, merged (pre ++ d :: post) w -> merged (pre ++ (d ++ x) :: post) (w ++ x).
Proof.
  induction x as [|y x IH]; intros d w H; [now rewrite !app_nil_r|].
  change (y :: x) with ([y] ++ x). rewrite !app_assoc. apply IH. now constructor.
Qed.
Lemma merged_perm {A} (ds : list (list A)) w : merged ds w -> Permutation w (concat ds).
Proof.
  induction 1 as [ds F|pre d x post w _ IH].
  - induction F as [|d ds <- _ IH]; [apply Permutation_refl|exact IH].
  - rewrite concat_app in *. cbn [concat] in *. rewrite <- !app_assoc. rewrite IH, <- !app_assoc.
    do 2 apply Permutation_app_head. cbn [app]. apply Permutation_sym, Permutation_cons_append.
Qed.
Lemma prefixes_perm {A} (zs : list (list A * list A)) :
  Permutation (concat (map fst zs) ++ concat (map snd zs)) (concat (map (fun z => fst z ++ snd z) zs)).
Proof.
  induction zs as [|[d l] zs IH]; [apply Permutation_refl|]. cbn [map concat fst snd]. rewrite <- IH, <- !app_assoc.
  apply Permutation_app_head. rewrite !app_assoc. apply Permutation_app_tail. apply Permutation_app_comm.
Qed.
(** What a process in the middle of a request has left of it. *)
Definition left_over (r : list text) (todo : list (list graph_command)) : Prop :=
  (r = [] /\ (todo = [] \/ todo = [[]])) \/ exists cs, r = [commands_text cs] /\ todo = [cs].
Inductive pstage : list (list graph_command) -> prog exit -> Prop :=
| p_end : pstage [] (Ret Success)
| p_in chunks upd k ph r todo rest : wstage (ph, r) (Act upd k) -> left_over r todo -> small chunks rest ->
    pstage (todo ++ rest) (Act upd (fun s => bind (k s) (fun _ => in_sequence chunks rest))).

Lemma at_start chunks l : small chunks l -> pstage l (in_sequence chunks l).
Proof.
  intros [B F]. destruct l as [|cs l]; [apply p_end|]. inversion F as [|? ? H F']; subst.
  cbn [in_sequence].
  pose proof (w0 chunks cs) as W. remember (apply_graph_commands chunks cs) as q eqn:Eq.
  destruct q as [res|upd k]; [discriminate Eq|]. cbn [bind].
  apply (p_in chunks upd k Early (chunks (add_pieces cs)) [cs] l W); [|now split].
  destruct (one_write_cases _ _ B H) as [[-> E]|E]; rewrite E; [left|right; exists cs]; auto.
Qed.
(** Between two requests. *)
Lemma go_on chunks ph r q todo rest : wstage (ph, r) q -> left_over r todo -> small chunks rest ->
  exists none l, Forall (eq []) none /\ none ++ l = todo ++ rest /\ pstage l (bind q (fun _ => in_sequence chunks rest)).
Proof.
  intros W L S. destruct q as [res|upd k].
  - assert (E : r = []).
    { inversion W as [ch cs E E'|ch cs E E'|ch cs E E'|r0 E E'|res' E E']; subst; try discriminate E'; [destruct r; discriminate E'|reflexivity]. }
    exists todo, rest. split; [|split; [reflexivity|now apply at_start]].
    destruct L as [[_ [-> | ->]]|(cs & K & _)]; [apply Forall_nil|apply Forall_cons; [reflexivity|apply Forall_nil]|rewrite E in K; discriminate K].
  - exists [], (todo ++ rest). split; [constructor|]. split; [reflexivity|]. cbn [bind]. now apply (p_in chunks upd k ph r).
Qed.
Definition uinv (c : text) (all : list (list (list graph_command))) (x : fs * list (prog exit)) : Prop :=
  exists zs written, Forall2 pstage (map snd zs) (snd x) /\ merged (map fst zs) written /\ calm (fst x) (c ++ texts written) /\
    map (fun z => fst z ++ snd z) zs = all.
Lemma texts_none w none : Forall (eq []) none -> texts (w ++ none) = texts w.
Proof.
  intro F. unfold texts. rewrite map_app, concat_app.
  replace (concat (map commands_text none)) with (@nil N); [apply app_nil_r|].
  induction F as [|x none <- _ IH]; [reflexivity|]. exact IH.
Qed.
Lemma uinv_step c all x y : uinv c all x -> istep x y -> uinv c all y.
Proof.
  intros (zs & w & HF & HM & Hs & P) (pre & upd & k & post & E1 & E2 & E3).
  destruct x as [s ps], y as [s' ps']. cbn [fst snd] in *. subst ps s' ps'.
  apply Forall2_app_inv_r in HF as (la & lb & Ha & Hb & El). apply map_eq_app in El as (za & zb & -> & <- & <-).
  destruct zb as [|[d l] zc]; [inversion Hb|]. cbn [map snd] in Hb.
  inversion Hb as [|l0 p lc ps Hp Hc]; subst. inversion Hp as [|chunks upd0 k0 ph r todo rest W L S]; subst.
  assert (K : forall ph' r' todo' new, wstage (ph', r') (k0 s) -> left_over r' todo' -> calm (upd s) (c ++ texts (w ++ new)) ->
            new ++ todo' = todo ->
            uinv c (map (fun z => fst z ++ snd z) (za ++ (d, todo ++ rest) :: zc)) (upd s, pre ++ bind (k0 s) (fun _ => in_sequence chunks rest) :: post)).
  { intros ph' r' todo' new W' L' C' E'. destruct (go_on chunks ph' r' (k0 s) todo' rest W' L' S) as (none & l & F & E & G).
    exists (za ++ (d ++ new ++ none, l) :: zc), (w ++ new ++ none). cbn [fst snd]. rewrite !map_app in *. cbn [map fst snd] in *.
    split; [apply Forall2_app; [exact Ha|now constructor]|]. split; [now apply merged_add|].
    split; [rewrite app_assoc; now rewrite (texts_none _ none F)|]. f_equal. f_equal. rewrite <- E', <- !app_assoc. now rewrite E. }
  destruct (wstage_step ph r upd k0 s _ Hs W) as
    [(-> & H1 & H2 & H3)|[(-> & H1 & H2 & H3)|[(-> & H1 & H2 & H3)|[(-> & H1 & x & r' & -> & H2 & H3)|(-> & -> & H1 & H2 & res & H3 & H4)]]]].
  - apply (K _ _ todo [] H3 L); [now rewrite app_nil_r|reflexivity].
  - apply (K _ _ todo [] H3 L); [now rewrite app_nil_r|reflexivity].
  - apply (K _ _ todo [] H2 L); [now rewrite app_nil_r|reflexivity].
  - destruct L as [[L _]|(cs & L & ->)]; [discriminate L|]. injection L as -> ->.
    apply (K _ _ [] [cs] H2); [left; auto| |reflexivity].
    unfold texts in *. rewrite map_app, concat_app. cbn [map concat]. rewrite app_nil_r, app_assoc. exact H3.
  - apply (K Over [] todo []); [rewrite H3; constructor|exact L|now rewrite app_nil_r|reflexivity].
Qed.
Lemma uinv_steps c all x y : isteps x y -> uinv c all x -> uinv c all y.
Proof. induction 1; intro; [assumption|]. eauto using uinv_step. Qed.

(** ** C190 *)
(** Any number of processes, each of which makes any number of requests one after the other, in any schedule, and whichever
    of them have been killed: at every moment the file can be read, and holds the old commands followed by whole requests;
    of each process the first so many, in its order, and all of them if it has ended. *)
Theorem C190_each_in_order : forall nd (us : list ((list text -> list text) * list (list graph_command))) s c cs s' ps,
  digit_table nd -> fs_root s = true -> openable (fs_lock s) = true -> fs_graph s = GraphDir (File c) ->
  closed c -> gcmd_read_as_commands nd c = Done (Ok cs) ->
  Forall (fun u => small (fst u) (snd u)) us -> Forall (Forall u64_command) (concat (map snd us)) ->
  isteps (s, map (fun u => in_sequence (fst u) (snd u)) us) (s', ps) ->
  exists ds rests written g, Forall2 (fun u dr => fst dr ++ snd dr = snd u) us (combine ds rests) /\ length ds = length rests /\ length rests = length ps /\
    (forall i r, nth_error ps i = Some (Ret r) -> r = Success /\ nth_error rests i = Some []) /\
    merged ds written /\ loads nd s' g /\ built g /\ a_same (shown g) (a_run (cs ++ concat written)).
Proof.
  intros nd us s c cs s' ps T Hr Hl Hg Hc Hread One U H.
  assert (I : uinv c (map snd us) (s, map (fun u => in_sequence (fst u) (snd u)) us)).
  { exists (map (fun u => ([], snd u)) us), []. cbn [fst snd app]. rewrite !map_map. cbn [fst snd app]. split; [|split; [|split; [|reflexivity]]].
    - clear - One. induction One as [|u us Hu _ IH]; [constructor|]. cbn [map]. constructor; [now apply at_start|exact IH].
    - constructor. apply Forall_map. apply Forall_forall. reflexivity.
    - cbn. rewrite app_nil_r. now repeat split. }
  destruct (uinv_steps c _ _ _ H I) as (zs & w & HF & HM & (_ & _ & Hs) & P). cbn [fst snd] in *.
  assert (Uw : Forall u64_command (concat w)).
  { apply Forall_concat. rewrite Forall_forall in *. intros x Hx. apply U. rewrite <- P. eapply Permutation_in; [apply prefixes_perm|].
    apply in_or_app. left. eapply Permutation_in; [exact (merged_perm _ _ HM)|exact Hx]. }
  exists (map fst zs), (map snd zs), w, (apply_commands (cs ++ concat w) g_new).
  split; [|split; [now rewrite !map_length|split; [exact (paired_length _ _ _ _ _ HF)|split; [|split; [exact HM|split; [|split; [eexists; apply built_by_apply|exact (refines (built_by_apply (cs ++ concat w)))]]]]]]].
  - clear - P. revert us P. induction zs as [|[d l] zs IH]; intros [|u us] P; try discriminate P; cbn [map combine]; [constructor|].
    injection P as P1 P2. constructor; [exact P1|now apply IH].
  - clear - HF. remember (map snd zs) as ls eqn:E. clear E zs. induction HF as [|l p ls ps Hp _ IH]; intros i r Hi; [destruct i; discriminate Hi|].
    destruct i as [|i]; [|exact (IH i r Hi)]. cbn in Hi. injection Hi as ->. inversion Hp; subst. now split.
  - unfold loads. rewrite run_load. unfold commands_entry. rewrite Hs. cbn [snd]. f_equal. apply gcmd_read_ok. exists (cs ++ concat w).
    split; [|reflexivity]. rewrite texts_concat. now apply C18_append.
Qed.
Print Assumptions C190_each_in_order.
Theorem C190_any_moment : forall nd (us : list ((list text -> list text) * list (list graph_command))) s c cs s' ps,
  digit_table nd -> fs_root s = true -> openable (fs_lock s) = true -> fs_graph s = GraphDir (File c) ->
  closed c -> gcmd_read_as_commands nd c = Done (Ok cs) ->
  Forall (fun u => small (fst u) (snd u)) us -> Forall (Forall u64_command) (concat (map snd us)) ->
  isteps (s, map (fun u => in_sequence (fst u) (snd u)) us) (s', ps) ->
  exists written rest g, Permutation (written ++ rest) (concat (map snd us)) /\
    loads nd s' g /\ built g /\ a_same (shown g) (a_run (cs ++ concat written)) /\
    (all_ended ps -> rest = [] /\ Forall (eq (Ret Success)) ps).
Proof.
  intros nd us s c cs s' ps T Hr Hl Hg Hc Hread One U H.
  destruct (C190_each_in_order nd us s c cs s' ps T Hr Hl Hg Hc Hread One U H) as (ds & rests & w & g & F & Hlen & Hps & En & HM & L & B & S).
  assert (E1 : map fst (combine ds rests) = ds /\ map snd (combine ds rests) = rests).
  { clear - Hlen. revert rests Hlen. induction ds as [|d ds IH]; intros [|r rests] Hlen; try discriminate Hlen; [now split|].
    injection Hlen as Hlen. destruct (IH rests Hlen) as [I1 I2]. cbn [combine map fst snd]. now rewrite I1, I2. }
  assert (E2 : map (fun z => fst z ++ snd z) (combine ds rests) = map snd us).
  { clear - F. induction F as [|u z us zs Hu _ IH]; [reflexivity|]. cbn [map]. now rewrite Hu, IH. }
  destruct E1 as [E1 E1']. exists w, (concat rests), g. split; [|split; [exact L|split; [exact B|split; [exact S|]]]].
  - rewrite (merged_perm _ _ HM), <- E2, <- prefixes_perm, E1, E1'. apply Permutation_refl.
  - intro A. unfold all_ended in A. rewrite Forall_forall in A. split.
    + assert (N : Forall (eq []) rests).
      { apply Forall_forall. intros x Hx. apply In_nth_error in Hx as [i Hi].
        destruct (nth_error ps i) as [p|] eqn:Ep; [|apply nth_error_None in Ep; assert (i < length rests)%nat by (apply nth_error_Some; congruence); lia].
        destruct (A p (nth_error_In _ _ Ep)) as [r ->]. destruct (En i r Ep) as [_ K]. congruence. }
      clear - N. induction N as [|x rests <- _ IH]; [reflexivity|exact IH].
    + apply Forall_forall. intros p Hp. destruct (A p Hp) as [r ->]. apply In_nth_error in Hp as [i Hi]. now destruct (En i r Hi) as [-> _].
Qed.
Print Assumptions C190_any_moment.
(** When all have ended and no request removes what another adds, the graph is that of all the requests, in any order. *)
Theorem C190_any_schedule : forall nd (us : list ((list text -> list text) * list (list graph_command))) s c cs s' ps,
  digit_table nd -> fs_root s = true -> openable (fs_lock s) = true -> fs_graph s = GraphDir (File c) ->
  closed c -> gcmd_read_as_commands nd c = Done (Ok cs) ->
  Forall (fun u => small (fst u) (snd u)) us -> Forall (Forall u64_command) (concat (map snd us)) ->
  all_independent (concat (map snd us)) ->
  isteps (s, map (fun u => in_sequence (fst u) (snd u)) us) (s', ps) -> all_ended ps ->
  Forall (eq (Ret Success)) ps /\
  exists g, loads nd s' g /\ built g /\ a_same (shown g) (a_run (cs ++ concat (concat (map snd us)))).
Proof.
  intros nd us s c cs s' ps T Hr Hl Hg Hc Hread One U Ind H F.
  destruct (C190_any_moment nd us s c cs s' ps T Hr Hl Hg Hc Hread One U H) as (w & r & g & P & L & B & S & E).
  destruct (E F) as [-> Ok]. rewrite app_nil_r in P. split; [exact Ok|]. exists g. split; [exact L|]. split; [exact B|].
  eapply a_same_trans; [exact S|]. unfold a_run. rewrite !fold_left_app.
  apply permuted_same; [exact P|]. apply (pairs_perm (concat (map snd us))); [now apply Permutation_sym|now apply pairs_of].
Qed.
Print Assumptions C190_any_schedule.

(** *** The lock *)
Definition at_work (x : fs * list (prog exit)) : Prop := fs_lock (fst x) = Absent \/ exists upd k, In (Act upd k) (snd x).
Lemma after_a_step c all x y : uinv c all x -> istep x y -> at_work y.
Proof.
  intros (zs & w & HF & HM & Hs & P) (pre & upd & k & post & E1 & E2 & E3).
  destruct x as [s ps], y as [s' ps']. unfold at_work. cbn [fst snd] in *. subst ps s' ps'.
  apply Forall2_app_inv_r in HF as (la & lb & Ha & Hb & El). inversion Hb as [|l0 p lc ps Hp Hc]; subst.
  inversion Hp as [|chunks upd0 k0 ph r todo rest W L S]; subst.
  assert (K : forall ph' r', wstage (ph', r') (k0 s) -> ph' <> Over ->
            exists upd1 k1, In (Act upd1 k1) (pre ++ bind (k0 s) (fun _ => in_sequence chunks rest) :: post)).
  { intros ph' r' W' N. destruct (k0 s) as [res|u1 k1].
    - exfalso. inversion W' as [ch cs E E'|ch cs E E'|ch cs E E'|r0 E E'|res' E E']; subst; try discriminate E'; [destruct r'; discriminate E'|now apply N].
    - exists u1, (fun t => bind (k1 t) (fun _ => in_sequence chunks rest)). apply in_or_app. right. now left. }
  destruct (wstage_step ph r upd k0 s _ Hs W) as
    [(-> & H1 & H2 & H3)|[(-> & H1 & H2 & H3)|[(-> & H1 & H2 & H3)|[(-> & H1 & x & r' & -> & H2 & H3)|(-> & -> & H1 & H2 & res & H3 & H4)]]]].
  - right. apply (K _ _ H3). discriminate.
  - right. apply (K _ _ H3). discriminate.
  - right. apply (K _ _ H2). discriminate.
  - right. apply (K _ _ H2). discriminate.
  - now left.
Qed.
(** When all have ended there is no lock, also if one was left behind before, provided that anybody asked for anything. *)
Theorem C190_no_lock_left : forall (us : list ((list text -> list text) * list (list graph_command))) s c s' ps,
  fs_root s = true -> openable (fs_lock s) = true -> fs_graph s = GraphDir (File c) ->
  Forall (fun u => small (fst u) (snd u)) us -> (exists u, In u us /\ snd u <> []) ->
  isteps (s, map (fun u => in_sequence (fst u) (snd u)) us) (s', ps) -> all_ended ps -> fs_lock s' = Absent.
Proof.
  intros us s c s' ps Hr Hl Hg One (u & Hu & Ne) H F.
  assert (I : uinv c (map snd us) (s, map (fun u => in_sequence (fst u) (snd u)) us)).
  { exists (map (fun u => ([], snd u)) us), []. cbn [fst snd app]. rewrite !map_map. cbn [fst snd app]. split; [|split; [|split; [|reflexivity]]].
    - clear - One. induction One as [|u us Hu _ IH]; [constructor|]. cbn [map]. constructor; [now apply at_start|exact IH].
    - constructor. apply Forall_map. apply Forall_forall. reflexivity.
    - cbn. rewrite app_nil_r. now repeat split. }
  assert (J : at_work (s, map (fun u => in_sequence (fst u) (snd u)) us)).
  { right. cbn [snd]. destruct (snd u) as [|r l] eqn:E; [now elim Ne|].
    pose proof (in_map (fun u => in_sequence (fst u) (snd u)) us u Hu) as K. cbn beta in K. rewrite E in K. cbn [in_sequence] in K.
    destruct (apply_graph_commands (fst u) r) as [res|upd k] eqn:Eq; [discriminate Eq|]. cbn [bind] in K. eexists. eexists. exact K. }
  assert (G : forall x y, isteps x y -> uinv c (map snd us) x -> at_work x -> at_work y).
  { clear. induction 1 as [x|x y z Hxy _ IH]; intros Ix Jx; [exact Jx|]. apply IH; [exact (uinv_step _ _ _ _ Ix Hxy)|exact (after_a_step _ _ _ _ Ix Hxy)]. }
  destruct (G _ _ H I J) as [K|(upd & k & K)]; [exact K|]. cbn [snd] in K. unfold all_ended in F. rewrite Forall_forall in F.
  destruct (F _ K) as [r E]. discriminate E.
Qed.
Print Assumptions C190_no_lock_left.

(** *** The end *)
(** A step of some process, whatever it finds. *)
Definition some_step {A} (qs ps : list (prog A)) : Prop :=
  exists pre upd k post t, ps = pre ++ Act upd k :: post /\ qs = pre ++ k t :: post.
Lemma steps_run_out A (ps : list (prog A)) : Acc some_step ps.
Proof.
  induction ps as [|p ps IH].
  - constructor. intros qs (pre & upd & k & post & t & E & _). destruct pre; discriminate E.
  - revert ps IH. induction p as [a|upd k IHp]; intros ps H; induction H as [ps Hps IH].
    + constructor. intros qs (pre & upd & k & post & t & E & ->). destruct pre as [|q pre]; [discriminate E|].
      injection E as <- ->. cbn [app]. apply IH. now exists pre, upd, k, post, t.
    + constructor. intros qs (pre & upd' & k' & post & t & E & ->). destruct pre as [|q pre]; cbn [app] in *.
      * injection E as <- <- <-. apply IHp. now constructor.
      * injection E as <- ->. apply IH. now exists pre, upd', k', post, t.
Qed.
(** Whatever the processes are: no schedule goes on for ever, so nobody waits for ever for a lock or for another; as long as
    one has not ended there is a next step; and from every moment on all can be brought to their end. *)
Theorem C190_ends : forall A (s : fs) (ps : list (prog A)),
  (forall f : nat -> fs * list (prog A), f 0%nat = (s, ps) -> ~ (forall n, istep (f n) (f (S n)))) /\
  (all_ended ps \/ exists y, istep (s, ps) y) /\
  exists s' qs, isteps (s, ps) (s', qs) /\ all_ended qs.
Proof.
  intros A s ps. split; [|split].
  - intros f E. assert (G : forall qs, Acc some_step qs -> forall n, snd (f n) = qs -> ~ (forall m, istep (f m) (f (S m)))).
    { induction 1 as [qs _ IH]. intros n En H. pose proof (H n) as (pre & upd & k & post & E1 & E2 & E3).
      refine (IH (snd (f (S n))) _ (S n) eq_refl H). exists pre, upd, k, post, (fst (f n)). split; [now rewrite <- En|exact E3]. }
    exact (G ps (steps_run_out A ps) 0%nat (f_equal snd E)).
  - induction ps as [|p ps IH]; [left; constructor|]. destruct p as [r|upd k].
    + destruct IH as [IH|((s' & qs) & pre & upd & k & post & E1 & E2 & E3)].
      * left. constructor; [now exists r|exact IH].
      * right. cbn [fst snd] in *. subst. eexists (_, _). exists (Ret r :: pre), upd, k, post. cbn [fst snd app]. repeat split.
    + right. eexists (_, _). exists [], upd, k, ps. cbn [fst snd app]. repeat split.
  - enough (G : forall pre, all_ended pre -> forall s, exists s' qs, isteps (s, pre ++ ps) (s', qs) /\ all_ended qs) by exact (G [] (Forall_nil _) s).
    clear s. induction ps as [|p ps IH]; intros pre Hpre s; [exists s, pre; rewrite app_nil_r; split; [constructor|exact Hpre]|].
    destruct (IH (pre ++ [Ret (snd (run_prog p s))])) with (s := fst (run_prog p s)) as (s' & qs & H & E).
    + apply Forall_app. split; [exact Hpre|]. constructor; [eexists; reflexivity|constructor].
    + exists s', qs. split; [|exact E]. eapply isteps_trans; [apply run_isteps|]. rewrite <- app_assoc in H. exact H.
Qed.
Print Assumptions C190_ends.


(** ** gc-add *)
(** The request an option of gc-add makes, and those of an invocation, in their order; gc-add.rs l.87-128. *)
Definition option_request {A} (values : option (list text)) (f : list text -> outcome A) (mk : A -> list graph_command) :
  list (list graph_command) :=
  match values with None => [] | Some vs => match f vs with Done a => [mk a] | _ => [] end end.
Definition edge_commands (es : list edge) : list graph_command := map (fun e => AddEdge (fst e) (snd e)) es.
Definition requests (a : add_args) : list (list graph_command) :=
  let rv := reverse_if_needed (a_reverse a) in
  option_request (a_vertex a) parse_all (map AddVertex) ++
  option_request (a_edge a)
    (fun vs => obind (parse_all vs) (fun l => obind (as_vertex_tuple l) (fun o => obind (expect o) (fun es => Done (rv es))))) edge_commands ++
  option_request (a_chain a)
    (fun vs => obind (parse_all vs) (fun l => obind (chain_from_vertices l) (fun es => Done (rv es)))) edge_commands ++
  option_request (a_cycle a)
    (fun vs => obind (parse_all vs) (fun l => obind (cycle_from_vertices l) (fun o => obind (expect o) (fun es => Done (rv es))))) edge_commands ++
  option_request (a_star a)
    (fun vs => obind (parse_all vs) (fun l => obind (star_from_vertices l) (fun es => Done (rv es)))) edge_commands ++
  option_request (a_clique a)
    (fun vs => obind (parse_all vs) clique_from_vertices) edge_commands ++ [].
Definition adding_only (l : list (list graph_command)) : Prop :=
  Forall (Forall (fun c => u64_command c /\ match c with AddVertex _ | AddEdge _ _ => True | _ => False end)) l.

Lemma fold_mapped {A B C} (f : A -> B -> A) (g : C -> B) l : forall a, fold_left f (map g l) a = fold_left (fun s e => f s (g e)) l a.
Proof. induction l as [|x l IH]; intro a; [reflexivity|]. apply IH. Qed.
Lemma edges_effect es a V E : a_same (fold_left a_step (edge_commands es) (a_union a V E)) (a_union a V (fun x y => E x y \/ In (x, y) es)).
Proof. eapply a_same_trans; [|apply a_union_merge]. unfold edge_commands. rewrite fold_mapped. exact (fold_add_edges es (a_union a V E)). Qed.
Lemma vertices_effect vs a : a_same (fold_left a_step (map AddVertex vs) a) (a_union a (fun x => In x vs) (fun _ _ => False)).
Proof. rewrite fold_mapped. exact (fold_add_vertices vs a). Qed.
(** One option. *)
Lemma edges_option chunks values f R l next : computes values f R -> next = in_sequence chunks l -> adding_only l ->
  let l' := option_request values f edge_commands ++ l in
  option_call values f (add_edges chunks) next = in_sequence chunks l' /\ adding_only l' /\
  (forall a V E, a_same (fold_left a_step (concat l') (a_union a V E))
                        (fold_left a_step (concat l) (a_union a V (fun x y => E x y \/ R x y)))).
Proof.
  intros C -> U. destruct values as [vs|]; cbn [computes] in C; cbn [option_request option_call app].
  - destruct C as (es & Ef & Ue & Hi). rewrite Ef. cbn [app]. split; [reflexivity|]. split.
    + constructor; [|exact U]. unfold edge_commands. apply Forall_map. eapply Forall_impl; [|exact Ue]. intros [x y] H. split; [exact H|exact I].
    + intros a V E. cbn [concat]. rewrite fold_left_app. apply fold_same. eapply a_same_trans; [apply edges_effect|]. apply a_union_ext. intros x y. now rewrite Hi.
  - split; [reflexivity|]. split; [exact U|]. intros a V E. apply fold_same. apply a_union_ext. intros x y. specialize (C x y). tauto.
Qed.
Lemma as_requests chunks args V E : asks args V E ->
  gc_add chunks args = in_sequence chunks (requests args) /\ adding_only (requests args) /\
  (forall a, a_same (fold_left a_step (concat (requests args)) a) (a_union a V E)).
Proof.
  intros (lv & le & lc & ly & ls & lq & D & HV & HE).
  destruct (denotes_computes _ _ _ _ _ _ _ D) as (Ce & Cc & Cy & Cs & Cq).
  destruct (edges_option chunks _ _ _ [] (Ret Success) Cq eq_refl (Forall_nil _)) as (P5 & U5 & S5).
  destruct (edges_option chunks _ _ _ _ _ Cs P5 U5) as (P4 & U4 & S4).
  destruct (edges_option chunks _ _ _ _ _ Cy P4 U4) as (P3 & U3 & S3).
  destruct (edges_option chunks _ _ _ _ _ Cc P3 U3) as (P2 & U2 & S2).
  destruct (edges_option chunks _ _ _ _ _ Ce P2 U2) as (P1 & U1 & S1).
  unfold gc_add, requests. cbv zeta. rewrite P1. pose proof (d_vertex _ _ _ _ _ _ _ D) as Hv.
  assert (Last : forall a, a_same (a_union a (fun x => In x lv) (fun x y => (((((False \/ flip (a_reverse args) (pairs_rel le) x y) \/
     flip (a_reverse args) (chain_rel lc) x y) \/ flip (a_reverse args) (cycle_rel ly) x y) \/ flip (a_reverse args) (star_rel ls) x y) \/ clique_rel lq x y)))
     (a_union a V E)).
  { intro a. apply union_same; [apply a_same_refl|exact HV|]. intros x y. rewrite <- HE. unfold added.
    generalize (flip (a_reverse args) (pairs_rel le) x y) (flip (a_reverse args) (chain_rel lc) x y)
      (flip (a_reverse args) (cycle_rel ly) x y) (flip (a_reverse args) (star_rel ls) x y) (clique_rel lq x y).
    clear. tauto. }
  assert (All : forall a b, a_same b (a_union a (fun x => In x lv) (fun _ _ => False)) ->
     forall l, (forall a V E, a_same (fold_left a_step (concat l) (a_union a V E))
        (a_union a V (fun x y => (((((E x y \/ flip (a_reverse args) (pairs_rel le) x y) \/
     flip (a_reverse args) (chain_rel lc) x y) \/ flip (a_reverse args) (cycle_rel ly) x y) \/ flip (a_reverse args) (star_rel ls) x y) \/ clique_rel lq x y)))) ->
     a_same (fold_left a_step (concat l) b) (a_union a V E)).
  { intros a b Hb l Hl. eapply a_same_trans; [apply fold_same; exact Hb|]. eapply a_same_trans; [apply Hl|]. apply Last. }
  assert (Chain : forall a V E, a_same (fold_left a_step (concat _) (a_union a V E)) _) by
    (intros a0 V0 E0; eapply a_same_trans; [apply S1|]; eapply a_same_trans; [apply S2|]; eapply a_same_trans; [apply S3|];
     eapply a_same_trans; [apply S4|]; apply S5).
  destruct (a_vertex args) as [vs|]; cbn [option_ids] in Hv; cbn [option_call option_request app].
  - apply parse_all_done in Hv as Ep. rewrite Ep. cbn [app]. split; [reflexivity|]. split.
    + constructor; [|exact U1]. apply Forall_map. eapply Forall_impl; [|exact (id_arguments_u64 vs lv Hv)]. intros v H. split; [exact H|exact I].
    + intro a. cbn [concat]. rewrite fold_left_app. apply (All a); [apply vertices_effect|exact Chain].
  - subst lv. split; [reflexivity|]. split; [exact U1|]. intro a. apply (All a); [|exact Chain].
    split; cbn; [intro x|intros x y]; [|tauto]. split; [tauto|]. intros [H|[[]|[y [[]|[]]]]]. exact H.
Qed.
(** Any number of users run gc-add at the same time, each with any options: whatever the schedule, when all have come to
    their end all report success and the graph is the old one with all that was asked for by anybody. *)
Theorem C190_gc_add : forall nd (us : list ((list text -> list text) * add_args)) rs s a s' ps, digit_table nd -> fs_root s = true ->
  Forall2 (fun u r => asks (snd u) (fst r) (snd r)) us rs -> Forall (fun u => small (fst u) (requests (snd u))) us -> holds nd s a ->
  isteps (s, map (fun u => gc_add (fst u) (snd u)) us) (s', ps) -> all_ended ps ->
  Forall (eq (Ret Success)) ps /\
  exists g, loads nd s' g /\ built g /\ a_same (shown g) (a_union a (in_all_V rs) (in_all_E rs)).
Proof.
  intros nd us rs s a s' ps T Hr A Sm (Ho & c & cs & Hg & Hc & Hread & Ha) H F.
  set (qs := map (fun u : (list text -> list text) * add_args => (fst u, requests (snd u))) us).
  assert (E : map (fun u => gc_add (fst u) (snd u)) us = map (fun u => in_sequence (fst u) (snd u)) qs).
  { unfold qs. rewrite map_map. clear - A. induction A as [|u r us rs Hu _ IH]; [reflexivity|]. cbn [map fst snd]. rewrite IH. f_equal. apply (as_requests _ _ _ _ Hu). }
  assert (U : adding_only (concat (map snd qs))).
  { unfold qs. rewrite map_map. cbn [snd]. clear - A. induction A as [|u r us rs Hu _ IH]; [constructor|]. cbn [map concat]. apply Forall_app. split; [apply (as_requests (fst u) _ _ _ Hu)|exact IH]. }
  assert (Eff : forall b, a_same b a -> a_same (fold_left a_step (concat (concat (map snd qs))) b) (a_union a (in_all_V rs) (in_all_E rs))).
  { intros b Hb. unfold qs. rewrite map_map. cbn [snd]. clear - A Hb. revert a b Hb. induction A as [|u r us rs Hu _ IH]; intros a b Hb.
    - eapply a_same_trans; [exact Hb|]. split; cbn.
      + intro x. split; [tauto|]. intros [Hx|[(q & [] & _)|[y [(q & [] & _)|(q & [] & _)]]]]. exact Hx.
      + intros x y. split; [tauto|]. intros [Hx|(q & [] & _)]. exact Hx.
    - cbn [map concat]. rewrite concat_app, fold_left_app. eapply a_same_trans; [|apply union_cons]. apply IH.
      eapply a_same_trans; [apply (as_requests (fst u) _ _ _ Hu)|]. apply union_same; [exact Hb|tauto|tauto]. }
  rewrite E in H. destruct (C190_any_schedule nd qs s c cs s' ps T Hr Ho Hg Hc Hread) as (Ok & g & L & B & S); try assumption.
  - unfold qs. apply Forall_map. exact Sm.
  - eapply Forall_impl; [|exact U]. intros x Hx. eapply Forall_impl; [|exact Hx]. now intros ? [].
  - apply C187_same_kind. left. intros x d Hx Hd. unfold adding_only in U. rewrite Forall_forall in U. specialize (U x Hx). rewrite Forall_forall in U. exact (proj2 (U d Hd)).
  - split; [exact Ok|]. exists g. split; [exact L|]. split; [exact B|]. eapply a_same_trans; [exact S|]. unfold a_run. rewrite fold_left_app. apply Eff. exact Ha.
Qed.
Print Assumptions C190_gc_add.

(** ** gc-delete *)
(** gc-delete.rs l.42-53 *)
Definition edge_removals (es : list edge) : list graph_command := map (fun e => RemoveEdge (fst e) (snd e)) es.
Definition requests_away (args : option (list text) * option (list text)) : list (list graph_command) :=
  option_request (fst args) parse_all (map RemoveVertex) ++
  option_request (snd args) (fun vs => obind (parse_all vs) (fun l => obind (as_vertex_tuple l) expect)) edge_removals.
Definition removing_only (l : list (list graph_command)) : Prop :=
  Forall (Forall (fun c => u64_command c /\ match c with RemoveVertex _ | RemoveEdge _ _ => True | _ => False end)) l.
Lemma as_requests_away chunks args V E : asks_away args V E ->
  deletes chunks args = in_sequence chunks (requests_away args) /\ removing_only (requests_away args) /\
  (forall a, a_same (fold_left a_step (concat (requests_away args)) a) (a_minus a V E)).
Proof.
  destruct args as [vertex edge]. intros (lv & le & Hv & He & Ev & HV & HE). cbn [fst snd] in *.
  destruct (even_flat (S (length le)) le) as [es ->]; [lia|assumption|].
  unfold deletes, gc_delete, requests_away. cbn [fst snd].
  assert (Second : let l := option_request edge (fun vs => obind (parse_all vs) (fun l => obind (as_vertex_tuple l) expect)) edge_removals in
    option_call edge (fun vs => obind (parse_all vs) (fun l => obind (as_vertex_tuple l) expect)) (remove_edges chunks) (Ret Success) = in_sequence chunks l /\
    removing_only l /\ forall a, a_same (fold_left a_step (concat l) a) (a_minus a (fun _ => False) E)).
  { cbv zeta. destruct edge as [vs|]; cbn [option_ids] in He; cbn [option_call option_request].
    - apply parse_all_done in He as Ep. rewrite Ep. cbn [obind]. rewrite tuple_even. cbn [obind expect]. split; [reflexivity|]. split.
      + constructor; [|constructor]. unfold edge_removals. apply Forall_map. apply Forall_forall. intros [x y] Hi. split; [|exact I].
        pose proof (id_arguments_u64 vs _ He) as U. rewrite Forall_forall in U.
        apply flat_In in Hi. destruct Hi as (p & q & Ef). split; apply U; rewrite Ef, in_app_iff; cbn; tauto.
      + intro a. cbn [concat]. rewrite app_nil_r. unfold edge_removals. rewrite fold_mapped.
        eapply a_same_trans; [exact (fold_remove_edges es a)|]. apply minus_same; [apply a_same_refl|tauto|]. intros x y. rewrite <- HE. apply flat_In.
    - destruct es as [|[? ?] ?]; [|discriminate]. split; [reflexivity|]. split; [constructor|]. intro a. cbn [concat fold_left].
      split; cbn; [tauto|]. intros x y. rewrite <- HE. split; [|tauto]. intro H. repeat split; try tauto. intros (p & q & Ef). destruct p as [|[? ?] p]; discriminate Ef. }
  cbv zeta in Second. destruct Second as (P & U & S). rewrite P.
  assert (Both : forall a b, a_same b (a_minus a (fun x => In x lv) (fun _ _ => False)) -> a_same (a_minus b (fun _ => False) E) (a_minus a V E)).
  { intros a b [S1 S2]. split; cbn; [intro x; rewrite S1; cbn; rewrite HV; tauto|intros x y; rewrite S2; cbn; rewrite !HV; tauto]. }
  destruct vertex as [vs|]; cbn [option_ids] in Hv; cbn [option_call option_request].
  - apply parse_all_done in Hv as Ep. rewrite Ep. cbn [app]. split; [reflexivity|]. split.
    + constructor; [|exact U]. apply Forall_map. eapply Forall_impl; [|exact (id_arguments_u64 vs lv Hv)]. intros v H. split; [exact H|exact I].
    + intro a. cbn [concat]. rewrite fold_left_app. eapply a_same_trans; [apply S|]. apply Both. rewrite fold_mapped. exact (fold_remove_vertices lv a).
  - subst lv. cbn [app]. split; [reflexivity|]. split; [exact U|]. intro a. eapply a_same_trans; [apply S|]. apply Both. split; cbn; tauto.
Qed.
Theorem C190_gc_delete : forall nd (us : list ((list text -> list text) * (option (list text) * option (list text)))) rs s a s' ps,
  digit_table nd -> fs_root s = true ->
  Forall2 (fun u r => asks_away (snd u) (fst r) (snd r)) us rs -> Forall (fun u => small (fst u) (requests_away (snd u))) us -> holds nd s a ->
  isteps (s, map (fun u => deletes (fst u) (snd u)) us) (s', ps) -> all_ended ps ->
  Forall (eq (Ret Success)) ps /\
  exists g, loads nd s' g /\ built g /\ a_same (shown g) (a_minus a (in_all_V rs) (in_all_E rs)).
Proof.
  intros nd us rs s a s' ps T Hr A Sm (Ho & c & cs & Hg & Hc & Hread & Ha) H F.
  set (qs := map (fun u : (list text -> list text) * (option (list text) * option (list text)) => (fst u, requests_away (snd u))) us).
  assert (E : map (fun u => deletes (fst u) (snd u)) us = map (fun u => in_sequence (fst u) (snd u)) qs).
  { unfold qs. rewrite map_map. clear - A. induction A as [|u r us rs Hu _ IH]; [reflexivity|]. cbn [map fst snd]. rewrite IH. f_equal. apply (as_requests_away _ _ _ _ Hu). }
  assert (U : removing_only (concat (map snd qs))).
  { unfold qs. rewrite map_map. cbn [snd]. clear - A. induction A as [|u r us rs Hu _ IH]; [constructor|]. cbn [map concat]. apply Forall_app. split; [apply (as_requests_away (fst u) _ _ _ Hu)|exact IH]. }
  assert (Eff : forall b, a_same b a -> a_same (fold_left a_step (concat (concat (map snd qs))) b) (a_minus a (in_all_V rs) (in_all_E rs))).
  { intros b Hb. unfold qs. rewrite map_map. cbn [snd]. clear - A Hb. revert a b Hb. induction A as [|u r us rs Hu _ IH]; intros a b Hb.
    - eapply a_same_trans; [exact Hb|]. split; cbn.
      + intro x. split; [|tauto]. intro Hx. split; [exact Hx|]. intros (q & [] & _).
      + intros x y. split; [|tauto]. intro Hx. split; [exact Hx|]. split; [|split]; intros (q & [] & _).
    - cbn [map concat]. rewrite concat_app, fold_left_app. eapply a_same_trans; [|apply minus_cons]. apply IH.
      eapply a_same_trans; [apply (as_requests_away (fst u) _ _ _ Hu)|]. apply minus_same; [exact Hb|tauto|tauto]. }
  rewrite E in H. destruct (C190_any_schedule nd qs s c cs s' ps T Hr Ho Hg Hc Hread) as (Ok & g & L & B & S); try assumption.
  - unfold qs. apply Forall_map. exact Sm.
  - eapply Forall_impl; [|exact U]. intros x Hx. eapply Forall_impl; [|exact Hx]. now intros ? [].
  - apply C187_same_kind. right. intros x d Hx Hd. unfold removing_only in U. rewrite Forall_forall in U. specialize (U x Hx). rewrite Forall_forall in U. exact (proj2 (U d Hd)).
  - split; [exact Ok|]. exists g. split; [exact L|]. split; [exact B|]. eapply a_same_trans; [exact S|]. unfold a_run. rewrite fold_left_app. apply Eff. exact Ha.
Qed.
Print Assumptions C190_gc_delete.

(** ** Both *)
Lemma adds_keep l : Forall (fun c => u64_command c /\ match c with AddVertex _ | AddEdge _ _ => True | _ => False end) l ->
  forall a, (forall x, aV a x -> aV (fold_left a_step l a) x) /\ (forall x y, aE a x y -> aE (fold_left a_step l a) x y).
Proof.
  induction 1 as [|c l [_ Hc] _ IH]; intro a; [split; auto|]. cbn [fold_left]. destruct (IH (a_step a c)) as [I1 I2].
  destruct c as [v|v|p q|p q]; try contradiction; cbn [a_step] in *; (split; [intros x Hx; apply I1|intros x y Hx; apply I2]); cbn; tauto.
Qed.
Lemma adds_in l : Forall (fun c => u64_command c /\ match c with AddVertex _ | AddEdge _ _ => True | _ => False end) l ->
  forall a, (forall v, In (AddVertex v) l -> aV (fold_left a_step l a) v) /\ (forall x y, In (AddEdge x y) l -> aE (fold_left a_step l a) x y).
Proof.
  induction 1 as [|c l [_ Hc] F IH]; intro a; [split; cbn; tauto|]. cbn [fold_left]. destruct (IH (a_step a c)) as [I1 I2].
  destruct (adds_keep l F (a_step a c)) as [K1 K2].
  split; [intros v [->|Hv]; [apply K1; cbn; tauto|now apply I1]|intros x y [->|Hx]; [apply K2; cbn; tauto|now apply I2]].
Qed.
Lemma removes_keep l : Forall (fun c => u64_command c /\ match c with RemoveVertex _ | RemoveEdge _ _ => True | _ => False end) l ->
  forall a, (forall x, aV (fold_left a_step l a) x -> aV a x) /\ (forall x y, aE (fold_left a_step l a) x y -> aE a x y).
Proof.
  induction 1 as [|c l [_ Hc] _ IH]; intro a; [split; auto|]. cbn [fold_left]. destruct (IH (a_step a c)) as [I1 I2].
  destruct c as [v|v|p q|p q]; try contradiction; cbn [a_step] in *;
    (split; [intros x Hx; apply I1 in Hx|intros x y Hx; apply I2 in Hx]); cbn in Hx; tauto.
Qed.
Lemma removes_in l : Forall (fun c => u64_command c /\ match c with RemoveVertex _ | RemoveEdge _ _ => True | _ => False end) l ->
  forall a, (forall v, In (RemoveVertex v) l -> ~ aV (fold_left a_step l a) v) /\ (forall x y, In (RemoveEdge x y) l -> ~ aE (fold_left a_step l a) x y).
Proof.
  induction 1 as [|c l [_ Hc] F IH]; intro a; [split; cbn; tauto|]. cbn [fold_left]. destruct (IH (a_step a c)) as [I1 I2].
  destruct (removes_keep l F (a_step a c)) as [K1 K2].
  split; [intros v [->|Hv]; [intro H; apply K1 in H; cbn in H; tauto|now apply I1]|intros x y [->|Hx]; [intro H; apply K2 in H; cbn in H; tauto|now apply I2]].
Qed.
(** A vertex that somebody adds, or an end of an edge that somebody adds. *)
Definition touched (rs : wishes) (x : N) : Prop := in_all_V rs x \/ exists y, in_all_E rs x y \/ in_all_E rs y x.
(** Some run gc-add and some gc-delete at the same time, and nobody removes what another adds: the graph is the old one
    without all that should go and with all that was asked for. *)
Theorem C190_both : forall nd (us : list ((list text -> list text) * add_args))
    (vs : list ((list text -> list text) * (option (list text) * option (list text)))) rs qs s a s' ps,
  digit_table nd -> fs_root s = true ->
  Forall2 (fun u r => asks (snd u) (fst r) (snd r)) us rs -> Forall (fun u => small (fst u) (requests (snd u))) us ->
  Forall2 (fun u r => asks_away (snd u) (fst r) (snd r)) vs qs -> Forall (fun u => small (fst u) (requests_away (snd u))) vs ->
  (forall x, touched rs x -> ~ in_all_V qs x) -> (forall x y, in_all_E rs x y -> ~ in_all_E qs x y) -> holds nd s a ->
  isteps (s, map (fun u => gc_add (fst u) (snd u)) us ++ map (fun u => deletes (fst u) (snd u)) vs) (s', ps) -> all_ended ps ->
  Forall (eq (Ret Success)) ps /\
  exists g, loads nd s' g /\ built g /\
    a_same (shown g) (a_union (a_minus a (in_all_V qs) (in_all_E qs)) (in_all_V rs) (in_all_E rs)).
Proof.
  intros nd us vs rs qs s a s' ps T Hr A Sm A' Sm' DV DE (Ho & c & cs & Hg & Hc & Hread & Ha) H F.
  set (qa := map (fun u : (list text -> list text) * add_args => (fst u, requests (snd u))) us).
  set (qd := map (fun u : (list text -> list text) * (option (list text) * option (list text)) => (fst u, requests_away (snd u))) vs).
  assert (E : map (fun u => gc_add (fst u) (snd u)) us ++ map (fun u => deletes (fst u) (snd u)) vs = map (fun u => in_sequence (fst u) (snd u)) (qa ++ qd)).
  { rewrite map_app. f_equal; unfold qa, qd; rewrite map_map.
    - clear - A. induction A as [|u r us rs Hu _ IH]; [reflexivity|]. cbn [map fst snd]. rewrite IH. f_equal. apply (as_requests _ _ _ _ Hu).
    - clear - A'. induction A' as [|u r us rs Hu _ IH]; [reflexivity|]. cbn [map fst snd]. rewrite IH. f_equal. apply (as_requests_away _ _ _ _ Hu). }
  assert (U : adding_only (concat (map snd qa))).
  { unfold qa. rewrite map_map. cbn [snd]. clear - A. induction A as [|u r us rs Hu _ IH]; [constructor|]. cbn [map concat]. apply Forall_app. split; [apply (as_requests (fst u) _ _ _ Hu)|exact IH]. }
  assert (U' : removing_only (concat (map snd qd))).
  { unfold qd. rewrite map_map. cbn [snd]. clear - A'. induction A' as [|u r us rs Hu _ IH]; [constructor|]. cbn [map concat]. apply Forall_app. split; [apply (as_requests_away (fst u) _ _ _ Hu)|exact IH]. }
  assert (Eff : forall a b, a_same b a -> a_same (fold_left a_step (concat (concat (map snd qa))) b) (a_union a (in_all_V rs) (in_all_E rs))).
  { unfold qa. rewrite map_map. cbn [snd]. clear - A. induction A as [|u r us rs Hu _ IH]; intros a b Hb.
    - eapply a_same_trans; [exact Hb|]. split; cbn.
      + intro x. split; [tauto|]. intros [Hx|[(q & [] & _)|[y [(q & [] & _)|(q & [] & _)]]]]. exact Hx.
      + intros x y. split; [tauto|]. intros [Hx|(q & [] & _)]. exact Hx.
    - cbn [map concat]. rewrite concat_app, fold_left_app. eapply a_same_trans; [|apply union_cons]. apply IH.
      eapply a_same_trans; [apply (as_requests (fst u) _ _ _ Hu)|]. apply union_same; [exact Hb|tauto|tauto]. }
  assert (Eff' : forall a b, a_same b a -> a_same (fold_left a_step (concat (concat (map snd qd))) b) (a_minus a (in_all_V qs) (in_all_E qs))).
  { unfold qd. rewrite map_map. cbn [snd]. clear - A'. induction A' as [|u r us rs Hu _ IH]; intros a b Hb.
    - eapply a_same_trans; [exact Hb|]. split; cbn.
      + intro x. split; [|tauto]. intro Hx. split; [exact Hx|]. intros (q & [] & _).
      + intros x y. split; [|tauto]. intro Hx. split; [exact Hx|]. split; [|split]; intros (q & [] & _).
    - cbn [map concat]. rewrite concat_app, fold_left_app. eapply a_same_trans; [|apply minus_cons]. apply IH.
      eapply a_same_trans; [apply (as_requests_away (fst u) _ _ _ Hu)|]. apply minus_same; [exact Hb|tauto|tauto]. }
  assert (Fa : Forall (fun c => u64_command c /\ match c with AddVertex _ | AddEdge _ _ => True | _ => False end) (concat (concat (map snd qa)))) by (apply Forall_concat; exact U).
  assert (Fd : Forall (fun c => u64_command c /\ match c with RemoveVertex _ | RemoveEdge _ _ => True | _ => False end) (concat (concat (map snd qd)))) by (apply Forall_concat; exact U').
  set (nothing := {| aV := fun _ => False; aE := fun _ _ => False |}). set (everything := {| aV := fun _ => True; aE := fun _ _ => True |}).
  destruct (adds_in _ Fa nothing) as [AV AE]. destruct (Eff nothing nothing (a_same_refl _)) as [SV SE].
  destruct (removes_in _ Fd everything) as [RV RE]. destruct (Eff' everything everything (a_same_refl _)) as [TV TE].
  assert (AV' : forall v, In (AddVertex v) (concat (concat (map snd qa))) -> in_all_V rs v \/ touched rs v).
  { intros v Hv. apply AV, SV in Hv. cbn in Hv. unfold touched. destruct Hv as [[]|Hv]. right. exact Hv. }
  assert (AE' : forall x y, In (AddEdge x y) (concat (concat (map snd qa))) -> in_all_E rs x y).
  { intros x y Hx. apply AE, SE in Hx. cbn in Hx. tauto. }
  assert (RV' : forall v, In (RemoveVertex v) (concat (concat (map snd qd))) -> ~ ~ in_all_V qs v).
  { intros v Hv K. apply (RV v Hv). apply TV. cbn. tauto. }
  assert (NC : forall c d, In c (concat (concat (map snd qa))) -> In d (concat (concat (map snd qd))) -> ~ conflict c d).
  { intros c1 d1 H1 H2 K. pose proof (proj1 (Forall_forall _ _) Fa c1 H1) as [_ G1]. pose proof (proj1 (Forall_forall _ _) Fd d1 H2) as [_ G2].
    destruct c1 as [v|v|p q|p q], d1 as [w|w|x y|x y]; try contradiction; cbn [conflict] in K; try contradiction.
    - subst w. apply (RV' v H2). apply DV. destruct (AV' v H1) as [G|G]; [now left|exact G].
    - apply AE' in H1. apply (RV' w H2). apply DV. right. destruct K as [->| ->]; eexists; [left|right]; exact H1.
    - destruct K as [-> ->]. pose proof (AE' _ _ H1) as G. apply (RE _ _ H2). apply TE. cbn. split; [exact I|]. split; [|split].
      + apply DV. right. eexists. left. exact G.
      + apply DV. right. eexists. right. exact G.
      + now apply DE. }
  rewrite E in H. destruct (C190_any_schedule nd (qa ++ qd) s c cs s' ps T Hr Ho Hg Hc Hread) as (Ok & g & L & B & S); try assumption.
  - apply Forall_app. unfold qa, qd. split; apply Forall_map; assumption.
  - rewrite map_app, concat_app. apply Forall_app. split; [eapply Forall_impl; [|exact U]|eapply Forall_impl; [|exact U']];
      intros x Hx; (eapply Forall_impl; [|exact Hx]); now intros ? [].
  - rewrite map_app, concat_app. intros i j x y _ Hi Hj c1 d1 H1 H2 K. apply nth_error_In in Hi, Hj. rewrite in_app_iff in Hi, Hj.
    assert (InA : forall x c, In x (concat (map snd qa)) -> In c x -> In c (concat (concat (map snd qa)))) by (intros z e Hz He; apply in_concat; now exists z).
    assert (InD : forall x c, In x (concat (map snd qd)) -> In c x -> In c (concat (concat (map snd qd)))) by (intros z e Hz He; apply in_concat; now exists z).
    destruct Hi as [Hi|Hi], Hj as [Hj|Hj].
    + pose proof (proj1 (Forall_forall _ _) Fa c1 (InA _ _ Hi H1)) as [_ G1]. pose proof (proj1 (Forall_forall _ _) Fa d1 (InA _ _ Hj H2)) as [_ G2]. destruct c1, d1; cbn in *; contradiction.
    + exact (NC c1 d1 (InA _ _ Hi H1) (InD _ _ Hj H2) K).
    + exact (NC d1 c1 (InA _ _ Hj H2) (InD _ _ Hi H1) (conflict_sym _ _ K)).
    + pose proof (proj1 (Forall_forall _ _) Fd c1 (InD _ _ Hi H1)) as [_ G1]. pose proof (proj1 (Forall_forall _ _) Fd d1 (InD _ _ Hj H2)) as [_ G2]. destruct c1, d1; cbn in *; contradiction.
  - split; [exact Ok|]. exists g. split; [exact L|]. split; [exact B|]. eapply a_same_trans; [exact S|]. unfold a_run.
    rewrite fold_left_app, map_app, !concat_app, fold_left_app. eapply a_same_trans; [apply (Eff' _ _ (Eff _ _ Ha))|]. split; cbn.
    + intro x. specialize (DV x). unfold touched in DV. tauto.
    + intros x y. pose proof (DV x) as D1. pose proof (DV y) as D2. specialize (DE x y). unfold touched in D1, D2. split; [tauto|].
      intros [K|K]; [tauto|]. split; [now right|]. split; [apply D1; right; exists y; now left|]. split; [apply D2; right; exists x; now right|now apply DE].
Qed.
Print Assumptions C190_both.

(** ** At any moment *)
Definition only_adds (l : list graph_command) : Prop :=
  Forall (fun c => u64_command c /\ match c with AddVertex _ | AddEdge _ _ => True | _ => False end) l.
Lemma adds_ends l : only_adds l -> forall a x y, In (AddEdge x y) l -> aV (fold_left a_step l a) x /\ aV (fold_left a_step l a) y.
Proof.
  induction 1 as [|c l [_ Hc] F IH]; intros a x y; [intros []|]. cbn [fold_left]. intros [->|H]; [|now apply IH].
  destruct (adds_keep l F (a_step a (AddEdge x y))) as [K _]. split; apply K; cbn; tauto.
Qed.
Lemma adds_from l : only_adds l -> forall a,
  (forall x, aV (fold_left a_step l a) x -> aV a x \/ In (AddVertex x) l \/ exists y, In (AddEdge x y) l \/ In (AddEdge y x) l) /\
  (forall x y, aE (fold_left a_step l a) x y -> aE a x y \/ In (AddEdge x y) l).
Proof.
  induction 1 as [|c l [_ Hc] F IH]; intro a; [split; auto|]. cbn [fold_left]. destruct (IH (a_step a c)) as [I1 I2]. split.
  - intros x Hx. apply I1 in Hx. destruct Hx as [Hx|[Hx|(y & Hx)]]; [|right; left; now right|right; right; exists y; cbn; tauto].
    destruct c as [v|v|p q|p q]; try contradiction; cbn in Hx.
    + destruct Hx as [Hx| ->]; [now left|right; left; now left].
    + destruct Hx as [Hx|[-> | ->]]; [now left|right; right; exists q; left; now left|right; right; exists p; right; now left].
  - intros x y Hx. apply I2 in Hx. destruct Hx as [Hx|Hx]; [|right; now right].
    destruct c as [v|v|p q|p q]; try contradiction; cbn in Hx; [now left|]. destruct Hx as [Hx|[-> ->]]; [now left|right; now left].
Qed.
(** More additions to a greater graph. *)
Lemma adds_more l m a b : only_adds l -> only_adds m -> incl l m ->
  (forall x, aV a x -> aV b x) -> (forall x y, aE a x y -> aE b x y) ->
  (forall x, aV (fold_left a_step l a) x -> aV (fold_left a_step m b) x) /\ (forall x y, aE (fold_left a_step l a) x y -> aE (fold_left a_step m b) x y).
Proof.
  intros Hl Hm Hi SV SE. destruct (adds_from l Hl a) as [F1 F2]. destruct (adds_in m Hm b) as [G1 G2]. destruct (adds_keep m Hm b) as [K1 K2].
  split.
  - intros x Hx. apply F1 in Hx. destruct Hx as [Hx|[Hx|(y & [Hx|Hx])]]; [now apply K1, SV|now apply G1, Hi|apply Hi in Hx; now apply (adds_ends m Hm b x y)|apply Hi in Hx; now apply (adds_ends m Hm b y x)].
  - intros x y Hx. apply F2 in Hx. destruct Hx as [Hx|Hx]; [now apply K2, SE|now apply G2, Hi].
Qed.
Definition below (a b : aset) : Prop := (forall x, aV a x -> aV b x) /\ (forall x y, aE a x y -> aE b x y).
(** At every moment of every schedule of users of gc-add, whichever of them have been killed: what can be read is the old
    graph with some of what was asked for, all that the users wanted whose process has ended among it. *)
Theorem C190_gc_add_meanwhile : forall nd (us : list ((list text -> list text) * add_args)) rs s a s' ps, digit_table nd -> fs_root s = true ->
  Forall2 (fun u r => asks (snd u) (fst r) (snd r)) us rs -> Forall (fun u => small (fst u) (requests (snd u))) us -> holds nd s a ->
  isteps (s, map (fun u => gc_add (fst u) (snd u)) us) (s', ps) ->
  exists g, loads nd s' g /\ built g /\ below a (shown g) /\ below (shown g) (a_union a (in_all_V rs) (in_all_E rs)) /\
    forall i e r, nth_error ps i = Some (Ret e) -> nth_error rs i = Some r -> e = Success /\ below (a_union a (fst r) (snd r)) (shown g).
Proof.
  intros nd us rs s a s' ps T Hr A Sm (Ho & c & cs & Hg & Hc & Hread & Ha) H.
  set (qs := map (fun u : (list text -> list text) * add_args => (fst u, requests (snd u))) us).
  assert (E : map (fun u => gc_add (fst u) (snd u)) us = map (fun u => in_sequence (fst u) (snd u)) qs).
  { unfold qs. rewrite map_map. clear - A. induction A as [|u r us rs Hu _ IH]; [reflexivity|]. cbn [map fst snd]. rewrite IH. f_equal. apply (as_requests _ _ _ _ Hu). }
  assert (U : adding_only (concat (map snd qs))).
  { unfold qs. rewrite map_map. cbn [snd]. clear - A. induction A as [|u r us rs Hu _ IH]; [constructor|]. cbn [map concat]. apply Forall_app. split; [apply (as_requests (fst u) _ _ _ Hu)|exact IH]. }
  assert (Eff : forall a b, a_same b a -> a_same (fold_left a_step (concat (concat (map snd qs))) b) (a_union a (in_all_V rs) (in_all_E rs))).
  { unfold qs. rewrite map_map. cbn [snd]. clear - A. induction A as [|u r us rs Hu _ IH]; intros a b Hb.
    - eapply a_same_trans; [exact Hb|]. split; cbn.
      + intro x. split; [tauto|]. intros [Hx|[(q & [] & _)|[y [(q & [] & _)|(q & [] & _)]]]]. exact Hx.
      + intros x y. split; [tauto|]. intros [Hx|(q & [] & _)]. exact Hx.
    - cbn [map concat]. rewrite concat_app, fold_left_app. eapply a_same_trans; [|apply union_cons]. apply IH.
      eapply a_same_trans; [apply (as_requests (fst u) _ _ _ Hu)|]. apply union_same; [exact Hb|tauto|tauto]. }
  rewrite E in H. destruct (C190_each_in_order nd qs s c cs s' ps T Hr Ho Hg Hc Hread) as (ds & rests & w & g & F & Hlen & Hps & En & HM & L & B & S); try assumption.
  { unfold qs. apply Forall_map. exact Sm. }
  { eapply Forall_impl; [|exact U]. intros x Hx. eapply Forall_impl; [|exact Hx]. now intros ? []. }
  assert (Wsub : forall x, In x w <-> In x (concat ds)).
  { intro x. split; apply Permutation_in; [|apply Permutation_sym]; exact (merged_perm _ _ HM). }
  assert (Dsub : forall d, In d ds -> forall x, In x d -> In x (concat (map snd qs))).
  { clear - F Hlen. revert ds rests F Hlen. induction qs as [|q qs IH]; intros [|d ds] [|r rests] F Hlen; try discriminate Hlen; cbn [combine] in F; try (now inversion F).
    inversion F as [|? ? ? ? Hq F']; subst. cbn [fst snd] in Hq. injection Hlen as Hlen. cbn [map concat].
    intros d' [<-|Hd] x Hx; rewrite in_app_iff; [left; rewrite <- Hq; apply in_or_app; now left|right; exact (IH ds rests F' Hlen d' Hd x Hx)]. }
  assert (Wall : forall x, In x w -> In x (concat (map snd qs))).
  { intros x Hx. apply Wsub in Hx. apply in_concat in Hx as (d & Hd & Hx). exact (Dsub d Hd x Hx). }
  assert (Ua : only_adds (concat (concat (map snd qs)))) by (apply Forall_concat; exact U).
  assert (Uw : only_adds (concat w)).
  { apply Forall_concat. apply Forall_forall. intros x Hx. unfold adding_only in U. rewrite Forall_forall in U. exact (U x (Wall x Hx)). }
  assert (Sg : a_same (shown g) (fold_left a_step (concat w) a)).
  { eapply a_same_trans; [exact S|]. unfold a_run. rewrite fold_left_app. apply fold_same. exact Ha. }
  destruct Sg as [SV SE]. exists g. split; [exact L|]. split; [exact B|]. split; [|split].
  - destruct (adds_keep _ Uw a) as [K1 K2]. split; [intros x Hx; apply SV; now apply K1|intros x y Hx; apply SE; now apply K2].
  - destruct (Eff a a (a_same_refl _)) as [EV EE].
    destruct (adds_more (concat w) (concat (concat (map snd qs))) a a Uw Ua) as [M1 M2]; try tauto.
    + intros x Hx. apply in_concat in Hx as (l & Hl & Hx). apply in_concat. exists l. split; [now apply Wall|exact Hx].
    + split; [intros x Hx; apply EV, M1; now apply SV|intros x y Hx; apply EE, M2; now apply SE].
  - intros i e r Hi Hri. destruct (En i e Hi) as [-> Hrest]. split; [reflexivity|].
    assert (Hu : exists u, nth_error us i = Some u /\ asks (snd u) (fst r) (snd r)).
    { clear - A Hri. revert i Hri. induction A as [|u r0 us rs Hu _ IH]; intros [|i] Hi; try discriminate Hi; [injection Hi as ->; now exists u|exact (IH i Hi)]. }
    destruct Hu as (u & Hu & Au). destruct (as_requests (fst u) _ _ _ Au) as (_ & Uu & Eu). destruct (Eu a) as [EV EE].
    assert (Hd : nth_error ds i = Some (requests (snd u))).
    { assert (Hq : nth_error qs i = Some (fst u, requests (snd u))) by (unfold qs; now rewrite nth_error_map, Hu).
      clear - F Hlen Hq Hrest. clearbody qs. revert ds rests qs i F Hlen Hq Hrest. induction ds as [|d ds IH]; intros [|r rests] qs i F Hlen Hq Hrest; try discriminate Hlen; [destruct i; discriminate Hrest|].
      cbn [combine] in F. inversion F as [|q z qs' zs Hz F']; subst. injection Hlen as Hlen. cbn [fst snd] in Hz. destruct i as [|i]; cbn in *.
      - injection Hrest as ->. injection Hq as ->. cbn [snd] in Hz. rewrite app_nil_r in Hz. now rewrite Hz.
      - exact (IH rests qs' i F' Hlen Hq Hrest). }
    destruct (adds_more (concat (requests (snd u))) (concat w) a a) as [M1 M2]; try tauto.
    + apply Forall_concat. exact Uu.
    + intros x Hx. apply in_concat in Hx as (l & Hl & Hx). apply in_concat. exists l. split; [|exact Hx]. apply Wsub. apply in_concat. exists (requests (snd u)). split; [exact (nth_error_In _ _ Hd)|exact Hl].
    + split; [intros x Hx; apply SV, M1; now apply EV|intros x y Hx; apply SE, M2; now apply EE].
Qed.
Print Assumptions C190_gc_add_meanwhile.

Definition only_removes (l : list graph_command) : Prop :=
  Forall (fun c => u64_command c /\ match c with RemoveVertex _ | RemoveEdge _ _ => True | _ => False end) l.
Lemma removes_from l : only_removes l -> forall a,
  (forall x, aV a x -> ~ In (RemoveVertex x) l -> aV (fold_left a_step l a) x) /\
  (forall x y, aE a x y -> ~ In (RemoveVertex x) l -> ~ In (RemoveVertex y) l -> ~ In (RemoveEdge x y) l -> aE (fold_left a_step l a) x y).
Proof.
  induction 1 as [|c l [_ Hc] F IH]; intro a; [split; auto|]. cbn [fold_left]. destruct (IH (a_step a c)) as [I1 I2]. split.
  - intros x Hx N. apply I1; [|intro K; apply N; now right]. destruct c as [v|v|p q|p q]; try contradiction; cbn; [|exact Hx].
    split; [exact Hx|]. intros ->. apply N. now left.
  - intros x y Hx N1 N2 N3. apply I2; [|intro K; apply N1; now right|intro K; apply N2; now right|intro K; apply N3; now right].
    destruct c as [v|v|p q|p q]; try contradiction; cbn; (split; [exact Hx|]).
    + split; intros ->; [apply N1|apply N2]; now left.
    + intros [-> ->]. apply N3. now left.
Qed.
Lemma removes_ends l : only_removes l -> forall a x y, In (RemoveVertex x) l -> ~ aE (fold_left a_step l a) x y /\ ~ aE (fold_left a_step l a) y x.
Proof.
  induction 1 as [|c l [_ Hc] F IH]; intros a x y; [intros []|]. cbn [fold_left]. intros [->|H]; [|now apply IH].
  destruct (removes_keep l F (a_step a (RemoveVertex x))) as [_ K]. split; intro H; apply K in H; cbn in H; tauto.
Qed.
(** More removals leave less. *)
Lemma removes_more l m a : only_removes l -> only_removes m -> incl l m -> below (fold_left a_step m a) (fold_left a_step l a).
Proof.
  intros Hl Hm Hi. destruct (removes_from l Hl a) as [F1 F2]. destruct (removes_in m Hm a) as [G1 G2]. destruct (removes_keep m Hm a) as [K1 K2].
  split.
  - intros x Hx. apply F1; [now apply K1|]. intro K. exact (G1 x (Hi _ K) Hx).
  - intros x y Hx. apply F2; [now apply K2| | |]; intro K; apply Hi in K; [exact (proj1 (removes_ends m Hm a x y K) Hx)|exact (proj2 (removes_ends m Hm a y x K) Hx)|exact (G2 x y K Hx)].
Qed.
(** The same for gc-delete. *)
Theorem C190_gc_delete_meanwhile : forall nd (us : list ((list text -> list text) * (option (list text) * option (list text)))) rs s a s' ps,
  digit_table nd -> fs_root s = true ->
  Forall2 (fun u r => asks_away (snd u) (fst r) (snd r)) us rs -> Forall (fun u => small (fst u) (requests_away (snd u))) us -> holds nd s a ->
  isteps (s, map (fun u => deletes (fst u) (snd u)) us) (s', ps) ->
  exists g, loads nd s' g /\ built g /\ below (shown g) a /\ below (a_minus a (in_all_V rs) (in_all_E rs)) (shown g) /\
    forall i e r, nth_error ps i = Some (Ret e) -> nth_error rs i = Some r -> e = Success /\ below (shown g) (a_minus a (fst r) (snd r)).
Proof.
  intros nd us rs s a s' ps T Hr A Sm (Ho & c & cs & Hg & Hc & Hread & Ha) H.
  set (qs := map (fun u : (list text -> list text) * (option (list text) * option (list text)) => (fst u, requests_away (snd u))) us).
  assert (E : map (fun u => deletes (fst u) (snd u)) us = map (fun u => in_sequence (fst u) (snd u)) qs).
  { unfold qs. rewrite map_map. clear - A. induction A as [|u r us rs Hu _ IH]; [reflexivity|]. cbn [map fst snd]. rewrite IH. f_equal. apply (as_requests_away _ _ _ _ Hu). }
  assert (U : removing_only (concat (map snd qs))).
  { unfold qs. rewrite map_map. cbn [snd]. clear - A. induction A as [|u r us rs Hu _ IH]; [constructor|]. cbn [map concat]. apply Forall_app. split; [apply (as_requests_away (fst u) _ _ _ Hu)|exact IH]. }
  assert (Eff : forall a b, a_same b a -> a_same (fold_left a_step (concat (concat (map snd qs))) b) (a_minus a (in_all_V rs) (in_all_E rs))).
  { unfold qs. rewrite map_map. cbn [snd]. clear - A. induction A as [|u r us rs Hu _ IH]; intros a b Hb.
    - eapply a_same_trans; [exact Hb|]. split; cbn.
      + intro x. split; [|tauto]. intro Hx. split; [exact Hx|]. intros (q & [] & _).
      + intros x y. split; [|tauto]. intro Hx. split; [exact Hx|]. split; [|split]; intros (q & [] & _).
    - cbn [map concat]. rewrite concat_app, fold_left_app. eapply a_same_trans; [|apply minus_cons]. apply IH.
      eapply a_same_trans; [apply (as_requests_away (fst u) _ _ _ Hu)|]. apply minus_same; [exact Hb|tauto|tauto]. }
  rewrite E in H. destruct (C190_each_in_order nd qs s c cs s' ps T Hr Ho Hg Hc Hread) as (ds & rests & w & g & F & Hlen & Hps & En & HM & L & B & S); try assumption.
  { unfold qs. apply Forall_map. exact Sm. }
  { eapply Forall_impl; [|exact U]. intros x Hx. eapply Forall_impl; [|exact Hx]. now intros ? []. }
  assert (Wsub : forall x, In x w <-> In x (concat ds)).
  { intro x. split; apply Permutation_in; [|apply Permutation_sym]; exact (merged_perm _ _ HM). }
  assert (Dsub : forall d, In d ds -> forall x, In x d -> In x (concat (map snd qs))).
  { clear - F Hlen. revert ds rests F Hlen. induction qs as [|q qs IH]; intros [|d ds] [|r rests] F Hlen; try discriminate Hlen; cbn [combine] in F; try (now inversion F).
    inversion F as [|? ? ? ? Hq F']; subst. cbn [fst snd] in Hq. injection Hlen as Hlen. cbn [map concat].
    intros d' [<-|Hd] x Hx; rewrite in_app_iff; [left; rewrite <- Hq; apply in_or_app; now left|right; exact (IH ds rests F' Hlen d' Hd x Hx)]. }
  assert (Wall : forall x, In x w -> In x (concat (map snd qs))).
  { intros x Hx. apply Wsub in Hx. apply in_concat in Hx as (d & Hd & Hx). exact (Dsub d Hd x Hx). }
  assert (Ua : only_removes (concat (concat (map snd qs)))) by (apply Forall_concat; exact U).
  assert (Uw : only_removes (concat w)).
  { apply Forall_concat. apply Forall_forall. intros x Hx. unfold removing_only in U. rewrite Forall_forall in U. exact (U x (Wall x Hx)). }
  assert (Sg : a_same (shown g) (fold_left a_step (concat w) a)).
  { eapply a_same_trans; [exact S|]. unfold a_run. rewrite fold_left_app. apply fold_same. exact Ha. }
  destruct Sg as [SV SE]. exists g. split; [exact L|]. split; [exact B|]. split; [|split].
  - destruct (removes_keep _ Uw a) as [K1 K2]. split; [intros x Hx; apply K1; now apply SV|intros x y Hx; apply K2; now apply SE].
  - destruct (Eff a a (a_same_refl _)) as [EV EE].
    destruct (removes_more (concat w) (concat (concat (map snd qs))) a Uw Ua) as [M1 M2].
    + intros x Hx. apply in_concat in Hx as (l & Hl & Hx). apply in_concat. exists l. split; [now apply Wall|exact Hx].
    + split; [intros x Hx; apply SV, M1; now apply EV|intros x y Hx; apply SE, M2; now apply EE].
  - intros i e r Hi Hri. destruct (En i e Hi) as [-> Hrest]. split; [reflexivity|].
    assert (Hu : exists u, nth_error us i = Some u /\ asks_away (snd u) (fst r) (snd r)).
    { clear - A Hri. revert i Hri. induction A as [|u r0 us rs Hu _ IH]; intros [|i] Hi; try discriminate Hi; [injection Hi as ->; now exists u|exact (IH i Hi)]. }
    destruct Hu as (u & Hu & Au). destruct (as_requests_away (fst u) _ _ _ Au) as (_ & Uu & Eu). destruct (Eu a) as [EV EE].
    assert (Hd : nth_error ds i = Some (requests_away (snd u))).
    { assert (Hq : nth_error qs i = Some (fst u, requests_away (snd u))) by (unfold qs; now rewrite nth_error_map, Hu).
      clear - F Hlen Hq Hrest. clearbody qs. revert ds rests qs i F Hlen Hq Hrest. induction ds as [|d ds IH]; intros [|r rests] qs i F Hlen Hq Hrest; try discriminate Hlen; [destruct i; discriminate Hrest|].
      cbn [combine] in F. inversion F as [|q z qs' zs Hz F']; subst. injection Hlen as Hlen. cbn [fst snd] in Hz. destruct i as [|i]; cbn in *.
      - injection Hrest as ->. injection Hq as ->. cbn [snd] in Hz. rewrite app_nil_r in Hz. now rewrite Hz.
      - exact (IH rests qs' i F' Hlen Hq Hrest). }
    destruct (removes_more (concat (requests_away (snd u))) (concat w) a) as [M1 M2]; [apply Forall_concat; exact Uu|exact Uw| |].
    + intros x Hx. apply in_concat in Hx as (l & Hl & Hx). apply in_concat. exists l. split; [|exact Hx]. apply Wsub. apply in_concat. exists (requests_away (snd u)). split; [exact (nth_error_In _ _ Hd)|exact Hl].
    + split; [intros x Hx; apply EV, M1; now apply SV|intros x y Hx; apply EE, M2; now apply SE].
Qed.
Print Assumptions C190_gc_delete_meanwhile.

(** Two users, one with four options, in a schedule that mixes them. *)
Definition many_options : add_args := {| a_vertex := Some [txt "9"]; a_reverse := true; a_edge := Some [txt "1"; txt "2"];
    a_chain := Some [txt "3"; txt "+4"; txt "5"]; a_cycle := None; a_star := None; a_clique := Some [txt "6"; txt "7"] |}.
Example C190_case : let us := [(at_once, many_options); (at_once, only_chain [txt "1"; txt "2"; txt "3"])] in
  asks many_options (fun x => In x [9]) (added true [1; 2] [3; 4; 5] [] [] [6; 7]) /\
  asks (only_chain [txt "1"; txt "2"; txt "3"]) (fun _ => False) (fun x y => (x = 1 /\ y = 2) \/ (x = 2 /\ y = 3)) /\
  Forall (fun u => small (fst u) (requests (snd u))) us /\ length (requests many_options) = 4%nat /\ holds table (with_file []) a_empty /\
  exists s' ps, isteps (with_file [], map (fun u => gc_add (fst u) (snd u)) us) (s', ps) /\ all_ended ps /\
    fs_graph s' = GraphDir (File (concat (map (fun l => txt l ++ [10]) ["AddVertex 9"; "AddEdge 1 2"; "AddEdge 2 3"; "AddEdge 2 1"; "AddEdge 4 3"; "AddEdge 5 4"; "AddEdge 6 7"; "AddEdge 7 6"]%string))).
Proof.
  cbv zeta. split; [|split; [|split; [|split; [|split]]]].
  - exists [9], [1; 2], [3; 4; 5], [], [], [6; 7]. split; [apply C80_case|]. split; [cbn; tauto|intros x y; apply iff_refl].
  - apply C189_case.
  - constructor; [|constructor; [|constructor]]; (split; [apply at_once_ok|]); apply Forall_forall; intros cs _; apply le_n.
  - vm_compute. reflexivity.
  - apply C80_case.
  - set (sch := (repeat 0 4 ++ repeat 1 5 ++ repeat 0 40)%nat).
    set (ps := map (fun u => gc_add (fst u) (snd u)) [(at_once, many_options); (at_once, only_chain [txt "1"; txt "2"; txt "3"])]).
    exists (fst (run_schedule sch (with_file []) ps)), (snd (run_schedule sch (with_file []) ps)).
    split; [rewrite <- surjective_pairing; apply run_schedule_isteps|]. split; [|vm_compute; reflexivity].
    vm_compute. constructor; [eexists; reflexivity|]. constructor; [eexists; reflexivity|constructor].
Qed.
(** One adds the chain 1, 2, 3, another removes the vertex 9 and the edge from 1 to 3. *)
Example C190_both_case : let rs : wishes := [(fun _ => False, fun x y => (x = 1 /\ y = 2) \/ (x = 2 /\ y = 3))] in
  let qs : wishes := [(fun x => x = 9, fun x y => x = 1 /\ y = 3)] in
  asks_away (Some [txt "9"], Some [txt "1"; txt "3"]) (fun x => x = 9) (fun x y => x = 1 /\ y = 3) /\
  small at_once (requests_away (Some [txt "9"], Some [txt "1"; txt "3"])) /\
  (forall x, touched rs x -> ~ in_all_V qs x) /\ (forall x y, in_all_E rs x y -> ~ in_all_E qs x y).
Proof.
  cbv zeta. split; [|split; [|split]].
  - exists [9], [1; 3]. split; [apply parse_all_done; vm_compute; reflexivity|]. split; [apply parse_all_done; vm_compute; reflexivity|].
    split; [reflexivity|]. split; [intro x; cbn; intuition congruence|]. intros x y. split.
    + intros ([|[u v] p] & q & E); cbn in E; [injection E as -> -> _; tauto|]. injection E as _ _ E. destruct p as [|[? ?] p]; discriminate E.
    + intros [-> ->]. now exists [], [].
  - split; [apply at_once_ok|]. apply Forall_forall; intros cs _; apply le_n.
  - intros x Hx (r & [<-|[]] & K). cbn in K. subst x.
    destruct Hx as [(r & [<-|[]] & [])|[y [(r & [<-|[]] & K)|(r & [<-|[]] & K)]]]; cbn in K; lia.
  - intros x y (r & [<-|[]] & K) (r' & [<-|[]] & K'). cbn in K, K'. lia.
Qed.
