(** * Property C158: sessions of command lines, from the words typed to the answers printed *)
From Coq Require Import String.
From Coq Require Import List NArith ZArith Bool Arith Lia.
From Verif Require Import Spec Base Graph GraphSpec GraphFacts Text Format FormatSpec TextFacts FormatFacts Queue Path Iter PropPath PropSearch TopoFacts PropTopo CycleSpec Store StoreSpec StoreFacts
  Cli CliSpec CliFacts RandomFacts PropDraws Query EverySpec RandomMain PropRandomMain Verbose Clap ClapSpec ClapManual ClapFacts Mains PropClap QuerySpec QueryFacts PropFormat PropStore PropCli PropQuery PropEvery PropKill PropLines PropGraph.
Import ListNotations.
Open Scope N_scope.

(** ** What a session means: from the help texts, without the parser and the files *)
(** The values given to an option; none: the option is not used. *)
Definition said (n : string) (us : list use) : option (list text) :=
  match uses_of (txt n) us with [] => None | _ => Some (values_given (txt n) us) end.
Definition said_one (n : string) (us : list use) : option text :=
  match said n us with Some (v :: _) => Some v | _ => None end.
(** The directory of a line. *)
Definition directory (us : list use) : text := match values_given (txt "path") us with [] => txt "." | v :: _ => v end.

Inductive line := Init (ws : list text) | Add (ws : list text) | Delete (ws : list text) | Build (ws : list text) | Clean (ws : list text)
| Random (rng : nat -> N) (ws : list text) (* the random numbers, as they come *).

(** The edges of the first [t] random numbers, and their ends. *)
Definition drawn (vc : nat) (rng : nat -> N) (t : nat) : aset :=
  let E x y := exists k, (k < t)%nat /\ draws vc rng k x y in {| aV := fun v => exists w, E v w \/ E w v; aE := E |}.

Section Meaning.
  Variable fill : bool.
  Variable d : text.
  (** A line of the program with this help text, for the directory [d]. *)
  Definition typed (mn : manual) (us : list use) (ws : list text) : Prop :=
    written (decls mn) us ws /\ allowed fill mn us /\ directory us = d.
  (** No graph, or the graph stored. *)
  Inductive turns : line -> option aset -> option aset -> Prop :=
  | turns_init us ws : typed manual_init us ws -> turns (Init ws) None (Some a_empty)
  | turns_init_again us ws a : typed manual_init us ws -> turns (Init ws) (Some a) (Some a)
  | turns_add us ws a lv le lc ly ls lq reverse : typed manual_add us ws ->
      option_ids (said "vertex" us) lv -> option_ids (said "edge" us) le -> option_ids (said "chain" us) lc ->
      option_ids (said "cycle" us) ly -> option_ids (said "star" us) ls -> option_ids (said "clique" us) lq ->
      Nat.even (length le) = true -> (reverse = true <-> used (txt "reverse") us) ->
      turns (Add ws) (Some a) (Some (a_union a (fun x => In x lv) (added reverse le lc ly ls lq)))
  | turns_delete us ws a lv le : typed manual_delete us ws ->
      option_ids (said "vertex" us) lv -> option_ids (said "edge" us) le -> Nat.even (length le) = true ->
      turns (Delete ws) (Some a) (Some (a_minus a (fun x => In x lv) (pairs_rel le)))
  | turns_build us ws a : typed manual_build us ws -> turns (Build ws) (Some a) (Some a)
  | turns_clean us ws a : typed manual_clean us ws -> used (txt "force") us -> turns (Clean ws) (Some a) None
  (** The graph is replaced by the edges of the first random numbers: of the least number of rounds over all
      vertices but the last that gives the edges asked for, three times the number of vertices unless a number is given. *)
  | turns_random rng us ws a n m q : typed manual_random us ws -> used (txt "force") us -> (forall k, rng k < 2 ^ 64) ->
      id_argument (match said_one "vertex-count" us with Some v => v | None => txt "100" end) n -> 3 * n < 2 ^ 64 ->
      (exists x, said_one "edge-count" us = Some x /\ id_argument x m) \/
        ((forall x k, said_one "edge-count" us = Some x -> ~ id_argument x k) /\ m = 3 * n) ->
      least_nat (fun q => PropDraws.enough (N.to_nat n) (N.to_nat m) rng (q * (N.to_nat n - 1))) q ->
      turns (Random rng ws) (Some a) (Some (drawn (N.to_nat n) rng (q * (N.to_nat n - 1)))).
  Inductive session : list line -> option aset -> option aset -> Prop :=
  | session_end o : session [] o o
  | session_line l ls o o' o'' : turns l o o' -> session ls o' o'' -> session (l :: ls) o o''.
End Meaning.

(** ** What the programs do *)
Section Doing.
  Variable nd : N -> bool.
  Variable chunks : list text -> list text.
  Variable order : graph -> graph.
  Variable Q : squeue scored.
  Variable fill : bool.
  Variable d : text.

  (** The line starts its program in [d], and it reports success. *)
  Definition done {A} (st : start (prog A)) (good : A -> Prop) (s s' : fs) : Prop :=
    exists p a, st = Runs d p /\ run_prog p s = (s', a) /\ good a.
  Definition does (l : line) (s s' : fs) : Prop :=
    match l with
    | Init ws => done (init_main fill ws) (eq Success) s s'
    | Add ws => done (add_main chunks fill ws) (eq Success) s s'
    | Delete ws => done (delete_main chunks fill ws) (eq Success) s s'
    | Build ws => done (build_main nd chunks order fill ws) (fun r => snd r = Success) s s'
    | Clean ws => forall answer, done (clean_main fill answer ws) (eq Success) s s'
    | Random rng ws => exists f, forall fuel checked answer, (f <= fuel)%nat ->
        done (random_main chunks order fill checked rng answer fuel ws) (eq (Done Success)) s s'
    end.
  Inductive runs_lines : list line -> fs -> fs -> Prop :=
  | runs_none s : runs_lines [] s s
  | runs_line l ls s s' s'' : does l s s' -> runs_lines ls s' s'' -> runs_lines (l :: ls) s s''.
  Definition stands (s : fs) (o : option aset) : Prop :=
    match o with
    | Some a => holds nd s a
    | None => openable (fs_lock s) = true /\ (fs_graph s = NoGraph \/ fs_graph s = GraphDir Absent)
    end.

  (** *** The options as the programs see them *)
  Lemma said_used n us : said n us <> None <-> used (txt n) us.
  Proof.
    unfold said, used, uses_of. split.
    - match goal with |- context [filter ?f us] => destruct (filter f us) as [|[k vs] l] eqn:E end; [congruence|]. intros _. exists vs.
      assert (H : In (k, vs) ((k, vs) :: l)) by now left. rewrite <- E in H. apply filter_In in H. destruct H as [H X]. cbn [fst] in X.
      destruct (list_eq_dec N.eq_dec k (txt n)) as [->|]; [assumption|discriminate].
    - intros [vs H]. match goal with |- context [filter ?f us] => destruct (filter f us) as [|u l] eqn:E end; [|discriminate].
      exfalso. match type of E with filter ?f us = _ => assert (X : In (txt n, vs) (filter f us)) end.
      { apply filter_In. split; [assumption|]. cbn [fst]. now destruct (list_eq_dec N.eq_dec (txt n) (txt n)). }
      rewrite E in X. destruct X.
  Qed.
  Lemma values_said mn us m dc n : understood fill mn us (values_of m) -> In dc (decls mn) -> d_name dc = txt n -> d_default dc = None ->
    values_of m (txt n) = said n us.
  Proof.
    intros U Hd En Ed. destruct (U dc Hd) as [U1 U2]. rewrite En in *. destruct (said n us) as [vs|] eqn:E.
    - assert (Hu : used (txt n) us) by (apply said_used; rewrite E; discriminate). rewrite U1 by now left.
      unfold ends_with_values. rewrite En, Ed. unfold said in E. destruct (uses_of (txt n) us); [discriminate|]. rewrite <- E.
      now destruct (values_given (txt n) us).
    - apply U2; [|assumption]. intro Hu. apply said_used in Hu. congruence.
  Qed.
  Lemma present_said m n : values_of m (txt n) = None <-> is_present m (txt n) = false.
  Proof. unfold values_of, is_present. destruct (look m (txt n)) as [x|]; split; (reflexivity || discriminate). Qed.
  Lemma typed_starts ap mn us ws A (run : matches -> A) : In (ap, mn) tools -> typed fill d mn us ws ->
    exists m, get_matches ap fill ws = Parsed m /\ understood fill mn us (values_of m) /\ start_of ap fill run ws = Runs d (run m).
  Proof.
    intros Ht (Hw & Ha & Hd). destruct (C143_meaning ap mn fill ws us Ht Hw Ha) as (m & Em & U).
    destruct (C148_directory ap mn fill ws us A run Ht Hw Ha) as (m' & Em' & Es & _). exists m. split; [assumption|]. split; [assumption|].
    rewrite Em in Em'. injection Em' as <-. rewrite Es. unfold directory in Hd. now rewrite Hd.
  Qed.

  Lemma released_openable s : openable (fs_lock (released s)) = true.
  Proof. now destruct s. Qed.
  (** gc-random with a number of edges that can be drawn: it ends, and stores what was drawn. *)
  Lemma random_holds rng (a : random_args) n m q s b : digit_table nd -> buffering chunks -> hash_order order -> (forall k, rng k < 2 ^ 64) ->
    r_force a = true -> id_argument (r_vertices a) n -> 3 * n < 2 ^ 64 -> PropRandomMain.wanted a n m ->
    least_nat (fun q => PropDraws.enough (N.to_nat n) (N.to_nat m) rng (q * (N.to_nat n - 1))) q -> holds nd s b ->
    exists s' f, (forall fuel checked answer, (f <= fuel)%nat ->
      run_prog (gc_random_main checked chunks order rng a answer fuel) s = (s', Done Success)) /\
      holds nd s' (drawn (N.to_nat n) rng (q * (N.to_nat n - 1))).
  Proof.
    intros T B O Hr Hf Hn H3 Hm Hq (Hl & c & cs0 & Eg & _).
    assert (HC : forall checked, random_counts checked a = Done (N.to_nat n, N.to_nat m)).
    { intro checked. pose proof (counts_spec checked a) as H. destruct (random_counts checked a) as [[vc ec]| |].
      - destruct H as (n' & m' & Hn' & _ & Hm' & -> & ->). rewrite <- (id_argument_fun _ _ _ Hn Hn') in *.
        now rewrite <- (wanted_fun _ _ _ _ Hm Hm').
      - exfalso. destruct H as [H|(n' & Hn' & -> & Hge)]; [exact (H _ Hn)|]. rewrite <- (id_argument_fun _ _ _ Hn Hn') in Hge. lia.
      - exfalso. destruct H as [H|(n' & Hn' & -> & Hge)]; [exact (H _ Hn)|]. rewrite <- (id_argument_fun _ _ _ Hn Hn') in Hge. lia. }
    set (vc := N.to_nat n) in *. set (ec := N.to_nat m) in *.
    assert (HG : exists g f, (forall fuel, (f <= fuel)%nat -> creates_random_dag fuel vc ec rng = Done g) /\ a_same (shown g) (drawn vc rng (q * (vc - 1)))).
    { destruct (le_lt_dec vc 1) as [Hv|Hv].
      - destruct Hq as [(L & _ & HL & HD) _].
        assert (Z : (q * (vc - 1) = 0)%nat) by (replace (vc - 1)%nat with 0%nat by lia; lia). rewrite Z in HD |- *.
        assert (ec = 0)%nat as ->. { destruct L as [|[x y] L]; [now rewrite <- HL|]. destruct (HD x y (or_introl eq_refl)) as (k & Hk & _). lia. }
        exists g_new, 0%nat. split.
        { intros fuel _. destruct fuel; reflexivity. }
        split; cbn [aV aE shown drawn].
        + intro v. split; [discriminate|]. intros (w & [(k & Hk & _)|(k & Hk & _)]); lia.
        + intros u v. split; [discriminate|]. intros (k & Hk & _). lia.
      - destruct (C118_generated_graph rng vc ec ltac:(lia) q Hq) as (g & [f Hfu] & Ge & Gv). exists g, f. split; [exact Hfu|].
        split; cbn [aV aE shown drawn].
        + intro v. rewrite Gv. split; intros (w & H); exists w; rewrite !Ge in *; exact H.
        + intros u v. apply Ge. }
    destruct HG as (g & f & HG & Sg). specialize (HG f (le_n _)) as Hd.
    destruct (C73_random_dag rng vc ec f g Hd) as (Bg & _). destruct (C75_vertex_count rng vc ec f g Hd) as (_ & Hseen).
    apply built_wf in Bg as W. pose proof (shown_perm W (O g)) as So.
    assert (Bo : built (order g)) by (destruct Bg as [cs Hb]; exists cs; eapply built_rehash; [exact Hb|apply O]).
    apply built_wf in Bo as Wo.
    assert (Un : n < 2 ^ 64) by exact (id_argument_u64 _ _ Hn).
    assert (Uo : u64_graph (order g)).
    { intros v Hv. apply (proj1 So) in Hv. unfold u64. destruct (Hseen v Hv) as [H|[k ->]].
      - unfold vc in H. rewrite N2Nat.id in H. lia.
      - apply Hr. }
    assert (E1 : forall answer, exists s', run_prog (gc_random chunks (order g) true answer) s = (s', Success) /\
      fs_lock s' = Absent /\ fs_graph s' = GraphDir (File (gcmd_text (order g))) /\ s' = fst (run_prog (gc_random chunks (order g) true []) s)).
    { intro answer. unfold gc_random. cbn [negb andb]. rewrite !run_bind, !run_clean, Hl, Eg. cbn [fst snd].
      rewrite !run_bind, !run_init. cbn [fst snd set_graph fs_graph released].
      rewrite !run_bind, !run_save by assumption. cbn [fst snd set_commands set_root set_graph fs_graph run_prog].
      eexists. repeat split. }
    destruct (E1 []) as (s' & E & L1 & L2 & _). exists s', f. split.
    - intros fuel checked answer Hfu. unfold gc_random_main. rewrite HC. fold vc ec. rewrite (HG fuel Hfu), Hf, run_bind.
      destruct (E1 answer) as (s2 & E2 & _ & _ & ->). rewrite E2. rewrite E. reflexivity.
    - split; [now rewrite L1|]. exists (gcmd_text (order g)), (as_commands (order g)). split; [assumption|].
      rewrite gcmd_text_commands. split; [apply closed_commands|]. split; [apply read_commands_text; [assumption|now apply as_commands_u64]|].
      eapply a_same_trans; [apply a_same_sym, (refines (built_by_apply (as_commands (order g))))|].
      eapply a_same_trans; [now apply as_commands_roundtrip|]. eapply a_same_trans; [exact So|exact Sg].
  Qed.
  Lemma turns_does l o o' s : digit_table nd -> buffering chunks -> hash_order order -> turns fill d l o o' -> stands s o ->
    exists s', does l s s' /\ stands s' o'.
  Proof.
    intros T B O H Hs.
    destruct H as [us ws Hty|us ws a Hty|us ws a lv le lc ly ls lq reverse Hty Hv He Hc Hy Hst Hq Hev Hr|us ws a lv le Hty Hv He Hev|us ws a Hty|us ws a Hty Hf|rng us ws a n m q Hty Hf Hrg Hn H3 Hm Hq];
      cbn [does].
    - destruct (typed_starts app_init manual_init us ws _ (fun _ => gc_init) ltac:(in_tools) Hty) as (m & _ & _ & Es). destruct Hs as [Hl Hg].
      assert (H1 : exists s1, run_prog gc_init s = (s1, Success) /\ holds nd s1 a_empty).
      { unfold gc_init. rewrite run_bind, run_init. destruct Hg as [-> | ->]; cbn; (eexists; split; [reflexivity|]);
          (split; [exact Hl|]); exists [], []; (split; [reflexivity|]); (split; [now left|]); (split; [reflexivity|]); apply a_same_refl. }
      destruct H1 as (s1 & E1 & H1). exists s1. split; [|exact H1]. exists gc_init, Success. unfold init_main. now rewrite Es.
    - destruct (typed_starts app_init manual_init us ws _ (fun _ => gc_init) ltac:(in_tools) Hty) as (m & _ & _ & Es).
      destruct Hs as (Hl & c & cs & Eg & Hc & Hrd & Ha).
      assert (H1 : exists s1, run_prog gc_init s = (s1, Success) /\ holds nd s1 a).
      { unfold gc_init. rewrite run_bind, run_init, Eg. cbn. eexists. split; [reflexivity|]. split; [exact Hl|]. now exists c, cs. }
      destruct H1 as (s1 & E1 & H1). exists s1. split; [|exact H1]. exists gc_init, Success. unfold init_main. now rewrite Es.
    - destruct (typed_starts app_add manual_add us ws _ (fun m => gc_add chunks (add_of m)) ltac:(in_tools) Hty) as (m & Em & U & Es).
      destruct (C147_enough_values fill ws m Em) as (_ & _ & Mc & My & _).
      assert (Z : forall o, many 2 o -> o <> Some []) by (intros o Hm ->; cbn in Hm; lia).
      assert (Er : a_reverse (add_of m) = reverse).
      { cbn [add_of a_reverse]. pose proof (present_said m "reverse") as X.
        rewrite (values_said manual_add us m (switch "reverse" "r") "reverse" U ltac:(in_decls) eq_refl eq_refl) in X.
        pose proof (said_used "reverse" us) as Y. destruct (is_present m (txt "reverse")), reverse; try reflexivity.
        - exfalso. assert (N1 : said "reverse" us <> None) by (intro N1; apply X in N1; discriminate). apply Y, Hr in N1. discriminate.
        - exfalso. apply Y; [now apply Hr|now apply X]. }
      assert (D : denotes (add_of m) lv le lc ly ls lq).
      { constructor; try assumption; try (now apply Z); cbn [add_of a_vertex a_edge a_chain a_cycle Cli.a_star a_clique].
        - now rewrite (values_said manual_add us m (often "vertex" "v") "vertex" U ltac:(in_decls) eq_refl eq_refl).
        - now rewrite (values_said manual_add us m (some_of 2 "edge" "e") "edge" U ltac:(in_decls) eq_refl eq_refl).
        - now rewrite (values_said manual_add us m (some_of 2 "chain" "c") "chain" U ltac:(in_decls) eq_refl eq_refl).
        - now rewrite (values_said manual_add us m (some_of 2 "cycle" "O") "cycle" U ltac:(in_decls) eq_refl eq_refl).
        - now rewrite (values_said manual_add us m (some_of 2 "star" "X") "star" U ltac:(in_decls) eq_refl eq_refl).
        - now rewrite (values_said manual_add us m (some_of 2 "clique" "C") "clique" U ltac:(in_decls) eq_refl eq_refl). }
      destruct (C80_gc_add nd chunks _ _ _ _ _ _ _ s a T B D Hs) as (s' & g & E & _ & _ & Sa & Hh). rewrite Er in Sa.
      exists s'. split; [|now apply (holds_same nd s' (shown g))]. exists (gc_add chunks (add_of m)), Success. unfold add_main. now rewrite Es.
    - destruct (typed_starts app_delete manual_delete us ws _ (fun m => gc_delete chunks (values_of m (txt "vertex")) (values_of m (txt "edge"))) ltac:(in_tools) Hty)
        as (m & Em & U & Es).
      assert (E1 := values_said manual_delete us m (often "vertex" "v") "vertex" U ltac:(in_decls) eq_refl eq_refl).
      assert (E2 := values_said manual_delete us m (some_of 2 "edge" "e") "edge" U ltac:(in_decls) eq_refl eq_refl).
      destruct (C82_gc_delete nd chunks _ _ _ _ s a T B Hv He Hev Hs) as (s' & g & E & _ & _ & Sa & Hh).
      exists s'. split; [|now apply (holds_same nd s' (shown g))].
      eexists _, Success. unfold delete_main. rewrite Es. split; [reflexivity|]. split; [|reflexivity]. now rewrite E1, E2.
    - destruct (typed_starts app_build manual_build us ws _ (fun m => gc_build_print nd chunks order (is_present m (txt "verbose"))) ltac:(in_tools) Hty)
        as (m & _ & _ & Es).
      destruct (holds_build nd chunks order s a T B O Hs) as [H1 H2].
      destruct (C112_build_prints nd chunks order (is_present m (txt "verbose")) s B O) as (E1 & E2 & _).
      exists (fst (run_prog (gc_build nd chunks order) s)). split; [|exact H2].
      exists (gc_build_print nd chunks order (is_present m (txt "verbose"))), (snd (run_prog (gc_build_print nd chunks order (is_present m (txt "verbose"))) s)).
      unfold build_main. split; [exact Es|]. split; [rewrite <- E1; apply surjective_pairing|congruence].
    - destruct Hs as (Hl & c & cs & Eg & _). exists (set_graph NoGraph (released s)). split.
      + intro answer.
        destruct (typed_starts app_clean manual_clean us ws _ (fun m => gc_clean (is_present m (txt "force")) answer) ltac:(in_tools) Hty) as (m & _ & U & Es).
        eexists _, Success. unfold clean_main. split; [exact Es|]. split; [|reflexivity].
        assert (Ef : is_present m (txt "force") = true).
        { destruct (is_present m (txt "force")) eqn:E; [reflexivity|]. apply present_said in E.
          rewrite (values_said manual_clean us m (switch "force" "f") "force" U ltac:(in_decls) eq_refl eq_refl) in E. now apply said_used in Hf. }
        rewrite Ef. unfold gc_clean. cbn [negb andb]. rewrite run_bind, run_clean, Hl, Eg. reflexivity.
      + split; [now destruct s|left; now destruct s].
    - assert (HM : exists ra, (forall checked answer fuel, random_main chunks order fill checked rng answer fuel ws = Runs d (gc_random_main checked chunks order rng ra answer fuel)) /\
        r_force ra = true /\ r_vertices ra = match said_one "vertex-count" us with Some v => v | None => txt "100" end /\ r_edges ra = said_one "edge-count" us).
      { assert (HX := fun checked answer fuel => typed_starts app_random manual_random us ws _ (fun m => gc_random_main checked chunks order rng (random_of m) answer fuel) ltac:(in_tools) Hty).
        destruct (HX true [] 0%nat) as (m0 & Em & U & _). exists (random_of m0). split; [|split; [|split]].
        - intros checked answer fuel. destruct (HX checked answer fuel) as (m1 & Em1 & _ & Es). rewrite Em in Em1. injection Em1 as <-. exact Es.
        - cbn [random_of r_force]. destruct (is_present m0 (txt "force")) eqn:E; [reflexivity|]. apply present_said in E.
          rewrite (values_said manual_random us m0 (switch "force" "f") "force" U ltac:(in_decls) eq_refl eq_refl) in E. now apply said_used in Hf.
        - cbn [random_of r_vertices]. unfold Mains.given, value_of.
          destruct (U (with_default "vertex-count" "v" "100" true) ltac:(in_decls)) as [U1 _]. cbn [d_name with_default] in U1.
          rewrite U1 by (right; discriminate). destruct Hty as (_ & (Hal & _) & _).
          pose proof (Hal (with_default "vertex-count" "v" "100" true) ltac:(in_decls)) as Hal1. cbn [d_name d_values with_default] in Hal1.
          unfold ends_with_values in *. cbn [d_name d_default with_default] in *. unfold said_one, said.
          pose proof (said_used "vertex-count" us) as SU. unfold said in SU.
          destruct (uses_of (txt "vertex-count") us) as [|u l] eqn:Eu.
          + unfold values_given. rewrite Eu. reflexivity.
          + assert (Hu : used (txt "vertex-count") us) by (apply SU; discriminate). destruct (Hal1 Hu) as [[Hge _] _].
            destruct (values_given (txt "vertex-count") us) as [|v vs]; [|reflexivity]. destruct fill; [reflexivity|cbn in Hge; lia].
        - cbn [random_of r_edges]. unfold value_of, said_one.
          now rewrite (values_said manual_random us m0 (one "edge-count" "e") "edge-count" U ltac:(in_decls) eq_refl eq_refl). }
      destruct HM as (ra & Es & F1 & F2 & F3). rewrite <- F2 in Hn.
      assert (Hw : PropRandomMain.wanted ra n m) by (unfold PropRandomMain.wanted; rewrite F3; destruct Hm as [Hm|[Hm ->]]; [now left|right; split; [assumption|symmetry; now apply N.mod_small]]).
      destruct (random_holds rng ra n m q s a T B O Hrg F1 Hn H3 Hw Hq Hs) as (s' & f & HR & Hh). exists s'. split; [|assumption].
      exists f. intros fuel checked answer Hfu. exists (gc_random_main checked chunks order rng ra answer fuel), (Done Success).
      split; [apply Es|]. split; [now apply HR|reflexivity].
  Qed.
End Doing.

(** A session of accepted lines does what it means: from any stored graph, or from a directory without one. *)
Theorem C158_session : forall nd chunks order fill d ls o o' s, digit_table nd -> buffering chunks -> hash_order order ->
  session fill d ls o o' -> stands nd s o -> exists s', runs_lines nd chunks order fill d ls s s' /\ stands nd s' o'.
Proof.
  intros nd chunks order fill d ls o o' s T B O H. revert s. induction H as [o|l ls o o1 o2 Hl _ IH]; intros s Hs.
  - exists s. split; [constructor|assumption].
  - destruct (turns_does nd chunks order fill d l o o1 s T B O Hl Hs) as (s1 & D1 & H1). destruct (IH s1 H1) as (s2 & D2 & H2).
    exists s2. split; [|assumption]. now apply (runs_line _ _ _ _ _ l ls s s1 s2).
Qed.
Print Assumptions C158_session.

(** ** Questions about the graph a session leaves *)
Definition bounds_said (us : list use) : bound_args := {|
  b_min_length := said_one "min-length" us; b_max_length := said_one "max-length" us; b_exact_length := said_one "exact-length" us;
  b_min_score := said_one "min-score" us; b_max_score := said_one "max-score" us; b_exact_score := said_one "exact-score" us |}.
Definition yes (n : string) (us : list use) : bool := match said n us with Some _ => true | None => false end.
Definition csp_said (us : list use) : csp_args := {|
  q_include := said "include" us; q_exclude := said "exclude" us; q_ordered := said "ordered" us;
  q_include_cycle := yes "include-cycle" us; q_no_cycle := yes "no-cycle" us; q_bounds := bounds_said us |}.
Definition cycle_said (us : list use) : cycle_args := {|
  c_girth := yes "girth" us; c_hamiltonian := yes "hamiltonian" us; c_count := yes "count" us; c_shortest := yes "shortest" us;
  c_longest := yes "longest" us; c_head := yes "head" us; c_take_n := said_one "take-n" us; c_all := yes "all" us;
  c_include := said "include-all" us; c_exclude := said "exclude-all" us;
  c_include_edges := said "include-all-edges" us; c_exclude_edges := said "exclude-all-edges" us; c_bounds := bounds_said us |}.

Section Seen.
  Variable fill : bool.
  Variable mn : manual.
  Variable us : list use.
  Variable m : matches.
  Hypothesis U : understood fill mn us (values_of m).
  Definition plain_option (n : string) : bool :=
    existsb (fun d => text_eqb (d_name d) (txt n) && match d_default d with None => true | Some _ => false end) (decls mn).
  Lemma seen_values n : plain_option n = true -> values_of m (txt n) = said n us.
  Proof.
    intro H. apply existsb_exists in H. destruct H as (dc & Hd & H). apply andb_true_iff in H. destruct H as [H1 H2].
    apply text_eqb_spec in H1. apply (values_said fill mn us m dc n U Hd H1). now destruct (d_default dc).
  Qed.
  Lemma seen_value n : plain_option n = true -> value_of m (txt n) = said_one n us.
  Proof. intro H. unfold value_of, said_one. now rewrite (seen_values n H). Qed.
  Lemma seen_present n : plain_option n = true -> is_present m (txt n) = yes n us.
  Proof.
    intro H. unfold yes. rewrite <- (seen_values n H). unfold values_of, is_present. now destruct (look m (txt n)).
  Qed.
End Seen.
Lemma seen_csp fill us m : understood fill manual_csp us (values_of m) -> csp_of m = csp_said us.
Proof.
  intro U. unfold csp_of, csp_said, bounds_of, bounds_said.
  repeat rewrite (seen_values _ _ _ _ U) by reflexivity. repeat rewrite (seen_value _ _ _ _ U) by reflexivity.
  repeat rewrite (seen_present _ _ _ _ U) by reflexivity. reflexivity.
Qed.
Lemma seen_cycle fill us m : understood fill manual_cycle us (values_of m) -> cycle_of m = cycle_said us.
Proof.
  intro U. unfold cycle_of, cycle_said, bounds_of, bounds_said.
  repeat rewrite (seen_values _ _ _ _ U) by reflexivity. repeat rewrite (seen_value _ _ _ _ U) by reflexivity.
  repeat rewrite (seen_present _ _ _ _ U) by reflexivity. reflexivity.
Qed.
Lemma stands_loads nd s a : digit_table nd -> holds nd s a -> exists g, loads nd s g /\ a_same (shown g) a.
Proof.
  intros T H. destruct (holds_load nd s a T H) as (g & E & _ & Sa). exists g. split; [|assumption].
  unfold loads. unfold load_graph in *. cbn in *. now rewrite E.
Qed.

(** gc-short-path *)
Theorem C158_short_path : forall nd chunks order Q fill d ls a us ws va vb x y s, digit_table nd -> buffering chunks -> hash_order order ->
  pops_least Q sp_score -> session fill d ls None (Some a) -> stands nd s None ->
  typed fill d manual_short_path us ws -> said_one "start" us = Some va -> said_one "end" us = Some vb -> id_argument va x -> id_argument vb y ->
  exists s' p dx dy, runs_lines nd chunks order fill d ls s s' /\ (forall fuel, short_path_main nd order Q fill fuel ws = Runs d (p fuel)) /\
  canonical_numeral dx x /\ canonical_numeral dy y /\
  ((~ reachable (aE a) x y /\ prints p s' [txt "Vertex " ++ dy ++ txt " is not reachable from vertex " ++ dx ++ txt "."]) \/
   (exists w n lines, walk_from_to (aE a) x y w /\ NoDup w /\ distance (aE a) x y (hops w) /\ canonical_numeral n (N.of_nat (hops w)) /\ listed w lines /\
      prints p s' ((txt "Shortest path from vertex " ++ dx ++ txt " to vertex " ++ dy ++ txt " with total cost of " ++ n) :: lines))).
Proof.
  intros nd chunks order Q fill d ls a us ws va vb x y s T B O HQ HS Hs Hty E1 E2 Hx Hy.
  destruct (C158_session nd chunks order fill d ls _ _ s T B O HS Hs) as (s' & R & Hh). destruct (stands_loads nd s' a T Hh) as (g & L & _ & SE).
  destruct (C84_short_path nd order Q s' g va vb x y O HQ L Hx Hy) as (dx & dy & Dx & Dy & A).
  exists s', (gc_short_path nd order Q va vb), dx, dy. split; [assumption|]. split.
  { intro fuel. unfold short_path_main.
    destruct (typed_starts fill d app_short_path manual_short_path us ws _ (fun m => gc_short_path nd order Q (Mains.given m (txt "start")) (Mains.given m (txt "end")) fuel) ltac:(in_tools) Hty)
      as (m & _ & U & Es). rewrite Es. unfold Mains.given. rewrite (seen_value _ _ _ _ U "start" eq_refl), (seen_value _ _ _ _ U "end" eq_refl), E1, E2. reflexivity. }
  split; [assumption|]. split; [assumption|]. assert (SE' : same_edges (gE g) (aE a)) by exact SE.
  destruct A as [[A1 A2]|(w & n & lines & W & N1 & D1 & C1 & L1 & P1)]; [left|right].
  - split; [|assumption]. intro Hr. apply A1. now apply (reachable_same (aE a)); [apply same_edges_sym|].
  - exists w, n, lines. split; [now apply (walk_same (gE g))|]. split; [assumption|]. split; [now apply (distance_same (gE g))|]. auto.
Qed.
Print Assumptions C158_short_path.
(** gc-csp, whatever its options; how they are understood and applied is C160. *)
Theorem C158_csp : forall nd chunks order Q fill d ls a us ws va vb x y s, digit_table nd -> buffering chunks -> hash_order order ->
  pops_least Q sp_score -> session fill d ls None (Some a) -> stands nd s None ->
  typed fill d manual_csp us ws -> said_one "start" us = Some va -> said_one "end" us = Some vb -> id_argument va x -> id_argument vb y ->
  exists r s' p g hs, csp_understood (csp_said us) r /\
    runs_lines nd chunks order fill d ls s s' /\ (forall fuel, csp_main nd order Q fill fuel ws = Runs d (p fuel)) /\
    a_same (shown g) a /\ Forall2 printed (applied r) hs /\
    let header := txt "Constraint that will be applied to search are: " :: hs in
    (forall fuel out, snd (run_prog (p fuel) s') = Done out -> exists answer, out = header ++ answer /\
       (asked_found g r x y answer \/ (forall w, ~ asked g r x y w) /\ csp_none x y answer)) /\
    ((exists w, asked g r x y w) -> exists answer, asked_found g r x y answer /\ prints p s' (header ++ answer)) /\
    ((exists out, prints p s' out) <->
     (exists w, asked g r x y w) \/ exists L, forall w, explored (aE a) r x w -> (length w <= L)%nat).
Proof.
  intros nd chunks order Q fill d ls a us ws va vb x y s T B O HQ HS Hs Hty E1 E2 Hx Hy.
  destruct (proj1 (C160_understood (csp_said us) (cycle_said us))) as (r & Hr & _). exists r.
  destruct (C158_session nd chunks order fill d ls _ _ s T B O HS Hs) as (s' & R & Hh). destruct (stands_loads nd s' a T Hh) as (g & L & SV & SE).
  destruct (C160_csp (csp_said us) r Hr) as (hs & Hhs & A). destruct (A nd order Q s' g va vb x y O HQ L Hx Hy) as (A1 & A2 & _).
  exists s', (gc_csp nd order Q va vb (csp_said us)), g, hs. split; [assumption|]. split; [assumption|]. split.
  { intro fuel. unfold csp_main.
    destruct (typed_starts fill d app_csp manual_csp us ws _ (fun m => gc_csp nd order Q (Mains.given m (txt "start")) (Mains.given m (txt "end")) (csp_of m) fuel) ltac:(in_tools) Hty)
      as (m & _ & U & Es). rewrite Es. unfold Mains.given. rewrite (seen_value _ _ _ _ U "start" eq_refl), (seen_value _ _ _ _ U "end" eq_refl), E1, E2, (seen_csp _ _ _ U). reflexivity. }
  split; [now split|]. split; [assumption|]. split; [exact A1|]. split; [exact A2|].
  rewrite (C160_halts nd order Q s' g (csp_said us) r va vb x y O HQ L Hr Hx Hy).
  assert (HE : forall w, explored (gE g) r x w <-> explored (aE a) r x w).
  { intro w. unfold explored. assert (Hw : walk_from (gE g) x w <-> walk_from (aE a) x w); [|now rewrite Hw].
    split; intros [W1 W2]; (split; [assumption|]); intros u v Huv; now apply SE, W2. }
  split; (intros [H|[n Hn]]; [now left|right; exists n; intros w Hw; now apply Hn, HE]).
Qed.
Print Assumptions C158_csp.
(** gc-cycle, whatever its options; what it enumerates is C87. *)
Theorem C158_cycle : forall nd chunks order fill d ls a us ws s, digit_table nd -> buffering chunks -> hash_order order ->
  session fill d ls None (Some a) -> stands nd s None -> typed fill d manual_cycle us ws ->
  exists r s' p g seen kept, cycle_understood (cycle_said us) r /\
    runs_lines nd chunks order fill d ls s s' /\ (forall fuel, cycle_main nd order fill fuel ws = Runs d (p fuel)) /\
    a_same (shown g) a /\ enumerates seen (cycle_seen g (head_option (order g))) /\ NoDup kept /\ (forall c, In c kept <-> In c seen /\ cycle_obeys r c) /\
    (forall c e, before c e kept -> before c e seen) /\
    forall x, QuerySpec.asks (cycle_said us) x -> exists lines, prints p s' lines /\ cycle_output g x seen kept lines.
Proof.
  intros nd chunks order fill d ls a us ws s T B O HS Hs Hty.
  destruct (proj2 (C160_understood (csp_said us) (cycle_said us))) as (r & Hr & _). exists r.
  destruct (C158_session nd chunks order fill d ls _ _ s T B O HS Hs) as (s' & R & Hh). destruct (stands_loads nd s' a T Hh) as (g & L & Sa).
  destruct (C160_cycle nd order s' g O L) as (seen & Hseen & A). destruct (A _ r Hr) as (kept & K1 & K2 & K3 & K4).
  exists s', (gc_cycle nd order (cycle_said us)), g, seen, kept. split; [assumption|]. split; [assumption|]. split; [|auto 8].
  intro fuel. unfold cycle_main.
  destruct (typed_starts fill d app_cycle manual_cycle us ws _ (fun m => gc_cycle nd order (cycle_of m) fuel) ltac:(in_tools) Hty) as (m & _ & U & Es).
  now rewrite Es, (seen_cycle _ _ _ U).
Qed.
Print Assumptions C158_cycle.
(** gc-topo-sort on every graph: it answers if there is no cycle besides, possibly, one
    self-loop on a vertex without other outgoing edges, which it leaves out (C88). *)
Theorem C158_topo_sort : forall nd chunks order fill d ls a us ws s, digit_table nd -> buffering chunks -> hash_order order ->
  session fill d ls None (Some a) -> stands nd s None -> typed fill d manual_topo_sort us ws ->
  exists s' p, runs_lines nd chunks order fill d ls s s' /\ (forall fuel, topo_sort_main nd order fill fuel ws = Runs d (p fuel)) /\
    let answered := acyclic (aE a) \/ exists v, only_a_terminal_loop (aE a) v in
    (answered -> exists vs t, enumerates vs (fun v => aV a v /\ ~ aE a v v) /\ (forall u v, aE a u v -> ~ aE a v v -> before u v vs) /\ spaced vs t /\
       prints p s' [txt "Topological order: " ++ t]) /\
    (~ answered -> prints p s' [txt "Graph is not a DAG."]).
Proof.
  intros nd chunks order fill d ls a us ws s T B O HS Hs Hty.
  destruct (C158_session nd chunks order fill d ls _ _ s T B O HS Hs) as (s' & R & Hh). destruct (stands_loads nd s' a T Hh) as (g & L & SV & SE).
  assert (SE' : same_edges (gE g) (aE a)) by exact SE. assert (SE2 := same_edges_sym _ _ SE').
  assert (AC : forall E F, same_edges E F -> acyclic E -> acyclic F).
  { intros E F H HE c (v & W & Hc). apply (HE c). exists v. split; [|assumption]. now apply (walk_same F E); [apply same_edges_sym|]. }
  assert (AN : forall E F, same_edges E F -> acyclic E \/ (exists v, only_a_terminal_loop E v) -> acyclic F \/ exists v, only_a_terminal_loop F v).
  { intros E F H [HE|[v HE]]; [left; now apply (AC E)|right]. exists v. now apply (only_terminal_same E). }
  destruct (C88_exact nd order s' g O L) as [A1 A2].
  exists s', (gc_topo_sort nd order). split; [assumption|]. split; [|cbn zeta; split].
  - intro fuel. unfold topo_sort_main.
    destruct (typed_starts fill d app_topo_sort manual_topo_sort us ws _ (fun _ => gc_topo_sort nd order fuel) ltac:(in_tools) Hty) as (m & _ & _ & Es). exact Es.
  - intro H. destruct (A1 (AN _ _ SE2 H)) as (vs & t & [V1 V2] & V3 & V4 & V5). exists vs, t.
    split; [split; [assumption|]|split; [|now split]].
    + intro v. rewrite V2. pose proof (SE' v v) as X. pose proof (SV v) as Y. cbn in Y. cbn. tauto.
    + intros u v Huv Hvv. apply V3; [now apply SE|]. intro H'. now apply Hvv, SE.
  - intro H. apply A2. intro H'. apply H. now apply (AN (gE g)).
Qed.
Print Assumptions C158_topo_sort.
(** gc-desc; every two self-loops count as one edge (C04). *)
Theorem C158_desc : forall nd chunks order fill d ls a us ws s, digit_table nd -> buffering chunks -> hash_order order ->
  session fill d ls None (Some a) -> stands nd s None -> typed fill d manual_desc us ws ->
  exists s' p n e lo hi, runs_lines nd chunks order fill d ls s s' /\ desc_main nd order fill ws = Runs d p /\
    run_prog p s' = (s', Some [txt "Vertices: " ++ n; txt "Edges: " ++ e; txt "Min vertex id: " ++ lo; txt "Max vertex id: " ++ hi]) /\
    (forall vs, enumerates vs (aV a) -> canonical_numeral n (N.of_nat (length vs))) /\
    (forall straight loops, enumerates straight (fun x => aE a (fst x) (snd x) /\ fst x <> snd x) -> enumerates loops (fun v => aE a v v) ->
       canonical_numeral e (N.of_nat (length straight + Nat.div (length loops) 2))) /\
    ((forall v, ~ aV a v) -> lo = txt "-" /\ hi = txt "-") /\
    (forall v, aV a v -> exists least most, canonical_numeral lo least /\ canonical_numeral hi most /\ aV a least /\ aV a most /\
       forall x, aV a x -> least <= x <= most).
Proof.
  intros nd chunks order fill d ls a us ws s T B O HS Hs Hty.
  destruct (C158_session nd chunks order fill d ls _ _ s T B O HS Hs) as (s' & R & Hh). destruct (stands_loads nd s' a T Hh) as (g & L & SV & SE).
  assert (SV' : forall v, contains_vertex g v = true <-> aV a v) by exact SV.
  assert (SE' : forall u v, contains_edge g (u, v) = true <-> aE a u v) by exact SE.
  destruct (C76_desc nd order s' g O L) as (n & e & lo & hi & P & Dn & De & H0 & H1).
  exists s', (gc_desc nd order), n, e, lo, hi. split; [assumption|]. split.
  { unfold desc_main. destruct (typed_starts fill d app_desc manual_desc us ws _ (fun _ => gc_desc nd order) ltac:(in_tools) Hty) as (m & _ & _ & Es). exact Es. }
  split; [exact P|]. destruct (loaded nd order s' g O L) as (Bg & _).
  split; [|split; [|split]].
  - intros vs [N1 N2]. replace (length vs) with (length (vertices g)); [assumption|].
    apply Nat.le_antisymm; apply NoDup_incl_length; try assumption.
    + exact (proj1 (vertices_spec (built_wf Bg))).
    + intros v Hv. apply N2, SV'. now apply vertices_In.
    + intros v Hv. apply vertices_In, SV'. now apply N2.
  - intros straight loops [S1 S2] [L1 L2]. replace (length straight + Nat.div (length loops) 2)%nat with (edge_count g); [assumption|].
    rewrite <- (map_length (fun v => (v, v)) loops). apply (C04_edge_count_law g straight _ Bg).
    + split; [assumption|]. intros [u v]. rewrite S2. cbn [fst snd]. now rewrite SE'.
    + split; [apply FinFun.Injective_map_NoDup; [intros u v E; now injection E|assumption]|]. intros [u v]. cbn [fst snd]. rewrite in_map_iff, SE'. split.
      * intros (w & E & Hw). injection E as <- <-. split; [now apply L2|reflexivity].
      * intros [He <-]. exists u. split; [reflexivity|now apply L2].
  - intro H. apply H0. intro v. destruct (contains_vertex g v) eqn:E; [|reflexivity]. elim (H v). now apply SV'.
  - intros v Hv. destruct (H1 v) as (x & y & A1 & A2 & A3 & A4 & A5); [now apply SV'|]. exists x, y. do 2 (split; [assumption|]).
    split; [now apply SV'|]. split; [now apply SV'|]. intros z Hz. apply A5. now apply SV'.
Qed.
Print Assumptions C158_desc.

(** gc-init; gc-add --edge 7 3; gc-build; gc-add -r --chain 7 4 5; gc-delete --vertex 5; gc-short-path --start 7 --end 3 *)
Example C158_case : exists a us,
  session true (txt ".") [Init []; Add (map txt ["--edge"; "7"; "3"]%string); Build []; Add (map txt ["-r"; "--chain"; "7"; "4"; "5"]%string);
    Delete (map txt ["--vertex"; "5"]%string)] None (Some a) /\ stands table empty_dir None /\
  typed true (txt ".") manual_short_path us (map txt ["--start"; "7"; "--end"; "3"]%string) /\ said_one "start" us = Some (txt "7") /\
  aE a 7 3 /\ aE a 4 7 /\ ~ aV a 5.
Proof.
  assert (P : forall n, In n (map txt ["7"; "3"; "4"; "5"]%string) -> plain n).
  { intros n H. cbn in H. apply (proj2 (plain_dashed n)). now destruct H as [<-|[<-|[<-|[<-|[]]]]]. }
  assert (I : forall vs ns, map parse_vertex_id vs = map Some ns -> id_arguments vs ns).
  { induction vs as [|v vs IH]; intros [|n ns]; try discriminate; [constructor|]. cbn [map]. intros [= E1 E2]. constructor; [now apply parse_id_spec|now apply IH]. }
  eexists. exists [(txt "start", [txt "7"]); (txt "end", [txt "3"])]. split; [|split; [|split; [|split; [reflexivity|]]]].
  - eapply session_line; [apply (turns_init _ _ []); split; [constructor|split; [apply allowedb_ok; reflexivity|reflexivity]]|].
    eapply session_line.
    { apply (turns_add _ _ [(txt "edge", [txt "7"; txt "3"])] _ _ [] [7; 3] [] [] [] [] false); try reflexivity.
      - split; [|split; [apply allowedb_ok; reflexivity|reflexivity]].
        apply (written_values (decls manual_add) (some_of 2 "edge" "e") [txt "7"; txt "3"] [] []); [split; [in_decls|discriminate]|repeat constructor; apply P; cbn; tauto|constructor].
      - now apply I.
      - split; [discriminate|]. intros [vs [H|[]]]. discriminate H. }
    eapply session_line; [apply (turns_build _ _ []); split; [constructor|split; [apply allowedb_ok; reflexivity|reflexivity]]|].
    eapply session_line.
    { apply (turns_add _ _ [(txt "reverse", []); (txt "chain", [txt "7"; txt "4"; txt "5"])] _ _ [] [] [7; 4; 5] [] [] [] true); try reflexivity.
      - split; [|split; [apply allowedb_ok; reflexivity|reflexivity]].
        apply (written_word _ (txt "-r") [(txt "reverse", [])] false [] [(txt "reverse", [])] [(txt "chain", [txt "7"; txt "4"; txt "5"])]).
        { apply (short_letters _ (txt "r")); [discriminate|]. apply (letters_flag _ (switch "reverse" "r")); [split; [in_decls|reflexivity]|reflexivity|constructor]. }
        { constructor. } { now left. } { now left. }
        apply (written_values (decls manual_add) (some_of 2 "chain" "c") [txt "7"; txt "4"; txt "5"] [] []); [split; [in_decls|discriminate]|repeat constructor; apply P; cbn; tauto|constructor].
      - now apply I.
      - split; [intros _; exists []; now left|reflexivity]. }
    eapply session_line; [|constructor].
    apply (turns_delete _ _ [(txt "vertex", [txt "5"])] _ _ [5] []); try reflexivity.
    + split; [|split; [apply allowedb_ok; reflexivity|reflexivity]].
      apply (written_values (decls manual_delete) (often "vertex" "v") [txt "5"] [] []); [split; [in_decls|discriminate]|repeat constructor; apply P; cbn; tauto|constructor].
    + now apply I.
  - split; [reflexivity|now left].
  - split; [|split; [apply allowedb_ok; reflexivity|reflexivity]].
    apply (written_values (decls manual_short_path) (needed "start" "s") [txt "7"]); [split; [in_decls|discriminate]|repeat constructor; apply P; cbn; tauto|].
    apply (written_values (decls manual_short_path) (needed "end" "e") [txt "3"] [] []); [split; [in_decls|discriminate]|repeat constructor; apply P; cbn; tauto|constructor].
  - unfold a_minus, a_union, added. cbn [aE aV]. split; [|split; [|intros [_ H]; apply H; now left]].
    + split; [|split; [|split]].
      * left. right. left. now exists [], [].
      * intros [H|[]]. discriminate.
      * intros [H|[]]. discriminate.
      * intros (p & q & H). destruct p as [|[u v] p]; discriminate H.
    + split; [|split; [|split]].
      * right. right. left. now exists [], [5].
      * intros [H|[]]. discriminate.
      * intros [H|[]]. discriminate.
      * intros (p & q & H). destruct p as [|[u v] p]; discriminate H.
Qed.

(** gc-init; gc-random -f --vertex-count 3 --edge-count 3, with the random numbers 0, 10, 20, 30, .. *)
Lemma enough_same vc ec r r' n : (forall k, (k < n)%nat -> r k = r' k) -> PropDraws.enough vc ec r n -> PropDraws.enough vc ec r' n.
Proof.
  intros H (L & H1 & H2 & H3). exists L. split; [assumption|]. split; [assumption|]. intros x y Hxy. destruct (H3 x y Hxy) as (k & Hk & D).
  exists k. split; [assumption|]. unfold draws in *. now rewrite <- (H k Hk).
Qed.
Definition tens (k : nat) : N := if (k <? 4)%nat then N.of_nat (10 * k) else 30.
Example C158_random_case : exists a,
  session true (txt ".") [Init []; Random tens (map txt ["-f"; "--vertex-count"; "3"; "--edge-count"; "3"]%string)] None (Some a) /\
  stands table empty_dir None /\ aE a 2 10 /\ aV a 20 /\ ~ aE a 10 2.
Proof.
  assert (P : plain (txt "3")) by now apply (proj2 (plain_dashed (txt "3"))).
  eexists. split; [|split; [split; [reflexivity|now left]|]].
  - eapply session_line; [apply (turns_init _ _ []); split; [constructor|split; [apply allowedb_ok; reflexivity|reflexivity]]|].
    eapply session_line; [|constructor].
    apply (turns_random _ _ tens [(txt "force", []); (txt "vertex-count", [txt "3"]); (txt "edge-count", [txt "3"])] _ _ 3 3 2).
    + split; [|split; [apply allowedb_ok; reflexivity|reflexivity]].
      apply (written_word _ (txt "-f") [(txt "force", [])] false [] [(txt "force", [])]).
      { apply (short_letters _ (txt "f")); [discriminate|]. apply (letters_flag _ (switch "force" "f")); [split; [in_decls|reflexivity]|reflexivity|constructor]. }
      { constructor. } { now left. } { now left. }
      apply (written_values (decls manual_random) (with_default "vertex-count" "v" "100" true) [txt "3"]); [split; [in_decls|discriminate]|repeat constructor; assumption|].
      apply (written_values (decls manual_random) (one "edge-count" "e") [txt "3"] [] []); [split; [in_decls|discriminate]|repeat constructor; assumption|constructor].
    + exists []. now left.
    + intro k. unfold tens. destruct (Nat.ltb_spec k 4); lia.
    + now apply parse_id_spec.
    + reflexivity.
    + left. exists (txt "3"). split; [reflexivity|now apply parse_id_spec].
    + destruct (proj2 C118_case) as [H1 H2].
      assert (X : forall k, (k < 4)%nat -> tens k = N.of_nat (10 * k)) by (intros k Hk; unfold tens; now rewrite (proj2 (Nat.ltb_lt k 4) Hk)).
      split; [apply (enough_same _ _ _ _ _ (fun k Hk => eq_sym (X k Hk)) H1)|]. intros q Hq H. apply (H2 q Hq). refine (enough_same _ _ _ _ _ _ H).
      intros k Hk. apply X. change (N.to_nat 3) with 3%nat in Hk. lia.
  - cbn [drawn aE aV]. split; [|split].
    + exists 1%nat. split; [cbn; lia|]. split; [now left|reflexivity].
    + exists 1. right. exists 2%nat. split; [cbn; lia|]. split; [now left|reflexivity].
    + intros (k & _ & _ & H). cbn in H. discriminate H.
Qed.
