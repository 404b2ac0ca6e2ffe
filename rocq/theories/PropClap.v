From Coq Require Import String.
From Coq Require Import List NArith Bool Arith Lia.
From Verif Require Import Base Graph Text Queue Store Cli Query Path Iter RandomMain Verbose Clap ClapSpec ClapManual ClapFacts Mains.
Import ListNotations.
Open Scope N_scope.

(** The programs and their help texts. *)
Definition tools : list (application * manual) :=
  [(app_init, manual_init); (app_add, manual_add); (app_delete, manual_delete); (app_build, manual_build); (app_clean, manual_clean);
   (app_desc, manual_desc); (app_random, manual_random); (app_short_path, manual_short_path); (app_csp, manual_csp);
   (app_topo_sort, manual_topo_sort); (app_cycle, manual_cycle)].
Lemma tools_good : forall t, In t tools -> proper (fst t) /\ declares (fst t) (snd t).
Proof.
  assert (H : Forall (fun t => good_app (fst t) = true /\ declares (fst t) (snd t)) tools).
  { repeat (constructor; [split; [vm_compute; reflexivity|split; vm_compute; reflexivity]|]). constructor. }
  rewrite Forall_forall in H. intros t Ht. destruct (H t Ht) as [H1 H2]. split; [now apply good_app_proper|assumption].
Qed.

(** ** C143: what a command line means *)
Theorem C143_accepted_iff : forall ap mn fill ws, In (ap, mn) tools ->
  ((exists m, get_matches ap fill ws = Parsed m) <-> exists us, written (decls mn) us ws /\ allowed fill mn us).
Proof.
  intros ap mn fill ws Ht. destruct (tools_good _ Ht) as [HP HM]. cbn [fst snd] in HP, HM. split.
  - intros [m H]. destruct (get_matches_sound ap HP mn HM fill ws m H) as (us & H1 & H2 & _). now exists us.
  - intros (us & H1 & H2). destruct (get_matches_complete ap HP mn HM fill us ws H1 H2) as (m & H & _). now exists m.
Qed.
Print Assumptions C143_accepted_iff.
Theorem C143_meaning : forall ap mn fill ws us, In (ap, mn) tools -> written (decls mn) us ws -> allowed fill mn us ->
  exists m, get_matches ap fill ws = Parsed m /\ understood fill mn us (values_of m).
Proof.
  intros ap mn fill ws us Ht. destruct (tools_good _ Ht) as [HP HM]. cbn [fst snd] in HP, HM. now apply get_matches_complete.
Qed.
Print Assumptions C143_meaning.
(** The same, with conditions that compute. *)
Definition enoughb (v : option (nat * option nat)) (k : nat) : bool :=
  match v with
  | None => true
  | Some (lo, hi) => Nat.leb lo k && match hi with Some n => Nat.leb k n | None => true end
  end.
Definition nonempty {A} (l : list A) : bool := match l with [] => false | _ => true end.
Definition allowedb (fill : bool) (mn : manual) (us : list use) : bool :=
  forallb (fun d =>
    if nonempty (uses_of (d_name d) us)
    then enoughb (d_values d) (length (ends_with_values fill d us)) && (d_repeat d || Nat.eqb (length (uses_of (d_name d) us)) 1)
    else negb (d_required d) || match d_default d with Some _ => true | None => false end) (decls mn) &&
  (negb (nonempty (one_of mn)) || Nat.eqb (length (filter (fun n => nonempty (uses_of n us)) (one_of mn))) 1).
Lemma nonempty_used n us : nonempty (uses_of n us) = true <-> used n us.
Proof. rewrite <- uses_of_used. destruct (uses_of n us); cbn; split; intro; congruence. Qed.
Lemma allowedb_ok fill mn us : allowedb fill mn us = true -> allowed fill mn us.
Proof.
  unfold allowedb. rewrite andb_true_iff, forallb_forall. intros [H1 H2]. split; [|split].
  - intros d Hd Hu. specialize (H1 d Hd). apply nonempty_used in Hu. rewrite Hu, andb_true_iff in H1. destruct H1 as [K1 K2]. split.
    + unfold enoughb, enough in *. destruct (d_values d) as [[lo hi]|]; [|exact I]. apply andb_true_iff in K1. destruct K1 as [L1 L2].
      split; [now apply Nat.leb_le|]. destruct hi; [now apply Nat.leb_le|exact I].
    + intro Er. rewrite Er in K2. now apply Nat.eqb_eq.
  - intros d Hd Hr Hn. specialize (H1 d Hd). destruct (nonempty (uses_of (d_name d) us)) eqn:E; [now apply nonempty_used|].
    rewrite Hr, Hn in H1. discriminate.
  - intro Ho. destruct (one_of mn) as [|o l]; [congruence|]. cbn [nonempty negb orb] in H2. apply Nat.eqb_eq in H2.
    destruct (filter _ (o :: l)) as [|x [|y t]] eqn:E; try discriminate.
    assert (Hx : In x [x]) by now left. rewrite <- E in Hx. apply filter_In in Hx. exists x. split; [apply Hx|]. split; [now apply nonempty_used|].
    intros k Hk Hu. apply nonempty_used in Hu. assert (Hin : In k (filter (fun n => nonempty (uses_of n us)) (o :: l))) by now apply filter_In.
    rewrite E in Hin. destruct Hin as [->|[]]. reflexivity.
Qed.
Definition read_values (fill : bool) (mn : manual) (us : list use) (n : text) : option (list text) :=
  match find (fun d => text_eqb (d_name d) n) (decls mn) with
  | Some d => if nonempty (uses_of n us) || match d_default d with Some _ => true | None => false end then Some (ends_with_values fill d us) else None
  | None => None
  end.
Lemma read_line ap mn fill ws us : In (ap, mn) tools -> written (decls mn) us ws -> allowedb fill mn us = true ->
  exists m, get_matches ap fill ws = Parsed m /\
    forall n, existsb (fun d => text_eqb (d_name d) n) (decls mn) = true -> values_of m n = read_values fill mn us n.
Proof.
  intros Ht Hw Ha. destruct (C143_meaning ap mn fill ws us Ht Hw (allowedb_ok _ _ _ Ha)) as (m & Em & U). exists m. split; [assumption|].
  intros n Hn. unfold read_values. destruct (find _ (decls mn)) as [d|] eqn:Ef.
  - apply find_some in Ef. destruct Ef as [Hd E]. apply text_eqb_spec in E. subst n. destruct (U d Hd) as [U1 U2].
    destruct (nonempty (uses_of (d_name d) us)) eqn:E.
    + apply nonempty_used in E. apply U1. now left.
    + assert (~ used (d_name d) us) by (rewrite <- nonempty_used, E; discriminate). destruct (d_default d); [apply U1; right; discriminate|now apply U2].
  - apply existsb_exists in Hn. destruct Hn as (d & Hd & E). now rewrite (find_none _ _ Ef d Hd) in E.
Qed.
(** Puts what was read in place of the questions. *)
Ltac read_in m V :=
  repeat match goal with
         | |- context [values_of m ?n] =>
           let e := eval cbv beta in (values_of m n) in
           let H := fresh in pose proof (V n eq_refl) as H;
           match type of H with _ = ?r => let r' := eval vm_compute in r in change r with r' in H end; rewrite H; clear H
         end.
(** Any other line starts nothing. *)
Theorem C143_other_lines : forall ap mn fill ws A (run : matches -> A), In (ap, mn) tools ->
  ~ (exists us, written (decls mn) us ws /\ allowed fill mn us) -> exists ok, start_of ap fill run ws = Stops ok.
Proof.
  intros ap mn fill ws A run Ht Hn. unfold start_of. destruct (get_matches ap fill ws) as [m| |] eqn:E; [|now eexists|now eexists].
  exfalso. apply Hn. apply (C143_accepted_iff ap mn fill ws Ht). now exists m.
Qed.
Print Assumptions C143_other_lines.
Local Definition words (l : list string) : list text := map txt l.
(** gc-add -rv1 2 --edge 1 2 -C 3 4 --vertex=9 -p dir -- *)
Example C143_case : exists m,
  get_matches app_add true (words ["-rv1"; "2"; "--edge"; "1"; "2"; "-C"; "3"; "4"; "--vertex=9"; "-p"; "dir"; "--"]%string) = Parsed m /\
  add_of m = Build_add_args (Some (words ["1"; "2"; "9"]%string)) true (Some (words ["1"; "2"]%string)) None None None (Some (words ["3"; "4"]%string)) /\
  value_of m (txt "path") = Some (txt "dir") /\
  written (decls manual_add)
    [(txt "reverse", []); (txt "vertex", words ["1"; "2"]%string); (txt "edge", words ["1"; "2"]%string); (txt "clique", words ["3"; "4"]%string);
     (txt "vertex", words ["9"]%string); (txt "path", words ["dir"]%string)]
    (words ["-rv1"; "2"; "--edge"; "1"; "2"; "-C"; "3"; "4"; "--vertex=9"; "-p"; "dir"; "--"]%string).
Proof.
  eexists. split; [vm_compute; reflexivity|]. split; [vm_compute; reflexivity|]. split; [vm_compute; reflexivity|].
  assert (P : forall w, dashed w = false -> plain w) by (intros w; apply plain_dashed).
  apply (written_word (decls manual_add) (txt "-rv1") [(txt "reverse", []); (txt "vertex", words ["1"]%string)] true (words ["2"]%string)
    [(txt "reverse", []); (txt "vertex", words ["1"; "2"]%string)]).
  { apply (short_letters _ (txt "rv1")); [discriminate|]. apply (letters_flag _ (switch "reverse" "r")); [split; [right; right; now left|reflexivity]|reflexivity|].
    apply (letters_value _ (often "vertex" "v") _ (txt "1") 0); [split; [right; now left|discriminate]|reflexivity|discriminate|now split]. }
  { repeat constructor. now apply P. } { now right. } { right. now exists [(txt "reverse", [])], (txt "vertex"), (words ["1"]%string). }
  apply (written_word (decls manual_add) (txt "--edge") [(txt "edge", [])] true (words ["1"; "2"]%string) [(txt "edge", words ["1"; "2"]%string)]).
  { apply (long_option _ (some_of 2 "edge" "e") 2); [split; [do 3 right; now left|discriminate]|lia]. }
  { repeat constructor; now apply P. } { now right. } { right. now exists [], (txt "edge"), []. }
  apply (written_word (decls manual_add) (txt "-C") [(txt "clique", [])] true (words ["3"; "4"]%string) [(txt "clique", words ["3"; "4"]%string)]).
  { apply (short_letters _ (txt "C")); [discriminate|]. apply (letters_option _ (some_of 2 "clique" "C")); [split; [do 7 right; now left|discriminate]|reflexivity]. }
  { repeat constructor; now apply P. } { now right. } { right. now exists [], (txt "clique"), []. }
  apply (written_word (decls manual_add) (txt "--vertex=9") [(txt "vertex", words ["9"]%string)] false [] [(txt "vertex", words ["9"]%string)]).
  { apply (long_value _ (often "vertex" "v") 2 0); [split; [right; now left|discriminate]|lia|now split]. }
  { constructor. } { now left. } { now left. }
  apply (written_word (decls manual_add) (txt "-p") [(txt "path", [])] true (words ["dir"]%string) [(txt "path", words ["dir"]%string)] []).
  { apply (short_letters _ (txt "p")); [discriminate|]. apply (letters_option _ path_option); [split; [now left|discriminate]|reflexivity]. }
  { repeat constructor; now apply P. } { now right. } { right. now exists [], (txt "path"), []. }
  constructor.
Qed.

(** ** C144: only the uses matter *)
Lemma used_same n us us' : same_uses us us' -> used n us <-> used n us'.
Proof. intro H. rewrite <- !uses_of_used. now rewrite H. Qed.
Lemma ends_same fill d us us' : same_uses us us' -> ends_with_values fill d us = ends_with_values fill d us'.
Proof. intro H. unfold ends_with_values, values_given. now rewrite H. Qed.
Lemma allowed_same fill mn us us' : same_uses us us' -> allowed fill mn us -> allowed fill mn us'.
Proof.
  intros H (A1 & A2 & A3). split; [|split].
  - intros d Hd Hu. rewrite <- (ends_same fill d us us' H), <- H. apply A1; [assumption|]. now rewrite (used_same _ us us' H).
  - intros d Hd Hr Hn. rewrite <- (used_same _ us us' H). now apply A2.
  - intro Ho. destruct (A3 Ho) as (n & G1 & G2 & G3). exists n. split; [assumption|]. rewrite <- (used_same n us us' H). split; [assumption|].
    intros k Hk. rewrite <- (used_same k us us' H). now apply G3.
Qed.
Lemma understood_same fill mn us us' f g : same_uses us us' -> understood fill mn us f -> understood fill mn us' g ->
  forall d, In d (decls mn) -> f (d_name d) = g (d_name d).
Proof.
  intros H U1 U2 d Hd. destruct (U1 d Hd) as [F1 F2], (U2 d Hd) as [G1 G2]. destruct (used_dec (d_name d) us) as [Hu|Hu].
  - rewrite F1 by now left. rewrite G1 by (left; now rewrite <- (used_same _ us us' H)). now rewrite (ends_same fill d us us' H).
  - destruct (d_default d) eqn:Ed.
    + rewrite F1 by (right; congruence). rewrite G1 by (right; congruence). now rewrite (ends_same fill d us us' H).
    + rewrite F2 by assumption || reflexivity. rewrite G2; [reflexivity| |reflexivity]. now rewrite <- (used_same _ us us' H).
Qed.
(** What a program may ask: the values of the options its help text lists. *)
Definition asks {A} (mn : manual) (run : matches -> A) : Prop :=
  forall m m', (forall d, In d (decls mn) -> values_of m (d_name d) = values_of m' (d_name d)) -> run m = run m'.
Lemma is_present_values m m' n : values_of m n = values_of m' n -> is_present m n = is_present m' n.
Proof. unfold values_of, is_present. now destruct (look m n), (look m' n). Qed.
Lemma value_of_values m m' n : values_of m n = values_of m' n -> value_of m n = value_of m' n.
Proof. unfold value_of. now intros ->. Qed.
Theorem C144_order : forall ap mn fill A (run : matches -> A), In (ap, mn) tools -> asks mn run ->
  forall us us' ws ws', written (decls mn) us ws -> written (decls mn) us' ws' -> same_uses us us' -> allowed fill mn us ->
  start_of ap fill run ws = start_of ap fill run ws'.
Proof.
  intros ap mn fill A run Ht Hask us us' ws ws' Hw Hw' Hs Ha.
  destruct (C143_meaning ap mn fill ws us Ht Hw Ha) as (m & Em & Um).
  destruct (C143_meaning ap mn fill ws' us' Ht Hw' (allowed_same fill mn us us' Hs Ha)) as (m' & Em' & Um').
  unfold start_of. rewrite Em, Em'. assert (G := understood_same fill mn us us' _ _ Hs Um Um').
  assert (Hp : exists d, In d (decls mn) /\ d_name d = txt "path").
  { assert (Hall : Forall (fun t => exists d, In d (decls (snd t)) /\ d_name d = txt "path") tools).
    { repeat (constructor; [eexists; split; [left; reflexivity|reflexivity]|]). constructor. }
    rewrite Forall_forall in Hall. apply (Hall _ Ht). }
  destruct Hp as (d & Hd & En). rewrite <- En. rewrite (value_of_values m m' _ (G d Hd)). now rewrite (Hask m m' G).
Qed.
Print Assumptions C144_order.
Lemma asks_names mn (l : list text) {A} (run : matches -> A) : (forall n, In n l -> In n (map d_name (decls mn))) ->
  (forall m m', (forall n, In n l -> values_of m n = values_of m' n) -> run m = run m') -> asks mn run.
Proof.
  intros Hl H m m' G. apply H. intros n Hn. specialize (Hl n Hn). apply in_map_iff in Hl. destruct Hl as (d & <- & Hd). now apply G.
Qed.
(** The programs ask only for what their help texts list. *)
Theorem C144_programs : forall nd chunks order Q,
  asks manual_init (fun _ => gc_init) /\
  asks manual_add (fun m => gc_add chunks (add_of m)) /\
  asks manual_delete (fun m => gc_delete chunks (values_of m (txt "vertex")) (values_of m (txt "edge"))) /\
  asks manual_build (fun m => gc_build_print nd chunks order (is_present m (txt "verbose"))) /\
  (forall answer, asks manual_clean (fun m => gc_clean (is_present m (txt "force")) answer)) /\
  asks manual_desc (fun _ => gc_desc nd order) /\
  (forall checked rng answer fuel, asks manual_random (fun m => gc_random_main checked chunks order rng (random_of m) answer fuel)) /\
  (forall fuel, asks manual_short_path (fun m => gc_short_path nd order Q (given m (txt "start")) (given m (txt "end")) fuel)) /\
  (forall fuel, asks manual_csp (fun m => gc_csp nd order Q (given m (txt "start")) (given m (txt "end")) (csp_of m) fuel)) /\
  (forall fuel, asks manual_topo_sort (fun _ => gc_topo_sort nd order fuel)) /\
  (forall fuel, asks manual_cycle (fun m => gc_cycle nd order (cycle_of m) fuel)).
Proof.
  intros nd chunks order Q.
  assert (I : forall l m m', (forall n, In n l -> values_of m n = values_of m' n) -> forall n, In n l -> is_present m n = is_present m' n)
    by (intros l m m' H n Hn; now apply is_present_values, H).
  assert (V : forall l m m', (forall n, In n l -> values_of m n = values_of m' n) -> forall n, In n l -> value_of m n = value_of m' n)
    by (intros l m m' H n Hn; now apply value_of_values, H).
  Ltac names := let n := fresh in let Hn := fresh in intros n Hn; exact Hn.
  Ltac via mn I V := apply (asks_names mn (map d_name (decls mn))); [names|]; let m := fresh "m" in let m' := fresh "m'" in let H := fresh "H" in
    intros m m' H; pose proof (I _ m m' H) as Hi; pose proof (V _ m m' H) as Hv; cbv [mn map decls d_name] in H, Hi, Hv;
    unfold add_of, random_of, csp_of, cycle_of, bounds_of, given;
    repeat match goal with
           | |- context [values_of m ?n] => rewrite (H n) by (cbn [In]; tauto)
           | |- context [is_present m ?n] => rewrite (Hi n) by (cbn [In]; tauto)
           | |- context [value_of m ?n] => rewrite (Hv n) by (cbn [In]; tauto)
           end; reflexivity.
  split; [intros m m' _; reflexivity|]. split; [via manual_add I V|]. split; [via manual_delete I V|]. split; [via manual_build I V|].
  split; [intro answer; via manual_clean I V|]. split; [intros m m' _; reflexivity|]. split; [intros checked rng answer fuel; via manual_random I V|].
  split; [intro fuel; via manual_short_path I V|]. split; [intro fuel; via manual_csp I V|]. split; [intros fuel m m' _; reflexivity|].
  intro fuel; via manual_cycle I V.
Qed.
Print Assumptions C144_programs.
Lemma same_uses_swap (a b : use) : fst a <> fst b -> same_uses [a; b] [b; a].
Proof.
  destruct a as [x vx], b as [y vy]. cbn [fst]. intros H n. unfold uses_of. cbn [filter fst]. rewrite !eq_dec_eqb.
  destruct (text_eqb x n) eqn:Ea, (text_eqb y n) eqn:Eb; try reflexivity.
  apply text_eqb_spec in Ea, Eb. exfalso. apply H. now rewrite Ea, Eb.
Qed.
(** gc-short-path --start 1 -e 2 and gc-short-path --end=2 -s1 *)
Example C144_case :
  let us := [(txt "start", [txt "1"]); (txt "end", [txt "2"])] in let us' := [(txt "end", [txt "2"]); (txt "start", [txt "1"])] in
  written (decls manual_short_path) us (words ["--start"; "1"; "-e"; "2"]%string) /\
  written (decls manual_short_path) us' (words ["--end=2"; "-s1"]%string) /\ same_uses us us' /\ allowed false manual_short_path us.
Proof.
  cbn zeta. assert (P : forall w, dashed w = false -> plain w) by (intros w; apply plain_dashed). split; [|split; [|split]].
  - apply (written_word _ (txt "--start") [(txt "start", [])] true [txt "1"] [(txt "start", [txt "1"])] [(txt "end", [txt "2"])]).
    { apply (long_option _ (needed "start" "s") 2); [split; [right; now left|discriminate]|lia]. }
    { repeat constructor. now apply P. } { now right. } { right. now exists [], (txt "start"), []. }
    apply (written_word _ (txt "-e") [(txt "end", [])] true [txt "2"] [(txt "end", [txt "2"])] [] []).
    { apply (short_letters _ (txt "e")); [discriminate|]. apply (letters_option _ (needed "end" "e")); [split; [right; right; now left|discriminate]|reflexivity]. }
    { repeat constructor. now apply P. } { now right. } { right. now exists [], (txt "end"), []. } constructor.
  - apply (written_word _ (txt "--end=2") [(txt "end", [txt "2"])] false [] [(txt "end", [txt "2"])] [(txt "start", [txt "1"])] [txt "-s1"]).
    { apply (long_value _ (needed "end" "e") 2 0); [split; [right; right; now left|discriminate]|lia|now split]. } { constructor. } { now left. } { now left. }
    apply (written_word _ (txt "-s1") [(txt "start", [txt "1"])] false [] [(txt "start", [txt "1"])] [] []).
    { apply (short_letters _ (txt "s1")); [discriminate|]. apply (letters_value _ (needed "start" "s") _ (txt "1") 0);
        [split; [right; now left|discriminate]|reflexivity|discriminate|now split]. } { constructor. } { now left. } { now left. } constructor.
  - now apply same_uses_swap.
  - split; [|split; [|now intros []]].
    + assert (Z : forall vs, ~ In (txt "path", vs) [(txt "start", [txt "1"]); (txt "end", [txt "2"])]) by (intros vs [E|[E|[]]]; discriminate E).
      intros d [<-|[<-|[<-|[]]]] Hu; [destruct Hu as [vs Hu]; now destruct (Z vs)| |]; (split; [cbn; lia|reflexivity]).
    + intros d [<-|[<-|[<-|[]]]] _ Hd; [discriminate|exists [txt "1"]; now left|exists [txt "2"]; right; now left].
Qed.

(** ** Values on accepted lines *)
Lemma accepted_values ap mn fill ws m : In (ap, mn) tools -> get_matches ap fill ws = Parsed m ->
  forall d, In d (decls mn) -> values_of m (d_name d) = None \/ exists vs, values_of m (d_name d) = Some vs /\ enough (d_values d) (length vs).
Proof.
  intros Ht H d Hd. destruct (tools_good _ Ht) as [HP HM]. cbn [fst snd] in HP, HM.
  destruct (get_matches_sound ap HP mn HM fill ws m H) as (us & _ & (A1 & _) & U). destruct (U d Hd) as [U1 U2].
  destruct (used_dec (d_name d) us) as [Hu|Hu]; [|destruct (d_default d) as [x|] eqn:Ed].
  - right. eexists. split; [apply U1; now left|]. now apply A1.
  - right. eexists. split; [apply U1; right; congruence|]. unfold ends_with_values. rewrite (not_used_values _ _ Hu), Ed, (not_used_uses _ _ Hu). cbn [length].
    destruct HM as [Hds _]. rewrite Hds in Hd. apply in_map_iff in Hd. destruct Hd as (a & <- & Ha). cbn [decl_of d_values d_default] in *.
    destruct (p_default ap HP a Ha) as (Gt & Gl & Gh); [congruence|]. rewrite Gt. cbn [enough]. split; [assumption|].
    destruct (hi a) as [n|]; [now apply Gh|exact I].
  - left. now apply U2.
Qed.
Lemma accepted_one ap mn fill ws m d : In (ap, mn) tools -> get_matches ap fill ws = Parsed m -> In d (decls mn) ->
  d_values d = Some (1, Some 1)%nat -> values_of m (d_name d) = None \/ exists v, values_of m (d_name d) = Some [v].
Proof.
  intros Ht H Hd Ev. destruct (accepted_values ap mn fill ws m Ht H d Hd) as [E|(vs & E & He)]; [now left|right]. rewrite Ev in He. cbn [enough] in He.
  destruct vs as [|v [|v' vs]]; cbn [length] in He; [lia|now exists v|lia].
Qed.
Ltac in_tools := repeat (first [left; reflexivity|right]).
Ltac in_decls := repeat (first [left; reflexivity|right]).

(** ** C145: gc-cycle *)
(** The actions of a request, as the program sees them. *)
Definition actions (a : cycle_args) : list bool :=
  [c_girth a; c_hamiltonian a; c_count a; c_head a; match c_take_n a with Some _ => true | None => false end; c_all a; c_shortest a; c_longest a].
Theorem C145_one_action : forall fill ws m, get_matches app_cycle fill ws = Parsed m ->
  exists k, (k < 8)%nat /\ forall i, nth i (actions (cycle_of m)) false = true <-> i = k.
Proof.
  intros fill ws m H. assert (Ht : In (app_cycle, manual_cycle) tools) by in_tools.
  assert (Hs := H). destruct (tools_good _ Ht) as [HP HM]. cbn [fst snd] in HP, HM.
  destruct (get_matches_sound app_cycle HP manual_cycle HM fill ws m H) as (us & _ & (A1 & _ & A3) & U).
  assert (T : match c_take_n (cycle_of m) with Some _ => true | None => false end = is_present m (txt "take-n")).
  { assert (X : values_of m (txt "take-n") = None \/ exists v, values_of m (txt "take-n") = Some [v]).
    { apply (accepted_one app_cycle manual_cycle fill ws m (one "take-n" "n") Ht H); [in_decls|reflexivity]. }
    cbn [cycle_of c_take_n]. unfold value_of, is_present. destruct X as [X|[v X]]; rewrite X; unfold values_of in X;
      destruct (look m (txt "take-n")); (reflexivity || discriminate). }
  assert (E : actions (cycle_of m) = map (is_present m) (one_of manual_cycle)) by (unfold actions; rewrite T; reflexivity).
  destruct A3 as (n & Hn & Hu & Ho); [discriminate|].
  assert (K : forall x, In x (one_of manual_cycle) -> (is_present m x = true <-> x = n)).
  { intros x Hx. assert (Hd : exists d, In d (decls manual_cycle) /\ d_name d = x /\ d_default d = None).
    { assert (Hall : forallb (fun x => existsb (fun d => text_eqb (d_name d) x && match d_default d with None => true | _ => false end)
        (decls manual_cycle)) (one_of manual_cycle) = true) by (vm_compute; reflexivity).
      rewrite forallb_forall in Hall. specialize (Hall x Hx). apply existsb_exists in Hall. destruct Hall as (d & Hd & Hb).
      apply andb_true_iff in Hb. destruct Hb as [Hb1 Hb2]. exists d. split; [assumption|]. split; [now apply text_eqb_spec|]. now destruct (d_default d). }
    destruct Hd as (d & Hd & <- & Ed). destruct (U d Hd) as [U1 U2]. assert (P : is_present m (d_name d) = true <-> used (d_name d) us).
    { unfold is_present, values_of in *. destruct (used_dec (d_name d) us) as [X|X].
      - rewrite U1 in * by now left. specialize (U1 (or_introl X)). destruct (look m (d_name d)); [now split|discriminate].
      - specialize (U2 X Ed). destruct (look m (d_name d)); [discriminate|]. now split. }
    rewrite P. split; [intro X; now apply Ho|intros ->; assumption]. }
  destruct (In_nth _ _ [] Hn) as (k & Hk & En). exists k. split; [exact Hk|]. intro i. rewrite E. split.
  - intro Hi. assert (Hi8 : (i < length (one_of manual_cycle))%nat).
    { destruct (Nat.lt_ge_cases i (length (one_of manual_cycle))) as [X|X]; [assumption|]. rewrite nth_overflow in Hi; [discriminate|]. now rewrite map_length. }
    rewrite (nth_indep _ false (is_present m [])) in Hi by now rewrite map_length. rewrite map_nth in Hi. apply K in Hi; [|now apply nth_In].
    rewrite <- En in Hi. assert (Hnd : NoDup (one_of manual_cycle)).
    { destruct HM as [_ Ho1]. rewrite Ho1. apply (p_group app_cycle HP). reflexivity. }
    now apply (proj1 (NoDup_nth _ []) Hnd).
  - intros ->. rewrite (nth_indep _ false (is_present m [])) by now rewrite map_length. rewrite map_nth. apply K; [now apply nth_In|assumption].
Qed.
Print Assumptions C145_one_action.
(** The same request without the edge options. *)
Definition without_edges (a : cycle_args) : cycle_args := {|
  c_girth := c_girth a; c_hamiltonian := c_hamiltonian a; c_count := c_count a; c_shortest := c_shortest a; c_longest := c_longest a;
  c_head := c_head a; c_take_n := c_take_n a; c_all := c_all a; c_include := c_include a; c_exclude := c_exclude a;
  c_include_edges := None; c_exclude_edges := None; c_bounds := c_bounds a |}.
Theorem C145_edge_options_inert : forall fill ws m, get_matches app_cycle fill ws = Parsed m ->
  forall nd order fuel, gc_cycle nd order (cycle_of m) fuel = gc_cycle nd order (without_edges (cycle_of m)) fuel.
Proof.
  intros fill ws m H nd order fuel. assert (Ht : In (app_cycle, manual_cycle) tools) by in_tools.
  assert (E1 : forall v, edge_list [v] = None).
  { intro v. unfold edge_list, parse_edge_list. cbn [parse_vertex_id_list]. destruct (parse_vertex_id v); reflexivity. }
  assert (Ec : cycle_constraints (cycle_of m) = cycle_constraints (without_edges (cycle_of m))).
  { unfold cycle_constraints. cbn [cycle_of without_edges c_include c_exclude c_include_edges c_exclude_edges c_bounds]. f_equal. f_equal.
    assert (X1 : values_of m (txt "include-all-edges") = None \/ exists v, values_of m (txt "include-all-edges") = Some [v])
      by (apply (accepted_one app_cycle manual_cycle fill ws m (one "include-all-edges" "") Ht H); [in_decls|reflexivity]).
    assert (X2 : values_of m (txt "exclude-all-edges") = None \/ exists v, values_of m (txt "exclude-all-edges") = Some [v])
      by (apply (accepted_one app_cycle manual_cycle fill ws m (one "exclude-all-edges" "") Ht H); [in_decls|reflexivity]).
    destruct X1 as [-> | [v ->]], X2 as [-> | [w ->]]; unfold opt_list; rewrite ?E1; reflexivity. }
  unfold gc_cycle. rewrite <- Ec. reflexivity.
Qed.
Print Assumptions C145_edge_options_inert.
Lemma parse_words_app ap pre rest r : forall tr nd m, parse_words ap tr nd m (pre ++ rest) = Parsed r ->
  exists tr' nd' m', parse_words ap tr' nd' m' rest = Parsed r.
Proof.
  induction pre as [|w pre IH]; intros tr nd m H; [now exists tr, nd, m|]. cbn [app parse_words] in H. destruct tr; [discriminate|].
  destruct (is_new_arg nd w && text_eqb w (txt "--")); [now apply IH in H|]. destruct (negb (is_new_arg nd w)).
  - destruct nd as [a| |]; try discriminate. destruct (add_val_to_arg a w m). now apply IH in H.
  - destruct (if dashed2 w then _ else _) as [[nd1 m1]| |]; try discriminate. now apply IH in H.
Qed.
(** A second value for an option that takes one. *)
Lemma second_value ap mn d : In (ap, mn) tools -> In d (decls mn) -> (forall a, In a (app_args ap) -> decl_of a = d -> simple a) -> d_values d <> None ->
  forall fill pre x y post m, plain x -> plain y -> get_matches ap fill (pre ++ (txt "--" ++ d_name d) :: x :: y :: post) <> Parsed m.
Proof.
  intros Ht Hd Hsimple Hv fill pre x y post m Hx Hy H. destruct (tools_good _ Ht) as [HP HM]. cbn [fst snd] in HP, HM.
  destruct HM as [Hds _]. rewrite Hds in Hd. apply in_map_iff in Hd. destruct Hd as (a & <- & Ha). specialize (Hsimple a Ha eq_refl).
  cbn [decl_of d_name d_values] in *. assert (Htk : g_takes a = true) by now destruct (g_takes a). unfold get_matches in H.
  destruct (parse_words ap false AfterFlag [] _) as [[nd1 m1]| |] eqn:E; try discriminate. clear H.
  apply parse_words_app in E. destruct E as (tr & nd & m0 & E). cbn [parse_words] in E. destruct tr; [discriminate|].
  destruct (p_name ap HP a Ha) as (N1 & N2 & N3). set (w := txt "--" ++ g_name a) in *.
  assert (Hw : is_new_arg nd w = true) by now destruct nd. rewrite Hw in E.
  assert (Hne : text_eqb w (txt "--") = false).
  { apply text_eqb_neq. unfold w. destruct (g_name a); [congruence|discriminate]. }
  rewrite Hne in E. cbn [andb negb] in E. assert (H2 : dashed2 w = true) by reflexivity. rewrite H2 in E.
  assert (Hl : parse_long ap w m0 = Parsed (Wants a, update m0 (g_name a) inc)).
  { unfold parse_long. assert (Et : trim_char 45 w = g_name a).
    { change w with (repeat 45 2 ++ g_name a). rewrite <- (app_nil_r (g_name a)) at 1. rewrite trim_name by assumption. apply app_nil_r. }
    rewrite Et, split_eq_none by assumption. rewrite (find_long_opt ap HP a Ha Htk). reflexivity. }
  rewrite Hl in E. apply plain_dashed in Hx, Hy. cbn [is_new_arg] in E. rewrite Hx in E. cbn [andb negb] in E. unfold add_val_to_arg in E.
  rewrite (needs_more_simple a x _ Hsimple) in E. cbn [is_new_arg andb negb] in E.
  assert (Hy2 : dashed2 y = false).
  { destruct y as [|c [|e y]]; try reflexivity. cbn [dashed dashed2] in *. now rewrite Hy. }
  rewrite Hy2, Hy in E. destruct (text_eqb y (txt "--")) eqn:Ey; [|discriminate]. apply text_eqb_spec in Ey. subst y. discriminate.
Qed.
(** [--include-all 1 2] and the like are never accepted. *)
Theorem C145_two_values_refuted : forall n, In n (words ["include-all"; "exclude-all"; "include-all-edges"; "exclude-all-edges"]%string) ->
  forall fill pre x y post m, plain x -> plain y -> get_matches app_cycle fill (pre ++ (txt "--" ++ n) :: x :: y :: post) <> Parsed m.
Proof.
  intros n Hn. assert (Ht : In (app_cycle, manual_cycle) tools) by in_tools.
  assert (Hs : forall a, In a (app_args app_cycle) -> g_max a = None /\ g_min a = None /\ g_multiple a = false).
  { assert (Hall : forallb (fun a => match g_max a, g_min a, g_multiple a with None, None, false => true | _, _, _ => false end) (app_args app_cycle) = true)
      by (vm_compute; reflexivity).
    rewrite forallb_forall in Hall. intros a Ha. specialize (Hall a Ha). destruct (g_max a), (g_min a), (g_multiple a); try discriminate. now split. }
  assert (G : forall d, In d (decls manual_cycle) -> d_values d <> None -> forall fill pre x y post m, plain x -> plain y ->
    get_matches app_cycle fill (pre ++ (txt "--" ++ d_name d) :: x :: y :: post) <> Parsed m).
  { intros d Hd Hv. apply (second_value app_cycle manual_cycle d Ht Hd); [intros a Ha _; now apply Hs|assumption]. }
  destruct Hn as [<-|[<-|[<-|[<-|[]]]]].
  - apply (G (one "include-all" "")); [in_decls|discriminate].
  - apply (G (one "exclude-all" "")); [in_decls|discriminate].
  - apply (G (one "include-all-edges" "")); [in_decls|discriminate].
  - apply (G (one "exclude-all-edges" "")); [in_decls|discriminate].
Qed.
Print Assumptions C145_two_values_refuted.
(** gc-cycle -a --include-all 1 is accepted, gc-cycle -a --include-all 1 2 is not. *)
Example C145_case :
  (exists m, get_matches app_cycle true (words ["-a"; "--include-all"; "1"; "--include-all-edges=1"]%string) = Parsed m /\
     c_include (cycle_of m) = Some [txt "1"] /\ c_include_edges (cycle_of m) = Some [txt "1"]) /\
  get_matches app_cycle true (words ["-a"; "--include-all"; "1"; "2"]%string) = Refused.
Proof. split; [eexists; split; [vm_compute; reflexivity|split; reflexivity]|vm_compute; reflexivity]. Qed.

(** ** C146: words that start with a dash *)
Lemma written_words ds us ws : written ds us ws -> forall w, In w ws -> plain w \/ w = txt "--" \/ exists us more, word_says ds w us more.
Proof.
  induction 1 as [| |w us more vs us1 us2 ws Hw Hp Hm He Hws IH]; intros x Hx.
  - destruct Hx.
  - destruct Hx as [<-|[]]. right. now left.
  - destruct Hx as [<-|Hx]; [right; right; now exists us, more|]. apply in_app_or in Hx. destruct Hx as [Hx|Hx]; [|now apply IH].
    left. rewrite Forall_forall in Hp. now apply Hp.
Qed.
Lemma word_says_second ds c t us more : word_says ds (45 :: c :: t) us more -> c = 45 \/ exists d, In d ds /\ d_short d = Some c.
Proof.
  intro H. assert (R : forall k u, (2 <= k)%nat -> 45 :: c :: t = repeat 45 k ++ u -> c = 45).
  { intros [|[|k]] u Hk E; [lia|lia|]. cbn [repeat app] in E. now injection E. }
  inversion H as [d k x Hd Hk Hx E|d k Hd Hk E|d k j x v Hd Hk Hv E|cs us' more' Hne Hl E]; subst.
  - left. now apply (R k (d_name d ++ x)).
  - left. now apply (R k (d_name d)).
  - left. now apply (R k (d_name d ++ 61 :: x)).
  - right. inversion Hl as [|d c' cs us' more' [Hd _] Hc|d c' [Hd _] Hc|d c' x k v [Hd _] Hc]; subst; now exists d.
Qed.
Theorem C146_dash_words : forall ap mn fill ws m, In (ap, mn) tools -> get_matches ap fill ws = Parsed m ->
  forall c t, In (45 :: c :: t) ws -> c = 45 \/ exists d, In d (decls mn) /\ d_short d = Some c.
Proof.
  intros ap mn fill ws m Ht H c t Hin. destruct (tools_good _ Ht) as [HP HM]. cbn [fst snd] in HP, HM.
  destruct (get_matches_sound ap HP mn HM fill ws m H) as (us & Hw & _). destruct (written_words _ _ _ Hw _ Hin) as [X|[X|(us' & more & X)]].
  - now destruct (X c t).
  - injection X as -> _. now left.
  - now apply word_says_second in X.
Qed.
Print Assumptions C146_dash_words.
(** No line with a negative number as a word of its own is accepted by any program. *)
Theorem C146_negative_refuted : forall ap mn fill ws m, In (ap, mn) tools -> get_matches ap fill ws = Parsed m ->
  forall c t, 48 <= c <= 57 -> ~ In (45 :: c :: t) ws.
Proof.
  intros ap mn fill ws m Ht H c t Hc Hin. destruct (C146_dash_words ap mn fill ws m Ht H c t Hin) as [->|(d & Hd & Hs)]; [lia|].
  assert (Hall : forallb (fun t => forallb (fun d => match d_short d with Some c => 58 <=? c | None => true end) (decls (snd t))) tools = true)
    by (vm_compute; reflexivity).
  rewrite forallb_forall in Hall. specialize (Hall _ Ht). cbn [snd] in Hall. rewrite forallb_forall in Hall. specialize (Hall d Hd). rewrite Hs in Hall.
  apply N.leb_le in Hall. lia.
Qed.
Print Assumptions C146_negative_refuted.
Lemma written_equals ds d v us ws : option_ ds d -> hd_error v <> Some 61 -> written ds us ws ->
  written ds ((d_name d, [v]) :: us) ((txt "--" ++ d_name d ++ 61 :: v) :: ws).
Proof.
  intros Hd Hv Hw. apply (written_word ds _ [(d_name d, [v])] false [] [(d_name d, [v])] us ws); [|constructor|now left|now left|assumption].
  now apply (long_value ds d 2 0 v v); [|lia|].
Qed.
(** After an equals sign a value may start with a dash. *)
Lemma is_present_read m n : is_present m n = match values_of m n with Some _ => true | None => false end.
Proof. unfold is_present, values_of. now destruct (look m n). Qed.
Theorem C146_equals : forall fill s e v, hd_error s <> Some 61 -> hd_error e <> Some 61 -> hd_error v <> Some 61 ->
  forall nd order Q fuel, csp_main nd order Q fill fuel [txt "--start=" ++ s; txt "--end=" ++ e; txt "--min-score=" ++ v] =
  Runs (txt ".") (gc_csp nd order Q s e
    (Build_csp_args None None None false false (Build_bound_args None None None (Some v) None None)) fuel).
Proof.
  intros fill s e v Hs He Hv nd order Q fuel.
  assert (Ht : In (app_csp, manual_csp) tools) by in_tools.
  assert (Hw : written (decls manual_csp) [(txt "start", [s]); (txt "end", [e]); (txt "min-score", [v])]
    [txt "--start=" ++ s; txt "--end=" ++ e; txt "--min-score=" ++ v]).
  { apply (written_equals (decls manual_csp) (needed "start" "s") s); [split; [in_decls|discriminate]|assumption|].
    apply (written_equals (decls manual_csp) (needed "end" "e") e); [split; [in_decls|discriminate]|assumption|].
    apply (written_equals (decls manual_csp) (one "min-score" "") v); [split; [in_decls|discriminate]|assumption|constructor]. }
  destruct (read_line app_csp manual_csp fill _ _ Ht Hw) as (m & Em & V); [vm_compute; reflexivity|].
  unfold csp_main, start_of. rewrite Em. unfold csp_of, bounds_of, given, value_of. rewrite !is_present_read. read_in m V. reflexivity.
Qed.
Print Assumptions C146_equals.
(** --min-score=-5 is read, --min-score -5 is not. *)
Example C146_case : hd_error (txt "-5") <> Some 61 /\
  (exists m, get_matches app_csp true (map txt ["--start=1"; "--end=2"; "--min-score=-5"]%string) = Parsed m /\ value_of m (txt "min-score") = Some (txt "-5")) /\
  get_matches app_csp true (map txt ["--start=1"; "--end=2"; "--min-score"; "-5"]%string) = Refused.
Proof. split; [discriminate|]. split; [eexists; split; vm_compute; reflexivity|vm_compute; reflexivity]. Qed.
