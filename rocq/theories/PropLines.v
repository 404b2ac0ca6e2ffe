(** Whole command lines: from the words to what is stored and printed. *)
From Coq Require Import String.
From Coq Require Import List NArith Bool Arith Lia.
From Verif Require Import Spec Base Graph GraphSpec GraphFacts Text Format FormatSpec TextFacts FormatFacts Queue Path Iter Store StoreSpec StoreFacts Cli CliSpec CliFacts
  Query RandomMain Verbose Clap ClapSpec ClapManual ClapFacts Mains PropClap PropStore PropCli.
Import ListNotations.
Open Scope N_scope.

(** ** C147: gc-add *)
Definition many (k : nat) (o : option (list text)) : Prop := match o with None => True | Some vs => (k <= length vs)%nat end.
Theorem C147_enough_values : forall fill ws m, get_matches app_add fill ws = Parsed m -> let a := add_of m in
  many 1 (a_vertex a) /\ many 2 (a_edge a) /\ many 2 (a_chain a) /\ many 2 (a_cycle a) /\ many 2 (a_star a) /\ many 2 (a_clique a).
Proof.
  intros fill ws m H a. assert (Ht : In (app_add, manual_add) tools) by in_tools.
  assert (G : forall d k, In d (decls manual_add) -> d_values d = Some (k, None) -> many k (values_of m (d_name d))).
  { intros d k Hd Ev. destruct (accepted_values app_add manual_add fill ws m Ht H d Hd) as [-> | (vs & -> & He)]; [exact I|]. rewrite Ev in He. apply He. }
  split; [apply (G (often "vertex" "v")); [in_decls|reflexivity]|]. split; [apply (G (some_of 2 "edge" "e")); [in_decls|reflexivity]|].
  split; [apply (G (some_of 2 "chain" "c")); [in_decls|reflexivity]|]. split; [apply (G (some_of 2 "cycle" "O")); [in_decls|reflexivity]|].
  split; [apply (G (some_of 2 "star" "X")); [in_decls|reflexivity]|apply (G (some_of 2 "clique" "C")); [in_decls|reflexivity]].
Qed.
Print Assumptions C147_enough_values.
(** A line whose values are ids (an even number of them for edges) does what its options describe. *)
Theorem C147_add_line : forall fill ws m nd chunks lv le lc ly ls lq s a, get_matches app_add fill ws = Parsed m ->
  let args := add_of m in
  option_ids (a_vertex args) lv -> option_ids (a_edge args) le -> option_ids (a_chain args) lc -> option_ids (a_cycle args) ly ->
  option_ids (a_star args) ls -> option_ids (a_clique args) lq -> Nat.even (length le) = true ->
  digit_table nd -> buffering chunks -> holds nd s a ->
  exists path p s' g, add_main chunks fill ws = Runs path p /\ run_prog p s = (s', Success) /\ loads nd s' g /\ built g /\
    a_same (shown g) (a_union a (fun x => In x lv) (added (a_reverse args) le lc ly ls lq)).
Proof.
  intros fill ws m nd chunks lv le lc ly ls lq s a H args Hv He Hc Hy Hs Hq Hev T B Hh.
  destruct (C147_enough_values fill ws m H) as (Mv & Me & Mc & My & Ms & Mq).
  assert (Z : forall k o, many (S k) o -> o <> Some []) by (intros k o Hm ->; cbn in Hm; lia).
  assert (D : denotes args lv le lc ly ls lq).
  { constructor; try assumption; [now apply (Z 1%nat)|now apply (Z 1%nat)]. }
  destruct (C80_gc_add nd chunks args lv le lc ly ls lq s a T B D Hh) as (s' & g & E & L & Bu & Sa & _).
  assert (Hp : exists p, value_of m (txt "path") = Some p).
  { assert (Ht : In (app_add, manual_add) tools) by in_tools. destruct (tools_good _ Ht) as [HP HM]. cbn [fst snd] in HP, HM.
    destruct (get_matches_sound app_add HP manual_add HM fill ws m H) as (us & _ & (A1 & _) & U).
    assert (Hd : In path_option (decls manual_add)) by in_decls. destruct (U path_option Hd) as [U1 _]. unfold value_of.
    destruct (accepted_one app_add manual_add fill ws m path_option Ht H Hd eq_refl) as [X|[v X]].
    - rewrite U1 in X by (right; discriminate). discriminate.
    - change (d_name path_option) with (txt "path") in X. rewrite X. now exists v. }
  destruct Hp as [p Hp]. exists p, (gc_add chunks (add_of m)), s', g. split; [|split; [assumption|split; [assumption|split; assumption]]].
  unfold add_main, start_of. now rewrite H, Hp.
Qed.
Print Assumptions C147_add_line.

Lemma id_argument_plain v n : id_argument v n -> plain v.
Proof.
  intros H c t ->. destruct H as [[[_ H] _]|(d & E & _)].
  - inversion H as [|x l Hx _]; subst. cbn in Hx. lia.
  - discriminate.
Qed.
Lemma ids_plain vs ns : id_arguments vs ns -> Forall plain vs.
Proof. induction 1 as [|v n vs ns H _ IH]; constructor; [now apply (id_argument_plain v n)|assumption]. Qed.
Lemma written_values ds d vs us ws : option_ ds d -> Forall plain vs -> written ds us ws ->
  written ds ((d_name d, vs) :: us) ((txt "--" ++ d_name d) :: vs ++ ws).
Proof.
  intros Hd Hv Hw. apply (written_word ds _ [(d_name d, [])] true vs [(d_name d, vs)] us ws); [|assumption|now right| |assumption].
  - now apply (long_option ds d 2); [|lia].
  - right. now exists [], (d_name d), [].
Qed.
(** The request of a line with one option. *)
Definition just (n : string) (vs : list text) : add_args :=
  let at_ k := if text_eqb (txt n) (txt k) then Some vs else None in
  {| a_vertex := at_ "vertex"%string; a_reverse := false; a_edge := at_ "edge"%string; a_chain := at_ "chain"%string; a_cycle := at_ "cycle"%string;
     Cli.a_star := at_ "star"%string; a_clique := at_ "clique"%string |}.
(** [gc-add --edge 1 2], [gc-add --clique 1 2 3] and so on. *)
Theorem C147_one_option : forall n, In n ["vertex"; "edge"; "chain"; "cycle"; "star"; "clique"]%string ->
  forall chunks fill x y vs, Forall plain (x :: y :: vs) ->
  add_main chunks fill ((txt "--" ++ txt n) :: x :: y :: vs) = Runs (txt ".") (gc_add chunks (just n (x :: y :: vs))).
Proof.
  intros n Hn chunks fill x y vs Hp. assert (Ht : In (app_add, manual_add) tools) by in_tools.
  assert (G : forall d, In d [often "vertex" "v"; some_of 2 "edge" "e"; some_of 2 "chain" "c"; some_of 2 "cycle" "O"; some_of 2 "star" "X"; some_of 2 "clique" "C"] ->
    written (decls manual_add) [(d_name d, x :: y :: vs)] ((txt "--" ++ d_name d) :: x :: y :: vs)).
  { intros d Hd. rewrite <- (app_nil_r vs) at 2. apply (written_values (decls manual_add) d (x :: y :: vs) [] []); [|assumption|constructor].
    split; [|now destruct Hd as [<-|[<-|[<-|[<-|[<-|[<-|[]]]]]]]]. destruct Hd as [<-|[<-|[<-|[<-|[<-|[<-|[]]]]]]]; in_decls. }
  assert (R : forall d n, d_name d = txt n -> In d [often "vertex" "v"; some_of 2 "edge" "e"; some_of 2 "chain" "c"; some_of 2 "cycle" "O"; some_of 2 "star" "X"; some_of 2 "clique" "C"] ->
    exists m, get_matches app_add fill ((txt "--" ++ txt n) :: x :: y :: vs) = Parsed m /\
     forall k, existsb (fun d => text_eqb (d_name d) k) (decls manual_add) = true -> values_of m k = read_values fill manual_add [(txt n, x :: y :: vs)] k).
  { intros d k E Hd. rewrite <- E. apply (read_line app_add manual_add fill _ _ Ht (G d Hd)).
    destruct Hd as [<-|[<-|[<-|[<-|[<-|[<-|[]]]]]]]; vm_compute; reflexivity. }
  assert (W : forall n m, (forall k, existsb (fun d => text_eqb (d_name d) k) (decls manual_add) = true -> values_of m k = read_values fill manual_add [(txt n, x :: y :: vs)] k) ->
    In n ["vertex"; "edge"; "chain"; "cycle"; "star"; "clique"]%string ->
    add_of m = just n (x :: y :: vs) /\ value_of m (txt "path") = Some (txt ".")).
  { intros k m V Hk. split.
    - unfold add_of. rewrite is_present_read. rewrite !V by reflexivity.
      destruct Hk as [<-|[<-|[<-|[<-|[<-|[<-|[]]]]]]];
        match goal with |- _ = just ?k _ => change (just k (x :: y :: vs ++ []) = just k (x :: y :: vs)) end; now rewrite app_nil_r.
    - unfold value_of. rewrite V by reflexivity. destruct Hk as [<-|[<-|[<-|[<-|[<-|[<-|[]]]]]]]; reflexivity. }
  assert (K : exists d, d_name d = txt n /\
    In d [often "vertex" "v"; some_of 2 "edge" "e"; some_of 2 "chain" "c"; some_of 2 "cycle" "O"; some_of 2 "star" "X"; some_of 2 "clique" "C"]).
  { destruct Hn as [<-|[<-|[<-|[<-|[<-|[<-|[]]]]]]];
      [exists (often "vertex" "v")|exists (some_of 2 "edge" "e")|exists (some_of 2 "chain" "c")|exists (some_of 2 "cycle" "O")
      |exists (some_of 2 "star" "X")|exists (some_of 2 "clique" "C")]; (split; [reflexivity|in_decls]). }
  destruct K as (d & Ed & Hd). destruct (R d n Ed Hd) as (m & Em & V). destruct (W n m V Hn) as [E1 E2].
  unfold add_main, start_of. now rewrite Em, E1, E2.
Qed.
Print Assumptions C147_one_option.

(** The start of README.md: gc-init in a directory without a graph, then gc-add --clique with at least two ids. *)
Theorem C147_quick_start : forall nd chunks fill x y vs a b ns s, digit_table nd -> buffering chunks ->
  openable (fs_lock s) = true -> (fs_graph s = NoGraph \/ fs_graph s = GraphDir Absent) ->
  id_arguments (x :: y :: vs) (a :: b :: ns) ->
  exists s1 p s2 g, init_main fill [] = Runs (txt ".") gc_init /\ run_prog gc_init s = (s1, Success) /\
    add_main chunks fill (txt "--clique" :: x :: y :: vs) = Runs (txt ".") p /\ run_prog p s1 = (s2, Success) /\
    loads nd s2 g /\ built g /\
    (forall u v, aE (shown g) u v <-> before u v (a :: b :: ns) \/ before v u (a :: b :: ns)) /\ (forall v, aV (shown g) v <-> In v (a :: b :: ns)).
Proof.
  intros nd chunks fill x y vs a b ns s T B Hl Hg Hids.
  assert (H1 : exists s1, run_prog gc_init s = (s1, Success) /\ holds nd s1 a_empty).
  { unfold gc_init. rewrite run_bind, run_init. destruct Hg as [-> | ->]; cbn; (eexists; split; [reflexivity|]);
      (split; [exact Hl|]); exists [], []; (split; [reflexivity|]); (split; [now left|]); (split; [reflexivity|]); apply a_same_refl. }
  destruct H1 as (s1 & E1 & H1).
  assert (D : denotes (just "clique" (x :: y :: vs)) [] [] [] [] [] (a :: b :: ns)) by (constructor; cbn; (reflexivity || discriminate || assumption)).
  destruct (C80_gc_add nd chunks _ _ _ _ _ _ _ s1 a_empty T B D H1) as (s2 & g & E2 & L & Bu & Sa & _).
  exists s1, (gc_add chunks (just "clique" (x :: y :: vs))), s2, g.
  split; [reflexivity|]. split; [assumption|]. split; [apply (C147_one_option "clique"); [cbn; tauto|now apply (ids_plain _ (a :: b :: ns))]|].
  split; [assumption|]. split; [assumption|]. split; [assumption|]. destruct Sa as [SV SE].
  assert (Hadj : forall u v, added false [] [] [] [] (a :: b :: ns) u v <-> clique_rel (a :: b :: ns) u v).
  { intros u v. unfold added, flip, pairs_rel, chain_rel, cycle_rel, star_rel. split; [|tauto].
    intros [(p & q & X)|[(p & q & X)|[[(p & q & X)|[[t X] _]]|[(t & X & _)|X]]]]; try assumption.
    - destruct (flat p); discriminate.
    - destruct p; discriminate.
    - destruct p; discriminate.
    - destruct t; discriminate.
    - discriminate. }
  assert (HE : forall u v, aE (shown g) u v <-> before u v (a :: b :: ns) \/ before v u (a :: b :: ns)).
  { intros u v. specialize (SE u v). cbn in SE. rewrite Hadj in SE. unfold clique_rel in SE. tauto. }
  split; [exact HE|]. intro v. specialize (SV v). cbn in SV. split.
  - intro Hv. apply SV in Hv. destruct Hv as [[]|[[]|[u Hu]]]. rewrite !Hadj in Hu. unfold clique_rel in Hu.
    assert (X : forall p q (l : list N), before p q l -> In p l /\ In q l).
    { intros p q l (l1 & l2 & l3 & ->). rewrite !in_app_iff. cbn. rewrite !in_app_iff. cbn. tauto. }
    destruct Hu as [[Hu|Hu]|[Hu|Hu]]; apply X in Hu; tauto.
  - intro Hv. apply SV. right. right. destruct Hv as [<-|Hv].
    + exists b. left. apply Hadj. left. now exists [], [], ns.
    + exists a. right. apply Hadj. left. apply in_split in Hv. destruct Hv as (l1 & l2 & E). exists [], l1, l2. now rewrite E.
Qed.
Print Assumptions C147_quick_start.
(** gc-add --edge 1 2 -r -v 9 *)
Example C147_case : exists m, get_matches app_add true (map txt ["--edge"; "1"; "2"; "-r"; "-v"; "9"]%string) = Parsed m /\
  option_ids (a_vertex (add_of m)) [9] /\ option_ids (a_edge (add_of m)) [1; 2] /\ a_reverse (add_of m) = true /\
  id_arguments (map txt ["1"; "2"; "+3"]%string) [1; 2; 3].
Proof.
  eexists. split; [vm_compute; reflexivity|].
  assert (K : forall vs ns, parse_all vs = Done ns -> id_arguments vs ns) by (intros vs ns; apply parse_all_done).
  split; [now apply K|]. split; [now apply K|]. split; [reflexivity|]. now apply K.
Qed.

(** ** C148: the directory and the required options *)
Theorem C148_directory : forall ap mn fill ws us A (run : matches -> A), In (ap, mn) tools -> written (decls mn) us ws -> allowed fill mn us ->
  exists m, get_matches ap fill ws = Parsed m /\
    start_of ap fill run ws = Runs (match values_given (txt "path") us with [] => txt "." | v :: _ => v end) (run m) /\
    (length (values_given (txt "path") us) <= 1)%nat.
Proof.
  intros ap mn fill ws us A run Ht Hw Ha. destruct (C143_meaning ap mn fill ws us Ht Hw Ha) as (m & Em & U). exists m. split; [assumption|].
  assert (Hd : exists d, In d (decls mn) /\ d_name d = txt "path" /\ d_default d = Some (txt ".") /\ d_values d = Some (1, Some 1)%nat).
  { assert (Hall : Forall (fun t => exists d, In d (decls (snd t)) /\ d_name d = txt "path" /\ d_default d = Some (txt ".") /\ d_values d = Some (1, Some 1)%nat) tools).
    { repeat (constructor; [eexists; split; [left; reflexivity|split; [reflexivity|split; reflexivity]]|]). constructor. }
    rewrite Forall_forall in Hall. apply (Hall _ Ht). }
  destruct Hd as (d & Hd & En & Ed & Ev). destruct (U d Hd) as [U1 _]. assert (Hn : d_default d <> None) by (rewrite Ed; discriminate).
  assert (X := U1 (or_intror Hn)). rewrite En in X.
  assert (L : (1 <= length (ends_with_values fill d us) <= 1)%nat).
  { destruct (used_dec (d_name d) us) as [Hu|Hu].
    - destruct Ha as (A1 & _). destruct (A1 d Hd Hu) as [He _]. rewrite Ev in He. exact He.
    - unfold ends_with_values. rewrite (not_used_values _ _ Hu), Ed, (not_used_uses _ _ Hu). cbn. lia. }
  assert (L2 := ends_length2 fill d us). rewrite En in L2. split; [|lia].
  unfold start_of, value_of. rewrite Em, X. unfold ends_with_values in *. rewrite En in *. rewrite Ed in *.
  destruct (values_given (txt "path") us) as [|v l]; [|reflexivity].
  destruct (uses_of (txt "path") us); [reflexivity|]. destruct fill; [reflexivity|]. cbn in L. lia.
Qed.
Print Assumptions C148_directory.
(** What has to be given was given: [unwrap] on it does not fail. *)
Theorem C148_required : forall ap mn fill ws m, In (ap, mn) tools -> get_matches ap fill ws = Parsed m ->
  forall d, In d (decls mn) -> d_required d = true -> d_values d <> None -> exists v, value_of m (d_name d) = Some v.
Proof.
  intros ap mn fill ws m Ht H d Hd Hr Hv. destruct (tools_good _ Ht) as [HP HM]. cbn [fst snd] in HP, HM.
  destruct (get_matches_sound ap HP mn HM fill ws m H) as (us & _ & (_ & A2 & _) & U). destruct (U d Hd) as [U1 _].
  assert (Hx : values_of m (d_name d) = Some (ends_with_values fill d us)).
  { apply U1. destruct (d_default d) eqn:E; [right; discriminate|]. left. now apply A2. }
  destruct (accepted_values ap mn fill ws m Ht H d Hd) as [X|(vs & X & He)]; [congruence|]. unfold value_of. rewrite X.
  destruct vs as [|v vs]; [|now exists v]. exfalso. destruct (d_values d) as [[lo hi]|] eqn:E; [|congruence]. cbn [enough length] in He.
  assert (Hall : forallb (fun t => forallb (fun d => match d_values d with Some (lo, _) => Nat.leb 1 lo | None => true end) (decls (snd t))) tools = true)
    by (vm_compute; reflexivity).
  rewrite forallb_forall in Hall. specialize (Hall _ Ht). cbn [snd] in Hall. rewrite forallb_forall in Hall. specialize (Hall d Hd). rewrite E in Hall.
  apply Nat.leb_le in Hall. lia.
Qed.
Print Assumptions C148_required.
(** gc-short-path --start a --end b *)
Theorem C148_short_path_line : forall nd order Q fill fuel a b, plain a -> plain b ->
  short_path_main nd order Q fill fuel [txt "--start"; a; txt "--end"; b] = Runs (txt ".") (gc_short_path nd order Q a b fuel).
Proof.
  intros nd order Q fill fuel a b Ha Hb. assert (Ht : In (app_short_path, manual_short_path) tools) by in_tools.
  assert (Hw : written (decls manual_short_path) [(txt "start", [a]); (txt "end", [b])] [txt "--start"; a; txt "--end"; b]).
  { apply (written_values (decls manual_short_path) (needed "start" "s") [a]); [split; [in_decls|discriminate]|now repeat constructor|].
    apply (written_values (decls manual_short_path) (needed "end" "e") [b] [] []); [split; [in_decls|discriminate]|now repeat constructor|constructor]. }
  destruct (read_line app_short_path manual_short_path fill _ _ Ht Hw) as (m & Em & V); [vm_compute; reflexivity|].
  unfold short_path_main, start_of. rewrite Em. unfold given, value_of. read_in m V. reflexivity.
Qed.
Print Assumptions C148_short_path_line.
(** What gc-clean and gc-random are run with, for every accepted line. *)
Lemma used_uses n us : used n us <-> uses_of n us <> [].
Proof.
  unfold used, uses_of. split.
  - intros [vs H] E. assert (X : In (n, vs) (filter (fun u => if list_eq_dec N.eq_dec (fst u) n then true else false) us)).
    { apply filter_In. split; [assumption|]. cbn [fst]. now destruct (list_eq_dec N.eq_dec n n). }
    rewrite E in X. destruct X.
  - intro H. destruct (filter (fun u : use => if list_eq_dec N.eq_dec (fst u) n then true else false) us) as [|[k vs] l] eqn:E; [now elim H|]. exists vs.
    assert (X : In (k, vs) (filter (fun u : use => if list_eq_dec N.eq_dec (fst u) n then true else false) us)) by (rewrite E; now left).
    apply filter_In in X. destruct X as [X1 X2]. cbn [fst] in X2. destruct (list_eq_dec N.eq_dec k n); [now subst|discriminate].
Qed.
Lemma plain_option fill mn us m d : understood fill mn us (values_of m) -> In d (decls mn) -> d_default d = None ->
  values_of m (d_name d) = match uses_of (d_name d) us with [] => None | _ => Some (values_given (d_name d) us) end.
Proof.
  intros U Hd Ed. destruct (U d Hd) as [U1 U2]. destruct (uses_of (d_name d) us) as [|u l] eqn:E.
  - apply U2; [|assumption]. intro Hu. now apply used_uses in Hu.
  - rewrite U1 by (left; apply used_uses; rewrite E; discriminate). unfold ends_with_values. rewrite Ed. now destruct (values_given (d_name d) us).
Qed.
Lemma present_option fill mn us m d : understood fill mn us (values_of m) -> In d (decls mn) -> d_default d = None ->
  is_present m (d_name d) = true <-> used (d_name d) us.
Proof.
  intros U Hd Ed. pose proof (plain_option fill mn us m d U Hd Ed) as X. rewrite used_uses. unfold values_of in X. unfold is_present.
  destruct (uses_of (d_name d) us); destruct (look m (d_name d)); try discriminate X; split; (discriminate || congruence || intro H; now elim H).
Qed.
Theorem C148_clean_line : forall fill answer us ws, written (decls manual_clean) us ws -> allowed fill manual_clean us ->
  exists d force, clean_main fill answer ws = Runs d (gc_clean force answer) /\ (force = true <-> used (txt "force") us).
Proof.
  intros fill answer us ws Hw Ha. assert (Ht : In (app_clean, manual_clean) tools) by in_tools.
  destruct (C143_meaning _ _ fill ws us Ht Hw Ha) as (m & Em & U).
  destruct (C148_directory _ _ fill ws us _ (fun m => gc_clean (is_present m (txt "force")) answer) Ht Hw Ha) as (m' & Em' & Es & _).
  rewrite Em in Em'. injection Em' as <-. do 2 eexists. split; [exact Es|].
  exact (present_option fill manual_clean us m (switch "force" "f") U ltac:(in_decls) eq_refl).
Qed.
Print Assumptions C148_clean_line.
Theorem C148_random_line : forall chunks order fill checked rng answer fuel us ws, written (decls manual_random) us ws -> allowed fill manual_random us ->
  exists d a, random_main chunks order fill checked rng answer fuel ws = Runs d (gc_random_main checked chunks order rng a answer fuel) /\
    (r_force a = true <-> used (txt "force") us) /\ (r_connected a = true <-> used (txt "connected") us) /\
    r_vertices a = match values_given (txt "vertex-count") us with [] => txt "100" | v :: _ => v end /\
    r_edges a = hd_error (values_given (txt "edge-count") us) /\
    (r_cycle a = None <-> ~ used (txt "cycle") us) /\ (forall vs, r_cycle a = Some vs -> vs = values_given (txt "cycle") us).
Proof.
  intros chunks order fill checked rng answer fuel us ws Hw Ha. assert (Ht : In (app_random, manual_random) tools) by in_tools.
  destruct (C143_meaning _ _ fill ws us Ht Hw Ha) as (m & Em & U).
  destruct (C148_directory _ _ fill ws us _ (fun m => gc_random_main checked chunks order rng (random_of m) answer fuel) Ht Hw Ha) as (m' & Em' & Es & _).
  rewrite Em in Em'. injection Em' as <-. do 2 eexists. split; [exact Es|]. cbn [random_of r_force r_connected r_vertices r_edges r_cycle].
  split; [exact (present_option fill manual_random us m (switch "force" "f") U ltac:(in_decls) eq_refl)|].
  split; [exact (present_option fill manual_random us m (switch "connected" "c") U ltac:(in_decls) eq_refl)|].
  split; [|split].
  - unfold given, value_of. destruct (U (with_default "vertex-count" "v" "100" true) ltac:(in_decls)) as [U1 _]. cbn [d_name with_default] in U1.
    rewrite U1 by (right; discriminate). destruct Ha as (Hal & _).
    pose proof (Hal (with_default "vertex-count" "v" "100" true) ltac:(in_decls)) as Hal1. cbn [d_name d_values with_default] in Hal1.
    unfold ends_with_values in *. cbn [d_name d_default with_default] in *.
    pose proof (used_uses (txt "vertex-count") us) as SU.
    destruct (values_given (txt "vertex-count") us) as [|v vs] eqn:Ev; [|reflexivity].
    destruct (uses_of (txt "vertex-count") us) as [|u l] eqn:Eu; [reflexivity|].
    destruct fill; [reflexivity|]. destruct (Hal1 (proj2 SU ltac:(discriminate))) as [[Hge _] _]. cbn in Hge. lia.
  - unfold value_of. rewrite (plain_option fill manual_random us m (one "edge-count" "e") U ltac:(in_decls) eq_refl : values_of m (txt "edge-count") = _).
    cbn [d_name one]. unfold values_given. destruct (uses_of (txt "edge-count") us) as [|u l]; [reflexivity|].
    now destruct (concat (map snd (u :: l))).
  - pose proof (plain_option fill manual_random us m (some_of 2 "cycle" "O") U ltac:(in_decls) eq_refl : values_of m (txt "cycle") = _) as X.
    cbn [d_name some_of] in X. rewrite used_uses, X. destruct (uses_of (txt "cycle") us) as [|u l].
    + split; [|discriminate]. split; [intros _ H; now elim H|reflexivity].
    + split; [split; [discriminate|intro H; elim H; discriminate]|]. intros vs E. now injection E.
Qed.
Print Assumptions C148_random_line.
Example C148_case : written (decls manual_desc) [(txt "path", [txt "dir"])] [txt "--path"; txt "dir"] /\
  allowed true manual_desc [(txt "path", [txt "dir"])] /\ written (decls manual_desc) [] [] /\ allowed true manual_desc [].
Proof.
  split; [|split; [apply allowedb_ok; reflexivity|split; [constructor|apply allowedb_ok; reflexivity]]].
  apply (written_values (decls manual_desc) path_option [txt "dir"] [] []); [split; [in_decls|discriminate]| |constructor]. repeat constructor.
  now apply plain_dashed.
Qed.

(** ** C149: gc-build prints the counts on every line it accepts *)
Theorem C149_verbose_refuted : forall nd chunks order fill ws path p, build_main nd chunks order fill ws = Runs path p ->
  p = gc_build_print nd chunks order true.
Proof.
  intros nd chunks order fill ws path p H. unfold build_main, start_of in H. destruct (get_matches app_build fill ws) as [m| |] eqn:E; try discriminate.
  assert (Ht : In (app_build, manual_build) tools) by in_tools. destruct (tools_good _ Ht) as [HP HM]. cbn [fst snd] in HP, HM.
  destruct (get_matches_sound app_build HP manual_build HM fill ws m E) as (us & _ & _ & U).
  assert (Hd : In (with_default "verbose" "v" "false" false) (decls manual_build)) by in_decls. destruct (U _ Hd) as [U1 _].
  assert (Hn : d_default (with_default "verbose" "v" "false" false) <> None) by discriminate.
  assert (X := U1 (or_intror Hn)). change (d_name (with_default "verbose" "v" "false" false)) with (txt "verbose") in X.
  rewrite is_present_read, X in H. destruct (value_of m (txt "path")); [|discriminate]. now injection H as _ <-.
Qed.
Print Assumptions C149_verbose_refuted.
(** gc-build, and gc-build --verbose false *)
Example C149_case : forall nd chunks order, build_main nd chunks order true [] = Runs (txt ".") (gc_build_print nd chunks order true) /\
  build_main nd chunks order true (map txt ["--verbose"; "false"]%string) = Runs (txt ".") (gc_build_print nd chunks order true).
Proof. intros. split; reflexivity. Qed.
