(** * Property C170: what a failing program says *)
From Coq Require Import String.
From Coq Require Import List NArith ZArith Bool Arith Lia.
From Verif Require Import Spec Base Graph GraphSpec Text Format FormatSpec TextFacts FormatFacts PropFormat
  Store StoreSpec StoreFacts Cli CliSpec CliFacts Queue Cycle Query Told.
Import ListNotations.
Open Scope N_scope.

(** The exit status that goes with a message. *)
Definition status_of (m : option text) : exit := match m with None => Success | Some _ => Failure end.

(** ** A malformed file *)
Lemma debug_app other p q : flat_map (debug_char other) (p ++ q) = flat_map (debug_char other) p ++ flat_map (debug_char other) q.
Proof. apply flat_map_app. Qed.
Lemma debug_digits other d : Forall ascii09 d -> flat_map (debug_char other) d = d.
Proof.
  induction 1 as [|c d Hc Hd IH]; [reflexivity|]. cbn [flat_map]. rewrite IH.
  apply ascii09_range in Hc. unfold debug_char.
  destruct (N.eqb_spec c 34); [lia|]. destruct (N.eqb_spec c 92); [lia|]. destruct (N.eqb_spec c 9); [lia|].
  destruct (N.eqb_spec c 10); [lia|]. destruct (N.eqb_spec c 13); [lia|].
  destruct (N.leb_spec 32 c); [|lia]. destruct (N.ltb_spec c 127); [|lia]. destruct (N.eqb_spec c 39); [lia|]. reflexivity.
Qed.
Lemma reads_imp (P Q : text -> graph_command -> Prop) ls cs : (forall l c, P l c -> Q l c) -> reads P ls cs -> reads Q ls cs.
Proof. intros H R. induction R; [apply reads_end|apply reads_skip|apply reads_line]; auto. Qed.

(** Every line before [l] is empty, a comment or a command, and [l] is none of
    these: the message has the number of [l], counted from 1. *)
Theorem C170_faulty_line : forall nd dp dio ab other what s content pre l post cs, digit_table nd ->
  commands_entry s = File content -> file_lines content (pre ++ l :: post) ->
  reads (gcmd_line numeral) pre cs -> ~ skipped l -> (forall c, ~ gcmd_line (digits nd) l c) ->
  exists d rest, canonical_numeral d (N.of_nat (length pre) + 1) /\
    load_told nd dp dio ab other what s =
      Some (what ++ txt ": " ++ [34] ++ txt "Error at line " ++ d ++ txt ": Couldn" ++ rest).
Proof.
  intros nd dp dio ab other what s content pre l post cs T Ec Fl Hr Hs Hn.
  assert (Ep : gcmd_parse_line nd l = Done (Err (txt "Couldn't parse '" ++ l ++ txt "'"))) by now apply gcmd_parse_err.
  destruct (show_spec (N.of_nat (length pre) + 1)) as (Hd1 & Hd2 & Hd3). set (d := show (N.of_nat (length pre) + 1)) in *.
  assert (Er : gcmd_read_as_commands nd content =
    Done (Err (txt "Error at line " ++ d ++ txt ": " ++ txt "Couldn't parse '" ++ l ++ txt "'"))).
  { apply (C16_reader (gcmd_parse_line nd) content). exists pre, l, post, cs, (txt "Couldn't parse '" ++ l ++ txt "'"), d.
    split; [assumption|]. split; [|split; [assumption|split; [assumption|split; [split; [assumption|now split]|reflexivity]]]].
    eapply reads_imp; [|exact Hr]. intros. now apply gcmd_parse_ok. }
  exists d, (flat_map (debug_char other) (txt "'t parse '" ++ l ++ txt "'") ++ [34]).
  split; [split; [assumption|now split]|].
  unfold load_told. rewrite Ec. unfold gcmd_read, read. unfold gcmd_read_as_commands in Er. rewrite Er.
  cbn [obind]. unfold expect_err, debug_str. do 3 f_equal. cbn [app]. f_equal.
  change (txt "Couldn't parse '") with (txt "Couldn" ++ txt "'t parse '").
  rewrite !debug_app, (debug_digits other d) by apply Hd1. rewrite <- !app_assoc. cbn. reflexivity.
Qed.
Print Assumptions C170_faulty_line.

(** So do all programs that load the graph; gc-desc also has the path. *)
Theorem C170_programs : forall nd chunks dp dio ab other s content pre l post cs start end_ n m order path, digit_table nd ->
  commands_entry s = File content -> file_lines content (pre ++ l :: post) ->
  reads (gcmd_line numeral) pre cs -> ~ skipped l -> (forall c, ~ gcmd_line (digits nd) l c) ->
  id_argument start n -> id_argument end_ m ->
  exists d rest, canonical_numeral d (N.of_nat (length pre) + 1) /\
    let said := txt ": " ++ [34] ++ txt "Error at line " ++ d ++ txt ": Couldn" ++ rest in
    topo_sort_told nd dp dio ab other s = Some (txt "Couldn't load graph" ++ said) /\
    cycle_told nd dp dio ab other s = Some (txt "Couldn't load graph" ++ said) /\
    with_ids_told nd dp dio ab other start end_ s = Some (txt "Couldn't load graph" ++ said) /\
    desc_told nd dp dio ab other path s = Some (txt "Couldn't load graph at '" ++ path ++ txt "'" ++ said) /\
    run_prog (build_told nd chunks dp dio ab other order) s = (s, Some (txt "Couldn't load graph" ++ said)).
Proof.
  intros nd chunks dp dio ab other s content pre l post cs start end_ n m order path T Ec Fl Hr Hs Hn Ha Hb.
  assert (F : exists d rest, canonical_numeral d (N.of_nat (length pre) + 1) /\ forall what,
    load_told nd dp dio ab other what s = Some (what ++ txt ": " ++ [34] ++ txt "Error at line " ++ d ++ txt ": Couldn" ++ rest)).
  { destruct (C170_faulty_line nd dp dio ab other [] s content pre l post cs T Ec Fl Hr Hs Hn) as (d & rest & Hd & E).
    exists d, rest. split; [assumption|]. intro what.
    destruct (C170_faulty_line nd dp dio ab other what s content pre l post cs T Ec Fl Hr Hs Hn) as (d' & rest' & Hd' & E').
    unfold load_told in *. rewrite Ec in *. destruct (gcmd_read nd content) as [[g|e]| |]; try discriminate.
    f_equal. change (what ++ expect_err [] (debug_str other e) = what ++ ([] ++ txt ": " ++ [34] ++ txt "Error at line " ++ d ++ txt ": Couldn" ++ rest)).
    f_equal. congruence. }
  destruct F as (d & rest & Hd & E). exists d, rest. split; [assumption|]. cbn zeta.
  split; [apply E|]. split; [apply E|]. split; [|split].
  - unfold with_ids_told, parse_vertex_id. apply parse_id_spec in Ha. apply parse_id_spec in Hb. rewrite Ha, Hb. apply E.
  - unfold desc_told. rewrite E. rewrite <- !app_assoc. reflexivity.
  - unfold build_told. rewrite run_bind. cbn [run_prog fst snd]. rewrite E. reflexivity.
Qed.
Print Assumptions C170_programs.

(** ** A program says something exactly when it fails *)
Lemma load_told_iff nd dp dio ab other what s :
  load_told nd dp dio ab other what s = None <-> exists g, snd (run_prog (load_graph nd) s) = Done (Ok g).
Proof.
  unfold load_told, load_graph. cbn [run_prog snd].
  destruct (commands_entry s) as [|c|]; [split; [discriminate|intros [g H]; discriminate]| |split; [discriminate|intros [g H]; discriminate]].
  destruct (gcmd_read nd c) as [[g|m]| |]; split; intro H; try discriminate; eauto; destruct H as [g' H]; discriminate.
Qed.

Lemma first_bad_parse vs : (exists v, first_bad vs = Some v /\ In v vs /\ parse_u64 v = None /\ parse_all vs = Panic) \/
  (first_bad vs = None /\ exists l, parse_all vs = Done l).
Proof.
  induction vs as [|v vs IH]; [right; split; [reflexivity|now exists []]|].
  cbn [first_bad parse_all]. destruct (parse_u64 v) as [n|] eqn:E; cbn [expect obind].
  - destruct IH as [(w & H1 & H2 & H3 & H4)|(H1 & l & H2)].
    + left. exists w. split; [assumption|]. split; [now right|]. split; [assumption|]. rewrite H4. reflexivity.
    + right. split; [assumption|]. exists (n :: l). rewrite H2. reflexivity.
  - left. exists v. split; [reflexivity|]. split; [now left|]. now split.
Qed.

Definition agrees (p : prog (option text)) (q : prog exit) : Prop :=
  forall s, fst (run_prog p s) = fst (run_prog q s) /\ status_of (snd (run_prog p s)) = snd (run_prog q s).
Lemma agrees_option dp A values (f : list text -> outcome A) rest call p q : agrees p q ->
  agrees (option_told dp values f rest call p) (option_call values f call q).
Proof.
  intros H s. unfold option_told, option_call. destruct values as [vs|]; [|apply H].
  destruct (f vs) as [a| |]; [|now split|now split]. rewrite !run_bind. apply H.
Qed.

Theorem C170_exit_status : forall nd chunks dp dio ab other s,
  (forall a, agrees (add_told chunks dp a) (gc_add chunks a)) /\
  (forall v e, agrees (delete_told chunks dp v e) (gc_delete chunks v e)) /\
  agrees (init_told dio) gc_init /\
  (forall order, agrees (build_told nd chunks dp dio ab other order) (gc_build nd chunks order)) /\
  (forall path force answer, agrees (clean_told dio path force answer) (gc_clean force answer)) /\
  (forall path g force answer, agrees (random_told chunks dio path g force answer) (gc_random chunks g force answer)) /\
  (forall order path, desc_told nd dp dio ab other path s = None <-> exists ls, snd (run_prog (gc_desc nd order) s) = Some ls).
Proof.
  intros nd chunks dp dio ab other s. split; [|split; [|split; [|split; [|split; [|split]]]]].
  - intros a. unfold add_told, gc_add. repeat apply agrees_option. intro; now split.
  - intros v e. unfold delete_told, gc_delete. repeat apply agrees_option. intro; now split.
  - intro t. unfold init_told, gc_init. rewrite !run_bind. destruct (snd (run_prog init t)) as [[]|]; now split.
  - intros order t. unfold build_told, gc_build. rewrite !run_bind.
    cbn [run_prog fst snd load_graph]. unfold load_told.
    destruct (commands_entry t) as [|c|]; [now split| |now split].
    destruct (gcmd_read nd c) as [[g|m]| |]; try now split.
    rewrite !run_bind. destruct (snd (run_prog (save_graph_as_commands chunks (order g)) t)) as [[]|]; now split.
  - intros path force answer t. unfold clean_told, gc_clean. destruct (negb force && negb (confirmed answer)); [now split|].
    rewrite !run_bind. destruct (snd (run_prog clean t)) as [[]|]; now split.
  - intros path g force answer t. unfold random_told, gc_random. destruct (negb force && negb (confirmed answer)); [now split|].
    rewrite !run_bind. destruct (snd (run_prog clean t)) as [[]|]; [|now split]. cbn [io_told].
    rewrite !run_bind. destruct (snd (run_prog init _)) as [[]|]; [|now split]. cbn [io_told].
    rewrite !run_bind. destruct (snd (run_prog (save_graph_as_commands chunks g) _)) as [[]|]; now split.
  - intros order path. unfold desc_told. rewrite load_told_iff. unfold gc_desc. rewrite run_bind. cbn [run_prog snd].
    destruct (snd (run_prog (load_graph nd) s)) as [[g|m]| |]; split; intros [x H]; try discriminate; eauto.
Qed.
Print Assumptions C170_exit_status.

(** A query that cannot load the graph, or is given an id that is none, panics. *)
Theorem C170_queries : forall nd dp dio ab other s order Q a b ca ra fuel,
  (with_ids_told nd dp dio ab other a b s <> None ->
     snd (run_prog (gc_csp nd order Q a b ra fuel) s) = Panic /\
     snd (run_prog (gc_short_path nd order Q a b fuel) s) = Panic) /\
  (cycle_told nd dp dio ab other s <> None -> snd (run_prog (gc_cycle nd order ca fuel) s) = Panic) /\
  (topo_sort_told nd dp dio ab other s <> None -> snd (run_prog (gc_topo_sort nd order fuel) s) = Panic).
Proof.
  intros nd dp dio ab other s order Q a b ca ra fuel.
  assert (L : forall what f, load_told nd dp dio ab other what s <> None -> snd (run_prog (with_graph nd order f) s) = Panic).
  { intros what f H. unfold with_graph. rewrite run_bind. cbn [run_prog snd].
    destruct (snd (run_prog (load_graph nd) s)) as [[g|m]| |] eqn:E; try reflexivity.
    exfalso. apply H. apply load_told_iff. eauto. }
  split; [|split].
  - unfold with_ids_told, gc_csp, gc_short_path, with_ids. destruct (parse_vertex_id a) as [n|]; [|now split].
    destruct (parse_vertex_id b) as [m|]; [|now split]. intro H. split; eapply L; exact H.
  - intro H. eapply L. exact H.
  - intro H. eapply L. exact H.
Qed.
Print Assumptions C170_queries.

(** ** An id of the file that is no u64: the message has no line number *)
Lemma captures_fine nd l r : gcmd_parse_line nd l = Done r -> first_bad (captures nd l) = None.
Proof.
  unfold gcmd_parse_line, captures.
  assert (H2 : forall mk caps, two_ids mk caps = Done r -> first_bad caps = None).
  { intros mk caps. unfold two_ids. destruct caps as [|x [|y [|]]]; try discriminate. unfold parse_id. cbn [first_bad].
    destruct (parse_u64 x); [|discriminate]. destruct (parse_u64 y); [reflexivity|discriminate]. }
  assert (H1 : forall mk caps, one_id mk caps = Done r -> first_bad caps = None).
  { intros mk caps. unfold one_id. destruct caps as [|x [|]]; try discriminate. unfold parse_id. cbn [first_bad].
    destruct (parse_u64 x); [reflexivity|discriminate]. }
  destruct (rx_match (ADD_EDGE_RE nd) l); [apply H2|]. destruct (rx_match (ADD_VERTEX_RE nd) l); [apply H1|].
  destruct (rx_match (REMOVE_EDGE_RE nd) l); [apply H2|]. destruct (rx_match (REMOVE_VERTEX_RE nd) l); [apply H1|].
  reflexivity.
Qed.
Lemma skipped_fine nd l : digit_table nd -> skipped l -> first_bad (captures nd l) = None.
Proof.
  intros T H. eapply captures_fine. apply gcmd_parse_err; [assumption|]. split; [|reflexivity].
  intros c G. now apply (gcmd_line_shape _ _ _ G).
Qed.
Lemma panic_capture_at nd pre l post cs v : digit_table nd -> reads (gcmd_line numeral) pre cs ->
  first_bad (captures nd l) = Some v -> panic_capture nd (pre ++ l :: post) = v.
Proof.
  intros T R H. induction R as [|x ls cs Hx R IH|x ls c cs Hx Hc R IH]; cbn [app panic_capture].
  - rewrite H. reflexivity.
  - rewrite skipped_fine by assumption. apply IH.
  - apply (gcmd_parse_ok nd T) in Hc. rewrite (captures_fine _ _ _ Hc). apply IH.
Qed.

(** Whatever stands before the line. *)
Theorem C170_no_line_refuted : forall nd dp dio ab other what s content pre k post cs, digit_table nd -> ~ u64 k ->
  commands_entry s = File content -> file_lines content (pre ++ (txt "AddVertex " ++ show k) :: post) ->
  reads (gcmd_line numeral) pre cs ->
  load_told nd dp dio ab other what s =
    Some (txt "called `Result::unwrap()` on an `Err` value: " ++ dp (show k)).
Proof.
  intros nd dp dio ab other what s content pre k post cs T Hk Ec Fl R.
  assert (Hp : gcmd_parse_line nd (txt "AddVertex " ++ show k) = Panic) by now apply C15_parse_panics_refuted.
  assert (Hs : ~ skipped (txt "AddVertex " ++ show k)).
  { assert (G : gcmd_line (digits nd) (txt "AddVertex " ++ show k) (AddVertex 0)).
    { constructor. apply run_ascii; [assumption|apply show_run]. }
    apply (gcmd_line_shape _ _ _ G). }
  assert (Er : gcmd_read_as_commands nd content = Panic).
  { apply (C16_reader (gcmd_parse_line nd) content). exists pre, (txt "AddVertex " ++ show k), post, cs.
    split; [assumption|]. split; [|now split]. eapply reads_imp; [|exact R]. intros. now apply gcmd_parse_ok. }
  unfold load_told. rewrite Ec. unfold gcmd_read, read. unfold gcmd_read_as_commands in Er. rewrite Er. cbn [obind].
  do 2 f_equal. unfold unwrap_err. f_equal. f_equal. apply file_lines_fun in Fl. rewrite <- Fl.
  eapply panic_capture_at; [assumption|exact R|].
  assert (Rk : FormatSpec.run (fun c => nd c = true) (show k)) by (apply run_ascii; [assumption|apply show_run]).
  unfold captures.
  destruct (rx_match (ADD_EDGE_RE nd) (txt "AddVertex " ++ show k)) as [caps|] eqn:E1.
  { apply rx_lit_two in E1; [|assumption]. destruct E1 as (d1 & w & d2 & E & _). discriminate E. }
  assert (E2 : rx_match (ADD_VERTEX_RE nd) (txt "AddVertex " ++ show k) = Some [show k]) by (apply rx_lit_one; eauto).
  rewrite E2. cbn [first_bad]. destruct (parse_u64 (show k)) as [n|] eqn:En; [|reflexivity].
  exfalso. apply Hk. apply (parse_u64_digits nd (show k) n T Rk) in En. destruct En as (_ & Ed & Hu).
  destruct (show_spec k) as (_ & Hd & _). congruence.
Qed.
Print Assumptions C170_no_line_refuted.

(** ** The command line *)
(** The first option with an id that is none: the message has neither the
    option nor the text of the id, only the error of the parser. *)
Theorem C170_bad_id : forall chunks dp vs ids e,
  ~ (exists ns, id_arguments vs ns) ->
  (forall a, a_vertex a = Some vs -> forall s, exists v, In v vs /\ (forall n, ~ id_argument v n) /\
     run_prog (add_told chunks dp a) s = (s, Some (txt "Invalid vertex id: " ++ dp v))) /\
  (forall s, exists v, In v vs /\ (forall n, ~ id_argument v n) /\
     run_prog (delete_told chunks dp (Some vs) e) s = (s, Some (txt "Invalid vertex id: " ++ dp v))) /\
  (forall a, a_vertex a = None -> a_edge a = Some ids -> Nat.even (length ids) = false ->
     (exists ns, id_arguments ids ns) ->
     forall s, run_prog (add_told chunks dp a) s = (s, Some (txt "Invalid number of vertices. Must be an even number"))).
Proof.
  intros chunks dp vs ids e Hno.
  assert (B : exists v, first_bad vs = Some v /\ In v vs /\ (forall n, ~ id_argument v n) /\ parse_all vs = Panic).
  { destruct (first_bad_parse vs) as [(v & H1 & H2 & H3 & H4)|(_ & l & H)].
    - exists v. split; [assumption|]. split; [assumption|]. split; [|assumption]. intros n Hn. apply parse_id_spec in Hn. congruence.
    - exfalso. apply Hno. exists l. now apply parse_all_done. }
  destruct B as (v & H1 & H2 & H3 & H4). split; [|split].
  - intros a Ea s. exists v. split; [assumption|]. split; [assumption|]. unfold add_told, option_told at 1.
    rewrite Ea, H4. unfold values_told. rewrite H1. reflexivity.
  - intros s. exists v. split; [assumption|]. split; [assumption|]. unfold delete_told, option_told at 1.
    rewrite H4. unfold values_told. rewrite H1. reflexivity.
  - intros a Ea Ee Hl [ns Hn] s. unfold add_told, option_told at 1 2. rewrite Ea, Ee.
    pose proof (proj2 (parse_all_done _ _) Hn) as Hp. rewrite Hp. cbn [obind].
    assert (Hln : length ns = length ids) by (clear -Hn; induction Hn; cbn; congruence).
    rewrite tuple_odd by now rewrite Hln. cbn [obind expect]. unfold values_told.
    destruct (first_bad_parse ids) as [(w & _ & _ & _ & Hw)|(-> & _)]; [congruence|reflexivity].
Qed.
Print Assumptions C170_bad_id.

(** Two command lines with the mistake in different places, one message. *)
Theorem C170_which_id_refuted : forall chunks dp s,
  let at_vertex := {| a_vertex := Some [txt "1"; txt "x"]; a_reverse := false; a_edge := None; a_chain := None;
                      a_cycle := None; a_star := None; a_clique := None |} in
  let at_clique := {| a_vertex := None; a_reverse := false; a_edge := None; a_chain := None;
                      a_cycle := None; a_star := None; a_clique := Some [txt "x"; txt "7"; txt "8"] |} in
  run_prog (add_told chunks dp at_vertex) s = (s, Some (txt "Invalid vertex id: " ++ dp (txt "x"))) /\
  run_prog (add_told chunks dp at_clique) s = (s, Some (txt "Invalid vertex id: " ++ dp (txt "x"))).
Proof. intros. split; reflexivity. Qed.
Print Assumptions C170_which_id_refuted.

(** The start and end of a search: the message is the same for every mistake,
    and hides whether the graph could be loaded. *)
Theorem C170_which_end_refuted : forall nd dp dio ab other a b s,
  (forall n, ~ id_argument a n) \/ (forall n, ~ id_argument b n) ->
  with_ids_told nd dp dio ab other a b s = Some (txt "called `Option::unwrap()` on a `None` value").
Proof.
  intros nd dp dio ab other a b s H. unfold with_ids_told, parse_vertex_id.
  destruct (parse_u64 a) as [n|] eqn:Ea; [|reflexivity]. destruct (parse_u64 b) as [m|] eqn:Eb; [|reflexivity].
  exfalso. destruct H as [H|H]; [apply (H n)|apply (H m)]; now apply parse_id_spec.
Qed.
Print Assumptions C170_which_end_refuted.

Definition told_case_content : text := txt "# g" ++ [10] ++ txt "AddVertex 1" ++ [10; 10] ++ txt "AddEdge 1" ++ [10].
Definition told_case : fs := {| fs_root := true; fs_lock := Absent; fs_graph := GraphDir (File told_case_content) |}.
Definition told_case_big : fs := {| fs_root := true; fs_lock := Absent;
  fs_graph := GraphDir (File (txt "AddVertex 1" ++ [10] ++ txt "AddEdge 1 18446744073709551616" ++ [10])) |}.
Example C170_case : forall dp dio,
  load_told table dp dio (txt "entity not found") (fun c => [92; c]) (txt "Couldn't load graph") told_case =
    Some (txt "Couldn't load graph: " ++ [34] ++ txt "Error at line 4: Couldn\'t parse \'AddEdge 1\'" ++ [34]) /\
  load_told table dp dio (txt "entity not found") (fun c => [92; c]) (txt "Couldn't load graph") told_case_big =
    Some (txt "called `Result::unwrap()` on an `Err` value: " ++ dp (txt "18446744073709551616")) /\
  with_ids_told table dp dio (txt "entity not found") (fun c => [92; c]) (txt "1") (txt "-1") told_case =
    Some (txt "called `Option::unwrap()` on a `None` value") /\
  (exists pre l post cs, file_lines told_case_content (pre ++ l :: post) /\ reads (gcmd_line numeral) pre cs /\
     ~ skipped l /\ (forall c, ~ gcmd_line (digits table) l c) /\ length pre = 3%nat).
Proof.
  intros dp dio. split; [vm_compute; reflexivity|]. split; [vm_compute; reflexivity|]. split; [vm_compute; reflexivity|].
  exists [txt "# g"; txt "AddVertex 1"; []], (txt "AddEdge 1"), [], [AddVertex 1]. split; [|split; [|split; [|split; [|reflexivity]]]].
  - apply file_lines_fun. vm_compute. reflexivity.
  - apply reads_skip; [right; exists [], (txt " g"); now split|]. apply reads_line.
    + exact (proj1 (skip_dec (gcmd_parse_line table) (txt "AddVertex 1")) eq_refl).
    + apply (gcmd_parse_ok table table_ok). reflexivity.
    + apply reads_skip; [now left|apply reads_end].
  - exact (proj1 (skip_dec (gcmd_parse_line table) (txt "AddEdge 1")) eq_refl).
  - apply (gcmd_parse_err table table_ok (txt "AddEdge 1") (txt "Couldn't parse 'AddEdge 1'")). reflexivity.
Qed.

(** ** The path of the graph *)
(** The message has the path, in apostrophes. *)
Definition names_path (path m : text) : Prop := exists a b, m = a ++ [39] ++ path ++ [39] ++ b.
(** What gc-clean and gc-random say has the path, and so has what gc-desc says, unless the failure is one of reading a line. *)
Theorem C170_path : forall nd chunks dp dio ab other path s m,
  (forall force answer, snd (run_prog (clean_told dio path force answer) s) = Some m -> names_path path m) /\
  (forall g force answer, snd (run_prog (random_told chunks dio path g force answer) s) = Some m -> names_path path m) /\
  (desc_told nd dp dio ab other path s = Some m -> names_path path m \/ exists e, m = txt "called `Result::unwrap()` on an `Err` value: " ++ e).
Proof.
  intros nd chunks dp dio ab other path s m.
  assert (W : forall a b e, names_path path (expect_err ((a ++ [39]) ++ path ++ [39] ++ b) e)).
  { intros a b e. exists a, (b ++ txt ": " ++ e). unfold expect_err. now rewrite <- !app_assoc. }
  assert (C : forall e, names_path path (expect_err (clean_what path) e)).
  { intro e. apply (W (txt "A problem occured. Path ") (txt " might not exist, or the graph is currently lock (check 'lock' file)")). }
  split; [|split].
  - intros force answer. unfold clean_told. destruct (negb force && negb (confirmed answer)); [discriminate|].
    rewrite run_bind. cbn [run_prog snd]. destruct (snd (run_prog clean s)); cbn [io_told]; intro H; [discriminate|].
    injection H as <-. apply C.
  - intros g force answer. unfold random_told. destruct (negb force && negb (confirmed answer)); [discriminate|].
    rewrite run_bind. destruct (snd (run_prog clean s)); cbn [io_told].
    2: { intro H. cbn [run_prog snd] in H. injection H as <-. apply C. }
    rewrite run_bind. destruct (snd (run_prog init _)); cbn [io_told].
    2: { intro H. cbn [run_prog snd] in H. injection H as <-.
         apply (W (txt "A problem occured. Unable to create a new graph at ") (txt " (check directory structure and 'lock' file)")). }
    rewrite run_bind. cbn [run_prog snd]. destruct (snd (run_prog (save_graph_as_commands chunks g) _)); cbn [io_told]; intro H; [discriminate|].
    injection H as <-. apply (W (txt "A problem occured. Unable to save graph at ") (txt " (check directory structure and 'lock' file)")).
  - unfold desc_told, load_told.
    assert (D : forall e, names_path path (expect_err (txt "Couldn't load graph at '" ++ path ++ txt "'") e)).
    { intro e. apply (W (txt "Couldn't load graph at ") []). }
    destruct (commands_entry s) as [|c|]; [intro H; injection H as <-; left; apply D| |intro H; injection H as <-; right; now exists dio].
    destruct (gcmd_read nd c) as [[g|e]| |]; intro H; try discriminate; injection H as <-; [left; apply D|right|right]; eexists; reflexivity.
Qed.
Print Assumptions C170_path.
Example C170_path_case : forall dio ab, exists m,
  snd (run_prog (clean_told dio (txt "/tmp/g") true []) {| fs_root := true; fs_lock := Absent; fs_graph := NoGraph |}) = Some m /\
  names_path (txt "/tmp/g") m /\
  desc_told table (fun _ => []) dio ab (fun c => [92; c]) (txt "/tmp/g") told_case <> None.
Proof.
  intros dio ab. eexists. split; [reflexivity|]. split; [|discriminate].
  apply (proj1 (C170_path table (fun l => l) (fun _ => []) dio ab (fun c => [92; c]) (txt "/tmp/g")
    {| fs_root := true; fs_lock := Absent; fs_graph := NoGraph |} _) true []). reflexivity.
Qed.
