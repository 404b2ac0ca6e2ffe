(** * Properties C106 and C107: reading the commands file while others change it *)
From Coq Require Import String.
From Coq Require Import List NArith Bool Arith Lia Permutation.
From Verif Require Import Spec Base Graph GraphSpec GraphFacts Text Format FormatSpec TextFacts FormatFacts
  Store StoreSpec StoreFacts CrashFacts PropFormat PropStore Reader ReaderFacts.
Import ListNotations.
Open Scope N_scope.

(** Additions and removals, each with its buffering. *)
Definition adding (w : (list text -> list text) * list graph_command) : prog (io unit) := apply_graph_commands (fst w) (snd w).
(** All the text the file can come to hold. *)
Definition all_text (c : text) (ws : list ((list text -> list text) * list graph_command)) : text :=
  c ++ concat (map (fun w => concat (fst w (add_pieces (snd w)))) ws).

Lemma emits_length ls m rs : emits ls m rs ->
  (length (concat m) + length (concat (map (@concat N) rs)) = length (concat (map (@concat N) ls)))%nat.
Proof.
  induction 1 as [ls|ls m pre x r post H IH]; [reflexivity|]. rewrite <- IH, !concat_app, !map_app, !concat_app, !app_length.
  cbn [map concat]. rewrite !app_length. cbn [length]. lia.
Qed.
Lemma length_bound ws s c q cfg c' : fs_root s = true -> openable (fs_lock s) = true -> fs_graph s = GraphDir (File c) -> silent q ->
  isteps (s, q :: map (fun w => as_writer (adding w)) ws) cfg -> commands_entry (fst cfg) = File c' ->
  (length c' <= length (all_text c ws))%nat.
Proof.
  intros Hr Hl Hg Hq H Hc. rewrite <- (map_map adding as_writer) in H.
  destruct (without_reader s q (map adding ws) cfg Hq H) as (q' & ws' & E & _ & Hs).
  destruct (C26_no_byte_lost ws s c (fst cfg) ws' Hr Hl Hg Hs) as (m & rest & Hm & Hf & _). rewrite Hc in Hf. injection Hf as ->.
  apply emits_length in Hm. unfold all_text. rewrite !app_length. rewrite map_map in Hm. unfold text in *. lia.
Qed.

(** ** C106 *)
(** Beside any additions, with any buffering and any content: a reader that is given
    enough fuel ends, and has read pieces that together are what the file held at
    one moment of its run, or began with when a line was not accepted; a piece ends
    within a line only where the file ended at an earlier moment. *)
Theorem C106_pieces : forall nd takes fuel ws s c s' r ps,
  fs_root s = true -> openable (fs_lock s) = true -> fs_graph s = GraphDir (File c) ->
  (2 * length (all_text c ws) < fuel)%nat ->
  let start := (s, as_reader (load_stepwise nd takes fuel) :: map (fun w => as_writer (adding w)) ws) in
  isteps start (s', Ret (inr r) :: ps) ->
  r <> OutOfFuel /\
  exists m cm segs seg, isteps start m /\ isteps m (s', Ret (inr r) :: ps) /\ commands_entry (fst m) = File cm /\
    r = read_pieces nd (segs ++ [seg]) /\
    (concat (segs ++ [seg]) = cm \/ (closed seg /\ prefix (concat (segs ++ [seg])) cm /\ forall g, r <> Done (Ok g))) /\
    forall a x b, segs = a ++ x :: b -> ~ closed x /\
      exists m1, isteps start m1 /\ isteps m1 m /\ commands_entry (fst m1) = File (concat (a ++ [x])).
Proof.
  intros nd takes fuel ws s c s' r ps Hr Hl Hg Hf start H.
  destruct (reader_phase nd takes fuel s (map (fun w => as_writer (adding w)) ws) c (length (all_text c ws))) with (cfg := (s', Ret (inr r) :: ps))
    as (p & qs & c' & E & _ & _ & Hph).
  - unfold commands_entry. now rewrite Hg.
  - apply Forall_forall. intros p Hp. apply in_map_iff in Hp as (w & <- & _). apply appending_writer.
  - intros cfg c' Hs Hc. now apply (length_bound ws s c _ cfg c' Hr Hl Hg (silent_bind _ _ _ _ (silent_load nd takes fuel) (fun _ => si_ret _)) Hs).
  - assumption.
  - assumption.
  - cbn [snd] in E. injection E as <- <-. apply phase_ret in Hph as Hr'; [|assumption].
    destruct Hr' as (m & cm & segs & seg & R1 & R2 & R3 & R4 & R5 & R6). split; [rewrite R5; apply read_pieces_fuel|].
      exists m, cm, segs, seg. split; [assumption|]. split; [assumption|]. split; [assumption|]. split; [assumption|]. split; [|exact R4].
      rewrite concat_app. cbn [concat]. rewrite app_nil_r. destruct R6 as [R6|(R6 & R7 & R8)]; [now left|right].
      split; [assumption|]. split; [assumption|]. intros g Hg'. rewrite Hg' in R8. discriminate.
Qed.
Print Assumptions C106_pieces.

(** With nobody else at work, reading in any pieces is reading at once. *)
Lemma rest_alone nd takes s c : commands_entry s = File c -> forall fuel p q, c = p ++ q -> (length q + 1 < fuel)%nat ->
  run_prog (read_rest nd takes fuel [] p) s = (s, gcmd_read nd c).
Proof.
  intros Hc. induction fuel as [|n IH]; intros p q E Hf; [lia|]. cbn [read_rest run_prog]. rewrite Hc. cbn [concat app].
  assert (Hs : skipn (length p) c = q) by (subst c; rewrite skipn_app, skipn_all, Nat.sub_diag; reflexivity).
  unfold text in *. rewrite Hs. destruct q as [|x q].
  - rewrite app_nil_r in E. subst p. cbn [firstn]. destruct (ends_line c || negb (is_ok (read_pieces nd [c]))) eqn:Eb.
    + cbn [run_prog]. now rewrite read_pieces_one.
    + destruct n as [|n]; [cbn [length] in Hf; lia|]. cbn [read_rest run_prog]. rewrite Hc. cbn [concat app].
      assert (Hn : skipn (length ((c ++ []) ++ [])) c = []) by (rewrite !app_nil_r; apply skipn_all).
      unfold text in *. rewrite Hn, firstn_nil. cbn [ends_line rev orb run_prog]. f_equal.
      rewrite <- read_pieces_one. unfold read_pieces. cbn [flat_map]. reflexivity.
  - cbn [firstn]. set (m := firstn (takes [] p) q). rewrite <- (firstn_skipn (takes [] p) q) in E. fold m in E.
    match goal with |- context [if ?b then _ else _] => destruct b eqn:Eb end.
    + apply (IH _ (skipn (takes [] p) q)); [rewrite E, <- app_assoc; reflexivity|].
      pose proof (skipn_length (takes [] p) q). cbn [length] in Hf. unfold text in *. lia.
    + cbn [run_prog]. f_equal. destruct (complete_split (p ++ x :: m)) as (z & Hz & _).
      symmetry. replace c with (complete (p ++ x :: m) ++ (z ++ skipn (takes [] p) q)).
      * apply read_pieces_bad; [apply complete_closed|exact Eb].
      * rewrite app_assoc, <- Hz, <- app_assoc. now rewrite E.
Qed.
Theorem C106_alone : forall nd takes fuel s,
  (forall c, commands_entry s = File c -> (length c + 1 < fuel)%nat) ->
  run_prog (load_stepwise nd takes fuel) s = run_prog (load_graph nd) s.
Proof.
  intros nd takes fuel s Hf. rewrite run_load. unfold load_stepwise. cbn [run_prog]. destruct (commands_entry s) as [|c|] eqn:E; try reflexivity.
  apply (rest_alone nd takes s c E fuel [] c eq_refl). now apply Hf.
Qed.
Print Assumptions C106_alone.

(** Beside additions that write whole requests, reading in pieces is as good as
    reading at once: there is a moment of the run whose content is what is
    answered, and that is the old graph with some whole requests applied. *)
Theorem C106_reader_atomic : forall nd takes fuel ws s c cs s' r ps, digit_table nd ->
  fs_root s = true -> openable (fs_lock s) = true -> fs_graph s = GraphDir (File c) ->
  closed c -> gcmd_read_as_commands nd c = Done (Ok cs) ->
  Forall (fun w => buffering (fst w) /\ (length (fst w (add_pieces (snd w))) <= 1)%nat) ws ->
  Forall (Forall u64_command) (map snd ws) ->
  (2 * length (all_text c ws) < fuel)%nat ->
  let start := (s, as_reader (load_stepwise nd takes fuel) :: map (fun w => as_writer (adding w)) ws) in
  isteps start (s', Ret (inr r) :: ps) ->
  exists m written rest, isteps start m /\ isteps m (s', Ret (inr r) :: ps) /\
    snd (run_prog (load_graph nd) (fst m)) = r /\
    Permutation (written ++ rest) (map snd ws) /\
    r = Done (Ok (apply_commands (cs ++ concat written) g_new)).
Proof.
  intros nd takes fuel ws s c cs s' r ps T Hr Hl Hg Hc Hread One U Hf start H.
  destruct (C106_pieces nd takes fuel ws s c s' r ps Hr Hl Hg Hf H) as (_ & m & cm & segs & seg & R1 & R2 & R3 & R4 & R5 & R6).
  assert (Hall : forall cfg, isteps start cfg -> exists written rest c', Permutation (written ++ rest) (map snd ws) /\
    commands_entry (fst cfg) = File c' /\ closed c' /\ gcmd_read_as_commands nd c' = Done (Ok (cs ++ concat written))).
  { intros cfg Hs. unfold start in Hs. rewrite <- (map_map adding as_writer) in Hs.
    destruct (without_reader s _ (map adding ws) cfg (silent_bind _ _ _ _ (silent_load nd takes fuel) (fun _ => si_ret _)) Hs) as (q' & ws' & _ & _ & Hs').
    destruct (C26_concurrent_appends nd ws s c cs (fst cfg) ws' T Hr Hl Hg Hc Hread One U Hs') as (w & rest & P & _ & c' & H1 & H2 & H3).
    exists w, rest, c'. auto. }
  assert (segs = []) as ->.
  { destruct segs as [|x segs]; [reflexivity|exfalso]. destruct (R6 [] x segs eq_refl) as (Hx & m1 & M1 & _ & M2).
    cbn [app concat] in M2. rewrite app_nil_r in M2. destruct (Hall m1 M1) as (_ & _ & c1 & _ & E & Hcl & _). rewrite M2 in E. injection E as <-. now apply Hx. }
  destruct (Hall m R1) as (w & rest & c' & P & E & Hcl & Hrd). rewrite R3 in E. injection E as <-.
  cbn [app concat] in *. rewrite app_nil_r in R5.
  assert (Hgr : gcmd_read nd cm = Done (Ok (apply_commands (cs ++ concat w) g_new))) by (apply gcmd_read_ok; eauto).
  assert (Er : r = gcmd_read nd cm).
  { destruct R5 as [->|(Hs & [q ->] & Hno)]; [now rewrite R4, read_pieces_one|].
    rewrite R4. symmetry. apply read_pieces_bad; [assumption|]. rewrite <- R4. destruct r as [[g|e]| |]; try reflexivity. now elim (Hno g). }
  exists m, w, rest. split; [assumption|]. split; [assumption|]. split; [rewrite run_load, R3; now symmetry|]. split; [assumption|].
  now rewrite Er.
Qed.
Print Assumptions C106_reader_atomic.

(** A reader that takes one code point per call, two additions, and a schedule in
    which it sees one of them. *)
Definition one_by_one (segs : list text) (seg : text) : nat := 0%nat.
Definition reading_system : list proc :=
  as_reader (load_stepwise table one_by_one 200) :: map (fun w => as_writer (adding w)) [(at_once, [AddVertex 1]); (at_once, [AddVertex 2])].
Example C106_case : closed (txt "AddVertex 7" ++ [10]) /\
  gcmd_read_as_commands table (txt "AddVertex 7" ++ [10]) = Done (Ok [AddVertex 7]) /\
  Forall (fun w => buffering (fst w) /\ (length (fst w (add_pieces (snd w))) <= 1)%nat) [(at_once, [AddVertex 1]); (at_once, [AddVertex 2])] /\
  exists s' ps g, isteps (with_file (txt "AddVertex 7" ++ [10]), reading_system) (s', Ret (inr (Done (Ok g))) :: ps) /\
    contains_vertex g 7 = true /\ contains_vertex g 1 = false /\ contains_vertex g 2 = true /\
    exists c, commands_entry s' = File c /\ length c = 36%nat.
Proof.
  split; [right; eexists; reflexivity|]. split; [reflexivity|].
  split; [constructor; [split; [apply at_once_ok|reflexivity]|]; constructor; [split; [apply at_once_ok|reflexivity]|constructor]|].
  set (sch := ([0; 0; 0; 0; 2; 2; 2; 2] ++ repeat 0 30 ++ [1; 1; 1; 1])%nat).
  pose proof (run_schedule_isteps _ sch (with_file (txt "AddVertex 7" ++ [10])) reading_system) as R.
  match type of R with isteps _ ?e => let e' := eval vm_compute in e in assert (E : e = e') by (vm_cast_no_check (eq_refl e')); rewrite E in R; clear E end.
  do 3 eexists. split; [exact R|]. split; [reflexivity|]. split; [reflexivity|]. split; [reflexivity|]. eexists. split; reflexivity.
Qed.

(** Steps of the first and of the second process. *)
Lemma first_steps A s upd k (ps : list (prog A)) c : isteps (upd s, k s :: ps) c -> isteps (s, Act upd k :: ps) c.
Proof. intro H. eapply is_step; [|exact H]. exists [], upd, k, ps. now repeat split. Qed.
Lemma second_steps A s p upd k (ps : list (prog A)) c : isteps (upd s, p :: k s :: ps) c -> isteps (s, p :: Act upd k :: ps) c.
Proof. intro H. eapply is_step; [|exact H]. exists [p], upd, k, ps. now repeat split. Qed.
Lemma is_ok_done (r : outcome (result graph)) g : r = Done (Ok g) -> is_ok r = true.
Proof. now intros ->. Qed.
Lemma reader_reads nd takes n segs seg s ps c new next cfg : commands_entry s = File c ->
  firstn (S (takes segs seg)) (skipn (length (concat segs ++ seg)) c) = new -> new <> [] -> seg ++ new = next ->
  is_ok (read_pieces nd (segs ++ [complete next])) = true ->
  isteps (s, as_reader (read_rest nd takes n segs next) :: ps) cfg ->
  isteps (s, as_reader (read_rest nd takes (S n) segs seg) :: ps) cfg.
Proof.
  intros Hc Hn Hne <- Hok H. rewrite rest_eq. apply first_steps. unfold content, advance. rewrite Hc, Hn.
  destruct new as [|x new]; [congruence|].
  match goal with |- context [if ?b then _ else _] => replace b with true by (symmetry; exact Hok) end. exact H.
Qed.
Lemma reader_pauses nd takes n segs seg s ps c cfg : commands_entry s = File c ->
  skipn (length (concat segs ++ seg)) c = [] -> ends_line seg = false -> is_ok (read_pieces nd (segs ++ [seg])) = true ->
  isteps (s, as_reader (read_rest nd takes n (segs ++ [seg]) []) :: ps) cfg ->
  isteps (s, as_reader (read_rest nd takes (S n) segs seg) :: ps) cfg.
Proof. intros Hc Hn He Hok H. rewrite rest_eq. apply first_steps. unfold content, advance. rewrite Hc, Hn, firstn_nil, He.
  match goal with |- context [is_ok ?b] => replace (is_ok b) with true by (symmetry; exact Hok) end. exact H.
Qed.
Lemma reader_ends nd takes n segs seg s ps c r cfg : commands_entry s = File c ->
  skipn (length (concat segs ++ seg)) c = [] -> ends_line seg = true -> read_pieces nd (segs ++ [seg]) = r ->
  isteps (s, Ret (inr r) :: ps) cfg ->
  isteps (s, as_reader (read_rest nd takes (S n) segs seg) :: ps) cfg.
Proof. intros Hc Hn He <- H. rewrite rest_eq. apply first_steps. unfold content, advance. now rewrite Hc, Hn, firstn_nil, He. Qed.
Lemma reader_opens nd takes n s ps c cfg : commands_entry s = File c ->
  isteps (s, as_reader (read_rest nd takes n [] []) :: ps) cfg ->
  isteps (s, as_reader (load_stepwise nd takes n) :: ps) cfg.
Proof. intros Hc H. unfold as_reader at 1, load_stepwise. cbn [bind]. apply first_steps. now rewrite Hc. Qed.

Lemma pieces_commands nd segs ls cs : digit_table nd -> flat_map lines segs = ls -> ls = map command_into_line cs -> Forall u64_command cs ->
  read_pieces nd segs = Done (Ok (apply_commands cs g_new)).
Proof.
  intros T E1 E2 U. unfold read_pieces. rewrite E1, E2.
  assert (H : read_lines (gcmd_parse_line nd) is_comment 0 (map command_into_line cs) = Done (Ok cs)).
  { apply read_lines_ok. now apply reads_commands. }
  now rewrite H.
Qed.
Lemma glued_line nd g : digit_table nd -> gcmd_read nd (txt "AddVertex 1AddVertex 2" ++ [10]) <> Done (Ok g).
Proof.
  intros T Hg. apply gcmd_read_ok in Hg. destruct Hg as (cs & Hr & _). apply read_as_commands_ok in Hr.
  change (lines (txt "AddVertex 1AddVertex 2" ++ [10])) with [txt "AddVertex 1AddVertex 2"] in Hr.
  inversion Hr as [|? ? ? Hs|? ? x xs Hs Ha]; subst.
  - destruct Hs as [H0|(w & t & H0 & Hw)]; [discriminate|]. destruct Hw as [|y w Hy Hw]; injection H0 as H0 _; [discriminate|].
    subst y. unfold blank in Hy. cbn [In] in Hy. lia.
  - unfold accepts in Ha. apply (gcmd_parse_ok nd T) in Ha. inversion Ha as [d n Hn E| | |]; subst.
    destruct Hn as [[_ Hf] _]. rewrite Forall_forall in Hf.
    assert (Hi : ascii09 65) by (apply Hf; cbn; tauto). apply ascii09_range in Hi. lia.
Qed.

Lemma emits_single (y : text) ls m rest : emits ls m rest -> ls = [[y]] -> (m = [] /\ rest = [[y]]) \/ (m = [y] /\ rest = [[]]).
Proof.
  induction 1 as [ls|ls m pre x r post H IH]; intro El; [left; now split|].
  destruct (IH El) as [[-> E]|[-> E]].
  - destruct pre as [|p pre]; [|destruct pre; discriminate E]. injection E as -> -> ->. right. now split.
  - destruct pre as [|p pre]; [discriminate E|destruct pre; discriminate E].
Qed.

(** Without whole lines this fails even beside one addition: after a torn line the
    reader hands the line on where the file ends, and goes on with what was added
    meanwhile as if it began a line.  The file holds both vertices at no moment. *)
Theorem C106_torn_reader_refuted : forall nd, digit_table nd ->
  exists takes fuel c s' ps g,
    let start := (with_file c, as_reader (load_stepwise nd takes fuel) :: [as_writer (adding (at_once, [AddVertex 2]))]) in
    isteps start (s', Ret (inr (Done (Ok g))) :: ps) /\
    contains_vertex g 1 = true /\ contains_vertex g 2 = true /\
    forall m, isteps start m -> ~ loads nd (fst m) g.
Proof.
  intros nd T. set (all := fun (segs : list text) (seg : text) => 100%nat). set (l1 := txt "AddVertex 1"). set (l2 := txt "AddVertex 2" ++ [10]).
  set (g := apply_commands [AddVertex 1; AddVertex 2] g_new).
  assert (E1 : read_pieces nd [l1] = Done (Ok (apply_commands [AddVertex 1] g_new))).
  { eapply pieces_commands; [assumption|reflexivity|reflexivity|repeat constructor]. }
  assert (E2 : read_pieces nd [l1; l2] = Done (Ok g)).
  { eapply pieces_commands; [assumption|reflexivity|reflexivity|repeat constructor]. }
  exists all, 5%nat, l1, (with_file (l1 ++ l2)), [Ret (inl (IoOk tt))], g. cbv zeta. split; [|split; [reflexivity|split; [reflexivity|]]].
  - eapply reader_opens; [reflexivity|].
    eapply (reader_reads nd all 4 [] [] _ _ l1 l1 l1); [reflexivity|reflexivity|discriminate|reflexivity|reflexivity|].
    eapply (reader_pauses nd all 3 [] l1); [reflexivity|reflexivity|reflexivity|exact (is_ok_done _ _ E1)|].
    do 5 apply second_steps.
    eapply (reader_reads nd all 2 [l1] [] _ _ (l1 ++ l2) l2 l2); [reflexivity|reflexivity|discriminate|reflexivity|exact (is_ok_done _ _ E2)|].
    eapply (reader_ends nd all 1 [l1] l2); [reflexivity|reflexivity|reflexivity|exact E2|]. constructor.
  - intros m Hm Hg. change [as_writer (adding (at_once, [AddVertex 2]))] with (map as_writer (map adding [(at_once, [AddVertex 2])])) in Hm.
    destruct (without_reader _ _ _ m (silent_bind _ _ _ _ (silent_load nd all 5) (fun _ => si_ret _)) Hm) as (q' & ws' & _ & _ & Hs).
    destruct (C26_no_byte_lost [(at_once, [AddVertex 2])] (with_file l1) l1 (fst m) ws' eq_refl eq_refl eq_refl Hs) as (mm & rest & Hmm & Hf & _).
    assert (Hc : mm = [] \/ mm = [l2]).
    { destruct (emits_single l2 _ _ _ Hmm eq_refl); tauto. }
    unfold loads in Hg. rewrite run_load, Hf in Hg. destruct Hc as [-> | ->].
    + apply (f_equal snd) in Hg. change (gcmd_read nd l1 = Done (Ok g)) in Hg. rewrite <- read_pieces_one in Hg. pose proof (eq_trans (eq_sym E1) Hg) as X. discriminate X.
    + apply (f_equal snd) in Hg. exact (glued_line nd g T Hg).
Qed.
Print Assumptions C106_torn_reader_refuted.

(** ** C107: beside gc-build a reader can see a vertex nobody ever added. *)
Definition as_tool (p : prog exit) : proc :=
  bind p (fun e => Ret (inl (match e with Success => IoOk tt | Failure => IoErr end))).
Definition reversed (g : graph) : graph := rev g.
Theorem C107_reader_beside_build_refuted : forall nd, digit_table nd ->
  exists takes fuel c g0 s' ps g, hash_order reversed /\ loads nd (with_file c) g0 /\
    (forall v, contains_vertex g0 v = true <-> v = 10 \/ v = 2) /\
    isteps (with_file c, as_reader (load_stepwise nd takes fuel) :: [as_tool (gc_build nd at_once reversed)])
      (s', Ret (inr (Done (Ok g))) :: ps) /\
    ps = [Ret (inl (IoOk tt))] /\ contains_vertex g 1 = true.
Proof.
  intros nd T. set (takes := fun (segs : list text) (seg : text) => match seg with [] => 10%nat | _ => 100%nat end).
  set (c := commands_text [AddVertex 10; AddVertex 2]). set (l1 := txt "AddVertex 1"). set (g0 := apply_commands [AddVertex 10; AddVertex 2] g_new).
  set (c' := commands_text [AddVertex 2; AddVertex 10]). set (seen := commands_text [AddVertex 1; AddVertex 10]).
  set (g := apply_commands [AddVertex 1; AddVertex 10] g_new).
  assert (E0 : gcmd_read nd c = Done (Ok g0)).
  { rewrite <- read_pieces_one. eapply pieces_commands; [assumption|reflexivity|reflexivity|repeat constructor]. }
  assert (E1 : read_pieces nd [seen] = Done (Ok g)).
  { eapply pieces_commands; [assumption|reflexivity|reflexivity|repeat constructor]. }
  exists takes, 4%nat, c, g0, (with_file c'), [Ret (inl (IoOk tt))], g.
  split; [intro x; apply Permutation_rev|]. split; [unfold loads; rewrite run_load; cbn [commands_entry with_file fs_graph]; now rewrite E0|].
  split; [|split; [|split; reflexivity]].
  { intro v. change (contains_vertex g0 v) with (match (if v =? 10 then Some (@nil edge) else if v =? 2 then Some [] else None) with Some _ => true | None => false end).
    destruct (N.eqb_spec v 10) as [->|H10]; [split; [now left|reflexivity]|].
    destruct (N.eqb_spec v 2) as [->|H2]; [split; [now right|reflexivity]|]. split; [intro X; discriminate X|intros [?|?]; contradiction]. }
  eapply reader_opens; [reflexivity|].
  eapply (reader_reads nd takes 3 [] [] _ _ c l1 l1); [reflexivity|reflexivity|discriminate|reflexivity|reflexivity|].
  (* gc-build reads, truncates and writes *)
  unfold as_tool, gc_build, load_graph. cbn [bind]. apply second_steps. cbn [commands_entry with_file fs_graph]. rewrite E0. cbn [bind].
  do 2 apply second_steps.
  eapply (reader_reads nd takes 2 [] l1 _ _ c' ([10] ++ commands_text [AddVertex 10]) seen);
    [reflexivity|reflexivity|discriminate|reflexivity|exact (is_ok_done _ _ E1)|].
  eapply (reader_ends nd takes 1 [] seen); [reflexivity|reflexivity|reflexivity|exact E1|]. constructor.
Qed.
Print Assumptions C107_reader_beside_build_refuted.
