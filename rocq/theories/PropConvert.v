(** * Property C183: converting between the formats, and files given to the wrong reader *)
From Coq Require Import String.
From Coq Require Import List NArith Bool Arith Lia Permutation.
From Verif Require Import Spec Base Graph GraphSpec GraphFacts OrderFacts Text Format FormatSpec TextFacts FormatFacts
  Store StoreSpec StoreFacts CrashFacts PropFormat PropKeep.
Import ListNotations.
Open Scope N_scope.

(** The two formats of the library. *)
Inductive kind := Gcmd | Tgf.
(** What [save] writes.  gcmd.rs l.79-91, tgf.rs l.56-68 *)
Definition save_as (k : kind) (g : graph) : text := match k with Gcmd => gcmd_text g | Tgf => tgf_text g end.
(** What [read] makes of it.  gcmd.rs l.33-36, tgf.rs l.19-22 *)
Definition read_as (nd : N -> bool) (k : kind) (s : text) : outcome (result graph) :=
  match k with Gcmd => gcmd_read nd s | Tgf => tgf_read nd s end.
(** A program that saves and reads back, once per entry; each step has its own
    hash order.  gcmd.rs l.33-36 and l.79-91, tgf.rs l.19-22 and l.56-68 *)
Fixpoint convert (nd : N -> bool) (steps : list (kind * (graph -> graph))) (g : graph) : outcome (result graph) :=
  match steps with
  | [] => Done (Ok g)
  | (k, order) :: rest =>
    obind (read_as nd k (save_as k (order g))) (fun r =>
      match r with Ok g' => convert nd rest g' | Err m => Done (Err m) end)
  end.

Lemma order_u64 g h : wf g -> u64_graph g -> Permutation g h -> u64_graph h.
Proof.
  intros W U P v Hv. apply U. assert (S : a_same (shown h) (shown g)) by now apply shown_perm. now apply (proj1 S).
Qed.
Lemma read_saved nd k g : digit_table nd -> wf g -> u64_graph g ->
  read_as nd k (save_as k g) = Done (Ok (apply_commands (as_commands g) g_new)).
Proof. intros T W U. destruct k; cbn [read_as save_as]; [now apply gcmd_roundtrip|now apply tgf_roundtrip]. Qed.

(** Any chain of conversions succeeds and keeps the vertices, the edges and the
    order in which the edges leave each vertex. *)
Theorem C183_chain : forall nd steps g, digit_table nd -> built g -> u64_graph g ->
  Forall (fun s => hash_order (snd s)) steps ->
  exists g', convert nd steps g = Done (Ok g') /\ built g' /\ u64_graph g' /\
    a_same (shown g') (shown g) /\ forall v, outbound_edges g' v = outbound_edges g v.
Proof.
  intros nd steps g T. revert g. induction steps as [|[k order] steps IH]; intros g B U O.
  - exists g. repeat split; try assumption; intros; assumption.
  - inversion O as [|? ? O1 O2]; subst. cbn [snd] in O1. pose proof (built_wf B) as W.
    assert (Wo : wf (order g)) by (eapply wf_perm; [exact W|apply O1]).
    assert (Uo : u64_graph (order g)) by (eapply order_u64; [exact W|exact U|apply O1]).
    assert (So : a_same (shown (order g)) (shown g)) by (apply shown_perm; [assumption|apply O1]).
    set (g1 := apply_commands (as_commands (order g)) g_new).
    assert (S1 : a_same (shown g1) (shown (order g))) by now apply as_commands_roundtrip.
    assert (B1 : built g1) by (exists (as_commands (order g)); apply built_by_apply).
    assert (U1 : u64_graph g1) by (intros v Hv; apply Uo; now apply (proj1 S1)).
    destruct (IH g1 B1 U1 O2) as (g' & E & B' & U' & S' & K').
    exists g'. cbn [convert]. rewrite (read_saved nd k (order g) T Wo Uo). cbn [obind]. fold g1.
    split; [exact E|]. split; [assumption|]. split; [assumption|].
    split; [eapply a_same_trans; [exact S'|eapply a_same_trans; eassumption]|].
    intro v. rewrite (K' v). unfold g1.
    rewrite (outbound_order _ _ v (built_by_apply (as_commands (order g)))), (said_edges _ Wo).
    transitivity (outbound_edges (order g) v); [now apply edges_leaving|]. now apply rehash_out.
Qed.
Print Assumptions C183_chain.

(** In particular two programs that convert differently, with other hash orders,
    end with the same graph, as the library compares them up to the order of the
    incoming edges. *)
Theorem C183_any_route : forall nd steps steps' g g1 g2, digit_table nd -> built g -> u64_graph g ->
  Forall (fun s => hash_order (snd s)) steps -> Forall (fun s => hash_order (snd s)) steps' ->
  convert nd steps g = Done (Ok g1) -> convert nd steps' g = Done (Ok g2) ->
  a_same (shown g1) (shown g2) /\ forall v, outbound_edges g1 v = outbound_edges g2 v.
Proof.
  intros nd steps steps' g g1 g2 T B U O O' E1 E2.
  destruct (C183_chain nd steps g T B U O) as (h1 & F1 & _ & _ & S1 & K1).
  destruct (C183_chain nd steps' g T B U O') as (h2 & F2 & _ & _ & S2 & K2).
  rewrite E1 in F1. injection F1 as <-. rewrite E2 in F2. injection F2 as <-.
  split; [eapply a_same_trans; [exact S1|now apply a_same_sym]|]. intro v. now rewrite K1, K2.
Qed.
Print Assumptions C183_any_route.

(** ** Files given to the wrong reader *)

(** No line says something in both formats: one of the two parsers reports it,
    and neither panics on a line of the other format. *)
Theorem C183_line : forall nd l, digit_table nd ->
  let report := Done (Err (txt "Couldn't parse '" ++ l ++ txt "'")) in
  (gcmd_parse_line nd l = report \/ tgf_parse_line nd l = report) /\
  ((forall m, gcmd_parse_line nd l <> Done (Err m)) -> tgf_parse_line nd l = report) /\
  ((forall m, tgf_parse_line nd l <> Done (Err m)) -> gcmd_parse_line nd l = report).
Proof.
  intros nd l T report.
  assert (D : gcmd_parse_line nd l = report \/ tgf_parse_line nd l = report).
  { destruct l as [|x l].
    - left. apply gcmd_parse_err; [assumption|]. split; [|reflexivity]. intros c H. now apply gcmd_line_shape in H.
    - destruct (nd x) eqn:E.
      + left. apply gcmd_parse_err; [assumption|]. split; [|reflexivity]. intros c H.
        assert (Hx : x = 65 \/ x = 82) by (inversion H; subst; [left|right|left|right]; reflexivity).
        assert (Hl : x < 128) by lia. apply (proj1 (proj1 T x Hl)) in E. apply ascii09_range in E. lia.
      + right. apply tgf_parse_err; [assumption|]. split; [|reflexivity]. intros c H.
        assert (K : forall d r : text, run (fun c => nd c = true) d -> d ++ r = x :: l -> False).
        { intros [|y d] r [Hd Hf] Er; [congruence|]. injection Er as -> _. inversion Hf; subst. congruence. }
        inversion H as [d1 w d2 t a b H1 Hw H2 Ht E1|d t n H1 Ht E1]; eapply K; try exact E1; exact H1. }
  split; [exact D|]. split; intro H; destruct D as [D|D]; try exact D; now apply H in D.
Qed.
Print Assumptions C183_line.

Lemma read_first parse content pre l post msg : file_lines content (pre ++ l :: post) -> Forall skipped pre -> ~ skipped l ->
  parse l = Done (Err msg) ->
  read parse is_comment content = Done (Err (txt "Error at line " ++ show (N.of_nat (length pre) + 1) ++ txt ": " ++ msg)).
Proof.
  intros F P S E. unfold read.
  assert (R : read_as_commands parse is_comment content =
    Done (Err (txt "Error at line " ++ show (N.of_nat (length pre) + 1) ++ txt ": " ++ msg))).
  { apply (proj1 (proj2 (C16_reader parse content))).
    exists pre, l, post, [], msg, (show (N.of_nat (length pre) + 1)). split; [assumption|]. split.
    - clear -P. induction P; [constructor|now apply reads_skip].
    - split; [assumption|]. split; [assumption|]. split; [apply show_spec|reflexivity]. }
  now rewrite R.
Qed.
Lemma read_other parse content pre l post : file_lines content (pre ++ l :: post) -> Forall skipped pre -> ~ skipped l ->
  (forall m, read parse is_comment content <> Done (Err m)) -> forall m, parse l <> Done (Err m).
Proof. intros F P S H m E. eapply H. eapply read_first; eassumption. Qed.

(** A file with at least one line that is neither empty nor a comment is reported
    by at least one of the two readers, at that line; a reader that does not
    report the file leaves this to the other one. *)
Theorem C183_confused : forall nd content pre l post d, digit_table nd ->
  file_lines content (pre ++ l :: post) -> Forall skipped pre -> ~ skipped l ->
  canonical_numeral d (N.of_nat (length pre) + 1) ->
  let report := Done (Err (txt "Error at line " ++ d ++ txt ": Couldn't parse '" ++ l ++ txt "'")) in
  (gcmd_read nd content = report \/ tgf_read nd content = report) /\
  ((forall m, gcmd_read nd content <> Done (Err m)) -> tgf_read nd content = report) /\
  ((forall m, tgf_read nd content <> Done (Err m)) -> gcmd_read nd content = report).
Proof.
  intros nd content pre l post d T F P S Hd report. apply C13_display in Hd. subst d.
  destruct (C183_line nd l T) as (D & D1 & D2).
  assert (G : gcmd_parse_line nd l = Done (Err (txt "Couldn't parse '" ++ l ++ txt "'")) -> gcmd_read nd content = report)
    by (intro E; exact (read_first _ _ _ _ _ _ F P S E)).
  assert (G' : tgf_parse_line nd l = Done (Err (txt "Couldn't parse '" ++ l ++ txt "'")) -> tgf_read nd content = report)
    by (intro E; exact (read_first _ _ _ _ _ _ F P S E)).
  split; [destruct D; auto|]. split; intro H; [apply G', D1|apply G, D2];
    exact (read_other _ _ _ _ _ F P S H).
Qed.
Print Assumptions C183_confused.

Lemma first_line ls : Forall skipped ls \/ exists pre l post, ls = pre ++ l :: post /\ Forall skipped pre /\ ~ skipped l.
Proof.
  induction ls as [|l ls IH]; [left; constructor|].
  assert (D : skipped l \/ ~ skipped l).
  { destruct l as [|x l]; [left; now left|]. destruct (is_comment (x :: l)) eqn:E.
    - left. right. now apply is_comment_spec.
    - right. intros [?|H]; [discriminate|]. apply is_comment_spec in H. congruence. }
  destruct D as [D|D].
  - destruct IH as [IH|(pre & m & post & -> & H1 & H2)]; [left; now constructor|].
    right. exists (l :: pre), m, post. split; [reflexivity|]. split; [now constructor|assumption].
  - right. exists [], l, ls. split; [reflexivity|]. split; [constructor|assumption].
Qed.
Lemma read_nothing parse content ls : file_lines content ls -> Forall skipped ls -> read parse is_comment content = Done (Ok []).
Proof.
  intros F P. unfold read. assert (R : read_as_commands parse is_comment content = Done (Ok [])).
  { apply (proj1 (C16_reader parse content)). exists ls. split; [assumption|].
    clear -P. induction P; [apply reads_end|now apply reads_skip]. }
  now rewrite R.
Qed.

(** Both readers accept a file only when it says nothing; both then give the
    empty graph. *)
Theorem C183_both : forall nd content g h, digit_table nd ->
  (gcmd_read nd content = Done (Ok g) /\ tgf_read nd content = Done (Ok h) <->
   g = [] /\ h = [] /\ exists ls, file_lines content ls /\ Forall skipped ls).
Proof.
  intros nd content g h T. pose proof (file_lines_lines content) as F. split.
  - intros [Hg Hh]. destruct (first_line (lines content)) as [P|(pre & l & post & E & P & S)].
    + unfold gcmd_read, tgf_read in *. rewrite (read_nothing _ _ _ F P) in Hg. rewrite (read_nothing _ _ _ F P) in Hh. injection Hg as <-. injection Hh as <-.
      split; [reflexivity|]. split; [reflexivity|]. exists (lines content). now split.
    + rewrite E in F. destruct (C183_confused nd content pre l post _ T F P S (show_spec _)) as [[D|D] _]; congruence.
  - intros (-> & -> & ls & F' & P).
    split; exact (read_nothing _ _ _ F' P).
Qed.
Print Assumptions C183_both.

(** A saved graph that is not empty is refused by the other reader at its first line. *)
Definition other (k : kind) : kind := match k with Gcmd => Tgf | Tgf => Gcmd end.
Theorem C183_saved : forall nd k g, digit_table nd -> built g -> u64_graph g -> vertices g <> [] ->
  exists l post, file_lines (save_as k g) (l :: post) /\
    read_as nd (other k) (save_as k g) = Done (Err (txt "Error at line 1: Couldn't parse '" ++ l ++ txt "'")).
Proof.
  intros nd k g T B U Hv. pose proof (built_wf B) as W.
  pose proof (file_lines_lines (save_as k g)) as F.
  pose proof (read_saved nd k g T W U) as R.
  assert (Hl : exists l post, lines (save_as k g) = l :: post /\ ~ skipped l).
  { destruct (vertices g) as [|v vs] eqn:Ev; [congruence|].
    assert (Hu : u64 v).
    { apply U. apply vertices_In. rewrite Ev. now left. }
    destruct k; cbn [save_as].
    - rewrite gcmd_text_commands. unfold commands_text.
      assert (Q : map (fun c => writeln (command_into_line c)) (as_commands g) = map (fun l => l ++ [10]) (map command_into_line (as_commands g)))
        by (rewrite map_map; reflexivity).
      rewrite Q, lines_writelns.
      + unfold as_commands. rewrite Ev. cbn [map app]. eexists; eexists. split; [reflexivity|].
        exact (proj2 (gcmd_line_shape _ _ _ (gcmd_line_written (AddVertex v) Hu))).
      + apply Forall_forall. intros l Hl. apply in_map_iff in Hl. destruct Hl as (c & <- & _). apply written_plain.
    - rewrite tgf_text_commands, lines_writelns.
      + unfold as_commands. rewrite Ev. cbn [map app]. eexists; eexists. split; [reflexivity|].
        assert (L : tgf_line (fun c => nd c = true) numeral (tgf_written (AddVertex v)) (AddVertex v))
          by (apply tgf_line_written; try assumption; discriminate).
        exact (tgf_line_shape nd _ _ L).
      + apply Forall_forall. intros l Hl. apply in_map_iff in Hl. destruct Hl as (c & <- & _). apply tgf_written_plain. }
  destruct Hl as (l & post & E & S). rewrite E in F. exists l, post. split; [assumption|].
  destruct (C183_confused nd _ [] l post (show 1) T F (Forall_nil _) S (show_spec 1)) as (_ & D1 & D2).
  destruct k; cbn [read_as save_as other] in *; [apply D1|apply D2]; rewrite R; discriminate.
Qed.
Print Assumptions C183_saved.

Example C183_case :
  (exists g', convert table [(Tgf, fun g => g); (Gcmd, @rev _); (Tgf, fun g => g)]
     (apply_commands [AddEdge 1 5; AddEdge 1 3; AddVertex 9] g_new) = Done (Ok g') /\
     outbound_edges g' 1 = [(1, 5); (1, 3)] /\ contains_vertex g' 9 = true) /\
  hash_order (@rev (N * list edge)) /\
  tgf_read table (txt "AddVertex 1" ++ [10]) = Done (Err (txt "Error at line 1: Couldn't parse 'AddVertex 1'")) /\
  gcmd_read table (txt "# a" ++ [10] ++ txt "1 2" ++ [10]) = Done (Err (txt "Error at line 2: Couldn't parse '1 2'")) /\
  gcmd_read table (txt "  # a" ++ [10]) = Done (Ok []) /\ tgf_read table (txt "  # a" ++ [10]) = Done (Ok []).
Proof.
  split; [eexists; split; [vm_compute; reflexivity|split; reflexivity]|]. split; [intro g; apply Permutation_rev|]. repeat split; vm_compute; reflexivity.
Qed.
