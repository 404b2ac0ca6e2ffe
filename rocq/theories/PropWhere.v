(** * Property C175: ways to write the path *)
From Coq Require Import String.
From Coq Require Import List NArith Bool Lia.
From Verif Require Import Base Graph Text Format Store Cli Place PlaceFacts Where.
Import ListNotations.
Open Scope N_scope.

(** ** What it means *)
(** A name of a directory or file: not empty, not [.], no separator in it. *)
Definition proper (n : text) : Prop := n <> [] /\ n <> txt "." /\ ~ In 47 n.
(** Names with separators between them. *)
Fixpoint written (ns : list text) : text :=
  match ns with
  | [] => []
  | [n] => n
  | n :: rest => n ++ txt "/" ++ written rest
  end.

(** ** Names *)
Lemma names_some t : names t <> [].
Proof. destruct t as [|c t]; cbn [names]; [discriminate|]. destruct (c =? 47); [discriminate|]. now destruct (names t). Qed.
Lemma names_sep a b : names (a ++ 47 :: b) = names a ++ names b.
Proof.
  induction a as [|c a IH]; [reflexivity|]. cbn [app names]. rewrite IH. destruct (c =? 47); [reflexivity|].
  destruct (names a) as [|n ns] eqn:E; [now apply names_some in E|reflexivity].
Qed.
Lemma names_one n : ~ In 47 n -> names n = [n].
Proof.
  induction n as [|c n IH]; intro D; [reflexivity|]. cbn [names].
  destruct (N.eqb_spec c 47) as [->|_]; [exfalso; apply D; now left|]. rewrite IH; [reflexivity|]. intro I. apply D. now right.
Qed.
Lemma counts_proper n : proper n -> counts n = true.
Proof.
  intros (A & B & _). destruct n as [|c [|d n]]; [congruence| |].
  - cbn. destruct (N.eq_dec c 46) as [->|D]; [now contradict B|].
    destruct c as [|c]; [reflexivity|]. destruct c as [c|c|]; try reflexivity; repeat (destruct c as [c|c|]; try reflexivity). congruence.
  - cbn. destruct c as [|c]; [reflexivity|]. destruct c as [c|c|]; try reflexivity; repeat (destruct c as [c|c|]; try reflexivity).
Qed.
Definition start (cwd : place) (t : text) : place := match t with 47 :: _ => [] | _ => cwd end.
Lemma start_rel cwd c t : c <> 47 -> start cwd (c :: t) = cwd.
Proof.
  intro D. unfold start. destruct c as [|c]; [reflexivity|].
  repeat (destruct c as [c|c|]; try reflexivity). congruence.
Qed.
Lemma start_app cwd a b : a <> [] -> start cwd (a ++ b) = start cwd a.
Proof.
  destruct a as [|c a]; [congruence|]. intros _. destruct (N.eq_dec c 47) as [->|D]; [reflexivity|].
  cbn [app]. now rewrite !start_rel by assumption.
Qed.
Lemma start_proper cwd n : proper n -> start cwd n = cwd.
Proof.
  intros (A & _ & C). destruct n as [|c n]; [congruence|]. apply start_rel. intros ->. apply C. now left.
Qed.
Lemma resolve_eq cwd t : resolve cwd t = start cwd t ++ filter counts (names t).
Proof. reflexivity. Qed.
Lemma names_proper n : proper n -> filter counts (names n) = [n].
Proof. intro P. rewrite names_one by apply P. cbn [filter]. now rewrite counts_proper. Qed.
Lemma resolve_seps cwd d k : d <> [] -> resolve cwd (d ++ repeat 47 k) = resolve cwd d.
Proof.
  intro D. rewrite !resolve_eq, start_app by assumption. f_equal. clear D. revert d. induction k as [|k IH]; intro d; cbn [repeat].
  - now rewrite app_nil_r.
  - rewrite names_sep, filter_app. specialize (IH []). cbn [app] in IH. rewrite IH. cbn [names filter counts]. apply app_nil_r.
Qed.
Lemma resolve_all_seps cwd k : resolve cwd (repeat 47 (Datatypes.S k)) = [].
Proof.
  cbn [repeat]. change (47 :: repeat 47 k) with ([47] ++ repeat 47 k). rewrite resolve_seps by discriminate. reflexivity.
Qed.

(** ** Joining *)
Lemma last_sep (p : text) : p <> [] -> last p 0 = 47 -> exists q, p = q ++ [47].
Proof. intros D E. exists (removelast p). rewrite <- E. now apply app_removelast_last. Qed.
Lemma join_some p n : p <> [] -> join p n = if last p 0 =? 47 then p ++ n else p ++ 47 :: n.
Proof. now destruct p. Qed.
Lemma resolve_join cwd p n : proper n -> resolve cwd (join p n) = resolve cwd p ++ [n].
Proof.
  intro P. destruct p as [|c p].
  - cbn [join]. rewrite !resolve_eq, start_proper, names_proper by assumption. cbn. now rewrite app_nil_r.
  - assert (D : c :: p <> []) by discriminate. revert D. generalize (c :: p). intros t D. rewrite (join_some t n D). destruct (N.eqb_spec (last t 0) 47) as [E|E].
    + destruct (last_sep t D E) as (q & Q). rewrite !resolve_eq, start_app by assumption. rewrite <- app_assoc. f_equal.
      rewrite Q, <- app_assoc. cbn [app]. rewrite !names_sep, !filter_app, (names_proper n P). cbn [names filter counts].
      now rewrite app_nil_r.
    + rewrite !resolve_eq, start_app by assumption. rewrite <- app_assoc. f_equal.
      now rewrite names_sep, filter_app, (names_proper n P).
Qed.
Lemma rev_seps k : rev (repeat 47 k) = repeat 47 k.
Proof.
  induction k as [|k IH]; [reflexivity|]. cbn [repeat rev]. rewrite IH. clear. induction k as [|k IH]; [reflexivity|].
  cbn [repeat app]. now rewrite IH.
Qed.
Lemma drop_seps_spec t : exists k, t = drop_seps t ++ repeat 47 k.
Proof.
  unfold drop_seps. match goal with |- exists k, t = rev (?f (rev t)) ++ _ =>
    assert (H : forall l, exists k, rev l = rev (f l) ++ repeat 47 k);
      [|destruct (H (rev t)) as (k & K); exists k; now rewrite rev_involutive in K] end.
  intro l. induction l as [|c r (k & IH)].
  - now exists O.
  - destruct (N.eqb_spec c 47) as [->|D].
    + exists (Datatypes.S k). cbn [rev repeat]. rewrite IH, <- app_assoc. f_equal. clear.
      induction k as [|k IH]; [reflexivity|]. cbn [repeat app]. now rewrite IH.
    + exists O. cbn [repeat]. now rewrite app_nil_r.
Qed.
Lemma drop_name_none n : ~ In 47 n -> drop_name n = [].
Proof.
  intro D. unfold drop_name. assert (D' : ~ In 47 (rev n)) by (intro I; now apply in_rev in I).
  induction (rev n) as [|c r IH]; [reflexivity|]. destruct (N.eqb_spec c 47) as [->|E]; [exfalso; apply D'; now left|].
  apply IH. intro I. apply D'. now right.
Qed.
Lemma drop_name_sep q n : ~ In 47 n -> drop_name (q ++ 47 :: n) = q ++ [47].
Proof.
  intro D. unfold drop_name. rewrite rev_app_distr. cbn [rev]. rewrite <- app_assoc. cbn [app].
  assert (D' : ~ In 47 (rev n)) by (intro I; now apply in_rev in I).
  induction (rev n) as [|c r IH]; cbn [app].
  - cbn. now rewrite rev_involutive.
  - destruct (N.eqb_spec c 47) as [->|E]; [exfalso; apply D'; now left|]. apply IH. intro I. apply D'. now right.
Qed.
Lemma resolve_parent_sep cwd q n : ~ In 47 n -> resolve cwd (parent (q ++ 47 :: n)) = resolve cwd (q ++ [47]).
Proof.
  intro D. unfold parent. rewrite drop_name_sep by assumption. destruct (drop_seps_spec (q ++ [47])) as (k & K).
  destruct (drop_seps (q ++ [47])) as [|c d] eqn:E.
  - cbn [app] in K. destruct k as [|k]; [now destruct q|]. rewrite K, resolve_all_seps.
    assert (X : exists y, q ++ 47 :: n = 47 :: y).
    { destruct q as [|x q]; [now exists n|]. cbn [app repeat] in K. injection K as -> _. now exists (q ++ 47 :: n). }
    destruct X as (y & ->). reflexivity.
  - rewrite K at 1. now rewrite resolve_seps by discriminate.
Qed.
Lemma resolve_parent cwd p n : proper n -> resolve cwd (parent (join p n)) = resolve cwd p.
Proof.
  intro P. destruct p as [|c p].
  - cbn [join]. unfold parent. rewrite drop_name_none by apply P. destruct n as [|d n]; [now destruct P|].
    replace (drop_seps []) with (@nil N) by reflexivity.
    destruct P as (_ & _ & D). assert (E : d <> 47) by (intros ->; apply D; now left).
    clear D. destruct d as [|d]; [reflexivity|]. repeat (destruct d as [d|d|]; try reflexivity). congruence.
  - assert (D : c :: p <> []) by discriminate. revert D. generalize (c :: p). intros t D. rewrite (join_some t n D). destruct (N.eqb_spec (last t 0) 47) as [E|E].
    + destruct (last_sep t D E) as (q & Q). rewrite Q, <- app_assoc. cbn [app]. apply resolve_parent_sep, P.
    + rewrite resolve_parent_sep by apply P. exact (resolve_seps cwd t 1 D).
Qed.
Lemma proper_lock : proper lock_name. Proof. split; [discriminate|]. split; [discriminate|]. cbn. intros [H|[H|[H|[H|[]]]]]; discriminate. Qed.
Lemma proper_graph : proper graph_name.
Proof. split; [discriminate|]. split; [discriminate|]. cbn. intros [H|[H|[H|[H|[H|[H|[]]]]]]]; discriminate. Qed.
Lemma proper_commands : proper commands_name.
Proof. split; [discriminate|]. split; [discriminate|]. cbn. intros [H|[H|[H|[H|[H|[H|[H|[H|[]]]]]]]]]; discriminate. Qed.

(** ** C175 *)
(** Whatever text is given as the path, the files used are those of the place it leads to. *)
Theorem C175_files : forall cwd p,
  resolve cwd (lock_text p) = resolve cwd p ++ [txt "lock"] /\
  resolve cwd (root_text p) = resolve cwd p ++ [txt ".graph"] /\
  resolve cwd (command_text p) = resolve cwd p ++ [txt ".graph"; txt "commands"].
Proof.
  intros cwd p. split; [apply resolve_join, proper_lock|]. split; [apply resolve_join, proper_graph|].
  unfold command_text. rewrite resolve_join by apply proper_commands. rewrite resolve_join by apply proper_graph.
  now rewrite <- app_assoc.
Qed.
Print Assumptions C175_files.
(** The calls are those of Place.v at that place: C174 speaks about every path given as text. *)
Theorem C175_calls : forall cwd p nd,
  w_lock cwd p = t_lock (resolve cwd p) /\
  w_init cwd p = t_init (resolve cwd p) /\
  w_unlock cwd p = t_unlock (resolve cwd p) /\
  t_with_lock (resolve cwd p) (w_remove cwd p) = t_clean (resolve cwd p) /\
  w_load cwd p nd = t_load (resolve cwd p) nd.
Proof.
  intros cwd p nd. destruct (C175_files cwd p) as (L & G & C).
  split; [|split; [|split; [|split]]].
  - unfold w_lock, w_touch, t_lock, t_touch, lock_path. rewrite removelast_last.
    unfold lock_text. rewrite resolve_parent by apply proper_lock. fold (lock_text p). now rewrite L.
  - unfold w_init, w_touch, t_init, t_touch. rewrite C. unfold command_text. rewrite resolve_parent by apply proper_commands.
    rewrite resolve_join by apply proper_graph. unfold command_path. now rewrite removelast_two.
  - unfold w_unlock, t_unlock, lock_path. now rewrite L.
  - unfold w_remove, t_clean, root_path. now rewrite G.
  - unfold w_load, t_load, command_path. now rewrite C.
Qed.
Print Assumptions C175_calls.
(** Other ways to write the same path. *)
Theorem C175_spellings : forall cwd p, 
  (p <> [] -> resolve cwd (p ++ txt "/") = resolve cwd p /\ resolve cwd (p ++ txt "/.") = resolve cwd p) /\
  (forall a b, p = a ++ txt "/" ++ b -> resolve cwd (a ++ txt "//" ++ b) = resolve cwd p) /\
  ((forall q, p <> txt "/" ++ q) -> resolve cwd (txt "./" ++ p) = resolve cwd p) /\
  resolve cwd (txt ".") = cwd /\ resolve cwd [] = cwd.
Proof.
  intros cwd p. split; [|split; [|split; [|split]]].
  - intro D. split.
    + exact (resolve_seps cwd p 1 D).
    + rewrite !resolve_eq, start_app by assumption. f_equal. change (txt "/.") with ([47; 46]). rewrite names_sep, filter_app.
      cbn. apply app_nil_r.
  - intros a b ->. change (txt "//" ++ b) with (47 :: 47 :: b). change (txt "/" ++ b) with (47 :: b).
    rewrite !resolve_eq. f_equal.
    + destruct a as [|c a]; [reflexivity|]. now rewrite !start_app.
    + rewrite !names_sep, !filter_app. f_equal.
  - intro H. rewrite !resolve_eq. f_equal. destruct p as [|c p]; [reflexivity|]. symmetry. apply start_rel. intros ->. exact (H p eq_refl).
  - cbn. apply app_nil_r.
  - cbn. apply app_nil_r.
Qed.
Print Assumptions C175_spellings.
(** Every place can be written, from the top and from the current directory. *)
Theorem C175_written : forall cwd ns, Forall proper ns ->
  resolve cwd (txt "/" ++ written ns) = ns /\ resolve cwd (written ns) = cwd ++ ns.
Proof.
  intros cwd ns F.
  assert (N0 : filter counts (names (written ns)) = ns).
  { induction F as [|n ns P F IH]; [reflexivity|]. destruct ns as [|m ns].
    - cbn [written]. now apply names_proper.
    - change (written (n :: m :: ns)) with (n ++ 47 :: written (m :: ns)).
      rewrite names_sep, filter_app, (names_proper n P). cbn [app]. f_equal. exact IH. }
  split.
  - rewrite resolve_eq. change (txt "/" ++ written ns) with (47 :: written ns). cbn [names filter counts N.eqb Pos.eqb start app].
    exact N0.
  - rewrite resolve_eq, N0. f_equal. destruct F as [|n ns P F]; [reflexivity|].
    destruct ns as [|m ns]; [now apply start_proper|]. change (written (n :: m :: ns)) with (n ++ txt "/" ++ written (m :: ns)).
    rewrite start_app by apply P. now apply start_proper.
Qed.
Print Assumptions C175_written.
(** So: a graph made under one spelling is found under every other one. *)
Theorem C175_same_graph : forall cwd p1 p2 nd, resolve cwd p1 = resolve cwd p2 ->
  w_lock cwd p1 = w_lock cwd p2 /\ w_init cwd p1 = w_init cwd p2 /\ w_unlock cwd p1 = w_unlock cwd p2 /\
  w_remove cwd p1 = w_remove cwd p2 /\ w_load cwd p1 nd = w_load cwd p2 nd.
Proof.
  intros cwd p1 p2 nd E. destruct (C175_calls cwd p1 nd) as (A1 & A2 & A3 & _ & A5), (C175_calls cwd p2 nd) as (B1 & B2 & B3 & _ & B5).
  split; [congruence|]. split; [congruence|]. split; [congruence|]. split; [|congruence].
  destruct (C175_files cwd p1) as (_ & G1 & _), (C175_files cwd p2) as (_ & G2 & _). unfold w_remove. now rewrite G1, G2, E.
Qed.
Print Assumptions C175_same_graph.
Example C175_case : let cwd := [txt "home"] in
  resolve cwd (lock_text (txt "./data//g/.")) = [txt "home"; txt "data"; txt "g"; txt "lock"] /\
  resolve cwd (parent (command_text (txt "/"))) = [txt ".graph"] /\
  resolve cwd (txt "data/g") = resolve cwd (txt "./data//g/") /\
  Forall proper [txt "data"; txt "g"] /\ written [txt "data"; txt "g"] = txt "data/g".
Proof.
  split; [reflexivity|]. split; [reflexivity|]. split; [reflexivity|]. split; [|reflexivity].
  constructor; [|constructor; [|constructor]]; (split; [discriminate|]); (split; [discriminate|]); cbn.
  - intros [H|[H|[H|[H|[]]]]]; discriminate.
  - intros [H|[]]; discriminate.
Qed.
