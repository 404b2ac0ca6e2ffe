(** * Facts about write calls that are cut short or refused *)
From Coq Require Import String.
From Coq Require Import List NArith Bool Arith Lia.
From Verif Require Import Spec Base Graph Text Format FormatSpec FormatFacts
  Store StoreSpec StoreFacts CrashFacts Writer WriterFacts Cli Disk.
Import ListNotations.
Open Scope nat_scope.

(** A disk that takes something of every write call. *)
Definition working (d : disk) : Prop := forall i, exists n, d i = Takes (S n).
(** A disk that takes nothing. *)
Definition full_disk : disk := fun _ => Refused.

Lemma push_out_split f d : forall i buf, concat (p_calls (push_out f d i buf)) ++ p_rest (push_out f d i buf) = buf.
Proof.
  induction f as [|f IH]; intros i [|b buf]; try reflexivity. cbn [push_out].
  destruct (d i) as [|[|n]]; try reflexivity. cbn [p_calls p_rest concat].
  rewrite <- app_assoc, IH. apply firstn_skipn.
Qed.
Lemma push_out_ok f d : forall i buf, length buf <= f -> p_ok (push_out f d i buf) = true -> p_rest (push_out f d i buf) = [].
Proof.
  induction f as [|f IH]; intros i [|b buf] Hl; cbn [length] in *; try reflexivity; try lia. cbn [push_out].
  destruct (d i) as [|[|n]]; try discriminate. cbn [p_ok p_rest]. intro H. apply IH; [|assumption].
  rewrite skipn_length. cbn [length]. lia.
Qed.
Lemma push_out_working f d : working d -> forall i buf, p_ok (push_out f d i buf) = true.
Proof.
  intro W. induction f as [|f IH]; intros i [|b buf]; try reflexivity. cbn [push_out].
  destruct (W i) as [n ->]. apply IH.
Qed.
Lemma push_out_bad f d : forall i buf, p_ok (push_out f d i buf) = false -> exists j, i <= j /\ (d j = Refused \/ d j = Takes O).
Proof.
  induction f as [|f IH]; intros i [|b buf]; try discriminate. cbn [push_out].
  destruct (d i) as [|[|n]] eqn:E; [eauto|eauto|]. cbn [p_ok]. intro H. apply IH in H. destruct H as (j & Hj & H). exists j. split; [lia|assumption].
Qed.
Lemma push_split d i buf : concat (p_calls (push d i buf)) ++ p_rest (push d i buf) = buf.
Proof. apply push_out_split. Qed.
Lemma push_ok d i buf : p_ok (push d i buf) = true -> p_rest (push d i buf) = [].
Proof. now apply push_out_ok. Qed.
Lemma push_all d i buf : p_ok (push d i buf) = true -> concat (p_calls (push d i buf)) = buf.
Proof. intro H. rewrite <- (push_split d i buf) at 2. rewrite (push_ok _ _ _ H). now rewrite app_nil_r. Qed.
Lemma push_part d i buf : exists q, buf = concat (p_calls (push d i buf)) ++ q /\ length q <= length buf.
Proof.
  exists (p_rest (push d i buf)). split; [now rewrite push_split|]. rewrite <- (push_split d i buf) at 2. rewrite app_length. lia.
Qed.

(** What the calls have written is a part, from the start, of the whole text. *)
Lemma disk_writes_prefix cap d ps : forall i buf, exists q,
  buf ++ concat ps = concat (fst (disk_writes cap d i buf ps)) ++ q /\
  (length buf <= cap -> snd (disk_writes cap d i buf ps) = true -> length q <= cap) /\
  (snd (disk_writes cap d i buf ps) = false -> exists j, d j = Refused \/ d j = Takes O).
Proof.
  induction ps as [|p ps IH]; intros i buf; cbn [disk_writes concat].
  - destruct (push_part d i buf) as (q & Eq & Hq). exists q. cbn [fst snd]. rewrite app_nil_r. repeat split; try discriminate; try assumption.
    intros H _. lia.
  - set (r := if Nat.ltb cap (length buf + length p) then push d i buf
              else {| p_calls := []; p_rest := buf; p_next := i; p_ok := true |}).
    assert (Hr : concat (p_calls r) ++ p_rest r = buf).
    { subst r. destruct (Nat.ltb _ _); [apply push_split|reflexivity]. }
    destruct (p_ok r) eqn:Eok; cbn [negb].
    + assert (Hrest : (p_rest r = [] \/ p_rest r = buf) /\ (cap < length buf + length p -> p_rest r = [])).
      { subst r. destruct (Nat.ltb_spec cap (length buf + length p)).
        - rewrite push_ok by assumption. auto.
        - cbn [p_rest]. split; [auto|lia]. }
      destruct Hrest as [Hrest1 Hrest2].
      destruct (Nat.leb_spec cap (length p)) as [Hbig|Hsmall].
      * assert (Hnil : p_rest r = []).
        { destruct (Nat.ltb_spec cap (length buf + length p)); [now apply Hrest2|].
          destruct Hrest1 as [E|E]; [assumption|]. rewrite E. destruct buf; [reflexivity|]. cbn [length] in *. lia. }
        rewrite Hnil in *. rewrite app_nil_r in Hr.
        destruct (p_ok (push d (p_next r) p)) eqn:Eq; cbn [fst snd].
        -- destruct (IH (p_next (push d (p_next r) p)) []) as (q & E & Hs & Hf). exists q. cbn [app] in E.
           rewrite !concat_app, Hr, (push_all _ _ _ Eq), <- !app_assoc, E. repeat split; [|assumption].
           intros _ H. apply Hs; [cbn; lia|assumption].
        -- destruct (push_part d (p_next r) p) as (q & E & _). exists (q ++ concat ps).
           rewrite !concat_app, Hr. change (push d (p_next (push d (p_next r) p)) []) with
             {| p_calls := []; p_rest := []; p_next := p_next (push d (p_next r) p); p_ok := true |}.
           cbn [p_calls concat]. rewrite app_nil_r. rewrite <- app_assoc. split; [now rewrite E at 1; rewrite <- app_assoc|].
           split; [discriminate|]. intros _. apply push_out_bad in Eq. destruct Eq as (j & _ & Hj). eauto.
      * destruct (IH (p_next r) (p_rest r ++ p)) as (q & E & Hs & Hf). exists q. cbn [fst snd].
        rewrite concat_app, <- app_assoc, <- E. split; [rewrite <- Hr at 1; now rewrite <- !app_assoc|]. split; [|assumption].
        intros Hb H. apply Hs; [|assumption]. rewrite app_length.
        destruct (Nat.ltb_spec cap (length buf + length p)); [rewrite Hrest2 by assumption; cbn; lia|].
        destruct Hrest1 as [-> | ->]; cbn; lia.
    + destruct (push_part d (p_next r) (p_rest r)) as (q & E & _). exists (q ++ p ++ concat ps). cbn [fst snd].
      rewrite concat_app, <- app_assoc. split; [rewrite <- Hr at 1; rewrite E at 1; now rewrite <- !app_assoc|].
      split; [discriminate|]. intros _. subst r. destruct (Nat.ltb _ _); [|discriminate].
      apply push_out_bad in Eok. destruct Eok as (j & _ & Hj). eauto.
Qed.

Lemma disk_writes_working cap d ps : working d -> forall i buf,
  snd (disk_writes cap d i buf ps) = true /\ concat (fst (disk_writes cap d i buf ps)) = buf ++ concat ps.
Proof.
  intro W. assert (Wp : forall i b, p_ok (push d i b) = true) by (intros; now apply push_out_working).
  induction ps as [|p ps IH]; intros i buf; cbn [disk_writes concat].
  - cbn [fst snd]. rewrite app_nil_r. split; [reflexivity|]. now apply push_all.
  - set (r := if Nat.ltb cap (length buf + length p) then push d i buf
              else {| p_calls := []; p_rest := buf; p_next := i; p_ok := true |}).
    assert (Hr : concat (p_calls r) ++ p_rest r = buf).
    { subst r. destruct (Nat.ltb _ _); [apply push_split|reflexivity]. }
    assert (Eok : p_ok r = true) by (subst r; destruct (Nat.ltb _ _); [apply Wp|reflexivity]).
    rewrite Eok. cbn [negb]. destruct (Nat.leb_spec cap (length p)) as [Hbig|Hsmall].
    + assert (Hnil : p_rest r = []).
      { subst r. destruct (Nat.ltb_spec cap (length buf + length p)); [now apply push_ok|].
        cbn [p_rest]. destruct buf; [reflexivity|]. cbn [length] in *. lia. }
      rewrite Wp, Hnil in *. rewrite app_nil_r in Hr. cbn [fst snd].
      destruct (IH (p_next (push d (p_next r) p)) []) as [H1 H2].
      split; [assumption|]. now rewrite !concat_app, Hr, push_all, H2.
    + cbn [fst snd]. destruct (IH (p_next r) (p_rest r ++ p)) as [H1 H2]. split; [assumption|].
      rewrite concat_app, H2. rewrite <- Hr at 1. now rewrite <- !app_assoc.
Qed.

(** Nothing is written on a full disk, and a text that fits in the buffer meets no error. *)
Lemma full_disk_writes cap ps : forall i buf, length buf + length (concat ps) <= cap -> (forall p, In p ps -> length p < cap) ->
  disk_writes cap full_disk i buf ps = ([], true).
Proof.
  assert (Hp : forall i b, p_calls (push full_disk i b) = []) by (intros i [|x b]; reflexivity).
  induction ps as [|p ps IH]; intros i buf Hl Hs; cbn [disk_writes].
  - now rewrite Hp.
  - cbn [concat] in Hl. rewrite app_length in Hl. destruct (Nat.ltb_spec cap (length buf + length p)); [lia|]. cbn [p_ok negb p_next p_rest p_calls app].
    destruct (Nat.leb_spec cap (length p)) as [H1|_]; [specialize (Hs p (or_introl eq_refl)); lia|].
    rewrite IH; [reflexivity|rewrite app_length; lia|intros q Hq; apply Hs; now right].
Qed.

Lemma run_disk_add cap d cs s : run_prog (disk_add_commands cap d cs) s =
  match commands_entry s with
  | File c => (set_commands (File (c ++ concat (fst (disk_writes cap d 0 [] (add_pieces cs))))) s,
               io_of (snd (disk_writes cap d 0 [] (add_pieces cs))))
  | _ => (s, IoErr)
  end.
Proof.
  unfold disk_add_commands. cbn [run_prog]. destruct (commands_entry s) as [|c|] eqn:E; try reflexivity.
  rewrite run_bind, (run_append_chunks _ s c E). reflexivity.
Qed.
Lemma run_disk_apply cap d cs s : run_prog (disk_apply cap d cs) s =
  if openable (fs_lock s) then
    match commands_entry s with
    | File c => (set_commands (File (c ++ concat (fst (disk_writes cap d 0 [] (add_pieces cs))))) (released s),
                 io_of (snd (disk_writes cap d 0 [] (add_pieces cs))))
    | _ => (released s, IoErr)
    end
  else (set_root true s, IoErr).
Proof.
  unfold disk_apply. rewrite run_with_lock.
  destruct (openable (fs_lock s)) eqn:E; [|reflexivity]. cbn zeta.
  rewrite run_disk_add. destruct (locked_file s E) as [l Hl].
  change (commands_entry (locked s)) with (commands_entry s).
  destruct (commands_entry s) as [|c|]; cbn [fst snd set_commands set_graph fs_lock]; rewrite Hl; reflexivity.
Qed.
Lemma run_disk_save cap d g s c : commands_entry s = File c -> run_prog (disk_save cap d g) s =
  (set_commands (File (concat (fst (disk_writes cap d 0 [] (save_pieces g))))) s,
   io_of (snd (disk_writes cap d 0 [] (save_pieces g)))).
Proof.
  intro E. unfold disk_save. cbn [run_prog]. apply commands_entry_dir in E. rewrite E. rewrite run_bind.
  pose proof (run_write_chunks (fst (disk_writes cap d 0 [] (save_pieces g))) (set_commands (File []) s) [] eq_refl) as H.
  cbn [length app] in H. rewrite H. reflexivity.
Qed.
Lemma full_disk_nothing cap ps : forall i buf, concat (fst (disk_writes cap full_disk i buf ps)) = [].
Proof.
  assert (Hp : forall i b, p_calls (push full_disk i b) = []) by (intros i [|x b]; reflexivity).
  induction ps as [|p ps IH]; intros i buf; cbn [disk_writes].
  - cbn [fst]. now rewrite Hp.
  - destruct (Nat.ltb cap (length buf + length p)); cbn [p_ok p_calls p_next p_rest negb].
    + destruct (p_ok (push full_disk i buf)); cbn [negb].
      * destruct (Nat.leb cap (length p)); [|cbn [fst]; rewrite Hp; apply IH].
        destruct (p_ok (push full_disk _ p)); cbn [fst]; rewrite !Hp; [apply IH|reflexivity].
      * cbn [fst]. now rewrite !Hp.
    + destruct (Nat.leb cap (length p)); [|apply IH].
      destruct (p_ok (push full_disk _ p)); cbn [fst app]; rewrite !Hp; [apply IH|reflexivity].
Qed.
(** A disk that works, however it cuts the calls, is one of the ways of writing that
    [Store.v] allows. *)
Definition cut_by (cap : nat) (d : disk) (ps : list text) : list text := fst (disk_writes cap d 0 [] ps).
Lemma cut_by_ok cap d : working d -> buffering (cut_by cap d).
Proof. intros W ps. exact (proj2 (disk_writes_working cap d ps W 0 [])). Qed.
Lemma save_piece_short g p : In p (save_pieces g) -> length p < length (concat (save_pieces g)).
Proof.
  unfold save_pieces. rewrite concat_app, app_length. intro H. apply in_app_or in H.
  assert (G : forall (l : list (list text)) , (forall x, In x l -> forall q, In q x -> length q < length (concat x)) ->
            forall q, In q (concat l) -> length q < length (concat (concat l))).
  { induction l as [|x l IH]; intros Hx q Hq; [destruct Hq|]. cbn [concat] in *. rewrite concat_app, app_length.
    apply in_app_or in Hq. destruct Hq as [Hq|Hq]; [specialize (Hx x (or_introl eq_refl) q Hq); lia|].
    specialize (IH (fun y Hy => Hx y (or_intror Hy)) q Hq). lia. }
  pose proof show_nonempty as Sn.
  assert (Sl : forall n, 0 < length (show n)) by (intro n; specialize (Sn n); destruct (show n); [congruence|cbn; lia]).
  destruct H as [H|H]; apply G in H; try lia; intros x Hx q Hq; apply in_map_iff in Hx; destruct Hx as (y & <- & _);
    cbn [In] in Hq; cbn [concat]; rewrite !app_length; cbn [length];
    repeat (destruct Hq as [<-|Hq]; [try (pose proof (Sl y)); try (pose proof (Sl (fst y))); try (pose proof (Sl (snd y))); cbn [length] in *; lia|]); destruct Hq.
Qed.
Lemma full_disk_save cap g : length (gcmd_text g) <= cap -> disk_writes cap full_disk 0 [] (save_pieces g) = ([], true).
Proof.
  rewrite <- concat_save_pieces. intro H. apply full_disk_writes; [exact H|]. intros p Hp. apply save_piece_short in Hp. lia.
Qed.
