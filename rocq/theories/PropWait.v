(** * Property C162: nobody waits, and everybody is answered *)
From Coq Require Import String.
From Coq Require Import List NArith Bool Arith Lia.
From Verif Require Import Spec Base Graph GraphSpec GraphFacts Path Queue Iter Text Format FormatSpec TextFacts FormatFacts Store StoreSpec StoreFacts Steps Writer WriterFacts Reader ReaderFacts
  Clients LinearSpec PropFormat PropStore PropWriter PropLinear.
Import ListNotations.

(** ** What is counted *)
(** The steps of a request: it begins, its file operations, it returns. *)
Definition effort (o : request) : nat :=
  match o with
  | SetUp => 6
  | Update chunks cs => 6 + length (chunks (add_pieces cs)) (* and so many writes *)
  | Ask => 3
  | AskSlowly _ fuel => 3 + fuel (* so many read calls *)
  end.
Definition efforts (os : list request) : nat := list_sum (map effort os).
(** [own i run n m]: user [i] has made [m] of the first [n] steps. *)
Inductive own (i : nat) (run : nat -> fs * list client) : nat -> nat -> Prop :=
| own_start : own i run 0 0
| own_same t m : nth_error (snd (run t)) i = nth_error (snd (run (S t))) i -> own i run t m -> own i run (S t) m
| own_more t m : nth_error (snd (run t)) i <> nth_error (snd (run (S t))) i -> own i run t m -> own i run (S t) (S m).
(** A run of the users from the directory [s]. *)
Definition runs (nd : N -> bool) (oss : list (list request)) (s : fs) (run : nat -> fs * list client) (n : nat) : Prop :=
  run 0%nat = (s, map (Client [] None) oss) /\ forall t, (t < n)%nat -> cstep nd (run t) (run (S t)).

(** ** At most so many operations, whatever they find *)
Inductive ends_in {A} : prog A -> nat -> Prop :=
| e_ret a n : ends_in (Ret a) n
| e_act upd k n : (forall s, ends_in (k s) n) -> ends_in (Act upd k) (S n).
Lemma ends_more {A} (p : prog A) n : ends_in p n -> forall m, (n <= m)%nat -> ends_in p m.
Proof.
  induction 1 as [a n|upd k n _ IH]; intros m Hm; [constructor|]. destruct m as [|m]; [lia|]. constructor. intro s. apply IH. lia.
Qed.
Lemma ends_bind {A B} (p : prog A) (f : A -> prog B) n m : ends_in p n -> (forall a, ends_in (f a) m) -> ends_in (bind p f) (n + m).
Proof.
  induction 1 as [a n|upd k n _ IH]; intro Hf; cbn [bind].
  - apply (ends_more _ m); [apply Hf|lia].
  - constructor. intro s. now apply IH.
Qed.
Lemma ends_appends cs : ends_in (append_chunks cs) (length cs).
Proof. induction cs as [|c cs IH]; cbn [append_chunks length]; constructor. intros _. exact IH. Qed.
Lemma ends_read nd takes fuel : forall segs seg, ends_in (read_rest nd takes fuel segs seg) fuel.
Proof.
  induction fuel as [|n IH]; intros segs seg; cbn [read_rest]; constructor. intro s.
  destruct (firstn _ _); [destruct (ends_line seg || _)|destruct (is_ok _)]; (constructor || apply IH).
Qed.
Lemma ends_serve nd o : ends_in (serve nd o) (effort o - 2).
Proof.
  destruct o as [|chunks cs| |takes fuel]; cbn [serve effort].
  - replace (6 - 2)%nat with (4 + 0)%nat by reflexivity. apply ends_bind; [|intro; constructor]. unfold f_init, f_open.
    constructor. intro s. destruct (fs_root s); repeat (constructor; intro).
  - replace (6 + length (chunks (add_pieces cs)) - 2)%nat with ((2 + ((1 + length (chunks (add_pieces cs))) + (1 + 0))) + 0)%nat by lia.
    apply ends_bind; [|intro; constructor]. unfold apply_graph_commands, with_lock. apply ends_bind.
    + unfold lock. repeat (constructor; intro).
    + intros [u|]; [|constructor]. apply ends_bind.
      * unfold add_commands. apply e_act. intro s. destruct (commands_entry s); (apply ends_appends || apply e_ret).
      * intro r. apply ends_bind; [unfold unlock; repeat (constructor; intro)|]. intros [u'|]; constructor.
  - repeat (constructor; intro).
  - replace (3 + fuel - 2)%nat with (S fuel + 0)%nat by lia. apply ends_bind; [|intro; constructor]. unfold load_stepwise. constructor. intro s.
    destruct (commands_entry s); (apply ends_read || apply e_ret).
Qed.

(** What is left to do for a user, at most. *)
Definition left_over (c : client) (r : nat) : Prop :=
  match current c with
  | None => r = efforts (todo c)
  | Some p => exists b, ends_in p b /\ r = (b + 1 + efforts (todo c))%nat
  end.
Lemma effort_pos o : (3 <= effort o)%nat.
Proof. destruct o; cbn [effort]; lia. Qed.
Lemma efforts_cons o os : efforts (o :: os) = (effort o + efforts os)%nat.
Proof. reflexivity. Qed.
Lemma efforts_app l l' : efforts (l ++ l') = (efforts l + efforts l')%nat.
Proof. unfold efforts. now rewrite map_app, list_sum_app. Qed.
Lemma act_other {A} (p : prog A) : forall upd k s, p = Act upd k -> k s <> p.
Proof.
  induction p as [a|u q IH]; intros upd k s E; [discriminate|]. injection E as <- <-. intro E. now apply (IH s u q s E).
Qed.
(** The requests of a user: answered, current, to come. *)
Definition place (os : list request) (c : client) : Prop :=
  exists begun, length (answers c) = length begun /\
    match current c with None => os = begun ++ todo c | Some _ => exists o, os = begun ++ o :: todo c end.
(** A step is one of one user, who then has less left to do. *)
Lemma step_of nd x y : cstep nd x y -> exists pre c c' post, snd x = pre ++ c :: post /\ snd y = pre ++ c' :: post /\ c <> c' /\
  (forall r, left_over c r -> exists r', left_over c' r' /\ (r' < r)%nat) /\ forall os, place os c -> place os c'.
Proof.
  intros [s pre a o rest post|s pre a upd k rest post|s pre a r rest post _]; eexists pre, _, _, post;
    (split; [reflexivity|]); (split; [reflexivity|]); (split; [|split]).
  - discriminate.
  - intros r H. unfold left_over in *. cbn [current todo] in *. subst r. eexists. split; [exists (effort o - 2)%nat; split; [apply ends_serve|reflexivity]|].
    cbn [todo]. rewrite efforts_cons. pose proof (effort_pos o). lia.
  - intros os (begun & H1 & H2). exists begun. split; [assumption|]. cbn [current todo] in *. eauto.
  - intro E. injection E as E. apply (act_other (Act upd k) upd k s eq_refl). now symmetry.
  - intros r (b & Hb & ->). inversion Hb as [|u q n Hk E1 E2]; subst. eexists. split; [exists n; split; [apply Hk|reflexivity]|]. cbn [todo]. lia.
  - intros os H. exact H.
  - discriminate.
  - intros r0 (b & _ & ->). cbn [todo]. eexists. split; [reflexivity|]. cbn [todo]. lia.
  - intros os (begun & H1 & o & H2). exists (begun ++ [o]). cbn [answers current todo] in *. split; [rewrite !app_length, H1; reflexivity|].
    now rewrite <- app_assoc.
Qed.

Lemma mid_nth {A} (pre post : list A) c : nth_error (pre ++ c :: post) (length pre) = Some c.
Proof. rewrite nth_error_app2, Nat.sub_diag by lia. reflexivity. Qed.
Lemma mid_other {A} (pre post : list A) c c' j : j <> length pre -> nth_error (pre ++ c :: post) j = nth_error (pre ++ c' :: post) j.
Proof.
  intro H. destruct (Nat.lt_ge_cases j (length pre)) as [Hl|Hl].
  - now rewrite !nth_error_app1.
  - rewrite !nth_error_app2 by assumption. destruct (j - length pre)%nat as [|d] eqn:E; [lia|reflexivity].
Qed.

Section Counting.
  Variable nd : N -> bool.
  Variable oss : list (list request).
  Variable s : fs.
  Variable run : nat -> fs * list client.
  Variable n : nat.
  Hypothesis R : runs nd oss s run n.

  Lemma user_inv i os : nth_error oss i = Some os -> forall t m, (t <= n)%nat -> own i run t m ->
    exists c r, nth_error (snd (run t)) i = Some c /\ place os c /\ left_over c r /\ (m + r <= efforts os)%nat.
  Proof.
    intros Ho t m Ht H. revert Ht. destruct R as [R0 R1]. induction H as [|t m E H IH|t m E H IH]; intro Ht.
    - rewrite R0. cbn [snd]. exists (Client [] None os), (efforts os). rewrite nth_error_map, Ho. split; [reflexivity|].
      split; [now exists []|]. split; [reflexivity|lia].
    - destruct IH as (c & r & H1 & H2); [lia|]. exists c, r. rewrite <- E. now split.
    - destruct IH as (c & r & H1 & H2 & H3 & H4); [lia|]. destruct (step_of nd _ _ (R1 t ltac:(lia))) as (pre & c0 & c1 & post & E0 & E1 & _ & S1 & S2).
      destruct (Nat.eq_dec i (length pre)) as [->|Hne].
      + rewrite E0, mid_nth in H1. injection H1 as ->. destruct (S1 r H3) as (r' & H5 & H6). exists c1, r'. rewrite E1, mid_nth.
        split; [reflexivity|]. split; [now apply S2|]. split; [assumption|lia].
      + exfalso. apply E. rewrite E0, E1. now apply mid_other.
  Qed.
  Lemma total_inv : forall t, (t <= n)%nat -> exists rs, Forall2 left_over (snd (run t)) rs /\ (t + list_sum rs <= list_sum (map efforts oss))%nat.
  Proof.
    destruct R as [R0 R1]. induction t as [|t IH]; intro Ht.
    - exists (map efforts oss). split; [|lia]. rewrite R0. cbn [snd]. clear. induction oss as [|os l IH]; cbn [map]; constructor; [reflexivity|assumption].
    - destruct IH as (rs & H1 & H2); [lia|]. destruct (step_of nd _ _ (R1 t ltac:(lia))) as (pre & c0 & c1 & post & E0 & E1 & _ & S1 & _).
      rewrite E0 in H1. apply Forall2_app_inv_l in H1. destruct H1 as (r1 & r2 & F1 & F2 & ->). inversion F2 as [|c r l r3 Hr F3]; subst.
      destruct (S1 r Hr) as (r' & H5 & H6). exists (r1 ++ r' :: r3). rewrite E1. split; [apply Forall2_app; [assumption|now constructor]|].
      rewrite list_sum_app in *. cbn [list_sum fold_right] in *. fold (list_sum r3) in *. lia.
  Qed.
End Counting.

(** ** The theorems *)
(** Whatever is in the directory and whatever the others do: a user who has made as many steps as the first [k] requests
    take has the answers to them.  A request of at most 8192 bytes takes at most seven steps. *)
Theorem C162_wait_free : forall nd oss s run n, runs nd oss s run n ->
  forall i os k m, nth_error oss i = Some os -> (k <= length os)%nat -> own i run n m -> (efforts (firstn k os) <= m)%nat ->
  exists c, nth_error (snd (run n)) i = Some c /\ (k <= length (answers c))%nat.
Proof.
  intros nd oss s run n R i os k m Ho Hk Hm He. destruct (user_inv nd oss s run n R i os Ho n m (le_n n) Hm) as (c & r & H1 & (begun & H2 & H3) & H4 & H5).
  exists c. split; [assumption|]. destruct (Nat.le_gt_cases k (length (answers c))) as [|Hgt]; [assumption|exfalso].
  assert (HK : exists o rest, os = begun ++ o :: rest /\ (m < efforts begun + effort o)%nat).
  { unfold left_over in H4. destruct (current c).
    - destruct H3 as [o ->]. exists o, (todo c). split; [reflexivity|]. destruct H4 as (b & _ & ->). rewrite efforts_app, efforts_cons in H5. lia.
    - destruct (todo c) as [|o rest] eqn:Et.
      + rewrite app_nil_r in H3. subst os. lia.
      + exists o, rest. split; [assumption|]. subst os r. rewrite efforts_app in H5. pose proof (effort_pos o). lia. }
  destruct HK as (o & rest & -> & Hlt). rewrite firstn_app, efforts_app, firstn_all2 in He by lia.
  destruct (k - length begun)%nat as [|d] eqn:Ed; [lia|]. cbn [firstn] in He. rewrite efforts_cons in He. lia.
Qed.
Print Assumptions C162_wait_free.
Theorem C162_effort : forall cs, (N.of_nat (length (commands_text cs)) <= 8192)%N -> Forall u64_command cs ->
  (effort (Update (buffered default_capacity) cs) <= 7)%nat.
Proof. intros cs H U. destruct (C159_small cs H U) as (_ & H1 & _). cbn [effort]. lia. Qed.
Print Assumptions C162_effort.

(** No run is longer than all requests together, and at every moment every user who has not finished can go on, unless it is a slow
    reader that has made all read calls it was given. *)
Theorem C162_ends : forall nd oss s run n, runs nd oss s run n -> (n <= list_sum (map efforts oss))%nat.
Proof. intros nd oss s run n R. destruct (total_inv nd oss s run n R n (le_n n)) as (rs & _ & H). lia. Qed.
Print Assumptions C162_ends.
Theorem C162_goes_on : forall nd x i c, nth_error (snd x) i = Some c ->
  (current c = None /\ todo c = []) \/ current c = Some (Ret (ARead OutOfFuel)) \/
  exists y, cstep nd x y /\ nth_error (snd y) i <> Some c.
Proof.
  intros nd [s cs] i c H. cbn [snd] in *. apply nth_error_split in H. destruct H as (pre & post & -> & <-).
  destruct c as [a [p|] rest]; cbn [current todo].
  - destruct p as [r|upd k].
    + assert (D : r = ARead OutOfFuel \/ r <> ARead OutOfFuel) by (destruct r as [u|u|[g| |]]; ((right; discriminate) || now left)).
      destruct D as [->|D]; [auto|]. right. right. eexists. split; [now apply c_end|]. cbn [snd]. rewrite mid_nth. discriminate.
    + right. right. eexists. split; [apply c_act|]. cbn [snd]. rewrite mid_nth. intro E. injection E as E.
      exact (act_other (Act upd k) upd k s eq_refl E).
  - destruct rest as [|o rest]; [auto|]. right. right. eexists. split; [apply c_begin|]. cbn [snd]. rewrite mid_nth. discriminate.
Qed.
Print Assumptions C162_goes_on.

(** ** Slow readers *)
Definition size (s : fs) : nat := match commands_entry s with File c => length c | _ => 0 end.
(** As long as the file is no longer than [M], the program does not run out of read calls. *)
Inductive sure (M : nat) : prog answer -> Prop :=
| sure_ret r : r <> ARead OutOfFuel -> sure M (Ret r)
| sure_act upd k : (forall s, (size s <= M)%nat -> sure M (k s)) -> sure M (Act upd k).
Lemma sure_bind M {A} (p : prog A) f n : ends_in p n -> (forall a, sure M (f a)) -> sure M (bind p f).
Proof. induction 1 as [a n|upd k n _ IH]; intro Hf; cbn [bind]; [apply Hf|]. constructor. intros s _. now apply IH. Qed.
Lemma sure_read nd takes M n : forall segs seg,
  (2 * (M - length (concat segs ++ seg)) + match seg with [] => 1 | _ => 2 end <= n)%nat ->
  sure M (bind (read_rest nd takes n segs seg) (fun r => Ret (ARead r))).
Proof.
  induction n as [|n IH]; intros segs seg Hn; [destruct seg; lia|]. cbn [read_rest bind]. constructor. intros s Hs.
  assert (HR : forall l, sure M (Ret (ARead (read_pieces nd l)))).
  { intro l. constructor. intro E. injection E as E. now apply (read_pieces_fuel nd l). }
  set (c := match commands_entry s with File c => c | _ => [] end).
  assert (Hc : (length c <= M)%nat) by (unfold c, size in *; destruct (commands_entry s); cbn [length]; lia).
  destruct (firstn (S (takes segs seg)) (skipn (length (concat segs ++ seg)) c)) as [|b new] eqn:E.
  - match goal with |- context [if ?b then _ else _] => destruct b eqn:Eo end; cbn [bind]; [apply HR|]. apply IH.
    destruct seg as [|a seg]; [discriminate Eo|]. rewrite concat_app. cbn [concat]. rewrite !app_nil_r. lia.
  - match goal with |- context [if ?b then _ else _] => destruct b end; cbn [bind]; [|apply HR]. apply IH.
    assert (HL : (length (concat segs ++ seg) + length (b :: new) <= length c)%nat).
    { rewrite <- E. rewrite firstn_length, skipn_length. destruct (Nat.le_gt_cases (length (concat segs ++ seg)) (length c)) as [|Hgt]; [lia|].
      rewrite skipn_all2 in E by lia. rewrite firstn_nil in E. discriminate E. }
    rewrite app_length in *. rewrite app_length. cbn [length] in *. destruct (seg ++ b :: new) as [|x l]; destruct seg; lia.
Qed.
Definition reads_enough (M : nat) (o : request) : Prop := match o with AskSlowly _ fuel => (2 * M + 1 <= fuel)%nat | _ => True end.
Lemma sure_serve nd M o : reads_enough M o -> sure M (serve nd o).
Proof.
  intro H. destruct o as [|chunks cs| |takes fuel]; cbn [serve].
  - pose proof (ends_serve nd SetUp) as E. cbn [serve] in E.
    unfold f_init, f_open. cbn [bind]. constructor. intros s _. destruct (fs_root s); cbn [bind]; repeat (constructor; intros; try discriminate).
  - apply (sure_bind M _ _ (4 + length (chunks (add_pieces cs)))).
    + replace (4 + length (chunks (add_pieces cs)))%nat with (2 + ((1 + length (chunks (add_pieces cs))) + (1 + 0)))%nat by lia.
      unfold apply_graph_commands, with_lock. apply ends_bind; [unfold lock; repeat (constructor; intro)|].
      intros [u|]; [|constructor]. apply ends_bind.
      * unfold add_commands. apply e_act. intro s. destruct (commands_entry s); (apply ends_appends || apply e_ret).
      * intro r. apply ends_bind; [unfold unlock; repeat (constructor; intro)|]. intros [u'|]; constructor.
    + intro a. constructor. discriminate.
  - unfold load_graph. cbn [bind]. constructor. intros s _. constructor. destruct (commands_entry s) as [|c|]; try discriminate.
    intro E. injection E as E. apply (read_pieces_fuel nd [c]). unfold read_pieces. cbn [flat_map]. rewrite app_nil_r. exact E.
  - unfold load_stepwise. cbn [bind]. constructor. intros s _. destruct (commands_entry s); cbn [bind]; try (constructor; discriminate).
    apply sure_read. cbn [concat app length]. cbn in H. lia.
Qed.
Lemma sure_step nd M x y : (size (fst x) <= M)%nat -> cstep nd x y ->
  Forall (fun c => Forall (reads_enough M) (todo c) /\ forall p, current c = Some p -> sure M p) (snd x) ->
  Forall (fun c => Forall (reads_enough M) (todo c) /\ forall p, current c = Some p -> sure M p) (snd y).
Proof.
  intros Hs St. revert Hs. destruct St as [s pre a o rest post|s pre a upd k rest post|s pre a r rest post _]; intros Hs H; cbn [fst snd] in *; apply Forall_app in H; destruct H as [H1 H2];
    inversion H2 as [|c l [H3 H4] H5]; subst; (apply Forall_app; split; [assumption|]); (constructor; [|assumption]); cbn [todo current] in *.
  - inversion H3; subst. split; [assumption|]. intros p E. injection E as <-. now apply sure_serve.
  - split; [assumption|]. intros p E. injection E as <-. specialize (H4 _ eq_refl). inversion H4 as [|u q Hk E1]; subst. now apply Hk.
  - split; [assumption|discriminate].
Qed.

(** The run ends only when every request of every user is answered, if slow readers are given enough read calls: two for every
    character the file ever has, and one more. *)
Theorem C162_everybody : forall nd oss s run n M, runs nd oss s run n ->
  (forall t, (t <= n)%nat -> (size (fst (run t)) <= M)%nat) -> Forall (Forall (reads_enough M)) oss ->
  (forall y, ~ cstep nd (run n) y) ->
  forall i os, nth_error oss i = Some os -> exists c, nth_error (snd (run n)) i = Some c /\ current c = None /\ todo c = [] /\ length (answers c) = length os.
Proof.
  intros nd oss s run n M R HM HF Hno i os Ho.
  assert (HI : forall t, (t <= n)%nat -> Forall (fun c => Forall (reads_enough M) (todo c) /\ forall p, current c = Some p -> sure M p) (snd (run t))).
  { destruct R as [R0 R1]. induction t as [|t IH]; intro Ht.
    - rewrite R0. cbn [snd]. clear - HF. induction HF; cbn [map]; constructor; [|assumption]. split; [assumption|discriminate].
    - apply (sure_step nd M (run t)); [apply HM; lia|apply R1; lia|apply IH; lia]. }
  assert (HP : forall t, (t <= n)%nat -> exists c, nth_error (snd (run t)) i = Some c /\ place os c).
  { destruct R as [R0 R1]. induction t as [|t IH]; intro Ht.
    - rewrite R0. cbn [snd]. rewrite nth_error_map, Ho. eexists. split; [reflexivity|]. now exists [].
    - destruct IH as (c & H1 & H2); [lia|]. destruct (step_of nd _ _ (R1 t ltac:(lia))) as (pre & c0 & c1 & post & E0 & E1 & _ & _ & S2).
      destruct (Nat.eq_dec i (length pre)) as [->|Hne].
      + rewrite E0, mid_nth in H1. injection H1 as ->. exists c1. rewrite E1, mid_nth. split; [reflexivity|now apply S2].
      + exists c. split; [|assumption]. rewrite E1, <- (mid_other pre post c0 c1 i Hne), <- E0. assumption. }
  destruct (HP n (le_n n)) as (c & H1 & begun & H2 & H3). exists c. split; [assumption|].
  destruct (C162_goes_on nd (run n) i c H1) as [[E1 E2]|[E1|(y & Hy & _)]].
  - rewrite E1, E2, app_nil_r in H3. subst os. auto.
  - exfalso. apply nth_error_In in H1. pose proof (proj1 (Forall_forall _ _) (HI n (le_n n)) c H1) as [_ H]. specialize (H _ E1). inversion H as [r Hr|]; subst. now apply Hr.
  - now elim (Hno y).
Qed.
Print Assumptions C162_everybody.

(** ** When all are done *)
Definition updates (os : list request) : list (list graph_command) :=
  flat_map (fun o => match o with Update _ cs => [cs] | _ => [] end) os.
Lemma fits_updates os es ans : fits os es ans -> (forall cs, ~ In (Refused cs) es) ->
  flat_map (fun e => match e with Stored cs => [cs] | _ => [] end) es = updates os.
Proof.
  induction 1 as [|os es ans o e a H IH M A]; intro Hr; [reflexivity|]. unfold updates in *. rewrite !flat_map_app, IH by (intros cs Hc; apply (Hr cs), in_app_iff; now left).
  f_equal. destruct M; try reflexivity. exfalso. apply (Hr cs), in_app_iff. right. now left.
Qed.
Lemma legal_refuses log es log' : legal log es log' -> forall l, log = Some l -> forall cs, ~ In (Refused cs) es.
Proof.
  intros H l. induction H as [log|log es H IH|log es l' H IH|log es l' cs H IH|log es cs H IH|log es l' g H IH Hg|log es m H IH]; intros E cs0 Hin;
    try (now destruct Hin); apply in_app_iff in Hin; destruct Hin as [Hin|[Hin|[]]]; try (exact (IH E cs0 Hin)); try discriminate Hin.
  discriminate (legal_log _ _ _ H l E).
Qed.
(** From a graph: when every user is done, the file holds the updates of all users, each once, every user's in the order given. *)
Theorem C162_all_stored : forall nd l oss s run n, digit_table nd -> Forall (Forall small) oss -> beginning nd s (Some l) ->
  runs nd oss s run n -> Forall (fun c => current c = None /\ todo c = []) (snd (run n)) ->
  exists (merged : list (nat * list graph_command)) c,
    commands_entry (fst (run n)) = File c /\ gcmd_read_as_commands nd c = Done (Ok (l ++ concat (map snd merged))) /\
    (forall i os, nth_error oss i = Some os -> map snd (filter (fun x => Nat.eqb (fst x) i) merged) = updates os) /\
    Forall (fun x => (fst x < length oss)%nat) merged.
Proof.
  intros nd l oss s run n T Sm HB [R0 R1] HD.
  destruct (C159_linearizable nd (Some l) oss s run n T Sm HB R0 R1) as (L & _ & HL & _).
  destruct (HL n (le_n n)) as ((log' & H1 & H2) & H3 & H4 & H5). pose proof (legal_refuses _ _ _ H1 l eq_refl) as HR.
  rewrite (legal_log _ _ _ H1 l eq_refl) in H2. destruct H2 as (c & E & Hc).
  exists (flat_map (fun x => match snd x with Stored cs => [(fst x, cs)] | _ => [] end) (L n)), c. split; [assumption|]. split; [|split].
  - rewrite Hc. do 3 f_equal. clear. induction (L n) as [|[i e] L0 IH]; [reflexivity|]. cbn [map flat_map concat snd fst]. rewrite map_app, concat_app, <- IH.
    destruct e; cbn; now rewrite ?app_nil_r.
  - intros i os Ho. destruct (nth_error (snd (run n)) i) as [cl|] eqn:Ec.
    2:{ apply nth_error_None in Ec. assert (i < length oss)%nat by (apply nth_error_Some; congruence). lia. }
    specialize (H5 i os cl Ho Ec). apply nth_error_In in Ec. destruct (proj1 (Forall_forall _ _) HD cl Ec) as [D1 D2]. unfold client_fits in H5. rewrite D1, D2 in H5.
    destruct H5 as (begun & E1 & F). rewrite app_nil_r in E1. subst begun. rewrite <- (fits_updates _ _ _ F).
    + unfold events. clear. induction (L n) as [|[j e] L0 IH]; [reflexivity|]. cbn [flat_map snd fst filter map]. rewrite filter_app, map_app, IH.
      destruct (Nat.eqb_spec j i) as [->|Hne]; cbn [map snd flat_map fst].
      * f_equal. destruct e; cbn [filter fst]; try reflexivity. now rewrite Nat.eqb_refl.
      * destruct e; cbn [filter fst]; try reflexivity. apply Nat.eqb_neq in Hne. now rewrite Hne.
    + intros cs Hin. apply (HR cs). unfold events in Hin. apply in_map_iff in Hin. destruct Hin as (x & E2 & Hin). apply filter_In in Hin. apply in_map_iff. exists x. tauto.
  - clear - H4. induction H4 as [|[i e] L0 Hi _ IH]; [constructor|]. cbn [flat_map snd fst] in *. apply Forall_app. split; [|assumption].
    destruct e; repeat constructor. assumption.
Qed.
Print Assumptions C162_all_stored.

(** ** Readers can be outrun *)
Lemma pick_nth nd i : forall s cs s' cs', pick nd i s cs = Some (s', cs') ->
  (forall j, j <> i -> nth_error cs j = nth_error cs' j) /\ nth_error cs i <> nth_error cs' i.
Proof.
  intros s cs. revert i. induction cs as [|c cs IH]; intros i s' cs' H; [destruct i; discriminate H|]. destruct i as [|i]; cbn [pick] in H.
  - destruct (client_step nd s c) as [[s1 c1]|] eqn:E; [|discriminate H]. injection H as <- <-. split; [intros [|j] Hj; [congruence|reflexivity]|].
    cbn [nth_error]. intro X. injection X as X. subst c1.
    destruct c as [a [[r|upd k]|] rest]; cbn [client_step] in E.
    + destruct r as [u|u|[g| |]]; try discriminate E; injection E as _ E2; apply (f_equal (@length answer)) in E2; rewrite app_length in E2; cbn in E2; lia.
    + injection E as _ E2. exact (act_other (Act upd k) upd k s eq_refl E2).
    + destruct rest as [|o rest]; [discriminate E|]. discriminate E.
  - destruct (pick nd i s cs) as [[s1 cs1]|] eqn:E; [|discriminate H]. injection H as <- <-. destruct (IH i s1 cs1 E) as [H1 H2]. split; [|exact H2].
    intros [|j] Hj; [reflexivity|]. cbn [nth_error]. apply H1. congruence.
Qed.
Lemma own_play nd x l i : playable nd x l = true -> forall t, (t <= length l)%nat ->
  own i (fun t => play nd x (firstn t l)) t (count_occ Nat.eq_dec (firstn t l) i).
Proof.
  intros HP. induction t as [|t IH]; intro Ht; [constructor|].
  destruct (nth_error l t) as [j|] eqn:Ej; [|apply nth_error_None in Ej; lia].
  assert (Ef : firstn (S t) l = firstn t l ++ [j]).
  { clear - Ej. revert t Ej. induction l as [|a l IH]; intros [|t] Ej; try discriminate Ej.
    - injection Ej as ->. reflexivity.
    - cbn [firstn app]. f_equal. now apply IH. }
  assert (HJ : playable nd (play nd x (firstn t l)) [j] = true).
  { rewrite <- (firstn_skipn (S t) l), Ef, !playable_app in HP. apply andb_true_iff in HP. destruct HP as [HP _]. apply andb_true_iff in HP. apply HP. }
  cbn [playable] in HJ. destruct (pick nd j (fst (play nd x (firstn t l))) (snd (play nd x (firstn t l)))) as [[s' cs']|] eqn:Ep; [|discriminate HJ].
  destruct (pick_nth _ _ _ _ _ _ Ep) as [H1 H2].
  assert (Ey : play nd x (firstn (S t) l) = (s', cs')). { rewrite Ef, play_app. unfold play at 1. cbn [fold_left]. now rewrite Ep. }
  rewrite Ef, count_occ_app. cbn [count_occ]. destruct (Nat.eq_dec j i) as [->|Hne].
  - rewrite Nat.add_1_r. apply own_more; [|apply IH; lia]. rewrite Ey. exact H2.
  - rewrite Nat.add_0_r. apply own_same; [|apply IH; lia]. rewrite Ey. apply H1. congruence.
Qed.
Definition one_more : text := txt "AddVertex 1" ++ [10].
Definition adding : request := Update (buffered default_capacity) [AddVertex 1].
Definition one_round : list nat := [1; 1; 1; 1; 1; 1; 1]%nat.
Lemma update_round nd chunks cs w t c0 a rest : chunks (add_pieces cs) = [w] -> let x := (with_file t, [c0; Client a None (Update chunks cs :: rest)]) in
  playable nd x one_round = true /\ play nd x one_round = (with_file (t ++ w), [c0; Client (a ++ [AStored (IoOk tt)]) None rest]).
Proof.
  intros E x. change one_round with ([1; 1; 1; 1] ++ [1; 1; 1])%nat%list. rewrite playable_app, play_app.
  assert (P1 : playable nd x [1; 1; 1; 1]%nat = true) by reflexivity. rewrite P1.
  let y := eval cbn in (play nd x [1; 1; 1; 1]%nat) in change (play nd x [1; 1; 1; 1]%nat) with y.
  rewrite E. split; reflexivity.
Qed.
Lemma adding_round nd t c0 a rest : let x := (with_file t, [c0; Client a None (adding :: rest)]) in
  playable nd x one_round = true /\ play nd x one_round = (with_file (t ++ one_more), [c0; Client (a ++ [AStored (IoOk tt)]) None rest]).
Proof. apply update_round. exact first_small. Qed.
Fixpoint texts (j : nat) : text := match j with O => [] | S j => texts j ++ one_more end.
Lemma texts_read nd : digit_table nd -> forall j, gcmd_read nd (texts j) = Done (Ok (apply_commands (repeat (AddVertex 1) j) g_new)).
Proof.
  intros T j. assert (E : texts j = commands_text (repeat (AddVertex 1) j)).
  { induction j as [|j IH]; [reflexivity|]. cbn [texts]. rewrite IH. clear. replace (S j) with (j + 1)%nat by lia. rewrite repeat_app. unfold commands_text.
    rewrite map_app, concat_app. reflexivity. }
  rewrite E. apply gcmd_read_ok. exists (repeat (AddVertex 1) j). split; [|reflexivity]. apply read_commands_text; [assumption|].
  apply Forall_forall. intros c Hc. apply repeat_spec in Hc. subst c. reflexivity.
Qed.

Lemma complete_whole t : ends_line t = true -> complete t = t.
Proof.
  unfold ends_line, complete. intro H. rewrite <- (rev_involutive t) at 2. f_equal. destruct (rev t) as [|c l]; [reflexivity|]. cbn [drop_begun]. now rewrite H.
Qed.
Lemma texts_ends j : ends_line (texts j) = true.
Proof. destruct j as [|j]; [reflexivity|]. cbn [texts]. unfold one_more, ends_line. now rewrite app_assoc, rev_app_distr. Qed.
Definition steady (segs : list text) (seg : text) : nat := 11.
Definition reading nd (n j : nat) : client := Client [] (Some (bind (read_rest nd steady n [] (texts j)) (fun r => Ret (ARead r)))) [].
Lemma reading_round nd n j c : digit_table nd ->
  pick nd 0 (with_file (texts (S j))) [reading nd (S n) j; c] = Some (with_file (texts (S j)), [reading nd n (S j); c]).
Proof.
  intro T. unfold reading at 1. rewrite rest_step. cbn [pick client_step bind]. do 2 f_equal. unfold reading. f_equal. f_equal.
  change (commands_entry (with_file (texts (S j)))) with (File (texts (S j))). cbn [texts].
  rewrite skipn_app, skipn_all, Nat.sub_diag. cbn [app]. change (skipn 0 one_more) with one_more.
  change (firstn (S (steady [] (texts j))) one_more) with one_more.
  assert (Eb : is_ok (read_pieces nd [complete (texts j ++ one_more)]) = true).
  { change (is_ok (read_pieces nd [complete (texts (S j))]) = true). rewrite (complete_whole _ (texts_ends (S j))), read_pieces_one, (texts_read nd T). reflexivity. }
  revert Eb. assert (Ne : one_more <> []) by discriminate. revert Ne. generalize one_more. intros [|b l] Ne Eb; [congruence|].
  rewrite Eb. reflexivity.
Qed.
Fixpoint rounds (k : nat) : list nat := match k with O => [] | S k => one_round ++ 0%nat :: rounds k end.
Lemma rounds_play nd : digit_table nd -> forall k n j a, let x := (with_file (texts j), [reading nd (k + n) j; Client a None (repeat adding k)]) in
  playable nd x (rounds k) = true /\
  play nd x (rounds k) = (with_file (texts (j + k)), [reading nd n (j + k); Client (a ++ repeat (AStored (IoOk tt)) k) None []]).
Proof.
  intros T k. induction k as [|k IH]; intros n j a x.
  - subst x. cbn. rewrite Nat.add_0_r, app_nil_r. split; reflexivity.
  - subst x. cbn [rounds repeat Nat.add]. destruct (adding_round nd (texts j) (reading nd (S (k + n)) j) a (repeat adding k)) as [P1 E1].
    rewrite playable_app, play_app, P1, E1. cbn [andb]. change (texts j ++ one_more) with (texts (S j)).
    cbn [playable fst snd]. rewrite (reading_round nd (k + n) j _ T). unfold play. cbn [fold_left fst snd]. rewrite (reading_round nd (k + n) j _ T).
    destruct (IH n (S j) (a ++ [AStored (IoOk tt)])) as [P2 E2]. split; [exact P2|]. fold (play nd (with_file (texts (S j)), [reading nd (k + n) (S j); Client (a ++ [AStored (IoOk tt)]) None (repeat adding k)]) (rounds k)).
    rewrite E2, <- app_assoc. cbn [app]. now replace (S j + k)%nat with (j + S k)%nat by lia.
Qed.
(** The size of the file a reader finds does not bound the number of its read calls: the file is empty when the reader opens
    it, and after [k] read calls it is still reading, because another user has added to the file between any two of them. *)
Theorem C162_outrun : forall nd, digit_table nd -> forall k, exists run n m c,
  runs nd [[AskSlowly steady (k + 1)]; repeat adding k] (with_file []) run n /\ Forall (fun o => (effort o <= 7)%nat) (repeat adding k) /\
  own 0 run n m /\ m = (2 + k)%nat /\ size (fst (run 2%nat)) = 0%nat /\
  nth_error (snd (run n)) 0 = Some c /\ answers c = [] /\ current c <> Some (Ret (ARead OutOfFuel)).
Proof.
  intros nd T k. set (x := (with_file [], map (Client [] None) [[AskSlowly steady (k + 1)]; repeat adding k])).
  assert (X2 : playable nd x [0; 0]%nat = true /\ play nd x [0; 0]%nat = (with_file (texts 0), [reading nd (k + 1) 0; Client [] None (repeat adding k)])) by (split; reflexivity).
  destruct X2 as [P1 E1]. destruct (rounds_play nd T k 1 0 []) as [P2 E2]. set (plan := ([0; 0] ++ rounds k)%nat%list).
  assert (P : playable nd x plan = true) by (unfold plan; rewrite playable_app, P1, E1; exact P2).
  assert (E : play nd x plan = (with_file (texts k), [reading nd 1 k; Client (repeat (AStored (IoOk tt)) k) None []])) by (unfold plan; rewrite play_app, E1; exact E2).
  exists (fun t => play nd x (firstn t plan)), (length plan), (count_occ Nat.eq_dec plan 0%nat), (reading nd 1 k). split; [|split; [|split; [|split; [|split; [|split; [|split]]]]]].
  - split; [reflexivity|]. now apply play_run.
  - apply Forall_forall. intros o Ho. apply repeat_spec in Ho. subst o. unfold adding, effort. rewrite first_small. cbn [length]. lia.
  - pose proof (own_play nd x plan 0 P (length plan) (le_n _)) as H. now rewrite firstn_all in H.
  - unfold plan. rewrite count_occ_app. f_equal. clear. induction k as [|k IH]; [reflexivity|]. cbn [rounds]. rewrite count_occ_app. cbn [count_occ Nat.eq_dec one_round]. 
    change (count_occ Nat.eq_dec one_round 0%nat) with 0%nat. destruct (Nat.eq_dec 0 0); [|congruence]. now rewrite IH.
  - change (firstn 2 plan) with [0; 0]%nat. rewrite E1. reflexivity.
  - rewrite firstn_all, E. reflexivity.
  - reflexivity.
  - unfold reading. cbn [current]. rewrite rest_step. cbn [bind]. discriminate.
Qed.
Print Assumptions C162_outrun.

(** The two users of C159 with the plan given there: the first has made seven steps and has its answer, all are done. *)
Example C162_case : exists run n,
  runs table two_adding (with_file []) run n /\ n = 17%nat /\ list_sum (map efforts two_adding) = 17%nat /\ own 0 run n 7 /\
  Forall (Forall small) two_adding /\ beginning table (with_file []) (Some []) /\
  Forall (fun c => current c = None /\ todo c = []) (snd (run n)) /\
  efforts (firstn 1 [adding]) = 7%nat /\ Forall (Forall (reads_enough 24)) two_adding /\ size (fst (run n)) = 24%nat.
Proof.
  set (g := apply_commands [AddVertex 1; AddVertex 2] g_new).
  assert (Rg : gcmd_read table ((txt "AddVertex 1" ++ [10]) ++ txt "AddVertex 2" ++ [10]) = Done (Ok g)) by (vm_compute; reflexivity).
  pose proof (one_write_each table (buffered default_capacity) _ _ _ _ _ first_small small_writes Rg) as [P E].
  exists (fun t => play table (with_file [], map (Client [] None) two_adding) (firstn t together)), (length together).
  split; [split; [reflexivity|apply play_run; exact P]|]. split; [reflexivity|]. split.
  { unfold two_adding, efforts, effort. cbn [map list_sum fold_right]. rewrite first_small, small_writes. reflexivity. }
  split; [pose proof (own_play table _ together 0 P (length together) (le_n _)) as H; exact H|]. split.
  { assert (S1 : forall v, In v [1; 2]%N -> small (Update (buffered default_capacity) [AddVertex v])).
    { intros v [<-|[<-|[]]]; (apply C159_small; [vm_compute; discriminate|constructor; [reflexivity|constructor]]). }
    constructor; [constructor; [apply S1; now left|constructor]|]. constructor; [|constructor].
    constructor; [apply S1; right; now left|]. constructor; [exact I|constructor]. }
  split; [split; [reflexivity|]; split; [reflexivity|]; exists []; split; [reflexivity|]; split; [now left|reflexivity]|].
  rewrite firstn_all. change (map (Client [] None) two_adding) with (map (Client [] None) [[Update (buffered default_capacity) [AddVertex 1]]; [Update (buffered default_capacity) [AddVertex 2]; Ask]]).
  rewrite E. split; [repeat constructor|]. split; [|split; [repeat constructor|reflexivity]]. unfold efforts, effort, adding. cbn [firstn map list_sum fold_right]. now rewrite first_small.
Qed.
