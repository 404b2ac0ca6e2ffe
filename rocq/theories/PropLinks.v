(** * C181: paths with [..] and symbolic links *)
From Coq Require Import String.
From Coq Require Import List NArith Bool Arith Lia.
From Verif Require Import Base Graph Text Format Store Cli Place PlaceFacts PropPlace Where PropWhere Links.
Import ListNotations.
Open Scope nat_scope.

(** ** What it means *)
(** A tool with [--path root], each call of which looks the path up again. *)
Definition in_links links limit cwd nd chunks (root : text) (x : command_line) : tprog answer_of :=
  let status p := tbind p (fun r => TRet (inl r)) in
  match x with
  | RunInit => status (x_gc_init links limit cwd root)
  | RunRequest cs => status (t_status (x_apply links limit cwd root chunks cs))
  | RunAdd a => status (x_gc_add links limit cwd root chunks a)
  | RunDelete v e => status (x_gc_delete links limit cwd root chunks v e)
  | RunBuild order => status (x_gc_build links limit cwd root nd chunks order)
  | RunClean force answer => status (x_gc_clean links limit cwd root force answer)
  | RunRandom g force answer => status (x_gc_random links limit cwd root chunks g force answer)
  | RunQuery => tbind (x_load links limit cwd root nd) (fun r => TRet (inr r))
  end.
(** The tree without the lock and the graph directory of [d]. *)
Definition without_own (d : place) (t : tree) : tree :=
  fun q => if below (d ++ [txt ".graph"]) q || below (d ++ [txt "lock"]) q then Nothing else t q.
(** The path leads to [d], and not by way of the lock or the graph directory of [d]. *)
Definition leads_to links limit cwd (t : tree) (p : text) (d : place) : Prop :=
  leads links limit cwd (without_own d t) p = Some d /\ t d = ADir.
(** The files of the graph are no links. *)
Definition no_own_links (links : place -> option text) (d : place) : Prop :=
  links (d ++ [txt "lock"]) = None /\ links (d ++ [txt ".graph"]) = None /\ links (d ++ [txt ".graph"; txt "commands"]) = None.

(** ** Looking up *)
Section Follow.
  Variable links : place -> option text.
  Notation follow := (follow links).

  Lemma follow_nil b t at_ : follow b t at_ [] = Some at_.
  Proof. now destruct b. Qed.
  Lemma follow_cons b t at_ n rest : follow b t at_ (n :: rest) =
    if negb (is_dir t at_) then None
    else if negb (counts n) then follow b t at_ rest
    else if is_up n then follow b t (removelast at_) rest
    else match links (at_ ++ [n]) with
         | None => follow b t (at_ ++ [n]) rest
         | Some target => match b with O => None | S b' => follow b' t (starts at_ target) (names target ++ rest) end
         end.
  Proof. now destruct b. Qed.
  Lemma follow_more b t : forall at_ ns d, follow b t at_ ns = Some d -> forall b' t', b <= b' -> (forall q, t q = ADir -> t' q = ADir) -> follow b' t' at_ ns = Some d.
  Proof.
    induction b as [|b IHb]; intros at_ ns; revert at_; induction ns as [|n rest IH]; intros at_ d H b' t' Hb Hd; try (rewrite follow_nil in *; assumption);
      rewrite follow_cons in *; (destruct (is_dir t at_) eqn:E; [|discriminate]); apply dir_of in E; apply Hd in E; apply dir_of in E; rewrite E; cbn [negb] in *;
      (destruct (counts n); cbn [negb] in *; [|now apply IH]); (destruct (is_up n); [now apply IH|]); (destruct (links (at_ ++ [n])) as [target|]; [|now apply IH]); [discriminate|].
    destruct b' as [|b']; [lia|]. apply (IHb _ _ _ H); [lia|assumption].
  Qed.
  Lemma follow_app b t : forall at_ ns ms d, follow b t at_ (ns ++ ms) = Some d ->
    exists q b', follow b t at_ ns = Some q /\ b' <= b /\ follow b' t q ms = Some d.
  Proof.
    induction b as [|b IHb]; intros at_ ns; revert at_; induction ns as [|n rest IH]; intros at_ ms d H;
      try (exists at_; eexists; split; [apply follow_nil|]; split; [apply le_n|exact H]);
      cbn [app] in H; rewrite follow_cons in *; (destruct (is_dir t at_) eqn:E; [|discriminate]); cbn [negb] in *;
      (destruct (counts n); cbn [negb] in *; [|now apply IH]); (destruct (is_up n); [now apply IH|]); (destruct (links (at_ ++ [n])) as [target|]; [|now apply IH]); [discriminate|].
    rewrite app_assoc in H. destruct (IHb _ _ _ _ H) as (q & b' & H1 & H2 & H3). exists q, b'. split; [assumption|]. split; [lia|assumption].
  Qed.
  Lemma follow_snoc b t at_ ns d n : follow b t at_ ns = Some d -> t d = ADir -> counts n = true -> is_up n = false -> links (d ++ [n]) = None ->
    follow b t at_ (ns ++ [n]) = Some (d ++ [n]).
  Proof.
    revert at_ ns. induction b as [|b IHb]; intros at_ ns; revert at_; induction ns as [|m rest IH]; intros at_ H Hd Hc Hu Hl.
    1,3: rewrite follow_nil in H; injection H as ->; cbn [app]; rewrite follow_cons; apply dir_of in Hd; rewrite Hd, Hc, Hu, Hl; cbn [negb]; apply follow_nil.
    all: cbn [app]; rewrite follow_cons in *; (destruct (is_dir t at_) eqn:E; [|discriminate]); cbn [negb] in *;
      (destruct (counts m); cbn [negb] in *; [|now apply IH]); (destruct (is_up m); [now apply IH|]); (destruct (links (at_ ++ [m])) as [target|]; [|now apply IH]); try discriminate.
    rewrite app_assoc. now apply IHb.
  Qed.
  Lemma follow_dir b t at_ ns ms d : follow b t at_ (ns ++ ms) = Some d -> t d = ADir -> exists q b', follow b t at_ ns = Some q /\ t q = ADir /\ b' <= b /\ follow b' t q ms = Some d.
  Proof.
    intros H Hd. destruct (follow_app _ _ _ _ _ _ H) as (q & b' & H1 & H2 & H3). exists q, b'. repeat split; try assumption.
    destruct ms as [|m ms]; [rewrite follow_nil in H3; congruence|]. rewrite follow_cons in H3. destruct (is_dir t q) eqn:E; [now apply dir_of|discriminate].
  Qed.
  (** Nothing is made on a path that leads to a directory. *)
  Lemma make_path_there limit t more : forall ns b at_ d, b <= limit -> follow b t at_ ns = Some d -> t d = ADir ->
    make_path links limit t at_ (filter counts ns ++ more) = make_path links limit t d more.
  Proof.
    induction ns as [|n rest IH]; intros b at_ d Hb H Hd; [rewrite follow_nil in H; now injection H as ->|].
    destruct (follow_dir b t at_ [n] rest d H Hd) as (q & b' & Hq & Hqd & Hb' & Hr).
    rewrite follow_cons in H. destruct (is_dir t at_) eqn:E; [|discriminate]. cbn [negb filter] in *. destruct (counts n) eqn:Ec; cbn [negb] in H.
    - cbn [app make_path]. destruct (is_up n) eqn:Eu; [now apply (IH b)|]. destruct (links (at_ ++ [n])) as [target|] eqn:El.
      + rewrite (follow_more b t at_ [n] q Hq limit t Hb (fun _ X => X)). apply dir_of in Hqd as Hqd'. rewrite Hqd'. apply (IH b'); [lia|assumption..].
      + rewrite follow_cons, E, Ec, Eu, El in Hq. cbn [negb] in Hq. rewrite follow_nil in Hq. injection Hq as <-. rewrite Hqd. now apply (IH b).
    - now apply (IH b).
  Qed.
End Follow.

Lemma names_join p n : proper n -> exists ns, names (join p n) = ns ++ [n] /\ (ns = names p \/ names p = ns ++ [[]] \/ (p = [] /\ ns = [])).
Proof.
  intro P. destruct p as [|c p].
  - exists []. cbn [join app]. split; [apply names_one, P|]. right. right. now split.
  - assert (D : c :: p <> []) by discriminate. revert D. generalize (c :: p). intros t D. rewrite (join_some t n D). destruct (N.eqb_spec (last t 0%N) 47) as [E|E].
    + destruct (last_sep t D E) as (q & ->). exists (names q). rewrite <- app_assoc. cbn [app]. rewrite names_sep, (names_one n) by apply P. split; [reflexivity|].
      right. left. change [47%N] with (47%N :: []). now rewrite names_sep.
    + exists (names t). rewrite names_sep, (names_one n) by apply P. split; [reflexivity|now left].
Qed.
Lemma starts_join cwd p n : proper n -> starts cwd (join p n) = starts cwd p.
Proof.
  intro P. destruct p as [|c p]; [cbn [join]; exact (start_proper cwd n P)|].
  assert (D : c :: p <> []) by discriminate. unfold join. destruct (last (c :: p) 0 =? 47)%N; [exact (start_app cwd (c :: p) n D)|exact (start_app cwd (c :: p) (47%N :: n) D)].
Qed.
Lemma parent_comps p n : proper n -> starts [] (parent (join p n)) = [] /\ filter counts (names (parent (join p n))) = filter counts (names p) /\ forall cwd, starts cwd (parent (join p n)) = starts cwd p.
Proof.
  intro P. assert (H := fun cwd => resolve_parent cwd p n P : starts cwd (parent (join p n)) ++ filter counts (names (parent (join p n))) = starts cwd p ++ filter counts (names p)).
  assert (E : forall t, starts [] t = []) by (intros [|c t]; [reflexivity|]; cbn; destruct c as [|c]; [reflexivity|]; repeat (destruct c as [c|c|]; try reflexivity)).
  assert (F : filter counts (names (parent (join p n))) = filter counts (names p)).
  { specialize (H []). now rewrite !E in H. }
  split; [apply E|]. split; [exact F|]. intro cwd. specialize (H cwd). rewrite F in H. now apply app_inv_tail in H.
Qed.

Section Same.
  Variables (links : place -> option text) (limit : nat) (cwd d : place) (p : text) (t0 : tree).
  Hypothesis Hp : leads links limit cwd t0 p = Some d.
  Hypothesis Hd0 : t0 d = ADir.
  Hypothesis Hown : forall q, own d q -> t0 q <> ADir.
  Hypothesis Hl : no_own_links links d.
  (** The trees in which the path leads to [d]. *)
  Definition fine (t : tree) : Prop := sane t /\ forall q, t0 q = ADir -> t q = ADir.

  Lemma fine_d t : fine t -> t d = ADir.
  Proof. intros [_ H]. now apply H. Qed.
  Lemma fine_good t : fine t -> good d t.
  Proof.
    intro F. split; [apply F|]. intros a b E c Ha. pose proof (fine_d t F) as Hd. destruct b as [|x b]; [rewrite app_nil_r in E; congruence|].
    assert (t a = ADir); [|congruence]. apply (sane_above t a (x :: b) (proj1 F)); [rewrite <- E; congruence|discriminate].
  Qed.
  Lemma fine_step u v t : step_ok d u v -> fine t -> fine (u t).
  Proof.
    intros H F. destruct (H t (fine_good t F)) as (A & B & _). split; [assumption|]. intros q Hq.
    destruct (B q) as [E|(_ & E & _)]; [intro O; now apply (Hown q O)|rewrite E; now apply F|assumption].
  Qed.
  Lemma fine_leads t : fine t -> leads links limit cwd t p = Some d.
  Proof. intros [_ H]. eapply follow_more; [exact Hp|apply le_n|assumption]. Qed.
  (** A name below. *)
  Lemma leads_join t q x n : proper n -> counts n = true -> is_up n = false -> leads links limit cwd t q = Some x -> t x = ADir -> links (x ++ [n]) = None ->
    leads links limit cwd t (join q n) = Some (x ++ [n]).
  Proof.
    intros P C U H Hx Hn. unfold leads in *. rewrite starts_join by assumption. destruct (names_join q n P) as (ns & -> & E).
    apply follow_snoc; try assumption. destruct E as [->|[E|[-> ->]]].
    - assumption.
    - rewrite E in H. destruct (follow_dir links limit t _ ns [[]] x H Hx) as (y & b' & H1 & _ & _ & H2). rewrite follow_cons in H2.
      destruct (is_dir t y); [|discriminate]. cbn in H2. rewrite follow_nil in H2. congruence.
    - cbn [names] in H. rewrite follow_cons in H. destruct (is_dir t (starts cwd [])); [|discriminate]. cbn in H. rewrite follow_nil in *. assumption.
  Qed.
  Lemma no_leads_join t q x n : proper n -> leads links limit cwd t q = Some x -> t x <> ADir -> leads links limit cwd t (join q n) = None.
  Proof.
    intros P H Hx. unfold leads in *. rewrite starts_join by assumption. destruct (names_join q n P) as (ns & -> & E).
    destruct (follow links limit t (starts cwd q) (ns ++ [n])) as [y|] eqn:Ey; [|reflexivity]. exfalso.
    destruct (follow_app links limit t _ ns [n] y Ey) as (z & b' & H1 & _ & H2). rewrite follow_cons in H2.
    destruct (is_dir t z) eqn:Ez; [|discriminate]. apply dir_of in Ez. apply Hx. destruct E as [->|[E|[-> ->]]].
    - congruence.
    - rewrite E in H. destruct (follow_app links limit t _ ns [[]] x H) as (z' & b'' & H3 & _ & H4). rewrite H1 in H3. injection H3 as <-.
      rewrite follow_cons in H4. apply dir_of in Ez as Ez'. rewrite Ez' in H4. cbn in H4. rewrite follow_nil in H4. congruence.
    - change (starts cwd []) with cwd in *. rewrite follow_nil in H1. injection H1 as <-. cbn [names] in H. rewrite follow_cons in H. apply dir_of in Ez as Ez'. rewrite Ez' in H. cbn in H. rewrite follow_nil in H. congruence.
  Qed.
  Lemma leads_lock t : fine t -> leads links limit cwd t (lock_text p) = Some (lock_path d).
  Proof. intro F. apply leads_join; [apply proper_lock|reflexivity|reflexivity|now apply fine_leads|now apply fine_d|apply Hl]. Qed.
  Lemma leads_root t : fine t -> leads links limit cwd t (root_text p) = Some (root_path d).
  Proof. intro F. apply leads_join; [apply proper_graph|reflexivity|reflexivity|now apply fine_leads|now apply fine_d|apply Hl]. Qed.
  Lemma leads_command t : fine t -> leads links limit cwd t (command_text p) = if is_dir t (root_path d) then Some (command_path d) else None.
  Proof.
    intro F. pose proof (leads_root t F) as R. unfold command_text. destruct (is_dir t (root_path d)) eqn:E.
    - apply dir_of in E. unfold command_path. replace (d ++ [graph_name; commands_name]) with (root_path d ++ [commands_name]) by (unfold root_path; now rewrite <- app_assoc).
      apply leads_join; [apply proper_commands|reflexivity|reflexivity|exact R|exact E|]. unfold root_path. rewrite <- app_assoc. apply Hl.
    - eapply no_leads_join; [apply proper_commands|exact R|]. intro X. apply dir_of in X. congruence.
  Qed.
  Lemma make_dirs_there t : forall ns above, (forall a b, ns = a ++ b -> t (above ++ a) = ADir) -> make_dirs above ns t = t.
  Proof.
    induction ns as [|n rest IH]; intros above H; [reflexivity|]. cbn [make_dirs]. rewrite (H [n] rest eq_refl). apply IH.
    intros a b ->. rewrite <- app_assoc. apply (H (n :: a) b). reflexivity.
  Qed.
  Lemma make_dirs_d t : fine t -> make_dirs [] d t = t.
  Proof.
    intro F. apply make_dirs_there. intros a b E. cbn [app]. destruct b as [|x b]; [rewrite app_nil_r in E; subst a; now apply fine_d|].
    apply (sane_above t a (x :: b) (proj1 F)); [rewrite <- E, fine_d by assumption; discriminate|discriminate].
  Qed.
  Lemma mkdirs_lock t : fine t -> make_path links limit t (starts cwd (parent (lock_text p))) (filter counts (names (parent (lock_text p)))) = make_dirs [] (removelast (lock_path d)) t.
  Proof.
    intro F. destruct (parent_comps p lock_name proper_lock) as (_ & E1 & E2). fold (lock_text p) in E1, E2. rewrite E1, E2. unfold lock_path. rewrite removelast_last, make_dirs_d by assumption.
    rewrite <- (app_nil_r (filter counts (names p))). rewrite (make_path_there links limit t [] (names p) limit (starts cwd p) d); [reflexivity|apply le_n|exact (fine_leads t F)|now apply fine_d].
  Qed.
  Lemma comps_root : filter counts (names (root_text p)) = filter counts (names p) ++ [graph_name] /\ starts cwd (root_text p) = starts cwd p.
  Proof.
    split; [|apply starts_join, proper_graph]. pose proof (resolve_join [] p graph_name proper_graph : starts [] (root_text p) ++ filter counts (names (root_text p)) = (starts [] p ++ filter counts (names p)) ++ [graph_name]) as H.
    assert (E : forall t, starts [] t = []) by (intros [|c t]; [reflexivity|]; cbn; destruct c as [|c]; [reflexivity|]; repeat (destruct c as [c|c|]; try reflexivity)).
    now rewrite !E in H.
  Qed.
  Lemma mkdirs_command t : fine t -> make_path links limit t (starts cwd (parent (command_text p))) (filter counts (names (parent (command_text p)))) = make_dirs [] (removelast (command_path d)) t.
  Proof.
    intro F. destruct (parent_comps (root_text p) commands_name proper_commands) as (_ & E1 & E2). fold (command_text p) in E1, E2. unfold root_text in E1, E2. fold (root_text p) in E1, E2.
    change (join (root_text p) commands_name) with (command_text p) in E1, E2. rewrite E1, E2. destruct comps_root as (-> & ->).
    rewrite (make_path_there links limit t [graph_name] (names p) limit (starts cwd p) d); [|apply le_n|exact (fine_leads t F)|now apply fine_d].
    unfold command_path. rewrite removelast_two. rewrite (make_dirs_app t [] d [graph_name] (proj1 F) (proj1 (proj1 F)) (proj2 (fine_good t F))).
    rewrite make_dirs_d by assumption. cbn [app make_path make_dirs]. change (is_up graph_name) with false. cbv iota.
    rewrite (proj1 (proj2 Hl) : links (d ++ [graph_name]) = None). reflexivity.
  Qed.

  (** ** Programs that do the same as long as the path leads to [d] *)
  Inductive alike {A} : tprog A -> tprog A -> Prop :=
  | alike_ret a : alike (TRet a) (TRet a)
  | alike_act u1 u2 k1 k2 : (forall t, fine t -> u1 t = u2 t /\ fine (u2 t)) -> (forall t, fine t -> alike (k1 t) (k2 t)) -> alike (TAct u1 k1) (TAct u2 k2).
  Lemma alike_bind A B (x y : tprog A) (f h : A -> tprog B) : alike x y -> (forall a, alike (f a) (h a)) -> alike (tbind x f) (tbind y h).
  Proof.
    intros H Hf. induction H as [a|u1 u2 k1 k2 H K IH]; cbn [tbind]; [apply Hf|]. constructor; [exact H|]. intros t F. now apply IH.
  Qed.
  Lemma alike_act_ok A u1 u2 v (k1 k2 : tree -> tprog A) : step_ok d u2 v -> (forall t, fine t -> u1 t = u2 t) -> (forall t, fine t -> alike (k1 t) (k2 t)) -> alike (TAct u1 k1) (TAct u2 k2).
  Proof. intros S0 E K. constructor; [|exact K]. intros t F. split; [now apply E|now apply (fine_step u2 v)]. Qed.
  Lemma alike_run A (x y : tprog A) : alike x y -> forall t, fine t -> trun x t = trun y t.
  Proof. induction 1 as [a|u1 u2 k1 k2 H K IH]; intros t F; [reflexivity|]. cbn [trun]. destruct (H t F) as (E & F'). rewrite E. now apply IH. Qed.

  Variable nd : N -> bool.
  Variable chunks : list text -> list text.
  Lemma alike_lock : alike (x_lock links limit cwd p) (t_lock d).
  Proof.
    unfold x_lock, x_touch, t_lock, t_touch. eapply alike_act_ok.
    - unfold lock_path. rewrite removelast_last. apply mkroot_ok.
    - exact mkdirs_lock.
    - intros _ _. eapply alike_act_ok; [apply create_lock_ok| |].
      + intros t F. unfold at_path. now rewrite leads_lock.
      + intros t F. rewrite leads_lock by assumption. constructor.
  Qed.
  Lemma alike_init : alike (x_init links limit cwd p) (t_init d).
  Proof.
    unfold x_init, x_touch, t_init, t_touch. eapply alike_act_ok; [apply mkgraph_ok|exact mkdirs_command|].
    intros _ _. eapply alike_act_ok; [apply create_commands_ok| |].
    - intros t F. unfold at_path. rewrite leads_command by assumption. destruct (is_dir t (root_path d)) eqn:E; [reflexivity|].
      unfold open_create, can_create, command_path. rewrite removelast_two. unfold root_path in E. now rewrite E.
    - intros t F. rewrite leads_command by assumption. destruct (is_dir t (root_path d)) eqn:E; [constructor|].
      unfold can_create, command_path. rewrite removelast_two. unfold root_path in E. rewrite E. constructor.
  Qed.
  Lemma alike_unlock : alike (x_unlock links limit cwd p) (t_unlock d).
  Proof.
    unfold x_unlock, t_unlock. eapply alike_act_ok; [apply unlock_ok| |].
    - intros t F. unfold at_path. now rewrite leads_lock.
    - intros t F. rewrite leads_lock by assumption. constructor.
  Qed.
  Lemma alike_with_lock A (x y : tprog (io A)) : alike x y -> alike (x_with_lock links limit cwd p x) (t_with_lock d y).
  Proof.
    intro H. unfold x_with_lock, t_with_lock. apply alike_bind; [apply alike_lock|]. intros [u|]; [|constructor]. apply alike_bind; [exact H|].
    intro r. apply alike_bind; [apply alike_unlock|]. intros [v|]; constructor.
  Qed.
  Lemma no_commands_there t : fine t -> is_dir t (root_path d) = false -> t (command_path d) = Nothing.
  Proof. intros F E. apply no_commands; [apply F|]. intro X. apply dir_of in X. unfold root_path in E. change graph_name with (txt ".graph") in E. congruence. Qed.
  Lemma alike_load : alike (x_load links limit cwd p nd) (t_load d nd).
  Proof.
    unfold x_load, t_load. eapply alike_act_ok; [apply stay_ok|reflexivity|]. intros t F. rewrite leads_command by assumption.
    destruct (is_dir t (root_path d)) eqn:E; [constructor|]. rewrite no_commands_there by assumption. constructor.
  Qed.
  Lemma alike_appends cs : alike (x_appends (command_path d) cs) (t_appends d cs).
  Proof. induction cs as [|c cs IH]; [constructor|]. cbn [x_appends t_appends]. eapply alike_act_ok; [apply change_ok|reflexivity|]. intros _ _. exact IH. Qed.
  Lemma alike_writes off cs : alike (x_writes (command_path d) off cs) (t_writes d off cs).
  Proof. revert off. induction cs as [|c cs IH]; intro off; [constructor|]. cbn [x_writes t_writes]. eapply alike_act_ok; [apply change_ok|reflexivity|]. intros _ _. apply IH. Qed.
  Lemma alike_add_commands cs : alike (x_add_commands links limit cwd p chunks cs) (t_add_commands d chunks cs).
  Proof.
    unfold x_add_commands, t_add_commands. eapply alike_act_ok; [apply stay_ok|reflexivity|]. intros t F. rewrite leads_command by assumption.
    destruct (is_dir t (root_path d)) eqn:E; [|rewrite no_commands_there by assumption; constructor]. destruct (t (command_path d)); try constructor. apply alike_appends.
  Qed.
  Lemma alike_save g : alike (x_save links limit cwd p chunks g) (t_save d chunks g).
  Proof.
    unfold x_save, t_save. eapply alike_act_ok; [apply create_empty_ok| |].
    - intros t F. unfold at_path. rewrite leads_command by assumption. destruct (is_dir t (root_path d)) eqn:E; [reflexivity|].
      unfold create_empty, can_create, command_path. rewrite removelast_two. unfold root_path in E. now rewrite E.
    - intros t F. rewrite leads_command by assumption. destruct (is_dir t (root_path d)) eqn:E.
      + destruct (can_create (command_path d) t); [apply alike_writes|constructor].
      + unfold can_create, command_path. rewrite removelast_two. unfold root_path in E. rewrite E. constructor.
  Qed.
  Lemma alike_clean : alike (x_clean links limit cwd p) (t_clean d).
  Proof.
    unfold x_clean, t_clean. apply alike_with_lock. eapply alike_act_ok; [apply remove_ok| |].
    - intros t F. unfold at_path. now rewrite leads_root.
    - intros t F. rewrite leads_root by assumption. constructor.
  Qed.
  Lemma alike_apply cs : alike (x_apply links limit cwd p chunks cs) (t_apply d chunks cs).
  Proof. apply alike_with_lock, alike_add_commands. Qed.
  Lemma alike_status x y : alike x y -> alike (t_status x) (t_status y).
  Proof. intro H. apply alike_bind; [exact H|]. intros [u|]; constructor. Qed.
  Lemma alike_option A values (f : list text -> outcome A) c1 c2 x y : (forall a, alike (c1 a) (c2 a)) -> alike x y -> alike (t_option values f c1 x) (t_option values f c2 y).
  Proof.
    intros Hc H. unfold t_option. destruct values as [vs|]; [|exact H]. destruct (f vs); try constructor. apply alike_bind; [apply Hc|]. intros _. exact H.
  Qed.
  Lemma alike_tool x : alike (in_links links limit cwd nd chunks p x) (in_tree nd chunks d x).
  Proof.
    destruct x as [|cs|a|v e|order|force answer|g force answer|]; cbn [in_links in_tree]; (apply alike_bind; [|intro; constructor]).
    - apply alike_status, alike_init.
    - apply alike_status, alike_apply.
    - unfold x_gc_add, t_gc_add. repeat (apply alike_option; [intro; apply alike_apply|]). constructor.
    - unfold x_gc_delete, t_gc_delete. repeat (apply alike_option; [intro; apply alike_apply|]). constructor.
    - unfold x_gc_build, t_gc_build. apply alike_bind; [apply alike_load|]. intros [[g|m]| |]; [apply alike_status, alike_save|constructor|constructor|constructor].
    - unfold x_gc_clean, t_gc_clean. destruct (negb force && negb (confirmed answer)); [constructor|]. apply alike_status, alike_clean.
    - unfold x_gc_random, t_gc_random. destruct (negb force && negb (confirmed answer)); [constructor|]. apply alike_bind; [apply alike_clean|].
      intros [u|]; [|constructor]. apply alike_bind; [apply alike_init|]. intros [u'|]; [|constructor]. apply alike_status, alike_save.
    - apply alike_load.
  Qed.
End Same.

Lemma without_own_own d t q : own d q -> without_own d t q = Nothing.
Proof.
  intro O. unfold without_own. destruct O as [->|(r & ->)].
  - assert (B : below (d ++ [txt "lock"]) (d ++ [txt "lock"]) = true) by (apply below_spec; exists []; now rewrite app_nil_r). now rewrite B, orb_true_r.
  - assert (B : below (d ++ [txt ".graph"]) (d ++ txt ".graph" :: r) = true) by (apply below_spec; exists r; now rewrite <- app_assoc). now rewrite B.
Qed.
Lemma without_own_d d t : without_own d t d = t d.
Proof.
  unfold without_own. assert (B : forall n, below (d ++ [n]) d = false).
  { intro n. destruct (below (d ++ [n]) d) eqn:E; [|reflexivity]. apply below_spec in E as (r & E). apply (f_equal (@length _)) in E. rewrite !app_length in E. cbn in E. lia. }
  now rewrite !B.
Qed.
Lemma without_own_fine d t : sane t -> fine (without_own d t) t.
Proof. intro S0. split; [assumption|]. intros q H. unfold without_own in H. destruct (below _ q || below _ q); [discriminate|assumption]. Qed.
Lemma leads_to_alike links limit cwd nd chunks t p d x : leads_to links limit cwd t p d -> no_own_links links d ->
  alike (without_own d t) (in_links links limit cwd nd chunks p x) (in_tree nd chunks d x).
Proof.
  intros [H Hd] Hl. apply (alike_tool links limit cwd d p (without_own d t)); [exact H|now rewrite without_own_d|intros q O; rewrite without_own_own by assumption; discriminate|exact Hl].
Qed.
(** ** Every path that leads to the directory of the graph is as good as its plain name *)
Theorem C181_same : forall links limit cwd nd chunks t p d x, sane t -> leads_to links limit cwd t p d -> no_own_links links d ->
  trun (in_links links limit cwd nd chunks p x) t = trun (in_tree nd chunks d x) t.
Proof. intros links limit cwd nd chunks t p d x S0 H Hl. apply (alike_run (without_own d t) _ _ _ (leads_to_alike _ _ _ nd chunks _ _ _ x H Hl)). now apply without_own_fine. Qed.
Print Assumptions C181_same.
(** The same at every crash point, ... *)
Theorem C181_killed : forall links limit cwd nd chunks t p d x t', sane t -> leads_to links limit cwd t p d -> no_own_links links d ->
  tcrash (in_links links limit cwd nd chunks p x) t t' <-> tcrash (in_tree nd chunks d x) t t'.
Proof.
  intros links limit cwd nd chunks t p d x t' S0 H Hl. pose proof (leads_to_alike links limit cwd nd chunks t p d x H Hl) as A. pose proof (without_own_fine d t S0) as F.
  revert F. generalize (without_own d t) A. clear. intros t0 A. revert t. induction A as [a|u1 u2 k1 k2 U K IH]; intros t F.
  - split; intro C; inversion C; subst; constructor.
  - destruct (U t F) as (E & F'). split; intro C; inversion C as [|upd k s s' C']; subst; try constructor.
    + rewrite E in C'. now apply (IH t F _ F').
    + rewrite E. now apply (IH t F _ F').
Qed.
Print Assumptions C181_killed.
(** ... and for any number of users who write the path in different ways, in every interleaving. *)
Definition same_end {A} (x y : tprog A) : Prop := forall a, x = TRet a <-> y = TRet a.
Theorem C181_everybody : forall links limit nd t d (ws : list (place * text * ((list text -> list text) * command_line))) t' Xs', sane t -> no_own_links links d ->
  (forall w, In w ws -> leads_to links limit (fst (fst w)) t (snd (fst w)) d) ->
  tisteps (t, map (fun w => in_links links limit (fst (fst w)) nd (fst (snd w)) (snd (fst w)) (snd (snd w))) ws) (t', Xs') ->
  exists Ys', tisteps (t, map (fun w => in_tree nd (fst (snd w)) d (snd (snd w))) ws) (t', Ys') /\ Forall2 same_end Xs' Ys'.
Proof.
  intros links limit nd t d ws t' Xs' S0 Hl Hw H.
  assert (A : Forall2 (alike (without_own d t)) (map (fun w => in_links links limit (fst (fst w)) nd (fst (snd w)) (snd (fst w)) (snd (snd w))) ws) (map (fun w => in_tree nd (fst (snd w)) d (snd (snd w))) ws)).
  { clear H. induction ws as [|w ws IH]; [constructor|]. cbn [map]. constructor; [|apply IH; intros; apply Hw; now right]. apply leads_to_alike; [apply Hw; now left|assumption]. }
  pose proof (without_own_fine d t S0) as F. revert F A. generalize (without_own d t) (map (fun w => in_tree nd (fst (snd w)) d (snd (snd w))) ws). clear Hw Hl S0.
  remember (t, map (fun w => in_links links limit (fst (fst w)) nd (fst (snd w)) (snd (fst w)) (snd (snd w))) ws) as c eqn:Ec. remember (t', Xs') as c' eqn:Ec'.
  intros t0 Ys F A. assert (Hx : Forall2 (alike t0) (snd c) Ys) by (subst; exact A). assert (Ht : fine t0 (fst c)) by (subst; exact F).
  assert (G : exists Ys', tisteps (fst c, Ys) (fst c', Ys') /\ Forall2 (alike t0) (snd c') Ys').
  { clear Ec Ec' A F. revert Ys Hx Ht. induction H as [c|c c1 c2 St H IH]; intros Ys Hx Ht; [exists Ys; split; [constructor|assumption]|].
    destruct St as (pre & upd & k & post & E1 & E2 & E3). rewrite E1 in Hx. apply Forall2_app_inv_l in Hx as (ypre & yrest & Hpre & Hrest & ->).
    inversion Hrest as [|x y xs ys Hxy Hpost]; subst. inversion Hxy as [|u1 u2 k1 k2 U K]; subst. destruct (U _ Ht) as (E & F').
    destruct (IH (ypre ++ k2 (fst c) :: ys)) as (Ys' & H1 & H2).
    - rewrite E3. apply Forall2_app; [assumption|]. constructor; [now apply K|assumption].
    - rewrite E2, E. exact F'.
    - exists Ys'. split; [|assumption]. eapply tis_step; [|exact H1]. exists ypre, u2, k2, ys. cbn [fst snd]. rewrite E2, E. now repeat split. }
  destruct G as (Ys' & G1 & G2). subst c c'. cbn [fst snd] in *. exists Ys'. split; [exact G1|]. clear - G2. induction G2 as [|x y xs ys Hxy _ IH]; constructor; [|assumption].
  intro a. destruct Hxy; split; congruence.
Qed.
Print Assumptions C181_everybody.
(** ** Which paths lead where *)
(** A plain path: as Where.v says. *)
Theorem C181_plain : forall links limit cwd t p, (forall q, links q = None) -> ~ In (txt "..") (names p) -> sane t -> t (resolve cwd p) = ADir ->
  leads links limit cwd t p = Some (resolve cwd p).
Proof.
  intros links limit cwd t p Hl Hn S0 Hd. unfold leads. change (resolve cwd p) with (starts cwd p ++ filter counts (names p)) in *.
  revert Hn Hd. generalize (starts cwd p) (names p). intros at_ ns. revert at_. induction ns as [|n rest IH]; intros at_ Hn Hd.
  - cbn [filter]. rewrite app_nil_r. apply follow_nil.
  - rewrite follow_cons. assert (Ha : t at_ = ADir).
    { destruct (filter counts (n :: rest)) as [|m ms] eqn:E; [now rewrite app_nil_r in Hd|]. apply (sane_above t at_ (m :: ms) S0); [congruence|discriminate]. }
    apply dir_of in Ha. rewrite Ha. cbn [negb filter] in *. destruct (counts n); cbn [negb].
    + assert (Eu : is_up n = false) by (unfold is_up; destruct (list_eq_dec N.eq_dec n (txt "..")) as [->|]; [exfalso; apply Hn; now left|reflexivity]).
      rewrite Eu, Hl. replace (at_ ++ n :: filter counts rest) with ((at_ ++ [n]) ++ filter counts rest) in * by now rewrite <- app_assoc.
      apply IH; [intro X; apply Hn; now right|assumption].
    + apply IH; [intro X; apply Hn; now right|assumption].
Qed.
Print Assumptions C181_plain.
Lemma follow_then links b t : forall at_ ns x, follow links b t at_ ns = Some x -> exists b', b' <= b /\ forall ms, follow links b t at_ (ns ++ ms) = follow links b' t x ms.
Proof.
  induction b as [|b IHb]; intros at_ ns; revert at_; induction ns as [|n rest IH]; intros at_ x H;
    try (rewrite follow_nil in H; injection H as ->; eexists; split; [apply le_n|reflexivity]);
    rewrite follow_cons in H; (destruct (is_dir t at_) eqn:E; [|discriminate]); cbn [negb] in H.
  - assert (G : forall y, follow links 0 t y rest = Some x -> (forall ms, follow links 0 t at_ ((n :: rest) ++ ms) = follow links 0 t y (rest ++ ms)) ->
      exists b', b' <= 0 /\ forall ms, follow links 0 t at_ ((n :: rest) ++ ms) = follow links b' t x ms).
    { intros y Hy Q. destruct (IH y x Hy) as (b' & B & R). exists b'. split; [assumption|]. intro ms. rewrite Q. apply R. }
    destruct (counts n) eqn:Ec; cbn [negb] in H; [|apply (G at_ H); intro ms; cbn [app]; rewrite follow_cons, E, Ec; reflexivity].
    destruct (is_up n) eqn:Eu; [apply (G _ H); intro ms; cbn [app]; rewrite follow_cons, E, Ec, Eu; reflexivity|].
    destruct (links (at_ ++ [n])) as [target|] eqn:El; [discriminate|]. apply (G _ H). intro ms. cbn [app]. rewrite follow_cons, E, Ec, Eu, El. reflexivity.
  - assert (G : forall y, follow links (S b) t y rest = Some x -> (forall ms, follow links (S b) t at_ ((n :: rest) ++ ms) = follow links (S b) t y (rest ++ ms)) ->
      exists b', b' <= S b /\ forall ms, follow links (S b) t at_ ((n :: rest) ++ ms) = follow links b' t x ms).
    { intros y Hy Q. destruct (IH y x Hy) as (b' & B & R). exists b'. split; [assumption|]. intro ms. rewrite Q. apply R. }
    destruct (counts n) eqn:Ec; cbn [negb] in H; [|apply (G at_ H); intro ms; cbn [app]; rewrite follow_cons, E, Ec; reflexivity].
    destruct (is_up n) eqn:Eu; [apply (G _ H); intro ms; cbn [app]; rewrite follow_cons, E, Ec, Eu; reflexivity|].
    destruct (links (at_ ++ [n])) as [target|] eqn:El.
    + destruct (IHb _ _ _ H) as (b' & B & R). exists b'. split; [lia|]. intro ms. cbn [app]. rewrite follow_cons, E, Ec, Eu, El. cbn [negb]. rewrite app_assoc. apply R.
    + apply (G _ H). intro ms. cbn [app]. rewrite follow_cons, E, Ec, Eu, El. reflexivity.
Qed.
(** A link in the current directory leads where its text leads, and costs one. *)
Theorem C181_link : forall links limit cwd t n target, proper n -> n <> txt ".." -> t cwd = ADir -> links (cwd ++ [n]) = Some target ->
  leads links (S limit) cwd t n = leads links limit cwd t target.
Proof.
  intros links limit cwd t n target P D Hd Hn. unfold leads. rewrite (names_one n) by apply P. replace (starts cwd n) with cwd by (symmetry; exact (start_proper cwd n P)).
  rewrite follow_cons. apply dir_of in Hd. rewrite Hd, (counts_proper n P). cbn [negb].
  assert (Eu : is_up n = false) by (unfold is_up; destruct (list_eq_dec N.eq_dec n (txt "..")); [contradiction|reflexivity]). now rewrite Eu, Hn, app_nil_r.
Qed.
Print Assumptions C181_link.
(** [..] goes to the directory above the one reached (not above the link that was followed). *)
Theorem C181_up : forall links limit cwd t p d n, leads links limit cwd t p = Some (d ++ [n]) -> t (d ++ [n]) = ADir ->
  leads links limit cwd t (join p (txt "..")) = Some d.
Proof.
  intros links limit cwd t p d n H Hd. unfold leads in *. assert (P : proper (txt "..")) by (split; [discriminate|split; [discriminate|cbn; intros [X|[X|[]]]; discriminate]]).
  rewrite starts_join by assumption. destruct (names_join p (txt "..") P) as (ns & -> & E).
  assert (H' : follow links limit t (starts cwd p) ns = Some (d ++ [n])).
  { destruct E as [->|[E|[-> ->]]]; [assumption| |].
    - rewrite E in H. destruct (follow_app links limit t _ ns [[]] _ H) as (z & b' & H3 & _ & H4). rewrite follow_cons in H4. destruct (is_dir t z); [|discriminate]. cbn in H4. rewrite follow_nil in H4. rewrite H3. exact H4.
    - cbn [names] in H. rewrite follow_cons in H. destruct (is_dir t (starts cwd [])); [|discriminate]. cbn in H. now rewrite follow_nil in *. }
  destruct (follow_then links limit t _ _ _ H') as (b' & _ & R). rewrite R, follow_cons. apply dir_of in Hd. rewrite Hd. change (counts (txt "..")) with true. change (is_up (txt "..")) with true.
  cbn [negb]. rewrite removelast_last. apply follow_nil.
Qed.
Print Assumptions C181_up.

Lemma put_here p n t : put p n t p = n.
Proof. unfold put. now destruct (place_dec p p). Qed.
Lemma put_there p n t q : q <> p -> put p n t q = t q.
Proof. intro D. unfold put. now destruct (place_dec q p). Qed.
Lemma ne_last (d : place) m n : m <> n -> d ++ [m] <> d ++ [n].
Proof. intros D E. now apply app_inj_tail in E. Qed.
Lemma ne_up (d : place) n : d <> d ++ [n].
Proof. intro E. apply (f_equal (@length _)) in E. rewrite app_length in E. cbn in E. lia. Qed.
Lemma below_self d : below d d = true.
Proof. apply below_spec. exists []. now rewrite app_nil_r. Qed.
Lemma below_up d n : below (d ++ [n]) d = false.
Proof. destruct (below (d ++ [n]) d) eqn:E; [|reflexivity]. apply below_spec in E as (r & E). apply (f_equal (@length _)) in E. rewrite !app_length in E. cbn in E. lia. Qed.
Lemma below_last d m n : m <> n -> below (d ++ [m]) (d ++ [n]) = false.
Proof.
  intro D. destruct (below (d ++ [m]) (d ++ [n])) eqn:E; [|reflexivity]. apply below_spec in E as (r & E). rewrite <- app_assoc in E. apply app_inv_head in E. now injection E as ->.
Qed.
(** ** The path [.graph/..] *)
(** It names the directory of the graph as long as there is one, so gc-clean starts its work, but then its lock is no longer found. *)
Theorem C181_clean_refuted : forall links limit cwd nd chunks t answer, t cwd = ADir -> t (cwd ++ [txt ".graph"]) = ADir ->
  t (cwd ++ [txt "lock"]) = Nothing -> no_own_links links cwd ->
  leads links limit cwd t (txt ".graph/..") = Some cwd /\
  (let (t', r) := trun (in_links links limit cwd nd chunks (txt ".graph/..") (RunClean true answer)) t in
   r = inl Failure /\ t' (cwd ++ [txt ".graph"]) = Nothing /\ t' (cwd ++ [txt "lock"]) = AFile []) /\
  (let (t', r) := trun (in_links links limit cwd nd chunks (txt ".") (RunClean true answer)) t in
   r = inl Success /\ t' (cwd ++ [txt ".graph"]) = Nothing /\ t' (cwd ++ [txt "lock"]) = Nothing).
Proof.
  intros links limit cwd nd chunks t answer Hd Hg Hk (Hl1 & Hl2 & _).
  assert (NE : txt ".graph" <> txt "lock") by discriminate.
  set (t1 := put (cwd ++ [txt "lock"]) (AFile []) t).
  assert (T1d : t1 cwd = ADir) by (unfold t1; rewrite put_there; [assumption|apply ne_up]).
  assert (T1g : t1 (cwd ++ [txt ".graph"]) = ADir) by (unfold t1; rewrite put_there; [assumption|now apply ne_last]).
  assert (T1k : t1 (cwd ++ [txt "lock"]) = AFile []) by (unfold t1; apply put_here).
  set (t2 := fun q => if below (cwd ++ [txt ".graph"]) q then Nothing else t1 q).
  assert (T2d : t2 cwd = ADir) by (unfold t2; now rewrite below_up).
  assert (T2g : t2 (cwd ++ [txt ".graph"]) = Nothing) by (unfold t2; now rewrite below_self).
  assert (T2k : t2 (cwd ++ [txt "lock"]) = AFile []) by (unfold t2; rewrite below_last by assumption; assumption).
  assert (R : remove_dir_all (cwd ++ [txt ".graph"]) t1 = t2) by (unfold remove_dir_all; apply dir_of in T1g; now rewrite T1g).
  assert (C : can_create (cwd ++ [txt "lock"]) t = true) by (unfold can_create, is_dir; now rewrite removelast_last, Hd, Hk).
  assert (O : open_create (cwd ++ [txt "lock"]) t = t1) by (unfold open_create; now rewrite C, Hk).
  assert (V : forall u, u cwd = ADir -> u (cwd ++ [txt ".graph"]) = ADir -> forall ns, follow links limit u cwd (txt ".graph" :: txt ".." :: ns) = follow links limit u cwd ns).
  { intros u U1 U2 ns. rewrite follow_cons. unfold is_dir at 1. rewrite U1. change (counts (txt ".graph")) with true. change (is_up (txt ".graph")) with false. cbn [negb]. rewrite Hl2.
    rewrite follow_cons. unfold is_dir at 1. rewrite U2. change (counts (txt "..")) with true. change (is_up (txt "..")) with true. cbn [negb]. now rewrite removelast_last. }
  assert (K : forall u, u cwd = ADir -> follow links limit u cwd [txt "lock"] = Some (cwd ++ [txt "lock"])).
  { intros u U1. rewrite follow_cons. unfold is_dir. rewrite U1. change (counts (txt "lock")) with true. change (is_up (txt "lock")) with false. cbn [negb]. rewrite Hl1. apply follow_nil. }
  assert (G : forall u, u cwd = ADir -> follow links limit u cwd [txt ".graph"] = Some (cwd ++ [txt ".graph"])).
  { intros u U1. rewrite follow_cons. unfold is_dir. rewrite U1. change (counts (txt ".graph")) with true. change (is_up (txt ".graph")) with false. cbn [negb]. rewrite Hl2. apply follow_nil. }
  assert (N : follow links limit t2 cwd [txt ".graph"; txt ".."; txt "lock"] = None).
  { rewrite follow_cons. unfold is_dir at 1. rewrite T2d. change (counts (txt ".graph")) with true. change (is_up (txt ".graph")) with false. cbn [negb]. rewrite Hl2, follow_cons. unfold is_dir. now rewrite T2g. }
  assert (D : forall u, u cwd = ADir -> forall ns, follow links limit u cwd (txt "." :: ns) = follow links limit u cwd ns).
  { intros u U1 ns. rewrite follow_cons. unfold is_dir. now rewrite U1. }
  split; [|split].
  - unfold leads. change (names (txt ".graph/..")) with [txt ".graph"; txt ".."]. change (starts cwd (txt ".graph/..")) with cwd. rewrite V by assumption. apply follow_nil.
  - unfold in_links, x_gc_clean. cbn [negb andb]. unfold t_status, x_clean, x_with_lock, x_lock, x_touch. cbn [tbind trun].
    change (lock_text (txt ".graph/..")) with (txt ".graph/../lock"). change (parent (txt ".graph/../lock")) with (txt ".graph/..").
    change (filter counts (names (txt ".graph/.."))) with [txt ".graph"; txt ".."]. change (starts cwd (txt ".graph/..")) with cwd.
    assert (M : make_path links limit t cwd [txt ".graph"; txt ".."] = t).
    { cbn [make_path]. change (is_up (txt ".graph")) with false. cbv iota. rewrite Hl2, Hg. change (is_up (txt "..")) with true. reflexivity. }
    rewrite M. unfold at_path, leads. change (names (txt ".graph/../lock")) with [txt ".graph"; txt ".."; txt "lock"]. change (starts cwd (txt ".graph/../lock")) with cwd.
    rewrite (V t Hd Hg), (K t Hd), C, O. cbn [tbind trun].
    change (root_text (txt ".graph/..")) with (txt ".graph/../.graph"). change (names (txt ".graph/../.graph")) with [txt ".graph"; txt ".."; txt ".graph"]. change (starts cwd (txt ".graph/../.graph")) with cwd.
    rewrite (V t1 T1d T1g), (G t1 T1d), R. unfold is_dir at 1. rewrite T1g. unfold x_unlock. cbn [tbind trun]. unfold at_path, leads.
    change (lock_text (txt ".graph/..")) with (txt ".graph/../lock"). change (names (txt ".graph/../lock")) with [txt ".graph"; txt ".."; txt "lock"]. change (starts cwd (txt ".graph/../lock")) with cwd.
    rewrite N. cbn [tbind trun]. now repeat split.
  - unfold in_links, x_gc_clean. cbn [negb andb]. unfold t_status, x_clean, x_with_lock, x_lock, x_touch. cbn [tbind trun].
    change (lock_text (txt ".")) with (txt "./lock"). change (parent (txt "./lock")) with (txt "."). change (filter counts (names (txt "."))) with (@nil text). change (starts cwd (txt ".")) with cwd.
    cbn [make_path]. unfold at_path, leads. change (names (txt "./lock")) with [txt "."; txt "lock"]. change (starts cwd (txt "./lock")) with cwd.
    rewrite (D t Hd), (K t Hd), C, O. cbn [tbind trun].
    change (root_text (txt ".")) with (txt "./.graph"). change (names (txt "./.graph")) with [txt "."; txt ".graph"]. change (starts cwd (txt "./.graph")) with cwd.
    rewrite (D t1 T1d), (G t1 T1d), R. unfold is_dir at 1. rewrite T1g. unfold x_unlock. cbn [tbind trun]. unfold at_path, leads.
    change (lock_text (txt ".")) with (txt "./lock"). change (names (txt "./lock")) with [txt "."; txt "lock"]. change (starts cwd (txt "./lock")) with cwd.
    rewrite (D t2 T2d), (K t2 T2d), T2k. cbn [tbind trun]. unfold remove_file. rewrite T2k. split; [reflexivity|]. rewrite put_here. split; [|reflexivity]. rewrite put_there; [assumption|now apply ne_last].
Qed.
Print Assumptions C181_clean_refuted.
Lemma names_join_more p ps m n : names p = ps ++ [m] -> m <> [] -> proper n -> names (join p n) = ps ++ [m; n].
Proof.
  intros H D P. destruct (names_join p n P) as (ns & -> & [->|[E|[-> _]]]).
  - rewrite H, <- app_assoc. reflexivity.
  - rewrite H in E. apply app_inj_tail in E as [_ E]. contradiction.
  - cbn [names] in H. change [[]] with ([] ++ [@nil N]) in H. apply app_inj_tail in H as [_ H]. congruence.
Qed.
Lemma proper_up : proper (txt "..").
Proof. split; [discriminate|split; [discriminate|cbn; intros [X|[X|[]]]; discriminate]]. Qed.
(** ** A path through a directory that is not there *)
(** [name/..] leads nowhere: a query does not see the graph that is there, but gc-init makes the directory [name] and a graph. *)
Theorem C181_missing : forall links limit cwd nd chunks t n, proper n -> n <> txt ".." -> t cwd = ADir -> t (cwd ++ [n]) = Nothing -> links (cwd ++ [n]) = None ->
  let p := join n (txt "..") in
  leads links limit cwd t p = None /\
  trun (in_links links limit cwd nd chunks p RunQuery) t = (t, inr (Done (Err (txt "io error")))) /\
  (n <> txt ".graph" -> sane t -> t (cwd ++ [txt ".graph"]) = Nothing -> no_own_links links cwd ->
   let (t', r) := trun (in_links links limit cwd nd chunks p RunInit) t in
   r = inl Success /\ t' (cwd ++ [n]) = ADir /\ t' (cwd ++ [txt ".graph"; txt "commands"]) = AFile []).
Proof.
  intros links limit cwd nd chunks t n P D Hd Hn Hl p.
  assert (Eu : is_up n = false) by (unfold is_up; destruct (list_eq_dec N.eq_dec n (txt "..")); [contradiction|reflexivity]).
  assert (Np : names p = [n; txt ".."]) by (apply (names_join_more n [] n); [apply names_one, P|apply P|apply proper_up]).
  assert (Sp : starts cwd p = cwd) by (unfold p; rewrite starts_join by apply proper_up; exact (start_proper cwd n P)).
  assert (Nr : names (root_text p) = [n; txt ".."; txt ".graph"]) by (apply (names_join_more p [n] (txt "..")); [exact Np|discriminate|apply proper_graph]).
  assert (Pc : proper (txt "commands")) by apply proper_commands.
  assert (Sr : starts cwd (root_text p) = cwd) by (unfold root_text; rewrite starts_join by apply proper_graph; exact Sp).
  assert (Nc : names (command_text p) = [n; txt ".."; txt ".graph"; txt "commands"]) by (apply (names_join_more (root_text p) [n; txt ".."] (txt ".graph")); [exact Nr|discriminate|assumption]).
  assert (Sc : starts cwd (command_text p) = cwd) by (unfold command_text; rewrite starts_join by assumption; exact Sr).
  assert (Z : forall ns, follow links limit t cwd (n :: txt ".." :: ns) = None).
  { intro ns. rewrite follow_cons. unfold is_dir at 1. rewrite Hd, (counts_proper n P), Eu, Hl. cbn [negb]. rewrite follow_cons. unfold is_dir. now rewrite Hn. }
  split; [unfold leads; now rewrite Np, Sp, Z|]. split.
  - unfold in_links, x_load. cbn [tbind trun]. unfold leads. now rewrite Nc, Sc, Z.
  - intros Dg S0 Hg (_ & Hl2 & Hl3).
    set (t1 := put (cwd ++ [n]) ADir t). set (t2 := put (cwd ++ [txt ".graph"]) ADir t1).
    assert (T1g : t1 (cwd ++ [txt ".graph"]) = Nothing) by (unfold t1; rewrite put_there; [assumption|apply ne_last; congruence]).
    assert (T2d : t2 cwd = ADir) by (unfold t2, t1; rewrite !put_there by apply ne_up; assumption).
    assert (T2n : t2 (cwd ++ [n]) = ADir) by (unfold t2, t1; rewrite put_there by (now apply ne_last); apply put_here).
    assert (T2g : t2 (cwd ++ [txt ".graph"]) = ADir) by (unfold t2; apply put_here).
    assert (Ne : forall m, cwd ++ [txt ".graph"; txt "commands"] <> cwd ++ [m]) by (intros m X; apply app_inv_head in X; discriminate).
    assert (T2c : t2 (cwd ++ [txt ".graph"; txt "commands"]) = Nothing).
    { unfold t2, t1. rewrite !put_there by apply Ne. destruct (t (cwd ++ [txt ".graph"; txt "commands"])) eqn:E; [reflexivity| |];
        exfalso; assert (X : t (cwd ++ [txt ".graph"]) = ADir) by (apply (sane_above t (cwd ++ [txt ".graph"]) [txt "commands"] S0); [rewrite <- app_assoc; cbn [app]; congruence|discriminate]); congruence. }
    unfold in_links, x_gc_init, t_status, x_init, x_touch. cbn [tbind trun].
    destruct (parent_comps (root_text p) (txt "commands") Pc) as (_ & F1 & F2). change (join (root_text p) (txt "commands")) with (command_text p) in F1, F2. rewrite F1, F2, Nr, Sr.
    cbn [filter]. rewrite (counts_proper n P). change (counts (txt "..")) with true. change (counts (txt ".graph")) with true. cbv iota.
    cbn [make_path]. rewrite Eu, Hl, Hn. change (is_up (txt "..")) with true. cbv iota. rewrite removelast_last. change (is_up (txt ".graph")) with false. cbv iota. rewrite Hl2. fold t1. rewrite T1g. fold t2.
    assert (L : leads links limit cwd t2 (command_text p) = Some (cwd ++ [txt ".graph"; txt "commands"])).
    { unfold leads. rewrite Nc, Sc. rewrite follow_cons. unfold is_dir at 1. rewrite T2d, (counts_proper n P), Eu, Hl. cbn [negb]. rewrite follow_cons. unfold is_dir at 1. rewrite T2n.
      change (counts (txt "..")) with true. change (is_up (txt "..")) with true. cbn [negb]. rewrite removelast_last, follow_cons. unfold is_dir at 1. rewrite T2d.
      change (counts (txt ".graph")) with true. change (is_up (txt ".graph")) with false. cbn [negb]. rewrite Hl2, follow_cons. unfold is_dir at 1. rewrite T2g.
      change (counts (txt "commands")) with true. change (is_up (txt "commands")) with false. cbn [negb]. rewrite <- app_assoc. cbn [app]. rewrite Hl3. apply follow_nil. }
    assert (C : can_create (cwd ++ [txt ".graph"; txt "commands"]) t2 = true).
    { unfold can_create, is_dir. rewrite T2c. replace (cwd ++ [txt ".graph"; txt "commands"]) with ((cwd ++ [txt ".graph"]) ++ [txt "commands"]) by now rewrite <- app_assoc.
      now rewrite removelast_last, T2g. }
    unfold at_path. rewrite L, C. unfold open_create. rewrite C, T2c. cbn [tbind trun]. split; [reflexivity|]. rewrite put_here. split; [|reflexivity].
    rewrite put_there; [assumption|]. intro X. now apply (Ne n).
Qed.
Print Assumptions C181_missing.
(** ** A case: [/d] with a graph, and from [/w] the paths [../d], [../d/], [l] and [l/../d/.] where [/w/l] is a link to [../d]. *)
Definition case_links : place -> option text := fun q => if place_dec q [txt "w"; txt "l"] then Some (txt "../d") else None.
Definition case_links_tree : tree := fun q =>
  if place_dec q [] then ADir else if place_dec q [txt "w"] then ADir else if place_dec q [txt "d"] then ADir
  else if place_dec q [txt "d"; txt ".graph"] then ADir else if place_dec q [txt "d"; txt ".graph"; txt "commands"] then AFile (txt "av 1") else Nothing.
Example C181_case :
  sane case_links_tree /\ no_own_links case_links [txt "d"] /\
  Forall (fun p => leads_to case_links 40 [txt "w"] case_links_tree p [txt "d"]) [txt "../d"; txt "../d/"; txt "l"; txt "l/../d/."; txt "/w/l"; txt "/d"] /\
  ~ leads_to case_links 40 [txt "w"] case_links_tree (txt "l/.graph/..") [txt "d"] /\
  leads case_links 40 [txt "w"] case_links_tree (txt "l/..") = Some [].
Proof.
  split; [|split; [now repeat split|split; [|split]]].
  - split; [reflexivity|]. intros p n H. unfold case_links_tree in H.
    repeat match type of H with context [place_dec ?a ?b] => destruct (place_dec a b) as [e|] end; try congruence.
    all: destruct p as [|? [|? [|? [|? ?]]]]; cbn [app] in e; try discriminate; injection e; intros; subst; reflexivity.
  - repeat constructor.
  - intros [X _]. vm_compute in X. discriminate.
  - reflexivity.
Qed.
