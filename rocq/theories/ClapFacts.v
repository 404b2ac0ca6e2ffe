(** * Facts about the command-line parser *)
From Coq Require Import String.
From Coq Require Import List NArith Bool Arith Lia.
From Verif Require Import Base Text Clap ClapSpec.
Import ListNotations.
Open Scope N_scope.

(** ** Texts and matches *)
Lemma text_eqb_spec a : forall b, text_eqb a b = true <-> a = b.
Proof.
  induction a as [|x a IH]; intros [|y b]; cbn [text_eqb]; split; intro H; try discriminate; try reflexivity.
  - apply andb_true_iff in H. destruct H as [H1 H2]. apply N.eqb_eq in H1. apply IH in H2. congruence.
  - injection H as <- <-. rewrite N.eqb_refl. cbn. now apply IH.
Qed.
Lemma text_eqb_refl a : text_eqb a a = true.
Proof. now apply text_eqb_spec. Qed.
Lemma text_eqb_neq a b : a <> b -> text_eqb a b = false.
Proof. intro H. destruct (text_eqb a b) eqn:E; [|reflexivity]. now apply text_eqb_spec in E. Qed.

Lemma update_update m n f g : update (update m n f) n g = update m n (fun x => g (f x)).
Proof.
  induction m as [|[k x] m IH]; cbn [update]; [now rewrite text_eqb_refl|].
  destruct (text_eqb k n) eqn:E; cbn [update]; rewrite E; [reflexivity|]. now rewrite IH.
Qed.
Lemma update_ext m n f g : (forall x, f x = g x) -> update m n f = update m n g.
Proof. intro H. induction m as [|[k x] m IH]; cbn [update]; [now rewrite H|]. destruct (text_eqb k n); now rewrite ?H, ?IH. Qed.
Definition entry (m : matches) (n : text) : nat * list text := match look m n with Some x => x | None => (O, []) end.
Lemma look_update m n f k : look (update m n f) k = if text_eqb n k then Some (f (entry m n)) else look m k.
Proof.
  unfold entry. induction m as [|[j x] m IH]; cbn [update look].
  - destruct (text_eqb n k); reflexivity.
  - destruct (text_eqb j n) eqn:E; cbn [look].
    + apply text_eqb_spec in E. subst j. destruct (text_eqb n k); reflexivity.
    + rewrite IH. destruct (text_eqb j k) eqn:E2; [|reflexivity]. apply text_eqb_spec in E2. subst j.
      destruct (text_eqb n k) eqn:E3; [|reflexivity]. apply text_eqb_spec in E3. subst n. now rewrite text_eqb_refl in E.
Qed.

(** ** Uses *)
Definition use_fun (vs : list text) (x : nat * list text) : nat * list text := (S (fst x), snd x ++ vs).
Definition apply_use (m : matches) (u : use) : matches := update m (fst u) (use_fun (snd u)).
Definition apply_uses (us : list use) (m : matches) : matches := fold_left apply_use us m.
Definition add_vals (n : text) (vs : list text) (m : matches) : matches := fold_left (fun m v => update m n (add_val v)) vs m.
Lemma add_vals_use n xs vs m : add_vals n vs (apply_use m (n, xs)) = apply_use m (n, xs ++ vs).
Proof.
  revert xs. induction vs as [|v vs IH]; intro xs; cbn [add_vals fold_left]; [now rewrite app_nil_r|].
  change (add_vals n vs (update (apply_use m (n, xs)) n (add_val v)) = apply_use m (n, xs ++ v :: vs)).
  replace (update (apply_use m (n, xs)) n (add_val v)) with (apply_use m (n, xs ++ [v])).
  - rewrite IH. now rewrite <- app_assoc.
  - unfold apply_use. cbn [fst snd]. rewrite update_update. apply update_ext. intros [k x]. unfold use_fun, add_val. cbn [fst snd].
    now rewrite app_assoc.
Qed.
Lemma add_vals_uses us n xs vs m : add_vals n vs (apply_uses (us ++ [(n, xs)]) m) = apply_uses (us ++ [(n, xs ++ vs)]) m.
Proof. unfold apply_uses. rewrite !fold_left_app. cbn [fold_left]. apply add_vals_use. Qed.
Lemma eq_dec_eqb (n k : text) : (if list_eq_dec N.eq_dec n k then true else false) = text_eqb n k.
Proof. destruct (list_eq_dec N.eq_dec n k) as [->|H]; [now rewrite text_eqb_refl|now rewrite text_eqb_neq]. Qed.
(** How a use and a list of uses show in the matches. *)
Lemma look_uses us : forall m n, look (apply_uses us m) n =
  match uses_of n us with
  | [] => look m n
  | _ => Some ((fst (entry m n) + length (uses_of n us))%nat, snd (entry m n) ++ values_given n us)
  end.
Proof.
  induction us as [|[k xs] us IH]; intros m n; [reflexivity|].
  change (apply_uses ((k, xs) :: us) m) with (apply_uses us (apply_use m (k, xs))). rewrite IH.
  unfold values_given, uses_of. cbn [filter fst]. rewrite eq_dec_eqb.
  assert (HL : look (apply_use m (k, xs)) n = if text_eqb k n then Some (use_fun xs (entry m k)) else look m n) by apply look_update.
  unfold entry at 1 2. rewrite HL. destruct (text_eqb k n) eqn:E.
  - apply text_eqb_spec in E. subst k. cbn [map snd concat length]. fold (uses_of n us).
    destruct (uses_of n us) as [|u l]; unfold use_fun; cbn [fst snd length map concat].
    + rewrite !app_nil_r. f_equal. f_equal. lia.
    + rewrite <- app_assoc. f_equal. f_equal. lia.
  - fold (uses_of n us). reflexivity.
Qed.
Lemma uses_of_used n us : uses_of n us <> [] <-> used n us.
Proof.
  unfold used. split.
  - destruct (uses_of n us) as [|[k vs] l] eqn:E; [congruence|]. intros _. exists vs.
    assert (H : In (k, vs) (uses_of n us)) by (rewrite E; now left). apply filter_In in H. destruct H as [H1 H2]. cbn [fst] in H2.
    destruct (list_eq_dec N.eq_dec k n); [now subst|discriminate].
  - intros [vs H] E. assert (H' : In (n, vs) (uses_of n us)) by (apply filter_In; split; [assumption|]; cbn [fst];
      destruct (list_eq_dec N.eq_dec n n); congruence). rewrite E in H'. destruct H'.
Qed.
Lemma uses_of_app n us vs : uses_of n (us ++ vs) = uses_of n us ++ uses_of n vs.
Proof. apply filter_app. Qed.
Lemma values_given_app n us vs : values_given n (us ++ vs) = values_given n us ++ values_given n vs.
Proof. unfold values_given. now rewrite uses_of_app, map_app, concat_app. Qed.

(** ** Dashes and equals signs *)
Lemma trim_char_split c t : exists k, t = repeat c k ++ trim_char c t /\ hd_error (trim_char c t) <> Some c.
Proof.
  induction t as [|x t (k & E & H)]; [now exists O|]. cbn [trim_char]. destruct (N.eqb_spec x c) as [->|Hx].
  - exists (S k). cbn [repeat app]. split; [now f_equal|assumption].
  - exists O. split; [reflexivity|]. cbn. congruence.
Qed.
Lemma trim_char_repeat c k t : hd_error t <> Some c -> trim_char c (repeat c k ++ t) = t.
Proof.
  intro H. induction k as [|k IH]; cbn [repeat app trim_char].
  - destruct t as [|x t]; [reflexivity|]. cbn [trim_char]. destruct (N.eqb_spec x c); [cbn in H; congruence|reflexivity].
  - now rewrite N.eqb_refl.
Qed.
Lemma split_eq_none n : ~ In 61 n -> split_eq n = (n, None).
Proof.
  induction n as [|c n IH]; intro H; [reflexivity|]. cbn [split_eq]. destruct (N.eqb_spec c 61); [exfalso; apply H; now left|].
  rewrite IH by (intro; apply H; now right). reflexivity.
Qed.
Lemma split_eq_some n x : ~ In 61 n -> split_eq (n ++ 61 :: x) = (n, Some x).
Proof.
  induction n as [|c n IH]; intro H; [reflexivity|]. cbn [split_eq app]. destruct (N.eqb_spec c 61); [exfalso; apply H; now left|].
  rewrite IH by (intro; apply H; now right). reflexivity.
Qed.
Lemma split_eq_inv t n v : split_eq t = (n, v) -> ~ In 61 n /\ t = match v with Some x => n ++ 61 :: x | None => n end.
Proof.
  revert n v. induction t as [|c t IH]; intros n v H; cbn [split_eq] in H; [injection H as <- <-; now split|].
  destruct (N.eqb_spec c 61) as [->|Hc]; [injection H as <- <-; now split|]. destruct (split_eq t) as [p q] eqn:E.
  injection H as <- <-. destruct (IH p q eq_refl) as [H1 H2]. split; [intros [->|H]; [congruence|contradiction]|].
  rewrite H2. now destruct q.
Qed.

(** ** Declarations *)
Definition lo (a : arg) : nat := match g_min a with Some n => n | None => 1 end.
Definition hi (a : arg) : option nat :=
  match g_max a with
  | Some n => Some n
  | None => match g_min a with Some _ => None | None => if g_multiple a then None else Some 1%nat end
  end.
Definition decl_of (a : arg) : decl := {|
  d_name := g_name a; d_short := g_short a; d_values := if g_takes a then Some (lo a, hi a) else None;
  d_repeat := g_multiple a; d_required := g_required a; d_default := g_default a |}.
Definition declares (ap : application) (mn : manual) : Prop :=
  decls mn = map decl_of (app_args ap) /\ one_of mn = match app_group ap with Some l => l | None => [] end.

(** What the declarations of the tools have in common. *)
Definition good_arg (a : arg) : bool :=
  match g_long a with Some l => text_eqb l (g_name a) | None => false end &&
  match g_name a with c :: _ => negb (c =? 45) | [] => false end && forallb (fun c => negb (c =? 61)) (g_name a) &&
  match g_short a with Some c => negb (c =? 45) | None => true end &&
  match g_min a with Some O => false | _ => true end &&
  match g_default a with
  | None => true
  | Some _ => g_takes a && Nat.leb (lo a) 1 && match hi a with Some n => Nat.leb 1 n | None => true end
  end.
Fixpoint distinct {A} (eqb : A -> A -> bool) (l : list A) : bool :=
  match l with [] => true | x :: t => negb (existsb (eqb x) t) && distinct eqb t end.
Definition same_short (a b : arg) : bool := match g_short a with Some c => by_short c b | None => false end.
Definition same_name (a b : arg) : bool := text_eqb (g_name a) (g_name b).
Definition good_app (ap : application) : bool :=
  forallb good_arg (app_args ap) && distinct same_name (app_args ap) && distinct same_short (app_args ap) &&
  match app_group ap with
  | None => true
  | Some ns => negb (match ns with [] => true | _ => false end) && distinct text_eqb ns &&
      forallb (fun n => existsb (fun a => text_eqb (g_name a) n && match g_default a with None => true | _ => false end) (app_args ap)) ns
  end.
Record proper (ap : application) : Prop := {
  p_long : forall a, In a (app_args ap) -> g_long a = Some (g_name a);
  p_name : forall a, In a (app_args ap) -> g_name a <> [] /\ hd_error (g_name a) <> Some 45 /\ ~ In 61 (g_name a);
  p_short : forall a c, In a (app_args ap) -> g_short a = Some c -> c <> 45;
  p_min : forall a, In a (app_args ap) -> g_min a <> Some O;
  p_default : forall a, In a (app_args ap) -> g_default a <> None ->
    g_takes a = true /\ (lo a <= 1)%nat /\ forall n, hi a = Some n -> (1 <= n)%nat;
  p_names : forall a b, In a (app_args ap) -> In b (app_args ap) -> g_name a = g_name b -> a = b;
  p_shorts : forall a b c, In a (app_args ap) -> In b (app_args ap) -> g_short a = Some c -> g_short b = Some c -> a = b;
  p_nodup : NoDup (map g_name (app_args ap));
  p_group : forall ns, app_group ap = Some ns -> ns <> [] /\ NoDup ns /\
    forall n, In n ns -> exists a, In a (app_args ap) /\ g_name a = n /\ g_default a = None
}.
Lemma distinct_spec {A} (eqb : A -> A -> bool) l : distinct eqb l = true ->
  forall a b, In a l -> In b l -> eqb a b = true -> eqb b a = true -> a = b.
Proof.
  induction l as [|x l IH]; intros H a b Ha Hb E E'; [destruct Ha|]. cbn [distinct] in H. apply andb_true_iff in H. destruct H as [H1 H2].
  apply negb_true_iff in H1. assert (Hx : forall y, In y l -> eqb x y = false).
  { intros y Hy. destruct (eqb x y) eqn:Exy; [|reflexivity]. rewrite <- H1. symmetry. apply existsb_exists. now exists y. }
  destruct Ha as [->|Ha], Hb as [->|Hb]; [reflexivity| | |now apply IH].
  - rewrite (Hx b Hb) in E. discriminate.
  - rewrite (Hx a Ha) in E'. discriminate.
Qed.
Lemma distinct_nodup {A B} (eqb : A -> A -> bool) (f : A -> B) l : (forall a b, f a = f b -> eqb a b = true) -> distinct eqb l = true -> NoDup (map f l).
Proof.
  intro He. induction l as [|x l IH]; intro H; cbn [map]; [constructor|]. cbn [distinct] in H. apply andb_true_iff in H. destruct H as [H1 H2].
  constructor; [|now apply IH]. intro Hin. apply in_map_iff in Hin. destruct Hin as (y & Ey & Hy). apply negb_true_iff in H1.
  assert (existsb (eqb x) l = true) by (apply existsb_exists; exists y; split; [assumption|]; now apply He). congruence.
Qed.
Lemma good_app_proper ap : good_app ap = true -> proper ap.
Proof.
  unfold good_app. rewrite !andb_true_iff. intros [[[H1 H2] H3] H4]. rewrite forallb_forall in H1.
  assert (G : forall a, In a (app_args ap) -> g_long a = Some (g_name a) /\
    (g_name a <> [] /\ hd_error (g_name a) <> Some 45 /\ ~ In 61 (g_name a)) /\ (forall c, g_short a = Some c -> c <> 45) /\
    g_min a <> Some O /\
    (g_default a <> None -> g_takes a = true /\ (lo a <= 1)%nat /\ forall n, hi a = Some n -> (1 <= n)%nat)).
  { intros a Ha. specialize (H1 a Ha). unfold good_arg in H1. rewrite !andb_true_iff in H1.
    destruct H1 as [[[[[G1 G2] G3] G4] G5] G6]. split; [|split; [|split; [|split]]].
    - destruct (g_long a) as [l|]; [|discriminate]. apply text_eqb_spec in G1. now subst.
    - destruct (g_name a) as [|c t] eqn:E; [discriminate|]. split; [discriminate|]. split.
      + cbn. intro X. injection X as ->. discriminate.
      + intro Hin. rewrite forallb_forall in G3. specialize (G3 61 Hin). discriminate.
    - intros c Ec. rewrite Ec in G4. intros ->. discriminate.
    - intro X. rewrite X in G5. discriminate.
    - intro X. destruct (g_default a); [|congruence]. rewrite !andb_true_iff in G6. destruct G6 as [[K1 K2] K3].
      split; [assumption|]. split; [now apply Nat.leb_le|]. intros n En. rewrite En in K3. now apply Nat.leb_le. }
  assert (Hn : forall a b, In a (app_args ap) -> In b (app_args ap) -> g_name a = g_name b -> a = b).
  { intros a b Ha Hb E. apply (distinct_spec _ _ H2); try assumption; unfold same_name; rewrite E; apply text_eqb_refl. }
  constructor; try (intros a Ha; now apply G).
  - intros a c Ha. now apply G.
  - exact Hn.
  - intros a b c Ha Hb E E'. apply (distinct_spec _ _ H3); try assumption; unfold same_short, by_short; rewrite E, E'; apply N.eqb_refl.
  - apply (distinct_nodup same_name); [|assumption]. intros a b E. unfold same_name. rewrite E. apply text_eqb_refl.
  - intros ns E. rewrite E in H4. rewrite !andb_true_iff in H4. destruct H4 as [[K1 K2] K3]. split; [intros ->; discriminate|]. split.
    + rewrite <- (map_id ns). apply (distinct_nodup text_eqb); [|assumption]. intros a b ->. apply text_eqb_refl.
    + intros n Hin. rewrite forallb_forall in K3. specialize (K3 n Hin). apply existsb_exists in K3. destruct K3 as (a & Ha & Hx).
      apply andb_true_iff in Hx. destruct Hx as [X1 X2]. apply text_eqb_spec in X1. exists a. split; [assumption|]. split; [assumption|].
      now destruct (g_default a).
Qed.

Lemma find_unique {A} (p : A -> bool) l a : (forall b, In b l -> p b = true -> b = a) -> In a l -> p a = true -> find p l = Some a.
Proof.
  intros Hu Hin Hp. destruct (find p l) as [b|] eqn:E.
  - apply find_some in E. f_equal. apply Hu; apply E.
  - rewrite (find_none _ _ E a Hin) in Hp. discriminate.
Qed.
Lemma find_nothing {A} (p : A -> bool) l : (forall b, In b l -> p b = false) -> find p l = None.
Proof.
  intro H. destruct (find p l) as [b|] eqn:E; [|reflexivity]. apply find_some in E. destruct E as [E1 E2].
  rewrite (H b E1) in E2. discriminate.
Qed.

Section Parse.
  Variable ap : application.
  Hypothesis HP : proper ap.
  Let args := app_args ap.
  Let ds := map decl_of args.

  (** ** Finding arguments *)
  Lemma by_long_spec a n : In a args -> (by_long n a = true <-> g_name a = n).
  Proof. intro Ha. unfold by_long. rewrite (p_long ap HP a Ha). apply text_eqb_spec. Qed.
  Lemma by_short_spec a c : by_short c a = true <-> g_short a = Some c.
  Proof.
    unfold by_short. destruct (g_short a) as [x|]; split; intro H; try discriminate.
    - apply N.eqb_eq in H. now subst.
    - injection H as ->. apply N.eqb_refl.
  Qed.
  Lemma in_opts a : In a (opts ap) <-> In a args /\ g_takes a = true.
  Proof. apply filter_In. Qed.
  Lemma in_flags a : In a (flags ap) <-> In a args /\ g_takes a = false.
  Proof. unfold flags. rewrite filter_In. now rewrite negb_true_iff. Qed.
  Lemma find_long_opt a : In a args -> g_takes a = true -> find (by_long (g_name a)) (opts ap) = Some a.
  Proof.
    intros Ha Ht. apply find_unique.
    - intros b Hb Hn. apply in_opts in Hb. destruct Hb as [Hb _]. apply (by_long_spec b _ Hb) in Hn. now apply (p_names ap HP).
    - now apply in_opts.
    - now apply by_long_spec.
  Qed.
  Lemma find_long_flag a : In a args -> g_takes a = false -> find (by_long (g_name a)) (opts ap) = None /\ find (by_long (g_name a)) (flags ap) = Some a.
  Proof.
    intros Ha Ht. split.
    - apply find_nothing. intros b Hb. apply in_opts in Hb. destruct Hb as [Hb Hb2]. destruct (by_long (g_name a) b) eqn:E; [|reflexivity].
      apply (by_long_spec b _ Hb) in E. apply (p_names ap HP b a Hb Ha) in E. congruence.
    - apply find_unique.
      + intros b Hb Hn. apply in_flags in Hb. destruct Hb as [Hb _]. apply (by_long_spec b _ Hb) in Hn. now apply (p_names ap HP).
      + now apply in_flags.
      + now apply by_long_spec.
  Qed.
  Lemma find_short_opt a c : In a args -> g_takes a = true -> g_short a = Some c -> find (by_short c) (opts ap) = Some a.
  Proof.
    intros Ha Ht Hc. apply find_unique.
    - intros b Hb Hn. apply in_opts in Hb. apply by_short_spec in Hn. destruct Hb as [Hb _]. now apply (p_shorts ap HP b a c).
    - now apply in_opts.
    - now apply by_short_spec.
  Qed.
  Lemma find_short_flag a c : In a args -> g_takes a = false -> g_short a = Some c ->
    find (by_short c) (opts ap) = None /\ find (by_short c) (flags ap) = Some a.
  Proof.
    intros Ha Ht Hc. split.
    - apply find_nothing. intros b Hb. apply in_opts in Hb. destruct Hb as [Hb Hb2]. destruct (by_short c b) eqn:E; [|reflexivity].
      apply by_short_spec in E. assert (b = a) by now apply (p_shorts ap HP b a c). congruence.
    - apply find_unique.
      + intros b Hb Hn. apply in_flags in Hb. apply by_short_spec in Hn. destruct Hb as [Hb _]. now apply (p_shorts ap HP b a c).
      + now apply in_flags.
      + now apply by_short_spec.
  Qed.
  Lemma option_decl a : In a args -> g_takes a = true -> option_ ds (decl_of a).
  Proof. intros Ha Ht. split; [now apply in_map|]. cbn [decl_of d_values]. rewrite Ht. discriminate. Qed.
  Lemma flag_decl a : In a args -> g_takes a = false -> flag ds (decl_of a).
  Proof. intros Ha Ht. split; [now apply in_map|]. cbn [decl_of d_values]. now rewrite Ht. Qed.
  Lemma option_inv d : option_ ds d -> exists a, In a args /\ g_takes a = true /\ d = decl_of a.
  Proof.
    intros [Hd Hv]. apply in_map_iff in Hd. destruct Hd as (a & <- & Ha). exists a. split; [assumption|]. split; [|reflexivity].
    cbn [decl_of d_values] in Hv. now destruct (g_takes a).
  Qed.
  Lemma flag_inv d : flag ds d -> exists a, In a args /\ g_takes a = false /\ d = decl_of a.
  Proof.
    intros [Hd Hv]. apply in_map_iff in Hd. destruct Hd as (a & <- & Ha). exists a. split; [assumption|]. split; [|reflexivity].
    cbn [decl_of d_values] in Hv. now destruct (g_takes a).
  Qed.

  (** ** From the parser to the grammar *)
  Definition simple (a : arg) : Prop := g_max a = None /\ g_min a = None /\ g_multiple a = false.
  Definition brief (us : list use) : Prop := forall a vs, In a args -> simple a -> In (g_name a, vs) us -> (length vs <= 1)%nat.
  Lemma parse_opt_none had_eq a m : parse_opt None had_eq a m = (Wants a, apply_use m (g_name a, [])).
  Proof.
    unfold parse_opt, apply_use. cbn [fst snd]. f_equal. apply update_ext. intros [k x]. unfold inc, use_fun. cbn [fst snd]. now rewrite app_nil_r.
  Qed.
  Definition eq_first (fv : text) : bool := match fv with c :: _ => c =? 61 | [] => false end.
  Lemma parse_opt_some fv had_eq a m : parse_opt (Some fv) had_eq a m =
    (if g_multiple a && negb (had_eq || eq_first fv) && needs_more a (apply_use m (g_name a, [trim_char 61 fv])) then Wants a else ValuesDone,
     apply_use m (g_name a, [trim_char 61 fv])).
  Proof.
    unfold parse_opt, add_val_to_arg, apply_use. cbn [fst snd]. rewrite update_update. reflexivity.
  Qed.
  Lemma after_equals_trim fv : exists k, after_equals fv k (trim_char 61 fv) /\ (eq_first fv = false -> k = O).
  Proof.
    destruct (trim_char_split 61 fv) as (k & E & H). exists k. split; [now split|]. intro He. destruct k as [|k]; [reflexivity|].
    rewrite E in He. discriminate.
  Qed.
  (** What a word says, in the terms of the parser. *)
  Definition said (w : text) (m : matches) (nd' : need) (m' : matches) : Prop :=
    exists us more, word_says ds w us more /\ m' = apply_uses us m /\ brief us /\
      forall a, nd' = Wants a -> more = true /\ In a args /\ g_takes a = true /\
        exists us0 xs, us = us0 ++ [(g_name a, xs)] /\ (simple a -> xs = []).
  Lemma brief_one n vs : (length vs <= 1)%nat -> brief [(n, vs)].
  Proof. intros H a xs _ _ [E|[]]. injection E as _ <-. assumption. Qed.
  Lemma brief_app us vs : brief us -> brief vs -> brief (us ++ vs).
  Proof. intros H1 H2 a xs Ha Hs H. apply in_app_or in H. destruct H; eauto. Qed.

  Lemma dashed2_trim w : dashed2 w = true -> exists k, (2 <= k)%nat /\ w = repeat 45 k ++ trim_char 45 w.
  Proof.
    intro H. destruct (trim_char_split 45 w) as (k & E & Hh). exists k. split; [|assumption]. destruct w as [|c [|d w]]; try discriminate.
    cbn [dashed2] in H. apply andb_true_iff in H. destruct H as [H1 H2]. apply N.eqb_eq in H1, H2. subst c d.
    destruct k as [|[|k]]; [| |lia]; exfalso; apply Hh; cbn [repeat app] in E.
    - rewrite <- E. reflexivity.
    - assert (E' := f_equal (@tl N) E). cbn [tl] in E'. rewrite <- E'. reflexivity.
  Qed.
  Lemma long_sound w m nd' m' : dashed2 w = true -> parse_long ap w m = Parsed (nd', m') -> said w m nd' m'.
  Proof.
    intros Hd H. destruct (dashed2_trim w Hd) as (k & Hk & Ew). unfold parse_long in H.
    destruct (split_eq (trim_char 45 w)) as [n v] eqn:Es. apply split_eq_inv in Es. destruct Es as [Hn Et].
    destruct (find (by_long n) (opts ap)) as [a|] eqn:E1.
    - apply find_some in E1. destruct E1 as [Ha Hb]. apply in_opts in Ha. destruct Ha as [Ha Ht]. apply (by_long_spec a n Ha) in Hb. subst n.
      injection H as H. destruct v as [x|].
      + rewrite parse_opt_some in H. cbn [negb orb] in H. rewrite andb_false_r in H. cbn [andb] in H. injection H as <- <-.
        destruct (after_equals_trim x) as (j & Hj & _). exists [(g_name a, [trim_char 61 x])], false. split; [|split; [reflexivity|split; [now apply brief_one|discriminate]]].
        rewrite Ew, Et. now apply (long_value ds (decl_of a) k j); [apply option_decl| |].
      + rewrite parse_opt_none in H. injection H as <- <-. exists [(g_name a, [])], true. split; [|split; [reflexivity|split; [apply brief_one; cbn; lia|]]].
        * rewrite Ew, Et. now apply (long_option ds (decl_of a) k); [apply option_decl|].
        * intros b Eb. injection Eb as <-. split; [reflexivity|]. split; [assumption|]. split; [assumption|]. exists [], []. now split.
    - destruct (find (by_long n) (flags ap)) as [a|] eqn:E2; [|destruct (_ || _); discriminate].
      apply find_some in E2. destruct E2 as [Ha Hb]. apply in_flags in Ha. destruct Ha as [Ha Ht]. apply (by_long_spec a n Ha) in Hb. subst n.
      injection H as <- <-. exists [(g_name a, [])], false. split; [|split; [|split; [apply brief_one; cbn; lia|discriminate]]].
      + rewrite Ew, Et. destruct v as [x|].
        * apply (long_flag ds (decl_of a) k (61 :: x)); [now apply flag_decl|assumption|right; now exists x].
        * rewrite <- (app_nil_r (g_name a)) at 1. apply (long_flag ds (decl_of a) k []); [now apply flag_decl|assumption|now left].
      + unfold apply_uses. cbn [fold_left]. unfold apply_use. cbn [fst snd]. apply update_ext. intros [q x]. unfold inc, use_fun. cbn [fst snd]. now rewrite app_nil_r.
  Qed.

  Lemma after_first_app c pre cs : ~ In c pre -> after_first c (pre ++ c :: cs) = cs.
  Proof.
    intro H. induction pre as [|x pre IH]; cbn [app after_first].
    - now rewrite N.eqb_refl.
    - destruct (N.eqb_spec x c) as [->|Hx]; [exfalso; apply H; now left|]. apply IH. intro X. apply H. now right.
  Qed.
  Lemma apply_flag m n : update m n inc = apply_use m (n, []).
  Proof. unfold apply_use. cbn [fst snd]. apply update_ext. intros [q x]. unfold inc, use_fun. cbn [fst snd]. now rewrite app_nil_r. Qed.
  Definition said_letters (cs : text) (m : matches) (nd' : need) (m' : matches) : Prop :=
    exists us more, letters ds cs us more /\ m' = apply_uses us m /\ brief us /\
      forall a, nd' = Wants a -> more = true /\ In a args /\ g_takes a = true /\
        exists us0 xs, us = us0 ++ [(g_name a, xs)] /\ (simple a -> xs = []).
  Lemma chars_sound cs : forall pre m nd' m', (forall c, In c pre -> find (by_short c) (opts ap) = None) ->
    parse_chars ap (pre ++ cs) cs m = Parsed (nd', m') -> said_letters cs m nd' m'.
  Proof.
    induction cs as [|c cs IH]; intros pre m nd' m' Hpre H; cbn [parse_chars] in H.
    - injection H as <- <-. exists [], false. split; [constructor|]. split; [reflexivity|]. split; [intros a vs _ _ []|discriminate].
    - destruct (find (by_short c) (opts ap)) as [a|] eqn:E1.
      + assert (Hni : ~ In c pre) by (intro X; rewrite (Hpre c X) in E1; discriminate).
        rewrite (after_first_app c pre cs Hni) in H. apply find_some in E1. destruct E1 as [Ha Hc]. apply in_opts in Ha. destruct Ha as [Ha Ht].
        apply by_short_spec in Hc. destruct cs as [|c2 cs].
        * rewrite parse_opt_none in H. injection H as <- <-. exists [(g_name a, [])], true.
          split; [now apply (letters_option ds (decl_of a)); [apply option_decl|]|]. split; [reflexivity|]. split; [apply brief_one; cbn; lia|].
          intros b Eb. injection Eb as <-. repeat (split; [first [reflexivity|assumption]|]). exists [], []. now split.
        * change (Parsed (parse_opt (Some (c2 :: cs)) false a m) = Parsed (nd', m')) in H. assert (Hfv : c2 :: cs <> []) by discriminate. revert H Hfv. generalize (c2 :: cs). intros fv H Hfv. rewrite parse_opt_some in H. injection H as H <-. cbn [orb] in H.
          destruct (after_equals_trim fv) as (k & Hk & Hk0).
          exists [(g_name a, [trim_char 61 fv])], (g_multiple a && Nat.eqb k 0). split.
          { apply (letters_value ds (decl_of a) c fv k (trim_char 61 fv)); [now apply option_decl|assumption|assumption|assumption]. }
          split; [reflexivity|]. split; [now apply brief_one|].
          intros b Eb. rewrite Eb in H. destruct (g_multiple a) eqn:Em; [|discriminate]. cbn [andb] in H |- *.
          destruct (eq_first fv) eqn:Ee; cbn [negb andb] in H; [discriminate|]. destruct (needs_more _ _); [|discriminate]. injection H as <-.
          split; [rewrite (Hk0 eq_refl); reflexivity|]. split; [assumption|]. split; [assumption|]. exists [], [trim_char 61 fv].
          split; [reflexivity|]. intros (_ & _ & X). congruence.
      + destruct (find (by_short c) (flags ap)) as [a|] eqn:E2; [|destruct (builtin ap c); discriminate].
        apply find_some in E2. destruct E2 as [Ha Hc]. apply in_flags in Ha. destruct Ha as [Ha Ht]. apply by_short_spec in Hc.
        rewrite apply_flag in H. replace (pre ++ c :: cs) with ((pre ++ [c]) ++ cs) in H by now rewrite <- app_assoc.
        apply IH in H.
        * destruct H as (us & more & H1 & H2 & H3 & H4). exists ((g_name a, []) :: us), more.
          split; [now apply (letters_flag ds (decl_of a)); [apply flag_decl| |]|]. split; [assumption|].
          split; [apply (brief_app [(g_name a, [])] us); [apply brief_one; cbn; lia|assumption]|].
          intros b Eb. destruct (H4 b Eb) as (G1 & G2 & G3 & us0 & xs & -> & G5). repeat (split; [assumption|]).
          exists ((g_name a, []) :: us0), xs. now split.
        * intros x Hx. apply in_app_or in Hx. destruct Hx as [Hx|[<-|[]]]; [now apply Hpre|assumption].
  Qed.
  Lemma short_sound w m nd' m' : dashed2 w = false -> dashed w = true -> parse_short ap w m = Parsed (nd', m') -> said w m nd' m'.
  Proof.
    intros H2 H1 H. destruct w as [|c [|d w]]; try discriminate. cbn [dashed dashed2] in H1, H2. rewrite H1 in H2. cbn [andb] in H2.
    apply N.eqb_eq in H1. subst c. unfold parse_short in H.
    assert (E : trim_char 45 (45 :: d :: w) = d :: w) by (cbn [trim_char]; rewrite H2; reflexivity). rewrite E in H.
    apply (chars_sound (d :: w) []) in H; [|intros c []]. destruct H as (us & more & G1 & G). exists us, more. split; [|assumption].
    now apply short_letters.
  Qed.

  Lemma plain_dashed w : plain w <-> dashed w = false.
  Proof.
    split; intro H.
    - destruct w as [|c [|d w]]; try reflexivity. cbn [dashed]. apply N.eqb_neq. intros ->. now apply (H d w).
    - intros c t ->. cbn in H. discriminate.
  Qed.
  Lemma needs_more_simple a v m : simple a -> needs_more a (update m (g_name a) (add_val v)) = false.
  Proof. intros (H1 & H2 & H3). unfold needs_more. rewrite look_update, text_eqb_refl, H1, H2, H3. now destruct (entry m (g_name a)). Qed.
  Lemma add_vals_cons n v vs m : add_vals n vs (update m n (add_val v)) = add_vals n (v :: vs) m.
  Proof. reflexivity. Qed.
  Definition carried (nd : need) (vs : list text) (m : matches) : matches :=
    match nd with Wants a => add_vals (g_name a) vs m | _ => m end.
  Lemma words_sound ws : forall nd m nd' m', (forall a, nd = Wants a -> In a args /\ g_takes a = true) ->
    parse_words ap false nd m ws = Parsed (nd', m') ->
    exists vs ws' us, ws = vs ++ ws' /\ Forall plain vs /\ (vs = [] \/ exists a, nd = Wants a) /\ written ds us ws' /\
      m' = apply_uses us (carried nd vs m) /\ brief us /\ (forall a, nd = Wants a -> simple a -> (length vs <= 1)%nat).
  Proof.
    assert (C0 : forall nd m, carried nd [] m = m) by (intros [a| |] m; reflexivity).
    induction ws as [|w ws IH]; intros nd m nd' m' Hnd H; cbn [parse_words] in H.
    - injection H as <- <-. exists [], [], []. rewrite C0. do 5 (split; [first [reflexivity|now constructor|now left]|]).
      split; [intros a vs _ _ []|cbn; lia].
    - destruct (is_new_arg nd w && text_eqb w (txt "--")) eqn:E1.
      { apply andb_true_iff in E1. destruct E1 as [_ E1]. apply text_eqb_spec in E1. subst w. destruct ws; [|discriminate].
        cbn [parse_words] in H. injection H as <- <-. exists [], [txt "--"], []. rewrite C0. do 5 (split; [first [reflexivity|now constructor|now left]|]).
        split; [intros a vs _ _ []|cbn; lia]. }
      destruct (negb (is_new_arg nd w)) eqn:E2.
      + destruct nd as [a| |]; [|discriminate|discriminate]. cbn [is_new_arg] in E2. apply negb_true_iff, plain_dashed in E2.
        unfold add_val_to_arg in H. destruct (Hnd a eq_refl) as [Ha Ht].
        destruct (needs_more a (update m (g_name a) (add_val w))) eqn:En.
        * apply IH in H; [|assumption]. destruct H as (vs & ws' & us & -> & G2 & G3 & G4 & G5 & G6 & G7). exists (w :: vs), ws', us.
          split; [reflexivity|]. split; [now constructor|]. split; [right; now exists a|]. split; [assumption|].
          split; [assumption|]. split; [assumption|]. intros b Eb Hs. injection Eb as <-. rewrite (needs_more_simple a w m Hs) in En. discriminate.
        * apply IH in H; [|discriminate]. destruct H as (vs & ws' & us & -> & G2 & G3 & G4 & G5 & G6 & G7). destruct G3 as [->|(b & G3)]; [|discriminate].
          exists [w], ws', us. split; [reflexivity|]. split; [now repeat constructor|]. split; [right; now exists a|]. split; [assumption|].
          split; [assumption|]. split; [assumption|]. cbn; lia.
      + destruct (if dashed2 w then _ else _) as [[nd1 m1]| |] eqn:E3; [|discriminate|discriminate].
        assert (Hs : said w m nd1 m1).
        { destruct (dashed2 w) eqn:D2; [now apply long_sound|]. destruct (dashed w) eqn:D1; [now apply short_sound|discriminate]. }
        destruct Hs as (us1 & more & S1 & -> & S3 & S4).
        apply IH in H; [|intros a Ea; destruct (S4 a Ea) as (_ & X & Y & _); now split].
        destruct H as (vs & ws' & us & -> & G2 & G3 & G4 & G5 & G6 & G7).
        assert (Hx : exists us1', extended us1 vs us1' /\ brief us1' /\ (vs = [] \/ more = true) /\ carried nd1 vs (apply_uses us1 m) = apply_uses us1' m).
        { destruct G3 as [->|(a & ->)].
          - exists us1. split; [now left|]. split; [assumption|]. split; [now left|]. apply C0.
          - destruct (S4 a eq_refl) as (T1 & T2 & T3 & us0 & xs & -> & T5). exists (us0 ++ [(g_name a, xs ++ vs)]).
            split; [right; now exists us0, (g_name a), xs|]. split; [|split; [now right|cbn [carried]; apply add_vals_uses]].
            intros b ys Hb Hsb Hi. apply in_app_or in Hi. destruct Hi as [Hi|[Hi|[]]].
            + apply (S3 b ys Hb Hsb). apply in_or_app. now left.
            + injection Hi as E <-. apply (p_names ap HP a b T2 Hb) in E. subst b. rewrite (T5 Hsb). cbn [app]. now apply (G7 a). }
        destruct Hx as (us1' & X1 & X2 & X3 & X4). exists [], (w :: vs ++ ws'), (us1' ++ us). rewrite C0.
        split; [reflexivity|]. split; [constructor|]. split; [now left|]. split; [now apply (written_word ds w us1 more vs us1' us ws')|].
        split; [|split; [now apply brief_app|cbn; lia]]. rewrite G5, X4. unfold apply_uses. now rewrite fold_left_app.
  Qed.

  (** ** From the grammar to the parser *)
  Definition count (m : matches) (a : arg) : nat := length (snd (entry m (g_name a))).
  Definition fits (us : list use) (m : matches) : Prop :=
    forall a n, In a args -> g_takes a = true -> hi a = Some n -> (count m a + length (values_given (g_name a) us) <= n)%nat.
  Lemma count_uses us m a : count (apply_uses us m) a = (count m a + length (values_given (g_name a) us))%nat.
  Proof.
    unfold count, entry at 1. rewrite look_uses. unfold values_given. destruct (uses_of (g_name a) us) as [|u l] eqn:E.
    - cbn. unfold entry. destruct (look m (g_name a)) as [[k vs]|]; cbn; lia.
    - cbn [snd]. now rewrite app_length.
  Qed.
  Lemma fits_app us vs m : fits (us ++ vs) m -> fits us m /\ fits vs (apply_uses us m).
  Proof.
    intro H. split; intros a n Ha Ht Hn; specialize (H a n Ha Ht Hn); rewrite values_given_app, app_length in H; [lia|].
    rewrite count_uses. lia.
  Qed.
  Lemma values_given_one n vs : values_given n [(n, vs)] = vs.
  Proof.
    unfold values_given, uses_of. cbn [filter fst]. destruct (list_eq_dec N.eq_dec n n); [|congruence]. cbn. apply app_nil_r.
  Qed.
  Lemma count_update m a v : count (update m (g_name a) (add_val v)) a = S (count m a).
  Proof.
    unfold count at 1, entry at 1. rewrite look_update, text_eqb_refl. unfold add_val. cbn [snd]. rewrite app_length. cbn. unfold count. lia.
  Qed.

  Lemma needs_more_false m a : (1 <= count m a)%nat -> needs_more a m = false -> exists n, hi a = Some n /\ (n <= count m a)%nat.
  Proof.
    unfold needs_more, count, entry, hi. destruct (look m (g_name a)) as [[k vs]|]; [|discriminate]. cbn [snd]. intros Hc H.
    destruct (g_max a) as [n|].
    - apply negb_false_iff, Nat.ltb_lt in H. exists n. split; [reflexivity|lia].
    - destruct (g_min a); [discriminate|]. rewrite H. now exists 1%nat.
  Qed.
  (** What is needed after a word. *)
  Definition ready (us : list use) (more : bool) (m' : matches) (nd' : need) : Prop :=
    (forall a, nd' = Wants a -> In a args /\ g_takes a = true /\ exists us0 xs, us = us0 ++ [(g_name a, xs)]) /\
    (more = true -> exists a us0 xs, us = us0 ++ [(g_name a, xs)] /\ In a args /\ g_takes a = true /\
       (nd' = Wants a \/ exists n, hi a = Some n /\ (n <= count m' a)%nat)).
  Lemma ready_wants a m' xs : In a args -> g_takes a = true -> ready [(g_name a, xs)] true m' (Wants a).
  Proof.
    intros Ha Ht. split.
    - intros b Eb. injection Eb as <-. split; [assumption|]. split; [assumption|]. now exists [], xs.
    - intros _. exists a, [], xs. split; [reflexivity|]. split; [assumption|]. split; [assumption|]. now left.
  Qed.
  Lemma ready_done us m' nd' : (forall a, nd' <> Wants a) -> ready us false m' nd'.
  Proof. intro H. split; [intros a Ea; now destruct (H a)|discriminate]. Qed.
  Lemma ready_cons u us more m' nd' : ready us more m' nd' -> ready (u :: us) more m' nd'.
  Proof.
    intros [H1 H2]. split.
    - intros a Ea. destruct (H1 a Ea) as (G1 & G2 & us0 & xs & ->). split; [assumption|]. split; [assumption|]. now exists (u :: us0), xs.
    - intro Hm. destruct (H2 Hm) as (a & us0 & xs & -> & G). exists a, (u :: us0), xs. now split.
  Qed.
  Lemma trim_name n t : hd_error n <> Some 45 -> n <> [] -> forall k, trim_char 45 (repeat 45 k ++ n ++ t) = n ++ t.
  Proof. intros H1 H2 k. apply trim_char_repeat. destruct n; [congruence|assumption]. Qed.
  Lemma repeat_dashed2 k t : (2 <= k)%nat -> dashed2 (repeat 45 k ++ t) = true.
  Proof. destruct k as [|[|k]]; [lia|lia|reflexivity]. Qed.
  Lemma letters_head c cs us more : letters ds (c :: cs) us more -> c <> 45.
  Proof.
    assert (G : forall d, In d ds -> d_short d = Some c -> c <> 45).
    { intros d Hd Hc. apply in_map_iff in Hd. destruct Hd as (a & <- & Ha). now apply (p_short ap HP a). }
    intro H. inversion H as [|d' c' cs' us' more' [Hd _] Hc|d' c' [Hd _] Hc|d' c' x k v [Hd _] Hc]; subst; eauto.
  Qed.
  Lemma chars_complete cs us more : letters ds cs us more -> forall pre m, (forall c, In c pre -> find (by_short c) (opts ap) = None) ->
    exists nd', parse_chars ap (pre ++ cs) cs m = Parsed (nd', apply_uses us m) /\ ready us more (apply_uses us m) nd'.
  Proof.
    induction 1 as [|d c cs us more Hd Hc Hl IH|d c Hd Hc|d c x k v Hd Hc Hx Hv]; intros pre m Hpre; cbn [parse_chars].
    - exists AfterFlag. split; [reflexivity|]. now apply ready_done.
    - destruct (flag_inv d Hd) as (a & Ha & Ht & ->). destruct (find_short_flag a c Ha Ht Hc) as [E1 E2]. rewrite E1, E2, apply_flag.
      replace (pre ++ c :: cs) with ((pre ++ [c]) ++ cs) by now rewrite <- app_assoc.
      destruct (IH (pre ++ [c]) (apply_use m (g_name a, []))) as (nd' & G1 & G2).
      { intros y Hy. apply in_app_or in Hy. destruct Hy as [Hy|[<-|[]]]; [now apply Hpre|assumption]. }
      exists nd'. split; [exact G1|]. now apply ready_cons.
    - destruct (option_inv d Hd) as (a & Ha & Ht & ->). assert (E := find_short_opt a c Ha Ht Hc). rewrite E.
      rewrite after_first_app by (intro X; rewrite (Hpre c X) in E; discriminate). rewrite parse_opt_none. exists (Wants a). split; [reflexivity|].
      now apply ready_wants.
    - destruct (option_inv d Hd) as (a & Ha & Ht & ->). assert (E := find_short_opt a c Ha Ht Hc). rewrite E.
      rewrite after_first_app by (intro X; rewrite (Hpre c X) in E; discriminate).
      replace (parse_opt _ false a m) with (parse_opt (Some x) false a m) by (destruct x; [congruence|reflexivity]).
      rewrite parse_opt_some. destruct Hv as [Ex Hv]. assert (Et : trim_char 61 x = v) by (rewrite Ex; now apply trim_char_repeat).
      assert (Ee : eq_first x = negb (Nat.eqb k 0)).
      { rewrite Ex. destruct k as [|k]; [|reflexivity]. cbn [repeat app]. destruct v as [|e v]; [reflexivity|]. cbn [eq_first Nat.eqb negb].
        apply N.eqb_neq. intros ->. now apply Hv. }
      rewrite Et, Ee. cbn [orb]. rewrite negb_involutive. cbn [decl_of d_repeat d_name]. eexists. split; [reflexivity|].
      destruct (g_multiple a && (k =? 0)%nat) eqn:Em; cbn [andb]; [|now apply ready_done].
      unfold apply_uses. cbn [fold_left]. destruct (needs_more a _) eqn:En; [now apply ready_wants|]. split; [discriminate|]. intros _.
      exists a, [], [v]. split; [reflexivity|]. split; [assumption|]. split; [assumption|]. right. apply needs_more_false; [|assumption].
      change (1 <= count (apply_uses [(g_name a, [v])] m) a)%nat. rewrite count_uses, values_given_one. cbn. lia.
  Qed.
  Definition parse_dashed (w : text) (m : matches) : reply (need * matches) :=
    if dashed2 w then parse_long ap w m else if dashed w then parse_short ap w m else Refused.
  Lemma word_complete w us more : word_says ds w us more -> forall m, dashed w = true /\ w <> txt "--" /\
    exists nd', parse_dashed w m = Parsed (nd', apply_uses us m) /\ ready us more (apply_uses us m) nd'.
  Proof.
    assert (D : forall k t, (2 <= k)%nat -> dashed (repeat 45 k ++ t) = true) by (intros [|[|k]] t Hk; [lia|lia|reflexivity]).
    assert (L : forall k n t, (2 <= k)%nat -> n <> [] -> hd_error n <> Some 45 -> repeat 45 k ++ n ++ t <> txt "--").
    { intros [|[|[|k]]] n t Hk Hn Hh; [lia|lia| |].
      - destruct n as [|c n]; [congruence|]. intro X. discriminate X.
      - intro X. discriminate X. }
    intros H m. unfold parse_dashed.
    destruct H as [d k t Hd Hk Ht|d k Hd Hk|d k j x v Hd Hk Hv|cs us more Hne Hl].
    - destruct (flag_inv d Hd) as (a & Ha & Hf & ->). destruct (p_name ap HP a Ha) as (N1 & N2 & N3). cbn [decl_of d_name].
      split; [now apply D|]. split; [now apply L|]. rewrite repeat_dashed2 by assumption. unfold parse_long. rewrite trim_name by assumption.
      destruct (find_long_flag a Ha Hf) as [E1 E2].
      assert (E : fst (split_eq (g_name a ++ t)) = g_name a).
      { destruct Ht as [->|[x ->]]; [rewrite app_nil_r, split_eq_none by assumption|rewrite split_eq_some by assumption]; reflexivity. }
      destruct (split_eq (g_name a ++ t)) as [n v]. cbn [fst] in E. subst n. rewrite E1, E2, apply_flag. exists AfterFlag. split; [reflexivity|].
      now apply ready_done.
    - destruct (option_inv d Hd) as (a & Ha & Hf & ->). destruct (p_name ap HP a Ha) as (N1 & N2 & N3). cbn [decl_of d_name].
      assert (E0 : repeat 45 k ++ g_name a = repeat 45 k ++ g_name a ++ []) by now rewrite app_nil_r.
      rewrite !E0. split; [now apply D|]. split; [now apply L|]. rewrite repeat_dashed2 by assumption. unfold parse_long.
      rewrite trim_name by assumption. rewrite app_nil_r, split_eq_none by assumption. rewrite (find_long_opt a Ha Hf), parse_opt_none.
      exists (Wants a). split; [reflexivity|]. now apply ready_wants.
    - destruct (option_inv d Hd) as (a & Ha & Hf & ->). destruct (p_name ap HP a Ha) as (N1 & N2 & N3). cbn [decl_of d_name].
      split; [now apply D|]. split; [now apply L|]. rewrite repeat_dashed2 by assumption. unfold parse_long.
      rewrite trim_name by assumption. rewrite split_eq_some by assumption. rewrite (find_long_opt a Ha Hf), parse_opt_some. cbn [orb negb].
      rewrite andb_false_r. cbn [andb]. destruct Hv as [Ex Hv]. assert (Et : trim_char 61 x = v) by (rewrite Ex; now apply trim_char_repeat). rewrite Et.
      exists ValuesDone. split; [reflexivity|]. now apply ready_done.
    - destruct cs as [|c cs]; [congruence|]. assert (Hc := letters_head c cs us more Hl). split; [reflexivity|]. split.
      { intro X. injection X as X _. congruence. }
      assert (E2 : dashed2 (45 :: c :: cs) = false) by (cbn; now apply N.eqb_neq). rewrite E2. cbn [dashed]. rewrite N.eqb_refl. unfold parse_short.
      assert (E : trim_char 45 (45 :: c :: cs) = c :: cs) by (cbn [trim_char]; rewrite N.eqb_refl; apply N.eqb_neq in Hc; now rewrite Hc).
      rewrite E. apply (chars_complete (c :: cs) us more Hl [] m). intros y [].
  Qed.
  Lemma vals_complete vs : forall a m rest, Forall plain vs -> (forall n, hi a = Some n -> (count m a + length vs <= n)%nat) ->
    exists nd', parse_words ap false (Wants a) m (vs ++ rest) = parse_words ap false nd' (add_vals (g_name a) vs m) rest /\
      (forall b, nd' = Wants b -> b = a).
  Proof.
    induction vs as [|v vs IH]; intros a m rest Hp Hn.
    - exists (Wants a). split; [reflexivity|]. congruence.
    - inversion Hp as [|v0 vs0 Hv Hp']; subst. apply plain_dashed in Hv. cbn [app parse_words is_new_arg]. rewrite Hv. cbn [andb negb].
      unfold add_val_to_arg. rewrite <- add_vals_cons. destruct (needs_more a _) eqn:En.
      + apply IH; [assumption|]. intros n E. specialize (Hn n E). rewrite count_update. cbn [length] in Hn. lia.
      + apply needs_more_false in En; [|rewrite count_update; lia]. destruct En as (n & E & Hle). specialize (Hn n E). rewrite count_update in Hle.
        destruct vs; [|cbn [length] in Hn; lia]. exists ValuesDone. split; [reflexivity|discriminate].
  Qed.
  Lemma words_complete us ws : written ds us ws -> forall nd m, fits us m ->
    exists nd', parse_words ap false nd m ws = Parsed (nd', apply_uses us m) /\
      forall a, nd' = Wants a -> (nd = Wants a /\ us = []) \/ (In a args /\ g_takes a = true /\ used (g_name a) us).
  Proof.
    induction 1 as [| |w us more vs us1 us2 ws Hw Hp Hm He Hws IH]; intros nd m Hfit.
    - exists nd. split; [reflexivity|]. intros a ->. now left.
    - exists nd. split; [destruct nd; reflexivity|]. intros a ->. now left.
    - destruct (word_complete w us more Hw m) as (Hd & Hne & nd1 & Hps & R1 & R2). apply fits_app in Hfit. destruct Hfit as [F1 F2].
      cbn [parse_words]. assert (Hnew : is_new_arg nd w = true) by (destruct nd; [assumption|reflexivity|assumption]). rewrite Hnew.
      rewrite text_eqb_neq by assumption. cbn [andb negb]. fold (parse_dashed w m). rewrite Hps.
      assert (Hx : exists nd2, parse_words ap false nd1 (apply_uses us m) (vs ++ ws) = parse_words ap false nd2 (apply_uses us1 m) ws /\
                 forall a, nd2 = Wants a -> In a args /\ g_takes a = true /\ used (g_name a) us1).
      { destruct He as [[-> ->]|(us0 & n & xs & -> & ->)].
        - exists nd1. split; [reflexivity|]. intros a Ea. destruct (R1 a Ea) as (G1 & G2 & us0 & xs & ->). split; [assumption|]. split; [assumption|].
          exists xs. apply in_or_app. right. now left.
        - destruct vs as [|v vs].
          + exists nd1. rewrite app_nil_r. split; [reflexivity|]. intros a Ea. destruct (R1 a Ea) as (G1 & G2 & us3 & ys & E). split; [assumption|].
            split; [assumption|]. rewrite E. exists ys. apply in_or_app. right. now left.
          + destruct Hm as [Hm|Hm]; [discriminate|]. destruct (R2 Hm) as (a & us3 & ys & E & Ha & Ht & Hr). apply app_inj_tail in E. destruct E as [<- E].
            injection E as -> <-. assert (Hcap : forall k, hi a = Some k -> (count (apply_uses (us0 ++ [(g_name a, xs)]) m) a + length (v :: vs) <= k)%nat).
            { intros k Ek. specialize (F1 a k Ha Ht Ek). rewrite count_uses. rewrite !values_given_app, !values_given_one, !app_length in *. lia. }
            destruct Hr as [->|(k & Ek & Hk)]; [|specialize (Hcap k Ek); cbn [length] in Hcap; lia].
            destruct (vals_complete (v :: vs) a (apply_uses (us0 ++ [(g_name a, xs)]) m) ws Hp Hcap) as (nd2 & G1 & G2). exists nd2.
            rewrite add_vals_uses in G1. split; [exact G1|]. intros b Eb. apply G2 in Eb. subst b. split; [assumption|]. split; [assumption|].
            exists (xs ++ v :: vs). apply in_or_app. right. now left. }
      destruct Hx as (nd2 & G1 & G2). rewrite G1. destruct (IH nd2 (apply_uses us1 m) F2) as (nd' & K1 & K2). exists nd'. split.
      + rewrite K1. unfold apply_uses. now rewrite fold_left_app.
      + intros a Ea. right. destruct (K2 a Ea) as [[E _]|(X1 & X2 & ys & X3)].
        * destruct (G2 a E) as (X1 & X2 & ys & X3). split; [assumption|]. split; [assumption|]. exists ys. apply in_or_app. now left.
        * split; [assumption|]. split; [assumption|]. exists ys. apply in_or_app. now right.
  Qed.

  (** ** Defaults *)
  Definition defaulted (fill : bool) (a : arg) (x : option (nat * list text)) : option (nat * list text) :=
    match g_default a with
    | None => x
    | Some d => match x with
                | None => Some (O, [d])
                | Some (k, []) => if fill then Some (k, [d]) else x
                | _ => x
                end
    end.
  Lemma look_add_default fill m a n : look (add_default fill m a) n = if text_eqb (g_name a) n then defaulted fill a (look m n) else look m n.
  Proof.
    unfold add_default, defaulted. destruct (text_eqb (g_name a) n) eqn:E.
    - apply text_eqb_spec in E. subst n. destruct (g_default a) as [d|]; [|reflexivity].
      destruct (look m (g_name a)) as [[k [|v vs]]|] eqn:El.
      + destruct fill; [|assumption]. rewrite look_update, text_eqb_refl. unfold entry. rewrite El. reflexivity.
      + assumption.
      + rewrite look_update, text_eqb_refl. unfold entry. rewrite El. reflexivity.
    - destruct (g_default a) as [d|]; [|reflexivity]. destruct (look m (g_name a)) as [[k [|v vs]]|]; [destruct fill| |]; rewrite ?look_update, ?E; reflexivity.
  Qed.
  Lemma look_add_defaults_list fill l : NoDup (map g_name l) -> forall m n,
    (forall a, In a l -> g_name a = n -> look (fold_left (add_default fill) l m) n = defaulted fill a (look m n)) /\
    (~ In n (map g_name l) -> look (fold_left (add_default fill) l m) n = look m n).
  Proof.
    induction l as [|b l IH]; intros Hnd m n; cbn [map] in *.
    - split; [intros a []|reflexivity].
    - inversion Hnd as [|x y Hx Hl]; subst. cbn [fold_left]. destruct (IH Hl (add_default fill m b) n) as [G1 G2]. split.
      + intros a [->|Ha] En.
        * rewrite G2 by now rewrite <- En. now rewrite look_add_default, En, text_eqb_refl.
        * rewrite (G1 a Ha En), look_add_default. rewrite text_eqb_neq; [reflexivity|]. intro X. apply Hx. rewrite X, <- En. now apply in_map.
      + intro Hn. rewrite G2 by (intro X; apply Hn; now right). rewrite look_add_default, text_eqb_neq; [reflexivity|]. intro X. apply Hn. now left.
  Qed.
  Lemma NoDup_filter_map {A B} (f : A -> B) p l : NoDup (map f l) -> NoDup (map f (filter p l)).
  Proof.
    induction l as [|x l IH]; intro H; [assumption|]. cbn [map] in H. inversion H as [|y t Hx Hl]; subst. cbn [filter]. destruct (p x); [|now apply IH].
    cbn [map]. constructor; [|now apply IH]. intro Hin. apply Hx. apply in_map_iff in Hin. destruct Hin as (z & Ez & Hz). apply filter_In in Hz.
    apply in_map_iff. now exists z.
  Qed.
  Lemma look_add_defaults fill m a : In a args -> look (add_defaults ap fill m) (g_name a) = defaulted fill a (look m (g_name a)).
  Proof.
    intro Ha. unfold add_defaults. destruct (look_add_defaults_list fill (opts ap) (NoDup_filter_map _ _ _ (p_nodup ap HP)) m (g_name a)) as [G1 G2].
    destruct (g_takes a) eqn:Ht.
    - apply G1; [now apply in_opts|reflexivity].
    - rewrite G2.
      + unfold defaulted. destruct (g_default a) eqn:Ed; [|reflexivity]. destruct (p_default ap HP a Ha) as [X _]; congruence.
      + intro X. apply in_map_iff in X. destruct X as (b & En & Hb). apply in_opts in Hb. destruct Hb as [Hb Hb2].
        apply (p_names ap HP b a Hb Ha) in En. congruence.
  Qed.
  Lemma used_dec n us : used n us \/ ~ used n us.
  Proof. rewrite <- uses_of_used. destruct (uses_of n us); [right; congruence|left; discriminate]. Qed.
  Lemma not_used_uses n us : ~ used n us -> uses_of n us = [].
  Proof. rewrite <- uses_of_used. destruct (uses_of n us); [reflexivity|]. intro H. exfalso. apply H. discriminate. Qed.
  Lemma not_used_values n us : ~ used n us -> values_given n us = [].
  Proof. intro H. unfold values_given. now rewrite not_used_uses. Qed.
  (** What is looked up after the whole line. *)
  Lemma look_final fill us a : In a args -> look (add_defaults ap fill (apply_uses us [])) (g_name a) =
    match uses_of (g_name a) us, g_default a with
    | [], None => None
    | l, _ => Some (length l, ends_with_values fill (decl_of a) us)
    end.
  Proof.
    intro Ha. rewrite look_add_defaults by assumption. rewrite look_uses. cbn [look]. unfold entry. cbn [look fst snd app]. unfold ends_with_values, defaulted.
    cbn [decl_of d_name d_default]. unfold values_given. destruct (uses_of (g_name a) us) as [|u l] eqn:E; cbn [map concat].
    - destruct (g_default a); reflexivity.
    - cbn [plus]. destruct (snd u ++ concat (map snd l)); destruct (g_default a); try reflexivity. destruct fill; reflexivity.
  Qed.
  Lemma final_understood fill us : forall a, In a args ->
    let m := add_defaults ap fill (apply_uses us []) in
    (used (g_name a) us \/ g_default a <> None -> values_of m (g_name a) = Some (ends_with_values fill (decl_of a) us)) /\
    (~ used (g_name a) us -> g_default a = None -> values_of m (g_name a) = None).
  Proof.
    intros a Ha m. unfold values_of, m. rewrite look_final by assumption. rewrite <- uses_of_used.
    destruct (uses_of (g_name a) us) as [|u l], (g_default a); split; intros; try reflexivity; try congruence.
    - destruct H; congruence.
    - exfalso. apply H. discriminate.
  Qed.

  (** ** Validation *)
  Lemma ends_length fill d us : (length (ends_with_values fill d us) <= Nat.max 1 (length (values_given (d_name d) us)))%nat.
  Proof.
    unfold ends_with_values. destruct (values_given (d_name d) us) as [|v vs]; [|lia]. destruct (d_default d); [|cbn; lia].
    destruct (uses_of (d_name d) us); [cbn; lia|]. destruct fill; cbn; lia.
  Qed.
  Lemma ends_length2 fill d us : (length (values_given (d_name d) us) <= length (ends_with_values fill d us))%nat.
  Proof. unfold ends_with_values. destruct (values_given (d_name d) us) as [|v vs]; [cbn; lia|]. reflexivity. Qed.
  Definition arg_allowed (fill : bool) (a : arg) (us : list use) : Prop :=
    used (g_name a) us -> enough (d_values (decl_of a)) (length (ends_with_values fill (decl_of a) us)) /\
      (g_multiple a = false -> length (uses_of (g_name a) us) = 1%nat).
  Lemma valid_arg_iff fill us a : In a args ->
    (brief us -> valid_arg (add_defaults ap fill (apply_uses us [])) a = true -> arg_allowed fill a us) /\
    (arg_allowed fill a us -> valid_arg (add_defaults ap fill (apply_uses us [])) a = true).
  Proof.
    intro Ha. unfold valid_arg, arg_allowed. rewrite look_final by assumption. split.
    - intros Hb H Hu. apply uses_of_used in Hu. destruct (uses_of (g_name a) us) as [|u l] eqn:El; [congruence|].
      assert (H' : (if g_takes a
        then match g_max a with Some n => (length (ends_with_values fill (decl_of a) us) <=? n)%nat | None => true end &&
             match g_min a with Some n => (n <=? length (ends_with_values fill (decl_of a) us))%nat | None => true end &&
             match ends_with_values fill (decl_of a) us with [] => match g_min a with Some O => true | _ => false end | _ => true end
        else true) && ((length (u :: l) <=? 1)%nat || g_multiple a) = true) by (destruct (g_default a); exact H).
      clear H. apply andb_true_iff in H'. destruct H' as [H1 H2].
      assert (Hr : g_multiple a = false -> length (u :: l) = 1%nat).
      { intro Em. rewrite Em, orb_false_r in H2. apply Nat.leb_le in H2. cbn [length] in *. lia. }
      split; [|exact Hr]. cbn [decl_of d_values]. destruct (g_takes a) eqn:Ht; [|exact I]. rewrite !andb_true_iff in H1. destruct H1 as [[K1 K2] K3].
      cbn [enough]. assert (Hpos : (1 <= length (ends_with_values fill (decl_of a) us))%nat).
      { destruct (ends_with_values fill (decl_of a) us); [|cbn; lia]. destruct (g_min a) as [[|n]|] eqn:Em; try discriminate.
        exfalso. now apply (p_min ap HP a Ha). }
      split.
      + unfold lo. destruct (g_min a); [now apply Nat.leb_le|assumption].
      + unfold hi. destruct (g_max a) as [n|] eqn:Emax; [now apply Nat.leb_le|]. destruct (g_min a) eqn:Emin; [exact I|].
        destruct (g_multiple a) eqn:Emu; [exact I|]. specialize (Hr eq_refl). destruct l; [|discriminate].
        eapply Nat.le_trans; [apply ends_length|]. cbn [decl_of d_name]. unfold values_given. rewrite El. cbn [map concat]. rewrite app_nil_r.
        assert (Hin : In u (uses_of (g_name a) us)) by (rewrite El; now left). apply filter_In in Hin. destruct Hin as [Hin En].
        destruct u as [n vs]. cbn [fst snd] in *. destruct (list_eq_dec N.eq_dec n (g_name a)) as [->|]; [|discriminate].
        assert (length vs <= 1)%nat by (apply (Hb a vs Ha); [now split|assumption]). lia.
    - intro H. destruct (used_dec (g_name a) us) as [Hu|Hu].
      + destruct (H Hu) as [H1 H2]. apply uses_of_used in Hu. destruct (uses_of (g_name a) us) as [|u l] eqn:El; [congruence|].
        assert (G : (if g_takes a
        then match g_max a with Some n => (length (ends_with_values fill (decl_of a) us) <=? n)%nat | None => true end &&
             match g_min a with Some n => (n <=? length (ends_with_values fill (decl_of a) us))%nat | None => true end &&
             match ends_with_values fill (decl_of a) us with [] => match g_min a with Some O => true | _ => false end | _ => true end
        else true) && ((length (u :: l) <=? 1)%nat || g_multiple a) = true); [|destruct (g_default a); exact G].
        apply andb_true_iff. split.
        * cbn [decl_of d_values] in H1. destruct (g_takes a); [|reflexivity]. cbn [enough] in H1. destruct H1 as [K1 K2]. rewrite !andb_true_iff.
          assert (Hm0 := p_min ap HP a Ha). split; [split|].
          -- unfold hi in K2. destruct (g_max a); [now apply Nat.leb_le|reflexivity].
          -- unfold lo in K1. destruct (g_min a); [now apply Nat.leb_le|reflexivity].
          -- unfold lo in K1. destruct (ends_with_values fill (decl_of a) us); [|reflexivity]. cbn [length] in K1.
             destruct (g_min a) as [[|n]|]; [reflexivity|lia|lia].
        * destruct (g_multiple a); [apply orb_true_r|]. rewrite orb_false_r. rewrite H2 by reflexivity. reflexivity.
      + assert (Eu := not_used_uses _ _ Hu). rewrite Eu. destruct (g_default a) as [d|] eqn:Ed; [|reflexivity].
        destruct (p_default ap HP a Ha) as (Ht & Hlo & Hhi); [congruence|]. rewrite Ht. cbn [length Nat.leb orb]. rewrite andb_true_r.
        assert (Ee : ends_with_values fill (decl_of a) us = [d]).
        { unfold ends_with_values. cbn [decl_of d_name d_default]. now rewrite not_used_values, Ed, Eu by assumption. }
        rewrite Ee. cbn [length]. unfold lo in Hlo. unfold hi in Hhi. rewrite andb_true_r, andb_true_iff. split.
        * destruct (g_max a) as [n|]; [apply Nat.leb_le; now apply Hhi|reflexivity].
        * destruct (g_min a); [now apply Nat.leb_le|reflexivity].
  Qed.
  Lemma is_present_final fill us a : In a args ->
    (is_present (add_defaults ap fill (apply_uses us [])) (g_name a) = true <-> used (g_name a) us \/ g_default a <> None).
  Proof.
    intro Ha. unfold is_present. rewrite look_final by assumption. rewrite <- uses_of_used.
    destruct (uses_of (g_name a) us), (g_default a); split; intros; try reflexivity; try discriminate; try (now left); try (now right).
    destruct H; congruence.
  Qed.
  Lemma length_filter_one {A} (p : A -> bool) l : NoDup l ->
    (length (filter p l) = 1%nat <-> exists x, In x l /\ p x = true /\ forall y, In y l -> p y = true -> y = x).
  Proof.
    intro Hnd. split.
    - intro H. destruct (filter p l) as [|x [|y t]] eqn:E; try discriminate. assert (Hx : In x (filter p l)) by (rewrite E; now left).
      exists x. apply filter_In in Hx. destruct Hx as [H1 H2]. split; [assumption|]. split; [assumption|]. intros y Hy Hp.
      assert (Hin : In y (filter p l)) by now apply filter_In. rewrite E in Hin. now destruct Hin as [Hin|[]].
    - intros (x & Hx & Hp & Hu). assert (Hf := NoDup_filter p Hnd). assert (Hin : In x (filter p l)) by now apply filter_In.
      destruct (filter p l) as [|a [|b t]] eqn:E; [destruct Hin|reflexivity|]. exfalso.
      assert (G : forall y, In y (a :: b :: t) -> y = x) by (intros y Hy; rewrite <- E in Hy; apply filter_In in Hy; now apply Hu).
      inversion Hf as [|q r Hq _]; subst. apply Hq. left. transitivity x; [apply G; right; now left|symmetry; apply G; now left].
  Qed.
  Lemma valid_group_iff fill us : valid_group ap (add_defaults ap fill (apply_uses us [])) = true <->
    forall ns, app_group ap = Some ns -> exists n, In n ns /\ used n us /\ forall k, In k ns -> used k us -> k = n.
  Proof.
    unfold valid_group. destruct (app_group ap) as [ns|] eqn:Eg; [|split; [discriminate|reflexivity]].
    destruct (p_group ap HP ns Eg) as (_ & Hnd & Hd). rewrite Nat.eqb_eq, (length_filter_one _ _ Hnd).
    assert (K : forall n, In n ns -> (is_present (add_defaults ap fill (apply_uses us [])) n = true <-> used n us)).
    { intros n Hn. destruct (Hd n Hn) as (a & Ha & <- & Ed). rewrite is_present_final by assumption. split; [intros [H|H]; congruence|now left]. }
    split.
    - intros (n & Hn & Hp & Hu) ns' E. injection E as <-. exists n. split; [assumption|]. split; [now apply (K n Hn)|]. intros k Hk Huk. apply Hu; [assumption|]. now apply (K k Hk).
    - intro H. destruct (H ns eq_refl) as (n & Hn & Hp & Hu). exists n. split; [assumption|]. split; [now apply (K n Hn)|]. intros k Hk Hpk. apply Hu; [assumption|]. now apply (K k Hk).
  Qed.
  Lemma valid_required_iff fill us a : In a args -> (valid_required (add_defaults ap fill (apply_uses us [])) a = true <->
    (g_required a = true -> g_default a = None -> used (g_name a) us)).
  Proof.
    intro Ha. unfold valid_required. rewrite orb_true_iff, negb_true_iff, is_present_final by assumption. destruct (g_required a).
    - split.
      + intros [X|[X|X]]; [discriminate|now intros|congruence].
      + intro H. destruct (g_default a); [right; right; discriminate|]. right. left. now apply H.
    - split; [discriminate|now left].
  Qed.

  (** ** The command line and the help text *)
  Variable mn : manual.
  Hypothesis HM : declares ap mn.
  Lemma group_manual us : (forall ns, app_group ap = Some ns -> exists n, In n ns /\ used n us /\ forall k, In k ns -> used k us -> k = n) <->
    (one_of mn <> [] -> exists n, In n (one_of mn) /\ used n us /\ forall k, In k (one_of mn) -> used k us -> k = n).
  Proof.
    destruct HM as [_ ->]. destruct (app_group ap) as [ns|] eqn:E; split; intro H.
    - intros _. now apply H.
    - intros ns' E'. injection E' as <-. apply H. now apply (p_group ap HP).
    - congruence.
    - discriminate.
  Qed.
  Lemma get_matches_sound fill ws m : get_matches ap fill ws = Parsed m ->
    exists us, written (decls mn) us ws /\ allowed fill mn us /\ understood fill mn us (values_of m).
  Proof.
    unfold get_matches. destruct (parse_words ap false AfterFlag [] ws) as [[nd m0]| |] eqn:E; try discriminate.
    apply words_sound in E; [|discriminate]. destruct E as (vs & ws' & us & -> & _ & Hvs & Hw & -> & Hb & _).
    destruct Hvs as [->|(a & X)]; [|discriminate]. cbn [app carried]. destruct (valid ap nd _) eqn:Ev; [|discriminate]. intro X. injection X as <-.
    unfold valid in Ev. rewrite !andb_true_iff, !forallb_forall in Ev. destruct Ev as [[[_ V1] V2] V3].
    exists us. destruct HM as [Hds Hone]. split; [now rewrite Hds|]. split; [split; [|split]|].
    - intros d Hd Hu. rewrite Hds in Hd. apply in_map_iff in Hd. destruct Hd as (a & <- & Ha). specialize (V3 a Ha).
      now apply (proj1 (valid_arg_iff fill us a Ha)).
    - intros d Hd Hr Hdef. rewrite Hds in Hd. apply in_map_iff in Hd. destruct Hd as (a & <- & Ha). specialize (V2 a Ha).
      now apply (proj1 (valid_required_iff fill us a Ha)).
    - apply (proj1 (group_manual us)). now apply (proj1 (valid_group_iff fill us)).
    - intros d Hd. rewrite Hds in Hd. apply in_map_iff in Hd. destruct Hd as (a & <- & Ha). now apply final_understood.
  Qed.
  Lemma get_matches_complete fill us ws : written (decls mn) us ws -> allowed fill mn us ->
    exists m, get_matches ap fill ws = Parsed m /\ understood fill mn us (values_of m).
  Proof.
    intros Hw (A1 & A2 & A3). destruct HM as [Hds Hone]. rewrite Hds in Hw, A1, A2.
    assert (Hall : forall a, In a args -> arg_allowed fill a us) by (intros a Ha Hu; now apply (A1 (decl_of a) (in_map decl_of _ _ Ha))).
    assert (Hfit : fits us []).
    { intros a n Ha Ht Hn. cbn [count]. change (count [] a) with O. cbn [plus]. destruct (used_dec (g_name a) us) as [Hu|Hu].
      - destruct (Hall a Ha Hu) as [He _]. cbn [decl_of d_values] in He. rewrite Ht, Hn in He. cbn [enough] in He.
        assert (X := ends_length2 fill (decl_of a) us). cbn [decl_of d_name] in X. unfold decl_of in He. destruct He as [_ He].
        eapply Nat.le_trans; [exact X|exact He].
      - rewrite not_used_values by assumption. cbn. lia. }
    destruct (words_complete us ws Hw AfterFlag [] Hfit) as (nd & E & Hnd). unfold get_matches. rewrite E.
    set (m := add_defaults ap fill (apply_uses us [])). assert (Hv : valid ap nd m = true).
    { assert (V3 : forall a, In a args -> valid_arg m a = true) by (intros a Ha; apply (proj2 (valid_arg_iff fill us a Ha)); now apply Hall).
      unfold valid. rewrite !andb_true_iff, !forallb_forall. split; [split; [split|]|].
      - destruct nd as [a| |]; try reflexivity. destruct (Hnd a eq_refl) as [[X _]|(Ha & Ht & Hu)]; [discriminate|].
        specialize (V3 a Ha). unfold valid_arg in V3. unfold m in *. rewrite look_final in * by assumption.
        apply uses_of_used in Hu. destruct (uses_of (g_name a) us) as [|u l] eqn:El; [congruence|]. rewrite Ht in V3.
        destruct (ends_with_values fill (decl_of a) us); [|destruct (g_default a); reflexivity].
        destruct (g_default a); cbn iota in V3; rewrite !andb_true_iff in V3; apply V3.
      - apply (proj2 (valid_group_iff fill us)). now apply (proj2 (group_manual us)).
      - intros a Ha. apply (proj2 (valid_required_iff fill us a Ha)). intros Hr Hd. now apply (A2 (decl_of a) (in_map decl_of _ _ Ha)).
      - exact V3. }
    rewrite Hv. exists m. split; [reflexivity|]. intros d Hd. rewrite Hds in Hd. apply in_map_iff in Hd. destruct Hd as (a & <- & Ha). now apply final_understood.
  Qed.
End Parse.
