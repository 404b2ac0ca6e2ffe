(** * Facts about Place.v: a graph in a tree of files is the four paths of Store.v *)
From Coq Require Import String.
From Coq Require Import List NArith Bool Lia.
From Verif Require Import Base Graph Text Format Store Cli Place.
Import ListNotations.

(** ** What it means *)
(** A file system: the top is a directory, and what exists is in a directory. *)
Definition sane (t : tree) : Prop := t [] = ADir /\ forall p n, t (p ++ [n]) <> Nothing -> t p = ADir.
(** No part of the path is a file. *)
Definition usable (root : place) (t : tree) : Prop := forall a b, root = a ++ b -> forall c, t a <> AFile c.
(** The paths that belong to the graph at [root]: its lock, and its graph directory with all in it. *)
Definition own (root p : place) : Prop := p = root ++ [txt "lock"] \/ exists q, p = root ++ txt ".graph" :: q.
(** Nothing changed but what belongs to the graph; at most, missing directories of the path were made. *)
Definition only_own (root : place) (t t' : tree) : Prop := forall p, ~ own root p ->
  t' p = t p \/ (t p = Nothing /\ t' p = ADir /\ exists q, root = p ++ q).
(** Neither graph is inside the lock or the graph directory of the other. *)
Definition apart (r1 r2 : place) : Prop := r1 <> r2 /\
  forall q, r1 <> r2 ++ txt "lock" :: q /\ r1 <> r2 ++ txt ".graph" :: q /\
            r2 <> r1 ++ txt "lock" :: q /\ r2 <> r1 ++ txt ".graph" :: q.

(** What Store.v sees of the tree. *)
Definition entry_of (n : node) : entry := match n with Nothing => Absent | AFile c => File c | ADir => Directory end.
Definition view (root : place) (t : tree) : fs :=
  {| fs_root := is_dir t root;
     fs_lock := entry_of (t (root ++ [txt "lock"]));
     fs_graph := match t (root ++ [txt ".graph"]) with
                 | Nothing => NoGraph
                 | AFile _ => NotADir
                 | ADir => GraphDir (entry_of (t (root ++ [txt ".graph"; txt "commands"])))
                 end |}.
Definition good (root : place) (t : tree) : Prop := sane t /\ usable root t.

(** ** Paths *)
Lemma put_same p n t : put p n t p = n.
Proof. unfold put. now destruct (place_dec p p). Qed.
Lemma put_other p n t q : q <> p -> put p n t q = t q.
Proof. intro D. unfold put. now destruct (place_dec q p). Qed.
Lemma app_self A (a q : list A) : a = a ++ q -> q = [].
Proof. intro E. apply (f_equal (@length A)) in E. rewrite app_length in E. destruct q; [reflexivity|cbn in E; lia]. Qed.
Lemma prefix_split A (a b c d : list A) : a ++ b = c ++ d -> (exists m, c = a ++ m /\ b = m ++ d) \/ (exists m, a = c ++ m /\ d = m ++ b).
Proof.
  revert c. induction a as [|x a IH]; intros c E.
  - left. exists c. now split.
  - destruct c as [|y c].
    + right. exists (x :: a). cbn in E. now split.
    + injection E as -> E. destruct (IH _ E) as [(m & -> & ->)|(m & -> & ->)].
      * left. exists m. now split.
      * right. exists m. now split.
Qed.
Lemma prefix_not_own root a b : root = a ++ b -> ~ own root a.
Proof.
  intros E [O|(q & O)]; rewrite O in E; apply (f_equal (@length _)) in E; rewrite !app_length in E; cbn [length] in E; lia.
Qed.
Lemma below_spec p q : below p q = true <-> exists r, q = p ++ r.
Proof.
  revert q. induction p as [|x p IH]; intro q; cbn [below].
  - split; [intros _; now exists q|easy].
  - destruct q as [|y q].
    + split; [discriminate|]. intros (r & [=]).
    + destruct (list_eq_dec N.eq_dec x y) as [->|D]; cbn [andb].
      * rewrite IH. split; intros (r & E); exists r; [now rewrite E|now injection E].
      * split; [discriminate|]. intros (r & E). injection E as E _. congruence.
Qed.
Lemma sane_above t p q : sane t -> t (p ++ q) <> Nothing -> q <> [] -> t p = ADir.
Proof.
  intros S0. revert p. induction q as [|x q IH]; intros p H D; [congruence|].
  destruct q as [|y q].
  - exact (proj2 S0 _ _ H).
  - apply (proj2 S0 p x). rewrite (IH (p ++ [x])); [discriminate| |discriminate].
    now rewrite <- app_assoc.
Qed.

(** ** Making directories *)
Lemma put_dir_sane t p n : sane t -> t p = ADir -> t (p ++ [n]) = Nothing -> sane (put (p ++ [n]) ADir t).
Proof.
  intros (S1 & S2) Hp Hn. split.
  - rewrite put_other; [assumption|now destruct p].
  - intros q m H. destruct (place_dec q (p ++ [n])) as [->|D]; [apply put_same|].
    rewrite put_other by assumption. destruct (place_dec (q ++ [m]) (p ++ [n])) as [E|D'].
    + apply app_inj_tail in E as (-> & _). assumption.
    + rewrite put_other in H by assumption. exact (S2 _ _ H).
Qed.
Lemma make_dirs_only t above names : sane t -> t above = ADir ->
  sane (make_dirs above names t) /\
  forall p, make_dirs above names t p = t p \/
    (t p = Nothing /\ make_dirs above names t p = ADir /\ exists a b, names = a ++ b /\ p = above ++ a).
Proof.
  revert above t. induction names as [|n rest IH]; intros above t S0 Ha; cbn [make_dirs].
  - split; [assumption|]. now left.
  - destruct (t (above ++ [n])) as [|c|] eqn:E.
    + destruct (IH (above ++ [n]) (put (above ++ [n]) ADir t)) as (S1 & F).
      * now apply put_dir_sane.
      * apply put_same.
      * split; [assumption|]. intro p. destruct (place_dec p (above ++ [n])) as [->|D].
        -- right. split; [assumption|]. split.
           ++ destruct (F (above ++ [n])) as [F1|(F1 & _)]; rewrite put_same in F1; [assumption|discriminate].
           ++ exists [n], rest. now split.
        -- destruct (F p) as [F1|(F1 & F2 & a & b & F3 & F4)]; rewrite put_other in F1 by assumption.
           ++ now left.
           ++ right. repeat split; try assumption. exists (n :: a), b. split; [now rewrite F3|].
              now rewrite F4, <- app_assoc.
    + split; [assumption|]. now left.
    + destruct (IH (above ++ [n]) t S0 E) as (S1 & F). split; [assumption|]. intro p.
      destruct (F p) as [F1|(F1 & F2 & a & b & F3 & F4)]; [now left|].
      right. repeat split; try assumption. exists (n :: a), b. split; [now rewrite F3|].
      now rewrite F4, <- app_assoc.
Qed.
Lemma make_dirs_all t above names : sane t -> t above = ADir ->
  (forall a b, names = a ++ b -> forall c, t (above ++ a) <> AFile c) -> make_dirs above names t (above ++ names) = ADir.
Proof.
  revert above t. induction names as [|n rest IH]; intros above t S0 Ha U; cbn [make_dirs].
  - now rewrite app_nil_r.
  - destruct (t (above ++ [n])) as [|c|] eqn:E.
    + replace (above ++ n :: rest) with ((above ++ [n]) ++ rest) by now rewrite <- app_assoc.
      apply IH; [now apply put_dir_sane|apply put_same|].
      intros a b Er c. destruct (place_dec ((above ++ [n]) ++ a) (above ++ [n])) as [->|D]; [now rewrite put_same|].
      rewrite put_other, <- app_assoc by assumption. apply (U (n :: a) b). now rewrite Er.
    + exfalso. exact (U [n] rest eq_refl c E).
    + replace (above ++ n :: rest) with ((above ++ [n]) ++ rest) by now rewrite <- app_assoc.
      apply IH; [assumption..|]. intros a b Er c. rewrite <- app_assoc. apply (U (n :: a) b). now rewrite Er.
Qed.
Lemma make_dirs_app t above a b : sane t -> t above = ADir ->
  (forall x y, a = x ++ y -> forall c, t (above ++ x) <> AFile c) ->
  make_dirs above (a ++ b) t = make_dirs (above ++ a) b (make_dirs above a t).
Proof.
  revert above t. induction a as [|n rest IH]; intros above t S0 Ha U; cbn [make_dirs app].
  - now rewrite app_nil_r.
  - destruct (t (above ++ [n])) as [|c|] eqn:E.
    + replace (above ++ n :: rest) with ((above ++ [n]) ++ rest) by now rewrite <- app_assoc.
      apply IH; [now apply put_dir_sane|apply put_same|].
      intros x y Er c. destruct (place_dec ((above ++ [n]) ++ x) (above ++ [n])) as [->|D]; [now rewrite put_same|].
      rewrite put_other, <- app_assoc by assumption. apply (U (n :: x) y). now rewrite Er.
    + exfalso. exact (U [n] rest eq_refl c E).
    + replace (above ++ n :: rest) with ((above ++ [n]) ++ rest) by now rewrite <- app_assoc.
      apply IH; [assumption..|]. intros x y Er c. rewrite <- app_assoc. apply (U (n :: x) y). now rewrite Er.
Qed.

(** ** Steps *)
Lemma only_own_refl root t : only_own root t t.
Proof. intros p _. now left. Qed.
Lemma only_own_trans root t1 t2 t3 : only_own root t1 t2 -> only_own root t2 t3 -> only_own root t1 t3.
Proof.
  intros A B p O. destruct (A p O) as [E1|(E1 & E2 & Q)], (B p O) as [F1|(F1 & F2 & Q')].
  - left. congruence.
  - right. split; [congruence|]. now split.
  - right. split; [congruence|]. split; [congruence|assumption].
  - congruence.
Qed.
Lemma usable_kept root t t' : usable root t -> only_own root t t' -> usable root t'.
Proof.
  intros U F a b E c H. destruct (F a (prefix_not_own _ _ _ E)) as [G|(_ & G & _)].
  - rewrite G in H. exact (U a b E c H).
  - congruence.
Qed.
Definition step_ok (root : place) (u : tree -> tree) (v : fs -> fs) : Prop :=
  forall t, good root t -> sane (u t) /\ only_own root t (u t) /\ view root (u t) = v (view root t).
Lemma step_good root u v t : step_ok root u v -> good root t -> good root (u t).
Proof. intros O G. destruct (O t G) as (A & B & _). split; [assumption|]. exact (usable_kept _ _ _ (proj2 G) B). Qed.

Lemma lock_ne_root root : root ++ [txt "lock"] <> root.
Proof. intro E. symmetry in E. apply app_self in E. discriminate. Qed.
Lemma path_len (root : place) a b : length a <> length b -> root ++ a <> root ++ b.
Proof. intros D E. apply app_inv_head in E. now rewrite E in D. Qed.
Lemma lock_ne_graph root q : root ++ [txt "lock"] <> root ++ txt ".graph" :: q.
Proof. intro E. apply app_inv_head in E. discriminate. Qed.
Lemma own_lock root : own root (root ++ [txt "lock"]). Proof. now left. Qed.
Lemma own_graph root q : own root (root ++ txt ".graph" :: q). Proof. right. now exists q. Qed.

Lemma removelast_two (root : place) a b : removelast (root ++ [a; b]) = root ++ [a].
Proof. replace (root ++ [a; b]) with ((root ++ [a]) ++ [b]) by now rewrite <- app_assoc. apply removelast_last. Qed.
Ltac dir E := match type of E with ?t ?p = ?n =>
  let b := (eval cbv iota in (match n with ADir => true | _ => false end)) in
  replace (is_dir t p) with b by (unfold is_dir; now rewrite E) end.
Lemma dir_of t p : is_dir t p = true <-> t p = ADir.
Proof. unfold is_dir. destruct (t p); split; congruence. Qed.

(** A change of one path that belongs to the graph and has a directory above it. *)
Lemma put_file_sane t p n c : sane t -> t p = ADir -> t (p ++ [n]) <> ADir -> sane (put (p ++ [n]) (AFile c) t).
Proof.
  intros (S1 & S2) Hp Hn. split.
  - rewrite put_other; [assumption|now destruct p].
  - intros q m H. destruct (place_dec (q ++ [m]) (p ++ [n])) as [E|D'].
    + apply app_inj_tail in E as (-> & _). rewrite put_other; [assumption|].
      intro E. symmetry in E. rewrite <- (app_nil_r p) in E at 2. apply app_inv_head in E. discriminate.
    + rewrite put_other in H by assumption. pose proof (S2 _ _ H) as K. rewrite put_other; [assumption|].
      intros ->. congruence.
Qed.
Lemma put_nothing_sane t p : sane t -> t p <> ADir -> p <> [] -> sane (put p Nothing t).
Proof.
  intros (S1 & S2) Hp D. split.
  - rewrite put_other; [assumption|congruence].
  - intros q m H. destruct (place_dec (q ++ [m]) p) as [<-|D'].
    + now rewrite put_same in H.
    + rewrite put_other in H by assumption. pose proof (S2 _ _ H) as K. rewrite put_other; [assumption|].
      intros ->. congruence.
Qed.
Lemma put_only root p n t : own root p -> only_own root t (put p n t).
Proof. intros O q Q. left. apply put_other. now intros ->. Qed.

Lemma mkroot_ok root : step_ok root (make_dirs [] root) (set_root true).
Proof.
  intros t (S0 & U). destruct (make_dirs_only t [] root S0 (proj1 S0)) as (S1 & F).
  split; [assumption|]. split.
  - intros p _. destruct (F p) as [E|(E1 & E2 & a & b & E3 & E4)]; [now left|right].
    repeat split; try assumption. exists b. now rewrite E4.
  - assert (K : forall q, q <> [] -> make_dirs [] root t (root ++ q) = t (root ++ q)).
    { intros q D. destruct (F (root ++ q)) as [E|(_ & _ & a & b & E3 & E4)]; [assumption|].
      exfalso. apply D. cbn [app] in E4. rewrite <- E4 in E3. rewrite <- app_assoc in E3.
      apply app_self in E3. now destruct q. }
    unfold view, set_root. cbn [fs_lock fs_graph]. rewrite !K by discriminate. f_equal.
    apply dir_of. apply (make_dirs_all t [] root S0 (proj1 S0)). intros a b E. exact (U a b E).
Qed.

Lemma mkgraph_ok root : step_ok root (make_dirs [] (removelast (command_path root)))
  (fun s => match fs_graph s with NoGraph => set_graph (GraphDir Absent) (set_root true s) | _ => set_root true s end).
Proof.
  intros t G. unfold command_path. rewrite removelast_two.
  rewrite (make_dirs_app t [] root [graph_name] (proj1 G) (proj1 (proj1 G)) (proj2 G)). cbn [app].
  destruct (mkroot_ok root t G) as (S1 & F1 & V1). set (t1 := make_dirs [] root t) in *.
  assert (R : t1 root = ADir).
  { pose proof (f_equal fs_root V1) as E. cbn in E. now apply dir_of. }
  cbn [make_dirs]. change graph_name with (txt ".graph").
  assert (W : fs_graph (view root t1) = fs_graph (view root t)) by now rewrite V1.
  rewrite <- W. cbn [fs_graph view]. destruct (t1 (root ++ [txt ".graph"])) as [|c|] eqn:E.
  - assert (Z : t1 (root ++ [txt ".graph"; txt "commands"]) = Nothing).
    { destruct (t1 (root ++ [txt ".graph"; txt "commands"])) eqn:E'; [reflexivity|exfalso..];
      assert (D : t1 (root ++ [txt ".graph"]) = ADir)
        by (apply (proj2 S1 _ (txt "commands")); rewrite <- app_assoc; cbn [app]; congruence); congruence. }
    split; [now apply put_dir_sane|]. split.
    + apply (only_own_trans _ _ _ _ F1). apply put_only. apply own_graph.
    + rewrite <- V1. unfold view, set_graph, is_dir. cbn [fs_root fs_lock].
      rewrite put_same, !put_other, Z, R; [reflexivity|..].
      * apply path_len. discriminate.
      * intro X. apply app_inv_head in X. discriminate.
      * intro X. apply app_self in X. discriminate.
  - split; [assumption|]. split; [assumption|]. now rewrite V1.
  - split; [assumption|]. split; [assumption|]. now rewrite V1.
Qed.

Lemma create_lock_ok root : step_ok root (open_create (lock_path root))
  (fun s => if fs_root s then set_lock (created (fs_lock s)) s else s).
Proof.
  intros t (S0 & U). unfold open_create, can_create, lock_path. rewrite removelast_last. cbn [fs_root fs_lock view].
  change lock_name with (txt "lock"). destruct (is_dir t root) eqn:R; cbn [andb].
  2:{ split; [assumption|]. split; [apply only_own_refl|reflexivity]. }
  apply dir_of in R. destruct (t (root ++ [txt "lock"])) as [|c|] eqn:E; dir E; cbn [negb].
  - split; [apply put_file_sane; [assumption..|congruence]|]. split; [apply put_only, own_lock|].
    unfold view, set_lock, is_dir. cbn [fs_root fs_graph]. rewrite put_same, !put_other; [reflexivity|..].
    + apply path_len. discriminate.
    + intro X. symmetry in X. now apply lock_ne_graph in X.
    + intro X. symmetry in X. now apply lock_ne_root in X.
  - split; [assumption|]. split; [apply only_own_refl|]. unfold view, set_lock. cbn [fs_root fs_graph]. now rewrite E.
  - split; [assumption|]. split; [apply only_own_refl|]. unfold view, set_lock. cbn [fs_root fs_graph]. now rewrite E.
Qed.

Lemma unlock_ok root : step_ok root (remove_file (lock_path root))
  (fun s => match fs_lock s with File _ => set_lock Absent s | _ => s end).
Proof.
  intros t (S0 & U). unfold remove_file, lock_path. change lock_name with (txt "lock"). cbn [fs_lock view].
  destruct (t (root ++ [txt "lock"])) as [|c|] eqn:E; cbn [entry_of].
  - split; [assumption|]. split; [apply only_own_refl|reflexivity].
  - split; [apply put_nothing_sane; [assumption|congruence|now destruct root]|]. split; [apply put_only, own_lock|].
    unfold view, set_lock, is_dir. cbn [fs_root fs_graph]. rewrite put_same, !put_other; [reflexivity|..].
    + apply path_len. discriminate.
    + intro X. symmetry in X. now apply lock_ne_graph in X.
    + intro X. symmetry in X. now apply lock_ne_root in X.
  - split; [assumption|]. split; [apply only_own_refl|reflexivity].
Qed.

Lemma no_commands root t : sane t -> t (root ++ [txt ".graph"]) <> ADir -> t (root ++ [txt ".graph"; txt "commands"]) = Nothing.
Proof.
  intros S0 D. destruct (t (root ++ [txt ".graph"; txt "commands"])) eqn:E; [reflexivity|exfalso; apply D..];
  apply (proj2 S0 _ (txt "commands")); rewrite <- app_assoc; cbn [app]; congruence.
Qed.
(** A new content of the commands file. *)
Lemma put_commands root t c : sane t -> t (root ++ [txt ".graph"]) = ADir ->
  t (root ++ [txt ".graph"; txt "commands"]) <> ADir ->
  let t' := put (root ++ [txt ".graph"; txt "commands"]) (AFile c) t in
  sane t' /\ only_own root t t' /\ view root t' = set_commands (File c) (view root t).
Proof.
  intros S0 D E t'. split.
  - unfold t'. replace (root ++ [txt ".graph"; txt "commands"]) with ((root ++ [txt ".graph"]) ++ [txt "commands"])
      by now rewrite <- app_assoc. apply put_file_sane; [assumption..|]. now rewrite <- app_assoc.
  - split; [apply put_only, own_graph|]. unfold t', view, set_commands, set_graph, is_dir. cbn [fs_root fs_lock].
    rewrite put_same, !put_other, D; [reflexivity|..].
    + apply path_len. discriminate.
    + intro X. apply app_inv_head in X. discriminate.
    + intro X. apply app_self in X. discriminate.
Qed.
Lemma view_commands root t c : view root t = set_commands c (view root t) <->
  t (root ++ [txt ".graph"]) = ADir /\ entry_of (t (root ++ [txt ".graph"; txt "commands"])) = c.
Proof.
  unfold view, set_commands, set_graph. cbn [fs_root fs_lock fs_graph].
  destruct (t (root ++ [txt ".graph"])); split; intro H; try discriminate; try (destruct H; discriminate).
  - injection H as H. now split.
  - destruct H as (_ & <-). reflexivity.
Qed.

Lemma create_commands_ok root : step_ok root (open_create (command_path root))
  (fun s => match fs_graph s with GraphDir e => set_commands (created e) s | _ => s end).
Proof.
  intros t (S0 & U). unfold open_create, can_create, command_path. rewrite removelast_two. cbn [fs_graph view].
  change graph_name with (txt ".graph"). change commands_name with (txt "commands").
  destruct (t (root ++ [txt ".graph"])) as [|c|] eqn:D; dir D; cbn [andb].
  - split; [assumption|]. split; [apply only_own_refl|reflexivity].
  - split; [assumption|]. split; [apply only_own_refl|reflexivity].
  - destruct (t (root ++ [txt ".graph"; txt "commands"])) as [|c|] eqn:E; dir E; cbn [negb entry_of created].
    + apply put_commands; [assumption..|congruence].
    + split; [assumption|]. split; [apply only_own_refl|]. apply view_commands. now rewrite E.
    + split; [assumption|]. split; [apply only_own_refl|]. apply view_commands. now rewrite E.
Qed.
Lemma create_empty_ok root : step_ok root (create_empty (command_path root))
  (fun s => match fs_graph s with GraphDir Directory => s | GraphDir _ => set_commands (File []) s | _ => s end).
Proof.
  intros t (S0 & U). unfold create_empty, can_create, command_path. rewrite removelast_two. cbn [fs_graph view].
  change graph_name with (txt ".graph"). change commands_name with (txt "commands").
  destruct (t (root ++ [txt ".graph"])) as [|c|] eqn:D; dir D; cbn [andb].
  - split; [assumption|]. split; [apply only_own_refl|reflexivity].
  - split; [assumption|]. split; [apply only_own_refl|reflexivity].
  - destruct (t (root ++ [txt ".graph"; txt "commands"])) as [|c|] eqn:E; dir E; cbn [negb entry_of].
    + apply put_commands; [assumption..|congruence].
    + apply put_commands; [assumption..|congruence].
    + split; [assumption|]. split; [apply only_own_refl|reflexivity].
Qed.
Lemma change_ok root f : step_ok root (change (command_path root) f)
  (fun s => match commands_entry s with File old => set_commands (File (f old)) s | _ => s end).
Proof.
  intros t (S0 & U). unfold change, command_path, commands_entry. cbn [fs_graph view].
  change graph_name with (txt ".graph"). change commands_name with (txt "commands").
  destruct (t (root ++ [txt ".graph"])) as [|c|] eqn:D.
  - rewrite (no_commands root t S0) by congruence. split; [assumption|]. split; [apply only_own_refl|reflexivity].
  - rewrite (no_commands root t S0) by congruence. split; [assumption|]. split; [apply only_own_refl|reflexivity].
  - destruct (t (root ++ [txt ".graph"; txt "commands"])) as [|c|] eqn:E; cbn [entry_of].
    + split; [assumption|]. split; [apply only_own_refl|reflexivity].
    + apply put_commands; [assumption..|congruence].
    + split; [assumption|]. split; [apply only_own_refl|reflexivity].
Qed.
Lemma remove_ok root : step_ok root (remove_dir_all (root_path root))
  (fun s => match fs_graph s with GraphDir _ => set_graph NoGraph s | _ => s end).
Proof.
  intros t (S0 & U). unfold remove_dir_all, root_path. cbn [fs_graph view]. change graph_name with (txt ".graph").
  destruct (t (root ++ [txt ".graph"])) as [|c|] eqn:D; dir D.
  - split; [assumption|]. split; [apply only_own_refl|reflexivity].
  - split; [assumption|]. split; [apply only_own_refl|reflexivity].
  - assert (N0 : forall q, ~ own root q -> below (root ++ [txt ".graph"]) q = false).
    { intros q O. destruct (below (root ++ [txt ".graph"]) q) eqn:B; [exfalso|reflexivity].
      apply below_spec in B as (r & ->). apply O. rewrite <- app_assoc. apply own_graph. }
    assert (NR : forall q, below (root ++ [txt ".graph"]) q = false -> forall p n, q = p ++ [n] -> below (root ++ [txt ".graph"]) p = false).
    { intros q B p n ->. destruct (below (root ++ [txt ".graph"]) p) eqn:B'; [exfalso|reflexivity].
      apply below_spec in B' as (r & ->). rewrite <- app_assoc in B.
      rewrite (proj2 (below_spec _ _)) in B; [discriminate|now exists (r ++ [n])]. }
    split; [|split].
    + split.
      * rewrite N0; [exact (proj1 S0)|]. apply (prefix_not_own root [] root eq_refl).
      * intros p n H. destruct (below (root ++ [txt ".graph"]) (p ++ [n])) eqn:B; [congruence|].
        rewrite (NR _ B p n eq_refl). exact (proj2 S0 _ _ H).
    + intros q O. left. now rewrite N0.
    + assert (B1 : below (root ++ [txt ".graph"]) root = false)
        by (apply N0, (prefix_not_own root root []); now rewrite app_nil_r).
      assert (B2 : below (root ++ [txt ".graph"]) (root ++ [txt "lock"]) = false).
      { destruct (below (root ++ [txt ".graph"]) (root ++ [txt "lock"])) eqn:B; [exfalso|reflexivity].
        apply below_spec in B as (r & E). rewrite <- app_assoc in E. now apply lock_ne_graph in E. }
      assert (B3 : below (root ++ [txt ".graph"]) (root ++ [txt ".graph"]) = true)
        by (apply below_spec; exists []; now rewrite app_nil_r).
      unfold view, set_graph, is_dir. cbn [fs_root fs_lock]. now rewrite B1, B2, B3.
Qed.
Lemma stay_ok root : step_ok root (fun t => t) (fun s => s).
Proof. intros t G. split; [exact (proj1 G)|]. split; [apply only_own_refl|reflexivity]. Qed.

(** ** Programs *)
Inductive sim {A} (root : place) : tprog A -> prog A -> Prop :=
| sim_ret a : sim root (TRet a) (Ret a)
| sim_act u k v h : step_ok root u v -> (forall t, good root t -> sim root (k t) (h (view root t))) ->
    sim root (TAct u k) (Act v h).
Lemma sim_bind A B root (P : tprog A) p (F : A -> tprog B) f :
  sim root P p -> (forall a, sim root (F a) (f a)) -> sim root (tbind P F) (bind p f).
Proof.
  intros H K. induction H as [a|u k v h O H IH]; cbn [tbind bind]; [apply K|].
  constructor; [assumption|]. intros t G. now apply IH.
Qed.
Lemma sim_run A root (P : tprog A) p t : sim root P p -> good root t ->
  run_prog p (view root t) = (view root (fst (trun P t)), snd (trun P t)) /\
  good root (fst (trun P t)) /\ only_own root t (fst (trun P t)).
Proof.
  intros H. revert t. induction H as [a|u k v h O H IH]; intros t G; cbn [trun run_prog].
  - split; [reflexivity|]. split; [assumption|apply only_own_refl].
  - destruct (O t G) as (A1 & A2 & A3). rewrite <- A3.
    destruct (IH t G (u t) (step_good _ _ _ _ O G)) as (B1 & B2 & B3).
    split; [assumption|]. split; [assumption|]. now apply (only_own_trans _ _ (u t)).
Qed.
Lemma sim_crash A root (P : tprog A) p t t' : sim root P p -> good root t -> tcrash P t t' ->
  crash p (view root t) (view root t') /\ good root t' /\ only_own root t t'.
Proof.
  intros H G C. revert p H G. induction C as [P t|u k t t' C IH]; intros p H G.
  - split; [constructor|]. split; [assumption|apply only_own_refl].
  - inversion H as [|u0 k0 v h O K]; subst. destruct (O t G) as (A1 & A2 & A3).
    destruct (IH _ (K t G) (step_good _ _ _ _ O G)) as (B1 & B2 & B3). split; [|split; [assumption|]].
    + constructor. now rewrite <- A3.
    + now apply (only_own_trans _ _ (u t)).
Qed.

Lemma sim_lock root : sim root (t_lock root) lock.
Proof.
  unfold t_lock, t_touch, lock. unfold lock_path at 1. rewrite removelast_last.
  constructor; [apply mkroot_ok|]. intros _ _. constructor; [apply create_lock_ok|]. intros t G.
  replace (can_create (lock_path root) t) with (fs_root (view root t) && openable (fs_lock (view root t))); [constructor|].
  unfold can_create, lock_path. rewrite removelast_last. change lock_name with (txt "lock").
  cbn [fs_root fs_lock view]. unfold is_dir. now destruct (t root), (t (root ++ [txt "lock"])).
Qed.
Lemma sim_unlock root : sim root (t_unlock root) unlock.
Proof.
  constructor; [apply unlock_ok|]. intros t G. unfold lock_path. change lock_name with (txt "lock").
  cbn [fs_lock view]. destruct (t (root ++ [txt "lock"])); constructor.
Qed.
Lemma sim_with_lock A root (P : tprog (io A)) p : sim root P p -> sim root (t_with_lock root P) (with_lock p).
Proof.
  intro H. apply sim_bind; [apply sim_lock|]. intros [u|]; [|constructor]. apply sim_bind; [assumption|].
  intro r. apply sim_bind; [apply sim_unlock|]. intros [v|]; constructor.
Qed.
Lemma sim_init root : sim root (t_init root) init.
Proof.
  constructor; [apply mkgraph_ok|]. intros _ _. constructor; [apply create_commands_ok|]. intros t G.
  unfold can_create, command_path. rewrite removelast_two. cbn [fs_graph view].
  change graph_name with (txt ".graph"). change commands_name with (txt "commands"). unfold is_dir.
  destruct (t (root ++ [txt ".graph"])); cbn [andb]; try constructor.
  destruct (t (root ++ [txt ".graph"; txt "commands"])); cbn [negb entry_of openable]; constructor.
Qed.
Lemma view_entry root t : sane t -> commands_entry (view root t) = entry_of (t (command_path root)).
Proof.
  intro S0. unfold commands_entry, command_path. cbn [fs_graph view].
  change graph_name with (txt ".graph"). change commands_name with (txt "commands").
  destruct (t (root ++ [txt ".graph"])) eqn:D; [|rewrite (no_commands root t S0) by congruence..|reflexivity]; [|reflexivity].
  now rewrite (no_commands root t S0) by congruence.
Qed.
Lemma sim_load root nd : sim root (t_load root nd) (load_graph nd).
Proof.
  constructor; [apply stay_ok|]. intros t G. rewrite view_entry by apply (proj1 G).
  destruct (t (command_path root)); constructor.
Qed.
Lemma sim_appends root cs : sim root (t_appends root cs) (append_chunks cs).
Proof. induction cs as [|c cs IH]; cbn [t_appends append_chunks]; constructor; [apply change_ok|]. intros _ _. assumption. Qed.
Lemma sim_writes root cs : forall off, sim root (t_writes root off cs) (write_chunks off cs).
Proof. induction cs as [|c cs IH]; intro off; cbn [t_writes write_chunks]; constructor; [apply change_ok|]. intros _ _. apply IH. Qed.
Lemma sim_add_commands root chunks cs : sim root (t_add_commands root chunks cs) (add_commands chunks cs).
Proof.
  constructor; [apply stay_ok|]. intros t G. rewrite view_entry by apply (proj1 G).
  destruct (t (command_path root)); cbn [entry_of]; [constructor|apply sim_appends|constructor].
Qed.
Lemma sim_save root chunks g : sim root (t_save root chunks g) (save_graph_as_commands chunks g).
Proof.
  constructor; [apply create_empty_ok|]. intros t G. unfold can_create.
  unfold command_path at 1 2. rewrite removelast_two. cbn [fs_graph view].
  change graph_name with (txt ".graph"). change commands_name with (txt "commands"). unfold is_dir.
  destruct (t (root ++ [txt ".graph"])); cbn [andb]; try constructor.
  destruct (t (root ++ [txt ".graph"; txt "commands"])); cbn [negb entry_of]; try apply sim_writes. constructor.
Qed.
Lemma sim_clean root : sim root (t_clean root) clean.
Proof.
  apply sim_with_lock. constructor; [apply remove_ok|]. intros t G. unfold root_path. cbn [fs_graph view].
  change graph_name with (txt ".graph"). unfold is_dir. destruct (t (root ++ [txt ".graph"])); constructor.
Qed.
Lemma sim_apply root chunks cs : sim root (t_apply root chunks cs) (apply_graph_commands chunks cs).
Proof. apply sim_with_lock, sim_add_commands. Qed.
Lemma sim_status root P p : sim root P p ->
  sim root (t_status P) (bind p (fun r => Ret (match r with IoOk _ => Success | IoErr => Failure end))).
Proof. intro H. apply sim_bind; [assumption|]. intro a. constructor. Qed.
Lemma sim_gc_init root : sim root (t_gc_init root) gc_init.
Proof. apply sim_status, sim_init. Qed.
Lemma sim_gc_build root nd chunks order : sim root (t_gc_build root nd chunks order) (gc_build nd chunks order).
Proof.
  apply sim_bind; [apply sim_load|]. intros [[g|e]| |]; [apply sim_status, sim_save|constructor..].
Qed.
Lemma sim_gc_clean root force answer : sim root (t_gc_clean root force answer) (gc_clean force answer).
Proof. unfold t_gc_clean, gc_clean. destruct (_ && _); [constructor|]. apply sim_status, sim_clean. Qed.
Lemma sim_gc_random root chunks g force answer : sim root (t_gc_random root chunks g force answer) (gc_random chunks g force answer).
Proof.
  unfold t_gc_random, gc_random. destruct (_ && _); [constructor|].
  apply sim_bind; [apply sim_clean|]. intros [u|]; [|constructor].
  apply sim_bind; [apply sim_init|]. intros [v|]; [|constructor]. apply sim_status, sim_save.
Qed.
Lemma sim_option A root values (f : list text -> outcome A) C c N0 n :
  (forall a, sim root (C a) (c a)) -> sim root N0 n -> sim root (t_option values f C N0) (option_call values f c n).
Proof.
  intros H K. unfold t_option, option_call. destruct values as [vs|]; [|assumption]. destruct (f vs); [|constructor..].
  apply sim_bind; [apply H|]. intros _. assumption.
Qed.
Lemma sim_gc_add root chunks a : sim root (t_gc_add root chunks a) (gc_add chunks a).
Proof.
  unfold t_gc_add, gc_add, t_add_edges, add_edges, add_vertices. cbv zeta.
  repeat (apply sim_option; [intro; apply sim_apply|]). constructor.
Qed.
Lemma sim_gc_delete root chunks v e : sim root (t_gc_delete root chunks v e) (gc_delete chunks v e).
Proof.
  unfold t_gc_delete, gc_delete, remove_vertices, remove_edges.
  repeat (apply sim_option; [intro; apply sim_apply|]). constructor.
Qed.
