(** * Properties C71-C77 and C80-C83: gc-add, gc-delete, gc-desc, gc-random *)
From Coq Require Import String.
From Coq Require Import List NArith Bool Arith Lia Permutation.
From Verif Require Import Spec Base Graph GraphSpec GraphFacts Text Format FormatSpec TextFacts FormatFacts
  Store StoreSpec StoreFacts CrashFacts PropFormat PropStore Cli CliSpec CliFacts RandomFacts.
Import ListNotations.
Open Scope N_scope.

(** ** C71 *)
Theorem C71_patterns : forall l : list N,
  (* chain: panics only on an empty list *)
  (l <> [] -> exists es, chain_from_vertices l = Done es /\ (forall a b, In (a, b) es <-> adjacent a b l) /\
                         length es = (length l - 1)%nat) /\
  (* cycle: rejects only an empty list *)
  (l = [] -> cycle_from_vertices l = Done None) /\
  (l <> [] -> exists es, cycle_from_vertices l = Done (Some es) /\ length es = length l /\
                         forall a b, In (a, b) es <-> adjacent a b l \/ (ends_with a l /\ starts_with b l)) /\
  (* star *)
  (exists es, star_from_vertices l = Done es /\ length es = (length l - 1)%nat /\
              forall a b, In (a, b) es <-> exists t, l = a :: t /\ In b t) /\
  (* clique *)
  (exists es, clique_from_vertices l = Done es /\ forall a b, In (a, b) es <-> before a b l \/ before b a l).
Proof.
  intro l. split; [|split; [|split; [|split]]].
  - destruct l as [|x t]; [congruence|]. intros _. exists (combine (x :: t) t). split; [apply chain_done|].
    split; [intros; apply combine_adjacent|]. unfold edge. rewrite combine_length. cbn [length]. lia.
  - intros ->. reflexivity.
  - destruct l as [|x t]; [congruence|]. intros _. exists (combine (x :: t ++ [x]) (t ++ [x])). split; [apply cycle_done|].
    split; [unfold edge; rewrite combine_length; cbn [length]; rewrite app_length; cbn [length]; lia|].
    intros a b. rewrite combine_adjacent. apply cycle_adjacent.
  - destruct l as [|x t].
    + exists []. split; [reflexivity|]. split; [reflexivity|]. intros a b. split; [intros []|intros (t & H & _); discriminate].
    + exists (map (pair x) t). split; [apply star_done|]. split; [rewrite map_length; cbn [length]; lia|].
      intros a b. rewrite in_map_iff. split.
      * intros (y & [= <- <-] & H). eauto.
      * intros (t' & [= <- <-] & H). eauto.
  - exists (clique_edges l). split; [apply clique_done|]. apply clique_In.
Qed.
Print Assumptions C71_patterns.
(** The values of --edge are paired two by two, in order; an odd number is
    rejected.  --reverse swaps the ends of every edge. *)
Theorem C71_edges : (forall es, as_vertex_tuple (flat es) = Done (Some es)) /\
  (forall l, Nat.odd (length l) = true -> as_vertex_tuple l = Done None) /\
  (forall l, Nat.even (length l) = true -> exists es, l = flat es) /\
  (forall r es a b, In (a, b) (reverse_if_needed r es) <-> if r then In (b, a) es else In (a, b) es).
Proof.
  split; [apply tuple_even|]. split.
  - intros l H. apply tuple_odd. now rewrite <- Nat.negb_odd, H.
  - split; [intros l H; apply (even_flat (S (length l))); [lia|assumption]|apply reverse_In].
Qed.
Print Assumptions C71_edges.
Example C71_case : chain_from_vertices [1; 2; 3] = Done [(1, 2); (2, 3)] /\
  cycle_from_vertices [1; 2; 3] = Done (Some [(1, 2); (2, 3); (3, 1)]) /\
  star_from_vertices [1; 2; 3] = Done [(1, 2); (1, 3)] /\
  clique_from_vertices [1; 2; 3] = Done [(1, 2); (1, 3); (2, 1); (2, 3); (3, 1); (3, 2)] /\
  as_vertex_tuple [1; 2; 3; 4] = Done (Some [(1, 2); (3, 4)]).
Proof. repeat split. Qed.

(** ** C72 *)
Theorem C72_arguments :
  (forall s n, parse_vertex_id s = Some n <-> id_argument s n) /\
  (forall vs ns, parse_vertex_id_list vs = Some ns <-> Forall2 id_argument vs ns) /\
  (forall vs es, parse_edge_list vs = Done (Some es) <-> Forall2 id_argument vs (flat es)) /\
  (forall vs, parse_edge_list vs <> Panic).
Proof.
  split; [exact parse_id_spec|]. split; [exact parse_list_spec|].
  assert (H : forall vs, parse_edge_list vs = Done None \/ exists es, parse_edge_list vs = Done (Some es) /\ parse_vertex_id_list vs = Some (flat es)).
  { intro vs. unfold parse_edge_list. destruct (parse_vertex_id_list vs) as [l|]; [|now left].
    destruct (Nat.even (length l)) eqn:E; [|left; now apply tuple_odd].
    destruct (even_flat (S (length l)) l) as [es ->]; [lia|assumption|]. right. exists es. split; [apply tuple_even|reflexivity]. }
  split.
  - intros vs es. rewrite <- (parse_list_spec vs (flat es)). split.
    + intro E. destruct (H vs) as [E'|(es' & E' & Hp)]; [congruence|]. congruence.
    + intro E. unfold parse_edge_list. rewrite E. apply tuple_even.
  - intros vs E. destruct (H vs) as [E'|(es' & E' & Hp)]; congruence.
Qed.
Print Assumptions C72_arguments.
Example C72_case : parse_vertex_id (txt "+007") = Some 7 /\ parse_vertex_id (txt "18446744073709551615") = Some 18446744073709551615 /\
  parse_vertex_id (txt "18446744073709551616") = None /\ parse_vertex_id (txt "") = None /\ parse_vertex_id (txt "-1") = None.
Proof. repeat split; vm_compute; reflexivity. Qed.

(** ** C80: gc-add *)
(** The option values are well formed and denote these lists. *)
Record denotes (a : add_args) (lv le lc ly ls lq : list N) : Prop := {
  d_vertex : option_ids (a_vertex a) lv;
  d_edge : option_ids (a_edge a) le;
  d_even : Nat.even (length le) = true;
  d_chain : option_ids (a_chain a) lc;
  d_chain1 : a_chain a <> Some [];
  d_cycle : option_ids (a_cycle a) ly;
  d_cycle1 : a_cycle a <> Some [];
  d_star : option_ids (a_star a) ls;
  d_clique : option_ids (a_clique a) lq
}.
Definition added (reverse : bool) (le lc ly ls lq : list N) : rel := fun x y =>
  flip reverse (pairs_rel le) x y \/ flip reverse (chain_rel lc) x y \/ flip reverse (cycle_rel ly) x y \/
  flip reverse (star_rel ls) x y \/ clique_rel lq x y.

(** The lists [f] computes from the values, all panics aside. *)
Definition computes (values : option (list text)) (f : list text -> outcome (list edge)) (R : rel) : Prop :=
  match values with
  | None => forall x y, ~ R x y
  | Some vs => exists es, f vs = Done es /\ Forall u64_pair es /\ forall x y, In (x, y) es <-> R x y
  end.
Lemma computes_intro values (l : list N) (f : list text -> outcome (list edge)) (R : rel) :
  option_ids values l ->
  (forall vs, values = Some vs -> parse_all vs = Done l -> exists es, f vs = Done es /\ forall x y, In (x, y) es <-> R x y) ->
  (forall x y, R x y -> In x l /\ In y l) ->
  computes values f R.
Proof.
  intros H Hf Hr. destruct values as [vs|]; cbn in *.
  - destruct (Hf vs eq_refl) as (es & E & Hi); [now apply parse_all_done|]. exists es. split; [assumption|]. split; [|assumption].
    pose proof (id_arguments_u64 vs l H) as U. rewrite Forall_forall in *. intros [x y] He. apply Hi, Hr in He.
    split; apply U; tauto.
  - subst l. intros x y H. now apply Hr in H.
Qed.
Lemma a_union_merge s V (E R : rel) :
  a_same (a_union (a_union s V E) (fun _ => False) R) (a_union s V (fun x y => E x y \/ R x y)).
Proof.
  split; cbn.
  - intro x. split.
    + intros [[H|[H|[y [H|H]]]]|[[]|[y [H|H]]]]; [now left|right; now left|right; right; exists y..]; tauto.
    + intros [H|[H|[y [[H|H]|[H|H]]]]]; [tauto|tauto| | | |].
      * left. right. right. exists y. now left.
      * right. right. exists y. now left.
      * left. right. right. exists y. now right.
      * right. right. exists y. now right.
  - intros x y. tauto.
Qed.
Lemma a_union_ext s V (E R : rel) : (forall x y, E x y <-> R x y) -> a_same (a_union s V E) (a_union s V R).
Proof.
  intro H. split; cbn.
  - intro x. split; (intros [Hx|[Hx|[y Hy]]]; [now left|right; now left|right; right; exists y]); [rewrite <- !H|rewrite !H]; exact Hy.
  - intros x y. now rewrite H.
Qed.
Lemma edges_then nd chunks values f R next s a V E (P : fs * exit -> Prop) : digit_table nd -> buffering chunks ->
  computes values f R -> holds nd s (a_union a V E) ->
  (forall s', holds nd s' (a_union a V (fun x y => E x y \/ R x y)) -> P (run_prog next s')) ->
  P (run_prog (option_call values f (add_edges chunks) next) s).
Proof.
  intros T B C H HP. rewrite run_option. destruct values as [vs|]; cbn in C.
  - destruct C as (es & Ef & U & Hi). rewrite Ef. apply HP.
    eapply holds_same; [now apply (holds_add_edges nd chunks es s _ T B U H)|].
    eapply a_same_trans; [apply a_union_merge|]. apply a_union_ext. intros x y. now rewrite Hi.
  - apply HP. eapply holds_same; [exact H|]. apply a_union_ext. intros x y. specialize (C x y). tauto.
Qed.
Lemma vertices_then nd chunks values lv next s a (P : fs * exit -> Prop) : digit_table nd -> buffering chunks ->
  option_ids values lv -> holds nd s a ->
  (forall s', holds nd s' (a_union a (fun x => In x lv) (fun _ _ => False)) -> P (run_prog next s')) ->
  P (run_prog (option_call values parse_all (add_vertices chunks) next) s).
Proof.
  intros T B Hv H HP. rewrite run_option. destruct values as [vs|]; cbn in Hv.
  - apply parse_all_done in Hv as Ep. rewrite Ep. apply HP.
    apply holds_add_vertices; try assumption. now apply (id_arguments_u64 vs).
  - subst lv. apply HP. eapply holds_same; [exact H|]. split; cbn.
    + intro x. split; [tauto|]. intros [Hx|[[]|[y [[]|[]]]]]. exact Hx.
    + intros x y. tauto.
Qed.
Lemma denotes_computes a lv le lc ly ls lq : denotes a lv le lc ly ls lq ->
  let rv := reverse_if_needed (a_reverse a) in
  computes (a_edge a) (fun vs => obind (parse_all vs) (fun l => obind (as_vertex_tuple l) (fun o => obind (expect o) (fun es => Done (rv es)))))
    (flip (a_reverse a) (pairs_rel le)) /\
  computes (a_chain a) (fun vs => obind (parse_all vs) (fun l => obind (chain_from_vertices l) (fun es => Done (rv es))))
    (flip (a_reverse a) (chain_rel lc)) /\
  computes (a_cycle a) (fun vs => obind (parse_all vs) (fun l => obind (cycle_from_vertices l) (fun o => obind (expect o) (fun es => Done (rv es)))))
    (flip (a_reverse a) (cycle_rel ly)) /\
  computes (a_star a) (fun vs => obind (parse_all vs) (fun l => obind (star_from_vertices l) (fun es => Done (rv es))))
    (flip (a_reverse a) (star_rel ls)) /\
  computes (a_clique a) (fun vs => obind (parse_all vs) clique_from_vertices) (clique_rel lq).
Proof.
  intros [Hv He Hev Hc Hc1 Hy Hy1 Hs Hq] rv.
  assert (Frv : forall (R : rel) es, (forall x y, In (x, y) es <-> R x y) -> forall x y, In (x, y) (rv es) <-> flip (a_reverse a) R x y).
  { intros R es H x y. unfold rv. rewrite reverse_In. unfold flip. destruct (a_reverse a); apply H. }
  assert (Fin : forall (R : rel) l, (forall x y, R x y -> In x l /\ In y l) -> forall x y, flip (a_reverse a) R x y -> In x l /\ In y l).
  { intros R l H x y. unfold flip. destruct (a_reverse a); intro Hr; apply H in Hr; tauto. }
  assert (Adj : forall l (x y : N), adjacent x y l -> In x l /\ In y l).
  { intros l x y (p & q & ->). rewrite !in_app_iff. cbn. tauto. }
  split; [|split; [|split; [|split]]].
  - apply (computes_intro _ le); [assumption| |].
    + intros vs _ Ep. destruct (even_flat (S (length le)) le) as [es ->]; [lia|assumption|].
      exists (rv es). rewrite Ep. cbn [obind]. rewrite tuple_even. cbn [obind expect]. split; [reflexivity|].
      apply Frv. intros x y. apply flat_In.
    + apply Fin. intros x y (p & q & ->). rewrite !in_app_iff. cbn. tauto.
  - apply (computes_intro _ lc); [assumption| |].
    + intros vs E Ep. rewrite Ep. cbn [obind]. destruct lc as [|x t].
      { apply parse_all_done in Ep. inversion Ep. subst. congruence. }
      rewrite chain_done. cbn [obind]. eexists. split; [reflexivity|]. apply Frv. intros; apply combine_adjacent.
    + apply Fin. exact (Adj lc).
  - apply (computes_intro _ ly); [assumption| |].
    + intros vs E Ep. rewrite Ep. cbn [obind]. destruct ly as [|x t].
      { apply parse_all_done in Ep. inversion Ep. subst. congruence. }
      rewrite cycle_done. cbn [obind expect]. eexists. split; [reflexivity|]. apply Frv. intros. rewrite combine_adjacent. apply cycle_adjacent.
    + apply Fin. intros x y [H|[[t ->] [u Hu]]]; [now apply Adj|]. split; [apply in_app_iff; right; now left|]. rewrite Hu. now left.
  - apply (computes_intro _ ls); [assumption| |].
    + intros vs E Ep. rewrite Ep. cbn [obind]. destruct (C71_patterns ls) as (_ & _ & _ & (es & Es & _ & Hi) & _).
      rewrite Es. cbn [obind]. eexists. split; [reflexivity|]. apply Frv. exact Hi.
    + apply Fin. intros x y (t & -> & H). cbn. tauto.
  - apply (computes_intro _ lq); [assumption| |].
    + intros vs E Ep. rewrite Ep. cbn [obind]. rewrite clique_done. eexists. split; [reflexivity|]. apply clique_In.
    + intros x y [(p & q & r & ->)|(p & q & r & ->)]; rewrite !in_app_iff; cbn; rewrite !in_app_iff; cbn; tauto.
Qed.

Theorem C80_gc_add : forall nd chunks args lv le lc ly ls lq s a, digit_table nd -> buffering chunks ->
  denotes args lv le lc ly ls lq -> holds nd s a ->
  exists s' g, run_prog (gc_add chunks args) s = (s', Success) /\ loads nd s' g /\ built g /\
    a_same (shown g) (a_union a (fun x => In x lv) (added (a_reverse args) le lc ly ls lq)) /\
    holds nd s' (shown g).
Proof.
  intros nd chunks args lv le lc ly ls lq s a T B D H.
  destruct (denotes_computes _ _ _ _ _ _ _ D) as (Ce & Cc & Cy & Cs & Cq).
  set (P := fun r : fs * exit => exists s' g, r = (s', Success) /\ loads nd s' g /\ built g /\
    a_same (shown g) (a_union a (fun x => In x lv) (added (a_reverse args) le lc ly ls lq)) /\
    holds nd s' (shown g)).
  change (P (run_prog (gc_add chunks args) s)). unfold gc_add.
  apply (vertices_then nd chunks (a_vertex args) lv _ s a P T B (d_vertex _ _ _ _ _ _ _ D) H). intros s1 H1.
  apply (edges_then nd chunks _ _ _ _ _ _ _ _ P T B Ce H1). intros s2 H2.
  apply (edges_then nd chunks _ _ _ _ _ _ _ _ P T B Cc H2). intros s3 H3.
  apply (edges_then nd chunks _ _ _ _ _ _ _ _ P T B Cy H3). intros s4 H4.
  apply (edges_then nd chunks _ _ _ _ _ _ _ _ P T B Cs H4). intros s5 H5.
  apply (edges_then nd chunks _ _ _ _ _ _ _ _ P T B Cq H5). intros s6 H6.
  assert (H7 : holds nd s6 (a_union a (fun x => In x lv) (added (a_reverse args) le lc ly ls lq))).
  { eapply holds_same; [exact H6|]. apply a_union_ext. intros x y. unfold added.
    generalize (flip (a_reverse args) (pairs_rel le) x y) (flip (a_reverse args) (chain_rel lc) x y)
      (flip (a_reverse args) (cycle_rel ly) x y) (flip (a_reverse args) (star_rel ls) x y) (clique_rel lq x y).
    clear. tauto. }
  destruct (holds_load nd s6 _ T H7) as (g & Hg & Hb & Hs). exists s6, g. split; [reflexivity|].
  split; [unfold loads; rewrite run_load in *; cbn [snd] in Hg; now rewrite Hg|]. split; [assumption|]. split; [assumption|].
  eapply holds_same; [exact H7|now apply a_same_sym].
Qed.
Print Assumptions C80_gc_add.
Example C80_case : denotes {| a_vertex := Some [txt "9"]; a_reverse := true; a_edge := Some [txt "1"; txt "2"];
    a_chain := Some [txt "3"; txt "+4"; txt "5"]; a_cycle := None; a_star := None; a_clique := Some [txt "6"; txt "7"] |}
  [9] [1; 2] [3; 4; 5] [] [] [6; 7] /\ added true [1; 2] [3; 4; 5] [] [] [6; 7] 4 3 /\
  holds table (with_file []) a_empty.
Proof.
  split; [|split].
  - split; cbn [a_vertex a_edge a_chain a_cycle a_star a_clique option_ids]; try reflexivity; try discriminate;
      apply parse_all_done; reflexivity.
  - right. left. exists [], [5]. reflexivity.
  - split; [reflexivity|]. exists [], []. split; [reflexivity|]. split; [now left|]. split; [reflexivity|apply a_same_refl].
Qed.

(** ** C81: gc-add is not all or nothing. *)
Theorem C81_partial_effect_refuted : forall nd chunks s a v, digit_table nd -> buffering chunks -> holds nd s a ->
  u64 v -> ~ aV a v ->
  exists args s' g, run_prog (gc_add chunks args) s = (s', Failure) /\ loads nd s' g /\ contains_vertex g v = true.
Proof.
  intros nd chunks s a v T B H U Hn.
  exists {| a_vertex := Some [show v]; a_reverse := false; a_edge := Some [txt "x"]; a_chain := None; a_cycle := None; a_star := None; a_clique := None |}.
  unfold gc_add. rewrite run_option. cbn [a_vertex].
  assert (Ep : parse_all [show v] = Done [v]).
  { apply parse_all_done. constructor; [|constructor]. left. destruct (show_spec v) as (H1 & H2 & _). now split. }
  rewrite Ep. rewrite run_option. cbn [a_edge parse_all].
  change (parse_u64 (txt "x")) with (@None N). cbn [expect obind].
  pose proof (holds_add_vertices nd chunks [v] s a T B (Forall_cons _ U (Forall_nil _)) H) as H1.
  destruct (holds_load nd _ _ T H1) as (g & Hg & Hb & Hs). eexists _, g. split; [reflexivity|].
  split; [unfold loads; rewrite run_load in *; cbn [snd] in Hg; now rewrite Hg|].
  apply (proj1 Hs). cbn. tauto.
Qed.
Print Assumptions C81_partial_effect_refuted.
(** What is true: the exit status is a success iff all values are well formed,
    whatever the directory. *)
Definition fine {A} (o : option (list text)) (f : list text -> outcome A) : Prop :=
  match o with None => True | Some vs => exists a, f vs = Done a end.
Definition succeeds (p : prog exit) (P : Prop) : Prop := forall s, snd (run_prog p s) = Success <-> P.
Lemma succeeds_option A o (f : list text -> outcome A) call next P :
  succeeds next P -> succeeds (option_call o f call next) (fine o f /\ P).
Proof.
  intros H s. rewrite run_option. destruct o as [vs|]; cbn [fine].
  - destruct (f vs) as [a| |].
    + rewrite (H _). split; [eauto|tauto].
    + split; [discriminate|intros [[a Ha] _]; discriminate].
    + split; [discriminate|intros [[a Ha] _]; discriminate].
  - rewrite (H _). tauto.
Qed.
Lemma fine_parse A o (f : list N -> outcome A) :
  fine o (fun vs => obind (parse_all vs) f) <-> exists l, option_ids o l /\ (o <> None -> exists x, f l = Done x).
Proof.
  destruct o as [vs|]; cbn [fine option_ids].
  - split.
    + intros [x Hx]. destruct (parse_all_or vs) as [[l El]|El]; rewrite El in Hx; [|discriminate]. cbn [obind] in Hx.
      exists l. split; [now apply parse_all_done|eauto].
    + intros (l & Hl & Hf). apply parse_all_done in Hl. destruct Hf as [x Hx]; [discriminate|]. exists x. now rewrite Hl.
  - split; [intros _; exists []; split; [reflexivity|congruence]|trivial].
Qed.
Theorem C81_exit_status : forall chunks args s s' r, run_prog (gc_add chunks args) s = (s', r) ->
  (r = Success <-> exists lv le lc ly ls lq, denotes args lv le lc ly ls lq).
Proof.
  intros chunks args s s' r H. assert (Hs : snd (run_prog (gc_add chunks args) s) = r) by now rewrite H.
  assert (E : succeeds (Ret Success) True) by (intro; cbn; tauto).
  assert (Hg : succeeds (gc_add chunks args) _) by (unfold gc_add; repeat eapply succeeds_option; exact E).
  rewrite <- Hs, (Hg s). clear Hg E H Hs s s' r.
  assert (F0 : fine (a_vertex args) parse_all <-> exists l, option_ids (a_vertex args) l).
  { destruct (a_vertex args) as [vs|]; cbn [fine option_ids].
    - split; intros [l Hl]; exists l; now apply parse_all_done.
    - split; [now exists []|trivial]. }
  rewrite F0, !fine_parse. split.
  - intros ((lv & Hv) & (le & He & Fe) & (lc & Hc & Fc) & (ly & Hy & Fy) & (ls & Hs & _) & (lq & Hq & _) & _).
    exists lv, le, lc, ly, ls, lq. split; try assumption.
    + destruct (a_edge args) as [vs|]; [|now cbn in He; subst]. destruct Fe as [x Hx]; [discriminate|].
      destruct (Nat.even (length le)) eqn:Ev; [reflexivity|]. rewrite tuple_odd in Hx by assumption. discriminate.
    + intro Ea. rewrite Ea in *. destruct Fc as [x Hx]; [discriminate|]. inversion Hc. subst. discriminate.
    + intro Ea. rewrite Ea in *. destruct Fy as [x Hx]; [discriminate|]. inversion Hy. subst. discriminate.
  - intros (lv & le & lc & ly & ls & lq & [Hv He Hev Hc Hc1 Hy Hy1 Hs Hq]).
    split; [eauto|]. split; [|split; [|split; [|split; [|split; [|trivial]]]]].
    + exists le. split; [assumption|]. intros _. destruct (even_flat (S (length le)) le) as [es ->]; [lia|assumption|].
      rewrite tuple_even. cbn [obind expect]. eauto.
    + exists lc. split; [assumption|]. intro Hn. destruct lc as [|x t]; [|rewrite chain_done; cbn [obind]; eauto].
      destruct (a_chain args) as [vs|]; [|congruence]. inversion Hc. subst. congruence.
    + exists ly. split; [assumption|]. intro Hn. destruct ly as [|x t]; [|rewrite cycle_done; cbn [obind expect]; eauto].
      destruct (a_cycle args) as [vs|]; [|congruence]. inversion Hy. subst. congruence.
    + exists ls. split; [assumption|]. intros _. destruct (C71_patterns ls) as (_ & _ & _ & (es & Es & _) & _).
      rewrite Es. cbn [obind]. eauto.
    + exists lq. split; [assumption|]. intros _. rewrite clique_done. eauto.
Qed.
Print Assumptions C81_exit_status.
Example C81_case : digit_table table /\ buffering at_once /\ holds table (with_file []) a_empty /\ u64 7 /\ ~ aV a_empty 7 /\
  snd (run_prog (gc_add at_once {| a_vertex := Some [txt "7"]; a_reverse := false; a_edge := Some [txt "1"]; a_chain := None;
    a_cycle := None; a_star := None; a_clique := None |}) (with_file [])) = Failure.
Proof.
  split; [exact table_ok|]. split; [exact at_once_ok|]. split; [apply C80_case|]. split; [reflexivity|].
  split; [intros []|vm_compute; reflexivity].
Qed.

(** ** C77: gc-add succeeds although nothing is stored. *)
Lemma option_call_keeps A o (f : list text -> outcome A) call next (I : fs -> Prop) s :
  I s -> (forall a s, I s -> I (fst (run_prog (call a) s))) -> (forall s, I s -> I (fst (run_prog next s))) ->
  I (fst (run_prog (option_call o f call next) s)).
Proof.
  intros H Hc Hn. rewrite run_option. destruct o as [vs|]; [|now apply Hn]. destruct (f vs); [|exact H..]. now apply Hn, Hc.
Qed.
Theorem C77_silent_loss_refuted : forall chunks args lv le lc ly ls lq s, buffering chunks ->
  denotes args lv le lc ly ls lq -> (forall c, commands_entry s <> File c) ->
  exists s', run_prog (gc_add chunks args) s = (s', Success) /\ fs_graph s' = fs_graph s.
Proof.
  intros chunks args lv le lc ly ls lq s B D Hn. destruct (run_prog (gc_add chunks args) s) as [s' r] eqn:E.
  exists s'. assert (r = Success) by (apply (C81_exit_status chunks args s s' r E); now exists lv, le, lc, ly, ls, lq).
  subst r. split; [reflexivity|].
  assert (Ap : forall cs t, fs_graph t = fs_graph s -> fs_graph (fst (run_prog (apply_graph_commands chunks cs) t)) = fs_graph s).
  { intros cs t Ht. rewrite run_apply by assumption. destruct (openable (fs_lock t)); [|exact Ht].
    assert (Ec : commands_entry t = commands_entry s) by (unfold commands_entry; now rewrite Ht).
    rewrite Ec. destruct (commands_entry s) as [|c|]; [exact Ht|now destruct (Hn c)|exact Ht]. }
  assert (K : fs_graph (fst (run_prog (gc_add chunks args) s)) = fs_graph s); [|now rewrite E in K].
  unfold gc_add.
  apply (option_call_keeps _ _ _ _ _ (fun t => fs_graph t = fs_graph s)); [reflexivity|intros; now apply Ap|intros t1 H1].
  apply (option_call_keeps _ _ _ _ _ (fun t => fs_graph t = fs_graph s)); [assumption|intros; now apply Ap|intros t2 H2].
  apply (option_call_keeps _ _ _ _ _ (fun t => fs_graph t = fs_graph s)); [assumption|intros; now apply Ap|intros t3 H3].
  apply (option_call_keeps _ _ _ _ _ (fun t => fs_graph t = fs_graph s)); [assumption|intros; now apply Ap|intros t4 H4].
  apply (option_call_keeps _ _ _ _ _ (fun t => fs_graph t = fs_graph s)); [assumption|intros; now apply Ap|intros t5 H5].
  apply (option_call_keeps _ _ _ _ _ (fun t => fs_graph t = fs_graph s)); [assumption|intros; now apply Ap|intros t6 H6].
  assumption.
Qed.
Print Assumptions C77_silent_loss_refuted.
Example C77_case : (forall c, commands_entry empty_dir <> File c) /\
  run_prog (gc_add at_once {| a_vertex := Some [txt "1"]; a_reverse := false; a_edge := None; a_chain := None;
    a_cycle := None; a_star := None; a_clique := None |}) empty_dir = (empty_dir, Success).
Proof. split; [discriminate|reflexivity]. Qed.

(** ** C82: gc-delete *)
Theorem C82_gc_delete : forall nd chunks vertex edge lv le s a, digit_table nd -> buffering chunks ->
  option_ids vertex lv -> option_ids edge le -> Nat.even (length le) = true -> holds nd s a ->
  exists s' g, run_prog (gc_delete chunks vertex edge) s = (s', Success) /\ loads nd s' g /\ built g /\
    a_same (shown g) (a_minus a (fun x => In x lv) (pairs_rel le)) /\ holds nd s' (shown g).
Proof.
  intros nd chunks vertex edge lv le s a T B Hv He Hev H.
  destruct (even_flat (S (length le)) le) as [es ->]; [lia|assumption|].
  assert (H1 : exists s1, run_prog (gc_delete chunks vertex edge) s =
      run_prog (option_call edge (fun vs => obind (parse_all vs) (fun l => obind (as_vertex_tuple l) expect)) (remove_edges chunks) (Ret Success)) s1 /\
      holds nd s1 (a_minus a (fun x => In x lv) (fun _ _ => False))).
  { unfold gc_delete. rewrite run_option. destruct vertex as [vs|]; cbn in Hv.
    - apply parse_all_done in Hv as Ep. rewrite Ep. eexists. split; [reflexivity|].
      apply holds_remove_vertices; try assumption. now apply (id_arguments_u64 vs).
    - subst lv. exists s. split; [reflexivity|]. eapply holds_same; [exact H|]. split; cbn; tauto. }
  destruct H1 as (s1 & E1 & H1). rewrite E1.
  assert (H2 : exists s2, run_prog (option_call edge (fun vs => obind (parse_all vs) (fun l => obind (as_vertex_tuple l) expect)) (remove_edges chunks) (Ret Success)) s1 =
      (s2, Success) /\ holds nd s2 (a_minus a (fun x => In x lv) (pairs_rel (flat es)))).
  { rewrite run_option. destruct edge as [vs|]; cbn in He.
    - apply parse_all_done in He as Ep. rewrite Ep. cbn [obind]. rewrite tuple_even. cbn [obind expect].
      eexists. split; [reflexivity|]. eapply holds_same.
      + apply (holds_remove_edges nd chunks es s1 (a_minus a (fun x => In x lv) (fun _ _ => False)) T B); [|exact H1].
        pose proof (id_arguments_u64 vs _ He) as U. rewrite Forall_forall in *. intros [x y] Hi.
        apply flat_In in Hi. destruct Hi as (p & q & Ef). split; apply U; rewrite Ef, in_app_iff; cbn; tauto.
      + split; cbn; [tauto|]. intros x y. rewrite <- flat_In. tauto.
    - destruct es as [|[? ?] ?]; [|discriminate]. exists s1. split; [reflexivity|]. eapply holds_same; [exact H1|].
      split; cbn; [tauto|]. intros x y. split; [|tauto]. intros (Ha & Hx & Hy & _). repeat split; try assumption.
      intros (p & q & Ef). destruct p; discriminate. }
  destruct H2 as (s2 & E2 & H2). rewrite E2.
  destruct (holds_load nd s2 _ T H2) as (g & Hg & Hb & Hs). exists s2, g. split; [reflexivity|].
  split; [unfold loads; rewrite run_load in *; cbn [snd] in Hg; now rewrite Hg|]. split; [assumption|]. split; [assumption|].
  eapply holds_same; [exact H2|now apply a_same_sym].
Qed.
Print Assumptions C82_gc_delete.
Example C82_case : option_ids (Some [txt "1"]) [1] /\ option_ids (Some [txt "2"; txt "3"]) [2; 3] /\
    aE (a_minus (a_run [AddEdge 2 3; AddEdge 3 4; AddEdge 1 2]) (fun x => In x [1]) (pairs_rel [2; 3])) 3 4.
Proof.
  split; [apply parse_all_done; reflexivity|]. split; [apply parse_all_done; reflexivity|].
  split; [cbn; tauto|]. split; [cbn; lia|]. split; [cbn; lia|].
  intros (p & q & E). destruct p as [|[? ?] p]; [discriminate|].
  cbn in E. injection E as _ _ E. destruct p as [|[? ?] ?]; discriminate.
Qed.

(** ** C73: gc-random *)
Theorem C73_random_dag : forall rng vc ec fuel g, creates_random_dag fuel vc ec rng = Done g ->
  built g /\ acyclic (gE g) /\
  (forall a b, contains_edge g (a, b) = true ->
     a < b /\ N.of_nat (Nat.div vc 10) < b - a /\
     (1 <= a < N.of_nat vc \/ 1 <= b < N.of_nat vc) /\ exists k, rng k = a \/ rng k = b) /\
  (ec <= length (edges g))%nat /\ edge_count g = length (edges g) /\
  (length (edges g) < ec + Nat.max vc 1)%nat.
Proof.
  intros rng vc ec fuel g H. unfold creates_random_dag in H. set (layer := N.of_nat (Nat.div vc 10)) in *.
  pose proof (dag_inv_start vc layer rng) as I0.
  destruct (dag_loop_done vc layer rng ec fuel (g_new, O) g I0 H) as (st & I & -> & Hec & Hlt & Hge).
  pose proof (di_built _ _ _ _ I) as B. apply built_wf in B as W.
  split; [assumption|]. split.
  - apply ascending_acyclic. intros a b Hab. apply (contains_edge_hasE _ _ W) in Hab. apply (di_edge _ _ _ _ I) in Hab. lia.
  - split; [|split; [assumption|split; [now apply (dag_edge_count vc layer rng)|]]].
    + intros a b Hab. apply (contains_edge_hasE _ _ W) in Hab. pose proof (di_edge _ _ _ _ I a b Hab) as [He Hl].
      destruct (di_drawn _ _ _ _ I a b Hab) as (k & _ & Hk). unfold lower in Hl. split; [lia|]. split; [lia|]. split; [exact Hl|eauto].
    + cbn [fst edges] in Hlt, Hge. destruct ec as [|ec].
      * rewrite Hge by lia. cbn. lia.
      * assert (length (edges (fst st)) < S ec + (vc - 1))%nat by (apply Hlt; cbn; lia). lia.
Qed.
Print Assumptions C73_random_dag.
Example C73_case : exists g, creates_random_dag 5 3 3 (fun k => N.of_nat (10 * k)) = Done g /\
  edges g = [(0, 1); (1, 20); (2, 10); (2, 30)].
Proof. eexists. split; reflexivity. Qed.

(** ** C74: not every call returns. *)
Theorem C74_never_returns_refuted : forall rng vc ec, (vc <= 1)%nat -> (1 <= ec)%nat ->
  diverges (fun fuel => creates_random_dag fuel vc ec rng).
Proof.
  intros rng vc ec Hv He fuel. unfold creates_random_dag. apply dag_loop_never; [apply dag_inv_start|].
  intros n _. assert (E : forall m st, rounds vc (N.of_nat (Nat.div vc 10)) rng m st = st).
  { induction m as [|m IH]; intro st; cbn [rounds]; [reflexivity|]. rewrite IH. unfold dag_round.
    replace (vc - 1)%nat with O by lia. reflexivity. }
  rewrite E. cbn. lia.
Qed.
Print Assumptions C74_never_returns_refuted.
(** It returns when the random numbers hold enough distinct large values; and
    otherwise, in general, exactly when some number of rounds gives enough
    edges. *)
Theorem C74_returns : forall rng vc ec L, (2 <= vc)%nat -> NoDup L -> length L = ec ->
  (forall x, In x L -> N.of_nat vc + N.of_nat (Nat.div vc 10) < x /\ exists k, rng k = x) ->
  exists g, settles (fun fuel => creates_random_dag fuel vc ec rng) g.
Proof.
  intros rng vc ec L Hv ND Hlen HL. set (layer := N.of_nat (Nat.div vc 10)) in *.
  assert (K : exists n, forall x, In x L -> exists k, (k < n)%nat /\ rng k = x).
  { clear - HL. induction L as [|y L IH]; [exists O; intros x []|].
    destruct IH as [n Hn]; [intros x Hx; apply HL; now right|]. destruct (HL y) as (_ & k & Hk); [now left|].
    exists (Nat.max n (S k)). intros x [<-|Hx]; [exists k; split; [lia|assumption]|].
    destruct (Hn x Hx) as (j & Hj & Ej). exists j. split; [lia|assumption]. }
  destruct K as [n Hn]. pose proof (dag_inv_start vc layer rng) as I0.
  destruct (rounds_inv vc layer rng n _ I0) as (I & Es & _). cbn [snd] in Es.
  destruct (dag_loop_reaches vc layer rng ec n (g_new, O) I0) as [g Hg].
  - rewrite <- Hlen. apply (hits_edges vc layer rng L ND _ I). intros x Hx. split; [now apply HL|].
    destruct (Hn x Hx) as (k & Hk & Ek). exists k. split; [|assumption]. rewrite Es.
    assert (n * 1 <= n * (vc - 1))%nat by (apply Nat.mul_le_mono_l; lia). lia.
  - exists g, n. intros fuel Hf. now apply Hg.
Qed.
Print Assumptions C74_returns.
Example C74_case : NoDup [100; 200; 300] /\ forall x, In x [100; 200; 300] ->
  N.of_nat 20 + N.of_nat (Nat.div 20 10) < x /\ exists k, (fun k => N.of_nat (100 * k)) k = x.
Proof.
  split; [repeat constructor; cbn; intuition discriminate|].
  intros x [<-|[<-|[<-|[]]]]; (split; [reflexivity|]); [now exists 1%nat|now exists 2%nat|now exists 3%nat].
Qed.

(** ** C75: more vertices than asked for. *)
Theorem C75_vertex_count_refuted : exists rng vc ec g fuel,
  (forall k, rng k < 2 ^ 64) /\ creates_random_dag fuel vc ec rng = Done g /\ (vc < vertex_count g)%nat.
Proof.
  exists (fun k => N.of_nat (10 * Nat.min k 100 + 10)), 2%nat, 3%nat. eexists. exists 5%nat.
  split; [|split; [reflexivity|]].
  - intro k. assert (10 * Nat.min k 100 + 10 <= 1010)%nat by lia.
    assert (H2 : N.of_nat (10 * Nat.min k 100 + 10) <= 1010) by lia.
    eapply N.le_lt_trans; [exact H2|reflexivity].
  - vm_compute. lia.
Qed.
Print Assumptions C75_vertex_count_refuted.
(** What is true: at most one vertex per edge besides 1 .. vc-1. *)
Theorem C75_vertex_count : forall rng vc ec fuel g, creates_random_dag fuel vc ec rng = Done g ->
  (vertex_count g <= (vc - 1) + length (edges g))%nat /\
  (forall v, contains_vertex g v = true -> 1 <= v < N.of_nat vc \/ exists k, v = rng k).
Proof.
  intros rng vc ec fuel g H. unfold creates_random_dag in H. set (layer := N.of_nat (Nat.div vc 10)) in *.
  pose proof (dag_inv_start vc layer rng) as I0.
  destruct (dag_loop_done vc layer rng ec fuel (g_new, O) g I0 H) as (st & I & -> & _).
  pose proof (di_built _ _ _ _ I) as B. apply built_wf in B as W. split.
  - destruct (di_vertices _ _ _ _ I) as (xs & Hx & Hv). rewrite <- Hx, vertex_count_len.
    destruct (vertices_spec W) as [ND Hin].
    assert (Hle : (length (vertices (fst st)) <= length (map N.of_nat (seq 1 (vc - 1)) ++ xs))%nat).
    { apply NoDup_incl_length; [assumption|]. intros v Hvi. apply Hin, contains_vertex_hasV, Hv in Hvi.
      apply in_app_iff. destruct Hvi as [Hl|Hi]; [left|now right]. apply in_map_iff. exists (N.to_nat v). unfold lower in Hl.
      split; [lia|]. apply in_seq. lia. }
    rewrite app_length, map_length, seq_length in Hle. exact Hle.
  - intros v Hv. apply contains_vertex_hasV in Hv. apply (di_seen _ _ _ _ I v Hv).
Qed.
Print Assumptions C75_vertex_count.
Example C75_case : exists g, creates_random_dag 5 3 3 (fun k => N.of_nat (10 * k)) = Done g /\
  vertex_count g = 6%nat /\ length (edges g) = 4%nat.
Proof. eexists. split; [reflexivity|]. split; reflexivity. Qed.

(** ** C83: the command stores the generated graph. *)
Theorem C83_random_stored : forall nd chunks g force answer s s' r, digit_table nd -> buffering chunks ->
  built g -> u64_graph g -> openable (fs_lock s) = true ->
  run_prog (gc_random chunks g force answer) s = (s', r) ->
  (force = false -> confirmed answer = false -> s' = s /\ r = Success) /\
  (force = true \/ confirmed answer = true ->
     fs_lock s' = Absent /\
     (r = Success <-> exists e, fs_graph s = GraphDir e) /\
     (r = Failure -> fs_graph s' = fs_graph s) /\
     (r = Success -> exists g', loads nd s' g' /\ a_same (shown g') (shown g))).
Proof.
  intros nd chunks g force answer s s' r T B Bg Ug Hl E. unfold gc_random in E.
  destruct (negb force && negb (confirmed answer)) eqn:Ey.
  - rewrite andb_true_iff, !negb_true_iff in Ey. destruct Ey as [-> Ec]. injection E as <- <-. split; [tauto|].
    intros [?|?]; congruence.
  - split; [intros -> Hc; rewrite Hc in Ey; discriminate|]. intros _. rewrite run_bind, run_clean, Hl in E.
    destruct (fs_graph s) as [| |e] eqn:Eg; cbn [fst snd run_prog] in E.
    + injection E as <- <-. split; [reflexivity|]. cbn. rewrite Eg.
      split; [split; [discriminate|intros [e He]; discriminate]|]. split; [reflexivity|discriminate].
    + injection E as <- <-. split; [reflexivity|]. cbn. rewrite Eg.
      split; [split; [discriminate|intros [e He]; discriminate]|]. split; [reflexivity|discriminate].
    + rewrite run_bind, run_init in E. cbn [fst snd set_graph fs_graph released] in E.
      rewrite run_bind, run_save in E by assumption. cbn [fst snd set_commands set_root set_graph fs_graph run_prog] in E. injection E as <- <-.
      split; [reflexivity|]. split; [split; [eauto|reflexivity]|]. split; [discriminate|]. intros _.
      exists (apply_commands (as_commands g) g_new).
      split; [unfold loads; rewrite run_load, commands_set, (gcmd_roundtrip nd T) by (try assumption; now apply built_wf); reflexivity|].
      apply as_commands_roundtrip. now apply built_wf.
Qed.
Print Assumptions C83_random_stored.
Example C83_case : built sample /\ u64_graph sample /\
  run_prog (gc_random at_once g_new true []) (with_file (txt "AddVertex 5")) = (with_file [], Success).
Proof. split; [apply sample_built|]. split; [apply sample_u64|reflexivity]. Qed.

(** ** C76: gc-desc *)
Theorem C76_desc : forall nd order s g, hash_order order -> loads nd s g ->
  exists n e lo hi, run_prog (gc_desc nd order) s =
    (s, Some [txt "Vertices: " ++ n; txt "Edges: " ++ e; txt "Min vertex id: " ++ lo; txt "Max vertex id: " ++ hi]) /\
  canonical_numeral n (N.of_nat (length (vertices g))) /\ canonical_numeral e (N.of_nat (edge_count g)) /\
  ((forall v, contains_vertex g v = false) -> lo = txt "-" /\ hi = txt "-") /\
  (forall v, contains_vertex g v = true ->
     exists a b, canonical_numeral lo a /\ canonical_numeral hi b /\
       contains_vertex g a = true /\ contains_vertex g b = true /\
       forall x, contains_vertex g x = true -> a <= x <= b).
Proof.
  intros nd order s g O H. unfold loads in H. unfold gc_desc. rewrite run_bind, H. cbn [fst snd run_prog]. unfold desc_lines.
  assert (Bg : built g).
  { rewrite run_load in H. injection H as H. destruct (commands_entry s) as [|c|]; try discriminate.
    apply gcmd_read_ok in H. destruct H as (cs & _ & ->). exists cs. apply built_by_apply. }
  apply built_wf in Bg as W. assert (Wo : wf (order g)) by (eapply wf_perm; [exact W|apply O]).
  assert (Hin : forall v, In v (vertices (order g)) <-> contains_vertex g v = true).
  { intro v. rewrite vertices_In. apply (proj1 (shown_perm W (O g))). }
  eexists _, _, _, _. split; [reflexivity|]. split; [|split; [|split]].
  - replace (length (vertices g)) with (vertex_count (order g)); [apply show_spec|].
    unfold vertex_count. rewrite <- (Permutation_length (O g)). symmetry. apply map_length.
  - replace (edge_count g) with (edge_count (order g)); [apply show_spec|].
    rewrite !edge_count_law by assumption.
    assert (P : Permutation (edges (order g)) (edges g)) by (apply same_edges_perm; try assumption; apply (shown_perm W (O g))).
    f_equal; [|f_equal]; apply Permutation_length; clear - P; induction P; cbn;
      repeat match goal with |- context [if ?b then _ else _] => destruct b end; eauto using Permutation.
  - intro Hn. assert (E : vertices (order g) = []).
    { destruct (vertices (order g)) as [|v l]; [reflexivity|]. specialize (Hin v). rewrite Hn in Hin.
      assert (false = true) by (apply Hin; now left). discriminate. }
    rewrite E. split; reflexivity.
  - intros v Hv. apply Hin in Hv.
    pose proof (iter_min_spec (vertices (order g))) as Hm. pose proof (iter_max_spec (vertices (order g))) as HM.
    destruct (iter_min (vertices (order g))) as [a|]; [|rewrite Hm in Hv; destruct Hv].
    destruct (iter_max (vertices (order g))) as [b|]; [|rewrite HM in Hv; destruct Hv].
    exists a, b. cbn [show_or_dash]. split; [apply show_spec|]. split; [apply show_spec|].
    split; [now apply Hin|]. split; [now apply Hin|]. intros x Hx. apply Hin in Hx. split; [now apply Hm|now apply HM].
Qed.
Print Assumptions C76_desc.
Example C76_case : exists g, loads table (with_file (txt "AddEdge 7 3" ++ [10] ++ txt "AddVertex 12")) g /\
  snd (run_prog (gc_desc table id_order) (with_file (txt "AddEdge 7 3" ++ [10] ++ txt "AddVertex 12"))) =
  Some [txt "Vertices: 3"; txt "Edges: 1"; txt "Min vertex id: 3"; txt "Max vertex id: 12"].
Proof. eexists. split; reflexivity. Qed.
