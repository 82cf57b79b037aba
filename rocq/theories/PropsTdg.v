(** Property theorems about task decomposition: C23-C27, C39, C40.
    Specifications: SpecTdg.v (decomposition on names), SpecRec.v (cycles). *)
From Coq Require Import String Ascii NArith Bool List Lia PeanoNat Relations Permutation.
From Verif Require Import Base Token Lexer Errors Ast Parser Graph Semantic Tdg Api StrFacts GraphProofs
  ParserProofs PropsLex PropsParse SpecSem SemDomain SemProblem TdgGraph TdgReach TdgNull SpecTdg TdgTop VerifyTop SpecRec TdgRec TdgRecTop PropsSem.
Import ListNotations.
Open Scope list_scope.
Open Scope nat_scope.

Lemma accepted_heads d : domain_ok d -> forall m, In m (d_methods d) -> compound d (sym_name (m_task m)).
Proof.
  intros (_ & _ & _ & _ & _ & _ & _ & _ & _ & Hm) m Hi. rewrite Forall_forall in Hm.
  destruct (Hm m Hi) as (_ & _ & (f & Hc & _) & _). inversion Hc; subst. apply in_map; auto.
Qed.

Section S.
Context `{Unicode}.
Variable he : hash_env.
Hypothesis Hhe : hash_env_ok he.

(** ** C23 *)
Theorem C23_warning_true : forall n dom prob ws d x l,
  verify he n dom prob = Ok ws -> parse n dom = Ok (ADomain d) -> distinct_names d ->
  In (NoPrimitiveRefinement x l) ws -> compound d x /\ ~ refinable d x.
Proof.
  intros n dom prob ws d x l E Ep Hd Hi. apply verify_ok_inv in E as (d' & Ep' & Ev & Hok & _); auto.
  assert (d' = d) as -> by congruence.
  destruct (verify_domain_warning he n d (table ws d) x l Hhe Ev Hi) as (g & t & Eg & Ht & <- & _ & Hw).
  assert (compound d (task_name t)) as Hc by (apply in_map; auto). split; auto.
  unfold warns in Hw. destruct (reachable he n g (task_name t)) as [r| | |] eqn:Er; try discriminate.
  destruct (reachable_names d g Eg Hd he Hhe n (task_name t) r Hc Er) as (Hp & _ & nulls & En & Hn).
  destruct (rs_primitives r) as [|p ps] eqn:Epr; [|discriminate]. apply negb_true_iff in Hw.
  intros (w & Hw' & Hall). destruct w as [|a w].
  - assert (In (task_name t) nulls) as Hin.
    { eapply (nullables_names d g Eg Hd he Hhe (accepted_heads d Hok)); eauto. }
    apply Hn in Hin. congruence.
  - assert (In a []) as []. apply Hp. split; [inversion Hall; auto|]. eapply expands_reach; eauto. left; auto.
Qed.

(** ** C24 *)
Theorem C24_vanishing_found : forall n lf dom md d,
  get_metadata he n lf dom = Ok md -> parse n dom = Ok (ADomain d) -> distinct_names d ->
  (forall m, In m (d_methods d) -> compound d (sym_name (m_task m))) ->
  forall x, vanishes d x -> In x (md_nullables md).
Proof.
  intros n lf dom md d E Ep Hd Hh x Hx. unfold get_metadata, parse_as_domain in E. rewrite Ep in E. cbn [obind] in E.
  unfold domain_metadata in E. apply bind_ok in E as (g & Eg & E). apply bind_ok in E as (nulls & En & E).
  apply bind_ok in E as (r & Er & E). injection E as <-. simpl.
  apply (Permutation_in (l := nulls)); [apply Permutation_sym, ho_names_ok; auto|].
  eapply (nullables_names d g Eg Hd he Hhe Hh); eauto.
Qed.
(** What is called nullable is at least a compound task with a method. *)
Theorem C24_found_compound : forall n lf dom md d,
  get_metadata he n lf dom = Ok md -> parse n dom = Ok (ADomain d) -> distinct_names d ->
  (forall m, In m (d_methods d) -> compound d (sym_name (m_task m))) ->
  forall x, In x (md_nullables md) -> compound d x.
Proof.
  intros n lf dom md d E Ep Hd Hh x Hx. unfold get_metadata, parse_as_domain in E. rewrite Ep in E. cbn [obind] in E.
  unfold domain_metadata in E. apply bind_ok in E as (g & Eg & E). apply bind_ok in E as (nulls & En & E).
  apply bind_ok in E as (r & Er & E). injection E as <-. simpl in Hx.
  apply (Permutation_in (l' := nulls)) in Hx; [|apply ho_names_ok; auto].
  eapply (nullables_compound d g Eg Hd he Hhe Hh); eauto.
Qed.

(** ** C25 *)
Theorem C25_reachable_exact : forall n d g x r,
  tdg_new d = Ok g -> distinct_names d -> compound d x -> reachable he n g x = Ok r ->
  (forall a, In a (rs_primitives r) <-> primitive d a /\ reaches d x a)
  /\ (forall a, In a (rs_compounds r) <-> compound d a /\ reaches d x a).
Proof.
  intros n d g x r Eg Hd Hc Er. destruct (reachable_names d g Eg Hd he Hhe n x r Hc Er) as (H1 & H2 & _). auto.
Qed.
Theorem C25_reachable_terminates : forall d g x, tdg_new d = Ok g -> compound d x ->
  exists k, forall n, k <= n -> exists r, reachable he n g x = Ok r.
Proof.
  intros d g x Eg Hc. exists (tdg_bound g). intros n Hn.
  destruct (reachable_compound d g Eg he Hhe n x Hc Hn) as (i & r & nulls & _ & _ & _ & E). eauto.
Qed.
Theorem C25_action_reaches_itself : forall d g x, tdg_new d = Ok g -> distinct_names d -> primitive d x ->
  forall n, reachable he n g x = Ok (mkReach [x] [] false).
Proof.
  intros d g x Eg Hd Hp n. unfold reachable.
  assert (exists i, nth_error (task_list d) i = Some (x, false)) as (i & Ei).
  { apply In_nth_error. unfold task_list. apply in_or_app. right. apply in_map_iff.
    unfold primitive in Hp. apply in_map_iff in Hp as (a & <- & Ha). eauto. }
  assert (index_first x (tg_tasks g) = Some i) as ->.
  { apply (first_at d g Eg Hd). unfold name_at, task_names. apply (map_nth_error fst) in Ei. exact Ei. }
  rewrite (tdg_tasks d g Eg). rewrite (nth_error_nth _ _ _ Ei). auto.
Qed.

(** ** C26 *)
Lemma metadata_inv n lf dom md d : get_metadata he n lf dom = Ok md -> parse n dom = Ok (ADomain d) ->
  exists g nulls, tdg_new d = Ok g /\ compute_nullables he n g = Ok nulls
    /\ get_recursion_type he n lf g nulls = Ok (md_recursion md) /\ Permutation (md_nullables md) nulls
    /\ md_actions md = length (d_actions d) /\ md_tasks md = length (d_tasks d) /\ md_methods md = length (d_methods d).
Proof.
  intros E Ep. unfold get_metadata, parse_as_domain in E. rewrite Ep in E. cbn [obind] in E.
  unfold domain_metadata in E. apply bind_ok in E as (g & Eg & E). apply bind_ok in E as (nulls & En & E).
  apply bind_ok in E as (r & Er & E). injection E as <-. simpl. exists g, nulls.
  repeat (split; auto). apply ho_names_ok; auto.
Qed.
Lemma class_same nulls nulls' : (forall x, In x nulls <-> In x nulls') ->
  forall ms k, cycle_class nulls ms k -> cycle_class nulls' ms k.
Proof.
  intros Hn ms k Hc.
  assert (silent nulls ms <-> silent nulls' ms) as Hs.
  { unfold silent, quiet. split; intros Hq m Em; specialize (Hq m Em); rewrite Forall_forall in *; intros l Hl;
      destruct (Hq l Hl) as [Hh|Hf]; auto; right; rewrite Forall_forall in *; intros y Hy; apply Hn; auto. }
  destruct Hc as [Hx|y H1 H2 H3|H1 H2|y H1 H2 H3].
  - apply cc_recursive. tauto.
  - apply cc_growing with (y := y); [tauto|auto|]. rewrite <- Hn; auto.
  - apply cc_empty; [tauto|auto].
  - apply cc_shrink with (y := y); [tauto|auto|]. intros z Hz. apply Hn; auto.
Qed.
Lemma class_fun nulls ms k k' : cycle_class nulls ms k -> cycle_class nulls ms k' -> k = k'.
Proof.
  intros Hc Hc'. destruct Hc as [Hx|y H1 H2 H3|H1 H2|y H1 H2 H3]; destruct Hc' as [Hx'|y' H1' H2' H3'|H1' H2'|y' H1' H2' H3'];
    try reflexivity; try contradiction; exfalso;
    first [apply (H2 _ H2') | apply (H2' _ H2) | apply H3, H3', H2 | apply H3', H3, H2'].
Qed.

(** The reported class is the largest class of a simple cycle, and the reported
    cycle is one of the simple cycles with this class. *)
Lemma metadata_search n lf dom md d : get_metadata he n lf dom = Ok md -> parse n dom = Ok (ADomain d) -> distinct_names d ->
  (forall ms, simple_cycle d ms -> exists k, cycle_class (md_nullables md) ms k /\ k <= class (md_recursion md))
  /\ (md_recursion md = NonRecursive \/ exists ms, simple_cycle d ms
        /\ cycle_class (md_nullables md) ms (class (md_recursion md)) /\ cycle_of (md_recursion md) = cycle_report ms).
Proof.
  intros E Ep Hd. destruct (metadata_inv _ _ _ _ _ E Ep) as (g & nulls & Eg & _ & Er & Hp & _).
  unfold get_recursion_type in Er. apply bind_ok in Er as (null & En & Er). apply (indices_ok d g Eg Hd) in En.
  assert (forall x, In x nulls <-> In x (md_nullables md)) as Hn.
  { intros x. split; apply Permutation_in; auto. apply Permutation_sym; auto. }
  destruct (search_names d g Eg Hd he Hhe lf nulls null En n _ Er) as [H1 H2]. split.
  - intros ms Hs. destruct (H1 ms Hs) as (k & Hk & Hl). exists k. split; auto. eapply class_same; eauto.
  - destruct H2 as [H2|(ms & Hs & Hk & Hr)]; auto. right. exists ms. split; auto. split; auto. eapply class_same; eauto.
Qed.
Lemma class_zero r : class r = 0 <-> r = NonRecursive.
Proof. destruct r; simpl; split; congruence. Qed.
Lemma class_at_least nulls ms k : cycle_class nulls ms k -> 1 <= k.
Proof. destruct 1; lia. Qed.

Theorem C26_non_recursive_iff : forall n lf dom md d,
  get_metadata he n lf dom = Ok md -> parse n dom = Ok (ADomain d) -> distinct_names d ->
  (md_recursion md = NonRecursive <-> forall x, ~ clos_trans string (decomposes d) x x).
Proof.
  intros n lf dom md d E Ep Hd. destruct (metadata_search _ _ _ _ _ E Ep Hd) as [H1 H2]. split.
  - intros Hr x Hx. destruct (reaches_cycle d x Hx) as (ms & Hs). destruct (H1 ms Hs) as (k & Hk & Hl).
    apply class_at_least in Hk. rewrite Hr in Hl. simpl in Hl. lia.
  - intros Hn. destruct H2 as [H2|(ms & Hs & _)]; auto. exfalso.
    destruct (proj1 (recursive_iff d) (ex_intro _ ms Hs)) as (x & Hx). apply (Hn x Hx).
Qed.
Theorem C26_cycle_genuine : forall n lf dom md d,
  get_metadata he n lf dom = Ok md -> parse n dom = Ok (ADomain d) -> distinct_names d ->
  md_recursion md <> NonRecursive ->
  exists ms, simple_cycle d ms /\ cycle_of (md_recursion md) = cycle_report ms.
Proof.
  intros n lf dom md d E Ep Hd Hr. destruct (metadata_search _ _ _ _ _ E Ep Hd) as [_ [H2|(ms & Hs & _ & Hc)]]; [congruence|eauto].
Qed.

(** ** C39 *)
Theorem C39_class_is_maximum : forall n lf dom md d,
  get_metadata he n lf dom = Ok md -> parse n dom = Ok (ADomain d) -> distinct_names d ->
  (forall ms, simple_cycle d ms -> exists k, cycle_class (md_nullables md) ms k /\ k <= class (md_recursion md))
  /\ (md_recursion md = NonRecursive \/ exists ms, simple_cycle d ms
        /\ cycle_class (md_nullables md) ms (class (md_recursion md)) /\ cycle_of (md_recursion md) = cycle_report ms).
Proof. apply metadata_search. Qed.

(** ** C27: metadata of totally ordered domains *)
Theorem C27_metadata_terminates : forall m lf dom d,
  parse m dom = Ok (ADomain d) -> closed_names d -> distinct_names d -> d_tasks d <> [] ->
  (forall me, In me (d_methods d) -> htn_orderings (m_tn me) = Total) ->
  exists k, forall n, k <= n -> exists md, get_metadata he n lf dom = Ok md.
Proof.
  intros m lf dom d Ep Hcl Hd Hne Ht. destruct (tdg_new_total d Hcl) as (g & Eg).
  assert (exists x, compound d x) as Hc.
  { destruct (d_tasks d) as [|t ts] eqn:Et; [congruence|]. exists (task_name t). unfold compound. rewrite Et. left; auto. }
  destruct (nullables_ok d g Eg he Hhe (tdg_bound g) Hc (le_n _)) as (l & El & En).
  set (nulls := fold_left (fun acc i => add_str (name_of g i) acc) l []) in *.
  assert (exists null, get_task_indices g nulls = Ok null) as (null & Enull).
  { apply (indices_total d g Eg Hd). intros x Hx. unfold nulls in Hx. apply fold_add_str in Hx as [[]|(i & Hi & <-)].
    destruct (nullables_method he Hhe g (from_lt d g Eg) (to_lt d g Eg) (tdg_bound g) l El i Hi) as (me & Hme).
    apply (from_set_In d g Eg) in Hme as (md' & _ & Ei). apply (index_at d Hd) in Ei. exists i.
    rewrite (name_of_at d g Eg _ _ Ei). auto. }
  pose proof (proj1 (indices_ok d g Eg Hd nulls null) Enull) as Hnull.
  destruct (search_ok d g Eg Hd he Hhe lf null Ht) as (k & Hk).
  exists (m + tdg_bound g + k). intros n Hn. unfold get_metadata, parse_as_domain.
  rewrite (parse_mono m n) by (try lia; congruence). rewrite Ep. cbn [obind]. unfold domain_metadata. rewrite Eg. cbn [obind].
  rewrite (nullables_mono he g (tdg_bound g) n) by (try lia; congruence). rewrite En. cbn [obind].
  unfold get_recursion_type. rewrite Enull. cbn [obind]. destruct (Hk n ltac:(lia)) as (r & ->). cbn [obind]. eauto.
Qed.
(** A domain without recursion, whatever the orderings. *)
Theorem C27_metadata_terminates_acyclic : forall m lf dom d,
  parse m dom = Ok (ADomain d) -> closed_names d -> distinct_names d -> d_tasks d <> [] ->
  (forall x, ~ clos_trans string (decomposes d) x x) ->
  exists k, forall n, k <= n -> exists md, get_metadata he n lf dom = Ok md /\ md_recursion md = NonRecursive.
Proof.
  intros m lf dom d Ep Hcl Hd Hne Ht. destruct (tdg_new_total d Hcl) as (g & Eg).
  assert (exists x, compound d x) as Hc.
  { destruct (d_tasks d) as [|t ts] eqn:Et; [congruence|]. exists (task_name t). unfold compound. rewrite Et. left; auto. }
  destruct (nullables_ok d g Eg he Hhe (tdg_bound g) Hc (le_n _)) as (l & El & En).
  set (nulls := fold_left (fun acc i => add_str (name_of g i) acc) l []) in *.
  assert (exists null, get_task_indices g nulls = Ok null) as (null & Enull).
  { apply (indices_total d g Eg Hd). intros x Hx. unfold nulls in Hx. apply fold_add_str in Hx as [[]|(i & Hi & <-)].
    destruct (nullables_method he Hhe g (from_lt d g Eg) (to_lt d g Eg) (tdg_bound g) l El i Hi) as (me & Hme).
    apply (from_set_In d g Eg) in Hme as (md' & _ & Ei). apply (index_at d Hd) in Ei. exists i.
    rewrite (name_of_at d g Eg _ _ Ei). auto. }
  assert (forall ms, ~ simple_cycle d ms) as Hns.
  { intros ms Hs. destruct (proj1 (recursive_iff d) (ex_intro _ ms Hs)) as (x & Hx). apply (Ht x Hx). }
  destruct (search_acyclic d g Eg Hd he Hhe lf null Hns) as (k & Hk).
  exists (m + tdg_bound g + k). intros n Hn. unfold get_metadata, parse_as_domain.
  rewrite (parse_mono m n) by (try lia; congruence). rewrite Ep. cbn [obind]. unfold domain_metadata. rewrite Eg. cbn [obind].
  rewrite (nullables_mono he g (tdg_bound g) n) by (try lia; congruence). rewrite En. cbn [obind].
  unfold get_recursion_type. rewrite Enull. cbn [obind]. rewrite (Hk n ltac:(lia)). cbn [obind]. eauto.
Qed.

Theorem C27_nullables_terminate : forall d g, tdg_new d = Ok g -> d_tasks d <> [] ->
  exists l k, forall n, k <= n -> compute_nullables he n g = Ok l.
Proof.
  intros d g Eg Hne.
  assert (exists x, compound d x) as Hc.
  { destruct (d_tasks d) as [|t ts] eqn:Et; [congruence|]. exists (task_name t). unfold compound. rewrite Et. left; auto. }
  destruct (nullables_ok d g Eg he Hhe (tdg_bound g) Hc (le_n _)) as (l & _ & En).
  eexists. exists (tdg_bound g). intros n Hn. rewrite (nullables_mono he g (tdg_bound g) n) by (try lia; congruence). exact En.
Qed.
Theorem C27_hangs_without_tasks : forall m dom d, parse m dom = Ok (ADomain d) -> closed_names d -> d_tasks d = [] ->
  forall n lf, get_metadata he n lf dom = OutOfFuel.
Proof.
  intros m dom d Ep Hcl Hne n lf. destruct (tdg_new_total d Hcl) as (g & Eg). unfold get_metadata, parse_as_domain.
  destruct (parse n dom) as [a|e|p|] eqn:E; cbn [obind]; auto.
  - assert (a = ADomain d) as ->.
    { rewrite <- (parse_mono n (n + m)) in E by (try lia; congruence).
      rewrite <- (parse_mono m (n + m)) in Ep by (try lia; congruence). congruence. }
    cbn [obind]. unfold domain_metadata. rewrite Eg. cbn [obind]. unfold compute_nullables.
    rewrite (nullables_diverge he g n (no_compound_no_key d g Eg Hne)). auto.
  - rewrite <- (parse_mono n (n + m)) in E by (try lia; congruence).
    rewrite <- (parse_mono m (n + m)) in Ep by (try lia; congruence). congruence.
  - rewrite <- (parse_mono n (n + m)) in E by (try lia; congruence).
    rewrite <- (parse_mono m (n + m)) in Ep by (try lia; congruence). congruence.
Qed.

(** ** C40 *)
Theorem C40_partial_order_crash : forall dom d ms m x ords k,
  parse k dom = Ok (ADomain d) -> distinct_names d ->
  simple_cycle d ms -> In (m, x) (cycle_links ms) -> htn_orderings (m_tn m) = Partial ords ->
  S (length ords) <> length (htn_subtasks (m_tn m)) ->
  forall n lf md, get_metadata he n lf dom <> Ok md.
Proof.
  intros dom d ms m x ords k Ek Hd Hs Hl Ho Hc n lf md E.
  assert (parse n dom = Ok (ADomain d)) as Ep.
  { unfold get_metadata in E. apply bind_ok in E as (d' & E1 & E). unfold parse_as_domain in E1.
    apply bind_ok in E1 as ([d''|] & E1 & E2); [|discriminate]. rewrite E1. f_equal. f_equal. symmetry. eapply same_domain; eauto. }
  destruct (metadata_inv _ _ _ _ _ E Ep) as (g & nulls & Eg & _ & Er & _).
  unfold get_recursion_type in Er. apply bind_ok in Er as (null & En & Er). apply (indices_ok d g Eg Hd) in En.
  destruct (search_partial d g Eg Hd he Hhe lf null n _ Er ms m x ords Hs Hl Ho) as [H1 _]. auto.
Qed.
(** An ordering from one occurrence to an identifier that contains the name of
    an occurrence never ends. *)
Theorem C40_partial_order_hang : forall dom d ms m x ords k i j o,
  parse k dom = Ok (ADomain d) -> distinct_names d ->
  simple_cycle d ms -> In (m, x) (cycle_links ms) -> htn_orderings (m_tn m) = Partial ords ->
  (exists s, In s (htn_subtasks (m_tn m)) /\ id_of s = Some i /\ sym_name (sub_task s) = x) -> In (i, j) ords ->
  (exists s, In s (htn_subtasks (m_tn m)) /\ id_of s = Some o /\ sym_name (sub_task s) = x) -> str_contains j o = true ->
  forall n lf md, get_metadata he n lf dom <> Ok md.
Proof.
  intros dom d ms m x ords k i j o Ek Hd Hs Hl Ho Hi Hij Hoc Hco n lf md E.
  assert (parse n dom = Ok (ADomain d)) as Ep.
  { unfold get_metadata in E. apply bind_ok in E as (d' & E1 & E). unfold parse_as_domain in E1.
    apply bind_ok in E1 as ([d''|] & E1 & E2); [|discriminate]. rewrite E1. f_equal. f_equal. symmetry. eapply same_domain; eauto. }
  destruct (metadata_inv _ _ _ _ _ E Ep) as (g & nulls & Eg & _ & Er & _).
  unfold get_recursion_type in Er. apply bind_ok in Er as (null & En & Er). apply (indices_ok d g Eg Hd) in En.
  destruct (search_partial d g Eg Hd he Hhe lf null n _ Er ms m x ords Hs Hl Ho) as [_ H2].
  specialize (H2 i j o Hi Hij Hoc). congruence.
Qed.
End S.

(** ** C26 and C28: other iteration orders *)
Theorem C26_order_independent `{Unicode} : forall he he' n lf n' lf' dom md md' d,
  hash_env_ok he -> hash_env_ok he' ->
  get_metadata he n lf dom = Ok md -> get_metadata he' n' lf' dom = Ok md' ->
  parse n dom = Ok (ADomain d) -> distinct_names d ->
  (forall x, In x (md_nullables md) <-> In x (md_nullables md')) ->
  class (md_recursion md) = class (md_recursion md').
Proof.
  assert (forall he he' n lf n' lf' dom md md' d,
    hash_env_ok he -> hash_env_ok he' ->
    get_metadata he n lf dom = Ok md -> get_metadata he' n' lf' dom = Ok md' ->
    parse n dom = Ok (ADomain d) -> parse n' dom = Ok (ADomain d) -> distinct_names d ->
    (forall x, In x (md_nullables md) <-> In x (md_nullables md')) ->
    class (md_recursion md) <= class (md_recursion md')) as Hle.
  { intros he he' n lf n' lf' dom md md' d Hh Hh' E E' Ep Ep' Hd Hn.
    destruct (metadata_search he Hh _ _ _ _ _ E Ep Hd) as [_ [->|(ms & Hs & Hk & _)]]; [simpl; lia|].
    destruct (metadata_search he' Hh' _ _ _ _ _ E' Ep' Hd) as [H1 _]. destruct (H1 ms Hs) as (k & Hk' & Hl).
    apply (class_same _ _ Hn) in Hk. rewrite (class_fun _ _ _ _ Hk Hk'). auto. }
  intros he he' n lf n' lf' dom md md' d Hh Hh' E E' Ep Hd Hn.
  assert (parse n' dom = Ok (ADomain d)) as Ep'.
  { unfold get_metadata in E'. apply bind_ok in E' as (d' & E1 & _). unfold parse_as_domain in E1.
    apply bind_ok in E1 as ([d''|] & E1 & E2); [|discriminate]. rewrite E1. f_equal. f_equal. symmetry. eapply same_domain; eauto. }
  apply Nat.le_antisymm; [eapply (Hle he he')|eapply (Hle he' he)]; eauto. intros x. symmetry. apply Hn.
Qed.

Definition tdg_theorems :=
  (@C23_warning_true, @C24_vanishing_found, @C24_found_compound, @C25_reachable_exact, @C25_reachable_terminates,
   @C25_action_reaches_itself, @C26_non_recursive_iff, @C26_cycle_genuine, @C26_order_independent,
   @C39_class_is_maximum, @C27_metadata_terminates, @C27_metadata_terminates_acyclic, @C27_nullables_terminate,
   @C27_hangs_without_tasks, @C40_partial_order_crash, @C40_partial_order_hang).

(** ** Concrete cases *)
Open Scope string_scope.
Definition tk (n : string) : string := "(:task " ++ n ++ " :parameters ())".
Definition ac (n : string) : string := "(:action " ++ n ++ " :parameters ())".
Definition me (n h body : string) : string := "(:method " ++ n ++ " :parameters () :task (" ++ h ++ ") " ++ body ++ ")".
Definition tot (l : list string) : string :=
  ":ordered-subtasks (and" ++ String.concat "" (map (fun x => " (" ++ x ++ ")") l) ++ ")".
Definition nothing : string := ":ordered-subtasks ()".
Definition dm (l : list string) : string := "(define (domain d) " ++ String.concat " " l ++ ")" ++ nl.
Definition meta (s : string) : option (recursion * list string) :=
  match @get_metadata uni0 env_id 300 50 s with Ok m => Some (md_recursion m, md_nullables m) | _ => None end.

Lemma expand_keeps d (I : list string -> Prop) : (forall l l', expand d l l' -> I l -> I l') ->
  forall l l', expands d l l' -> I l -> I l'.
Proof. intros Hs l l' He. induction He; eauto. Qed.
(** A set of tasks each of whose methods leads back into the set is never left. *)
Lemma trapped d (s : list string) :
  (forall m, In m (d_methods d) -> In (sym_name (m_task m)) s -> exists y, In y (subtask_names m) /\ In y s) ->
  forall x w, In x s -> expands d [x] w -> exists y, In y w /\ In y s.
Proof.
  intros Hm x w Hx He. refine (expand_keeps d (fun l => exists y, In y l /\ In y s) _ _ _ He _); [|exists x; split; [left|]; auto].
  intros l l' [l1 m l2 Hin] (y & Hy & Hs). apply in_app_or in Hy as [Hy|[<-|Hy]].
  - exists y. rewrite !in_app_iff. auto.
  - destruct (Hm m Hin Hs) as (z & Hz & Hzs). exists z. rewrite !in_app_iff. auto.
  - exists y. rewrite !in_app_iff. auto.
Qed.
Ltac by_cases := simpl; intros; repeat match goal with
  | H : False |- _ => destruct H
  | H : _ \/ _ |- _ => destruct H
  | H : _ = _ |- _ => discriminate H
  end.
Ltac nodup := repeat (constructor; [simpl; intuition discriminate|]); constructor.

Definition recursing : string := dm [tk "t"; ac "a"; me "m" "t" (tot ["t"; "a"])].
Example C23_warning_example :
  run (dm [tk "t"; tk "u"; ac "a"; me "m" "t" (tot ["u"]); me "n" "u" (tot ["t"])]) None
  = Ok [NoPrimitiveRefinement "t" 1; NoPrimitiveRefinement "u" 1]
  /\ exists d, @parse uni0 300 (dm [tk "t"; tk "u"; ac "a"; me "m" "t" (tot ["u"]); me "n" "u" (tot ["t"])]) = Ok (ADomain d)
       /\ distinct_names d.
Proof. split; [vm_compute; reflexivity|]. eexists. split; [vm_compute; reflexivity|]. unfold distinct_names. simpl. nodup. Qed.
(** A task that recurses for ever is not warned about if it mentions an action. *)
Theorem C23_converse_refuted : exists dom d x,
  @verify uni0 env_id 300 dom None = Ok [] /\ @parse uni0 300 dom = Ok (ADomain d) /\ distinct_names d
  /\ compound d x /\ ~ refinable d x.
Proof.
  exists recursing. eexists. exists "t". split; [vm_compute; reflexivity|]. split; [vm_compute; reflexivity|].
  split; [unfold distinct_names; simpl; nodup|]. split; [left; reflexivity|].
  intros (w & Hw & Hall). eapply (trapped _ ["t"]) in Hw as (y & Hy & [<-|[]]); [|by_cases; subst|left; reflexivity].
  - rewrite Forall_forall in Hall. specialize (Hall _ Hy). revert Hall. unfold primitive. by_cases.
  - exists "t". simpl. auto.
Qed.
(** With an action of the same name the warning can be false. *)
Theorem C23_same_name_refuted : exists dom d x l,
  @verify uni0 env_id 300 dom None = Ok [NoPrimitiveRefinement x l] /\ @parse uni0 300 dom = Ok (ADomain d) /\ refinable d x.
Proof.
  exists (dm [tk "t"; ac "a"; ac "t"; me "m" "t" (tot ["a"])]). eexists. exists "t". eexists.
  split; [vm_compute; reflexivity|]. split; [vm_compute; reflexivity|].
  exists ["a"]. split.
  - apply rt_step. match goal with |- expand ?d _ _ => remember d as dd eqn:Ed end.
    assert (exists m, In m (d_methods dd) /\ sym_name (m_task m) = "t" /\ subtask_names m = ["a"]) as (m & Hm & E1 & E2).
    { subst dd. eexists. split; [left; reflexivity|]. split; reflexivity. }
    pose proof (ex_method dd [] m [] Hm) as He. rewrite E1, E2 in He. exact He.
  - constructor; [|constructor]. left. reflexivity.
Qed.

(** C24 and C28: [y] cannot vanish; whether it is found nullable, and hence
    warned about, depends on the iteration order. *)
Definition fickle : string :=
  dm [tk "base"; tk "a"; tk "x"; tk "y"; tk "p"; me "m1" "base" nothing; me "m2" "a" (tot ["base"]);
      me "m3" "x" (tot ["a"; "p"]); me "m4" "y" (tot ["x"])].
Theorem C24_unsound_refuted : exists d md, @parse uni0 300 fickle = Ok (ADomain d) /\ distinct_names d
  /\ @get_metadata uni0 env_id 300 0 fickle = Ok md /\ In "y" (md_nullables md) /\ ~ vanishes d "y".
Proof.
  eexists. eexists. split; [vm_compute; reflexivity|]. split; [unfold distinct_names; simpl; nodup|].
  split; [vm_compute; reflexivity|]. split; [simpl; auto 10|].
  intros Hv. eapply (trapped _ ["y"; "x"; "p"]) in Hv as (y & [] & _); [|left; reflexivity].
  by_cases; subst; simpl in *; try discriminate; (exists "p"; simpl; tauto) || (exists "x"; simpl; tauto).
Qed.
Theorem C28_warnings_differ_refuted :
  @verify uni0 env_id 300 fickle None = Ok [NoPrimitiveRefinement "x" 1; NoPrimitiveRefinement "p" 1]
  /\ @verify uni0 env_rev 300 fickle None
     = Ok [NoPrimitiveRefinement "p" 1; NoPrimitiveRefinement "y" 1; NoPrimitiveRefinement "x" 1].
Proof. vm_compute. auto. Qed.

Example C24_example : exists d, @parse uni0 300 fickle = Ok (ADomain d) /\ vanishes d "a"
  /\ (forall m, In m (d_methods d) -> compound d (sym_name (m_task m))).
Proof.
  eexists. split; [vm_compute; reflexivity|]. split.
  - match goal with |- vanishes ?d _ => remember d as dd eqn:Ed end.
    assert (exists m, In m (d_methods dd) /\ sym_name (m_task m) = "a" /\ subtask_names m = ["base"]) as (m & Hm & E1 & E2).
    { subst dd. eexists. split; [right; left; reflexivity|]. split; reflexivity. }
    assert (exists m, In m (d_methods dd) /\ sym_name (m_task m) = "base" /\ subtask_names m = []) as (m' & Hm' & E3 & E4).
    { subst dd. eexists. split; [left; reflexivity|]. split; reflexivity. }
    apply rt_trans with ["base"]; apply rt_step.
    + pose proof (ex_method dd [] m [] Hm) as He. rewrite E1, E2 in He. exact He.
    + pose proof (ex_method dd [] m' [] Hm') as He. rewrite E3, E4 in He. exact He.
  - unfold compound. by_cases; subst; simpl; auto 10.
Qed.

Example C25_example : exists d g, @parse uni0 300 fickle = Ok (ADomain d) /\ tdg_new d = Ok g
  /\ map (fun x => match reachable env_id 100 g x with Ok r => rs_compounds r | _ => [] end) ["y"; "a"; "p"]
     = [["base"; "a"; "x"; "y"; "p"]; ["base"; "a"]; ["p"]].
Proof. eexists. eexists. split; [vm_compute; reflexivity|].
  split; [vm_compute; reflexivity|]. vm_compute. reflexivity.
Qed.

(** One domain for each class. *)
Example C26_example :
  map meta
    [dm [tk "t"; tk "u"; ac "a"; me "m" "t" (tot ["u"; "a"]); me "n" "u" (tot ["a"; "a"])];
     dm [tk "t"; tk "u"; ac "a"; me "m" "t" (tot ["u"; "a"]); me "n" "u" (tot ["a"; "t"])];
     dm [tk "t"; tk "u"; ac "a"; me "m" "t" (tot ["u"; "a"]); me "n" "u" (tot ["t"; "a"])];
     dm [tk "t"; tk "u"; ac "a"; me "m" "t" (tot ["u"]); me "n" "u" (tot ["t"]); me "o" "u" nothing];
     dm [tk "t"; tk "u"; tk "e"; ac "a"; me "m" "t" (tot ["u"; "e"]); me "n" "u" (tot ["t"]); me "o" "e" nothing]]
  = [Some (NonRecursive, []);
     Some (Recursive [("u", "n"); ("t", "m"); ("u", "m")], []);
     Some (GrowingEmptyPrefix [("t", "m"); ("u", "n"); ("t", "n")], []);
     Some (EmptyRecursion [("t", "m"); ("u", "n"); ("t", "n")], ["u"; "t"]);
     Some (GrowAndShrink [("u", "n"); ("t", "m"); ("u", "m")], ["e"])].
Proof. vm_compute. reflexivity. Qed.

(** A task that comes first in a method is taken to be absent from the prefix of
    a cycle through it: "empty recursion" is reported although no task ever
    turns into itself alone. *)
Lemma grows d (f : string -> nat) :
  (forall m, In m (d_methods d) -> f (sym_name (m_task m)) < list_sum (map f (subtask_names m))) ->
  forall l l', clos_trans (list string) (expand d) l l' -> list_sum (map f l) < list_sum (map f l').
Proof.
  intros Hm l l' He. induction He as [l l' [l1 m l2 Hin]|l l1 l2 _ IH1 _ IH2]; [|lia].
  rewrite !map_app, !sum_app. cbn [map]. rewrite sum_cons. specialize (Hm m Hin). lia.
Qed.
Theorem C39_empty_recursion_refuted : exists dom d md c,
  @parse uni0 300 dom = Ok (ADomain d) /\ distinct_names d /\ @get_metadata uni0 env_id 300 0 dom = Ok md
  /\ md_recursion md = EmptyRecursion c /\ forall x, ~ clos_trans (list string) (expand d) [x] [x].
Proof.
  exists (dm [tk "t"; tk "u"; ac "a"; me "m" "t" (tot ["t"; "a"; "u"]); me "n" "u" (tot ["t"])]).
  do 3 eexists. split; [vm_compute; reflexivity|]. split; [unfold distinct_names; simpl; nodup|].
  split; [vm_compute; reflexivity|]. split; [reflexivity|].
  intros x Hx. eapply (grows _ (fun s => if String.eqb s "t" then 2 else 1)) in Hx; [lia|].
  by_cases; subst; simpl; lia.
Qed.

Example C27_example :
  @get_metadata uni0 env_id 300 50 (dm [ac "a"]) = OutOfFuel
  /\ exists d, @parse uni0 300 (dm [ac "a"]) = Ok (ADomain d) /\ closed_names d /\ d_tasks d = [].
Proof. split; [vm_compute; reflexivity|]. eexists. split; [vm_compute; reflexivity|]. split; [intros m []|reflexivity]. Qed.
Example C27_terminates_example : exists d, @parse uni0 300 fickle = Ok (ADomain d) /\ closed_names d /\ distinct_names d
  /\ d_tasks d <> [] /\ (forall me, In me (d_methods d) -> htn_orderings (m_tn me) = Total)
  /\ d_methods d <> [].
Proof.
  destruct (is_ok_ex (@parse uni0 300 fickle)) as ([d|p] & E); [vm_compute; reflexivity| |vm_compute in E; discriminate].
  exists d. split; auto. split; [|vm_compute in E; injection E as <-; split; [unfold distinct_names; simpl; nodup|]].
  - apply accepted_closed. apply (@accepted uni0 env_id 300 300 fickle None [NoPrimitiveRefinement "x" 1; NoPrimitiveRefinement "p" 1] d); [vm_compute; reflexivity|exact E].
  - split; [discriminate|]. split; [by_cases; subst; reflexivity|discriminate].
Qed.

(** C40: unordered subtasks, and an identifier that starts like another. *)
Example C40_example :
  @get_metadata uni0 env_id 300 50 (dm [tk "t"; ac "a"; me "m" "t" ":subtasks (and (i (t)) (j (a)))"]) = Panic PanicAssert
  /\ @get_metadata uni0 env_id 300 50
       (dm [tk "t"; ac "a"; me "m" "t" ":subtasks (and (i (t)) (i2 (a))) :ordering (and (< i i2))"]) = OutOfFuel
  /\ meta (dm [tk "t"; ac "a"; me "m" "t" ":subtasks (and (i (t)) (j (a))) :ordering (and (< i j))"])
     = Some (GrowingEmptyPrefix [("t", "m"); ("t", "m")], []).
Proof. vm_compute. auto. Qed.
Example C40_hypotheses : exists d m ords,
  @parse uni0 300 (dm [tk "t"; ac "a"; me "m" "t" ":subtasks (and (i (t)) (j (a)))"]) = Ok (ADomain d)
  /\ distinct_names d /\ simple_cycle d [m] /\ In (m, "t") (cycle_links [m]) /\ htn_orderings (m_tn m) = Partial ords
  /\ S (length ords) <> length (htn_subtasks (m_tn m)).
Proof.
  do 3 eexists. split; [vm_compute; reflexivity|]. split; [unfold distinct_names; simpl; nodup|].
  split; [split; [discriminate|split; [apply incl_refl|split]]|].
  - simpl. nodup.
  - simpl. repeat constructor.
  - split; [left; reflexivity|]. split; [reflexivity|]. simpl. discriminate.
Qed.
