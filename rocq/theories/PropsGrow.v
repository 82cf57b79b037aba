(** Property theorems about how warnings and metadata are related, and what
    happens to them when declarations are added (C66).
    Specifications: SpecTdg.v, SpecRec.v and [extends] below. *)
From Coq Require Import String Ascii NArith Bool List Lia PeanoNat Relations Permutation.
From Verif Require Import Base Token Lexer Errors Ast Parser Graph Semantic Tdg Api StrFacts GraphProofs
  ParserProofs PropsLex PropsParse SpecSem SemDomain SemProblem TdgGraph TdgReach TdgNull SpecTdg TdgTop VerifyTop SpecRec TdgRec TdgRecTop
  PropsSem PropsTdg.
Import ListNotations.
Open Scope list_scope.
Open Scope nat_scope.

(** [d'] has the tasks, actions and methods of [d], and perhaps more. *)
Definition extends (d d' : domain_ast) : Prop :=
  incl (map task_name (d_tasks d)) (map task_name (d_tasks d'))
  /\ incl (map act_name (d_actions d)) (map act_name (d_actions d'))
  /\ incl (d_methods d) (d_methods d').

(** ** The specification is monotone *)
Lemma rt_mono {A} (R S : relation A) : (forall x y, R x y -> S x y) -> forall x y, clos_refl_trans A R x y -> clos_refl_trans A S x y.
Proof. intros Hi x y Hr. induction Hr; [apply rt_step; auto|apply rt_refl|eapply rt_trans; eauto]. Qed.
Lemma t_mono {A} (R S : relation A) : (forall x y, R x y -> S x y) -> forall x y, clos_trans A R x y -> clos_trans A S x y.
Proof. intros Hi x y Hr. induction Hr; [apply t_step; auto|eapply t_trans; eauto]. Qed.
Section Mono.
Variables d d' : domain_ast.
Hypothesis He : extends d d'.
Lemma decomposes_mono a b : decomposes d a b -> decomposes d' a b.
Proof. destruct He as (_ & _ & Hm). intros (m & Hi & Hx). exists m. split; auto. Qed.
Lemma reaches_mono a b : reaches d a b -> reaches d' a b.
Proof. apply rt_mono. apply decomposes_mono. Qed.
Lemma expands_mono v w : expands d v w -> expands d' v w.
Proof. apply rt_mono. intros x y Hx. destruct Hx as [l1 m l2 Hm]. constructor. apply He. auto. Qed.
Lemma refinable_mono x : refinable d x -> refinable d' x.
Proof.
  intros (w & Hw & Hp). exists w. split; [apply expands_mono; auto|].
  eapply Forall_impl; [|exact Hp]. intros a Ha. apply He. exact Ha.
Qed.
Lemma vanishes_mono x : vanishes d x -> vanishes d' x.
Proof. apply expands_mono. Qed.
Lemma compound_mono x : compound d x -> compound d' x.
Proof. apply He. Qed.
Lemma cycle_mono ms : simple_cycle d ms -> simple_cycle d' ms.
Proof. intros (H1 & H2 & H3). split; auto. split; auto. intros m Hm. apply He. auto. Qed.
End Mono.
(** The class of a cycle grows with the tasks taken to be nullable. *)
Lemma class_mono N N' ms k k' : incl N N' -> cycle_class N ms k -> cycle_class N' ms k' -> k <= k'.
Proof.
  intros Hi Hk Hk'.
  assert (silent N ms -> silent N' ms) as Hs.
  { intros Hs m Hm. eapply Forall_impl; [|apply Hs; exact Hm]. intros l [Hq|Hq]; [left; auto|right]. eapply Forall_impl; [|exact Hq]. cbn. auto. }
  destruct Hk as [Hn|y Hn Ht Hy|Hn Ht|y Hn Ht Hall]; destruct Hk' as [Hn'|y' Hn' Ht' Hy'|Hn' Ht'|y' Hn' Ht' Hall']; try lia;
    try (exfalso; tauto); try (exfalso; eapply Ht; eauto; fail); try (exfalso; eapply Ht'; eauto; fail).
  exfalso. apply Hy'. apply Hi. auto.
Qed.

Section S.
Context `{Unicode}.

Section Env.
Variable he : hash_env.
Hypothesis Hhe : hash_env_ok he.

Lemma warnings_reach g n ts ws : refinement_warnings he n g ts = Ok ws -> forall t, In t ts -> exists r, reachable he n g (task_name t) = Ok r.
Proof.
  revert ws. induction ts as [|u ts IH]; intros ws E t Hi; [destruct Hi|]. cbn [refinement_warnings] in E.
  apply bind_ok in E as (r & Er & E). apply bind_ok in E as (ws' & Ew & _). destruct Hi as [->|Hi]; eauto.
Qed.
Lemma warned_iff n dom prob ws d x : verify he n dom prob = Ok ws -> parse n dom = Ok (ADomain d) -> distinct_names d ->
  (exists l, In (NoPrimitiveRefinement x l) ws) <->
  compound d x /\ (forall a, primitive d a -> ~ reaches d x a)
  /\ exists g nulls, tdg_new d = Ok g /\ compute_nullables he n g = Ok nulls /\ ~ In x nulls.
Proof.
  intros E Ep Hd. apply verify_ok_inv in E as (d' & Ep' & Ev & Hok & _); auto.
  assert (d' = d) as -> by congruence.
  pose proof Ev as Ev'. unfold verify_domain in Ev'. apply bind_ok in Ev' as ([] & _ & Ev'). apply bind_ok in Ev' as (g & Eg & Ev').
  apply bind_ok in Ev' as (ws' & Ew & Et). injection Et as Et.
  destruct (verify_domain_list he n d _ Ev) as (g' & Eg' & El). assert (g' = g) as -> by congruence. cbn [st_warnings table] in El.
  assert (forall t, In t (d_tasks d) -> exists r, reachable he n g (task_name t) = Ok r) as Hreach.
  { intros t Ht. eapply warnings_reach; [exact Ew|]. apply (decl_In he Hhe). auto. }
  split.
  - intros (l & Hi). rewrite El in Hi. apply in_map_iff in Hi as (t & Etw & Hi). injection Etw as <- <-.
    apply filter_In in Hi as [Hi Hw]. apply (decl_In he Hhe) in Hi.
    assert (compound d (task_name t)) as Hc by (apply in_map; auto). split; auto.
    unfold warns in Hw. destruct (Hreach t Hi) as (r & Er). rewrite Er in Hw.
    destruct (reachable_names d g Eg Hd he Hhe n (task_name t) r Hc Er) as (Hp & _ & nulls & En & Hn).
    destruct (rs_primitives r) as [|p ps]; [|discriminate]. apply negb_true_iff in Hw. split.
    + intros a Ha Hra. apply (proj2 (Hp a)). auto.
    + exists g, nulls. split; auto. split; auto. intros Hx. apply Hn in Hx. congruence.
  - intros (Hc & Hp & g' & nulls & Eg'' & En & Hx). assert (g' = g) as -> by congruence.
    unfold compound in Hc. apply in_map_iff in Hc as (t & <- & Ht). exists (task_pos t). rewrite El. apply in_map_iff. exists t. split; auto.
    apply filter_In. split; [apply (decl_In he Hhe); auto|]. destruct (Hreach t Ht) as (r & Er). unfold warns. rewrite Er.
    destruct (reachable_names d g Eg Hd he Hhe n (task_name t) r) as (Hp' & _ & nulls' & En' & Hn); auto; [apply in_map; auto|].
    assert (nulls' = nulls) as -> by congruence.
    destruct (rs_primitives r) as [|p ps] eqn:Epr.
    + apply negb_true_iff. destruct (rs_nullable r); auto. exfalso. apply Hx, Hn. auto.
    + exfalso. destruct (proj1 (Hp' p)) as [H1 H2]; [left; auto|]. eapply Hp; eauto.
Qed.

(** A task is warned about exactly if no action can be reached from it and the
    metadata do not list it as nullable. *)
Theorem C66_warning_iff : forall n n' lf dom prob ws md d x,
  verify he n dom prob = Ok ws -> get_metadata he n' lf dom = Ok md -> parse n dom = Ok (ADomain d) -> distinct_names d ->
  (exists l, In (NoPrimitiveRefinement x l) ws) <->
  compound d x /\ (forall a, primitive d a -> ~ reaches d x a) /\ ~ In x (md_nullables md).
Proof.
  intros n n' lf dom prob ws md d x E Em Ep Hd. rewrite (warned_iff n dom prob ws d x E Ep Hd).
  unfold get_metadata in Em. apply bind_ok in Em as (d' & Ep' & Em). unfold parse_as_domain in Ep'. apply bind_ok in Ep' as ([d''|] & Ep' & Ed); [|discriminate].
  injection Ed as ->. assert (d' = d) as -> by (eapply same_domain; eauto).
  unfold domain_metadata in Em. apply bind_ok in Em as (g & Eg & Em). apply bind_ok in Em as (nulls & En & Em).
  apply bind_ok in Em as (r & Er & Em). injection Em as <-. cbn [md_nullables].
  assert (forall y, In y (ho_names he nulls) <-> In y nulls) as Hn.
  { intros y. split; apply Permutation_in; [|apply Permutation_sym]; apply ho_names_ok; auto. }
  rewrite Hn. split; intros (Hc & Hp & Hx); split; auto; split; auto.
  - destruct Hx as (g' & nulls' & Eg' & En' & Hx). assert (g' = g) as -> by congruence.
    assert (nulls' = nulls) as ->; auto.
    rewrite <- (nullables_mono he g n (n + n')) in En' by (try lia; congruence).
    rewrite <- (nullables_mono he g n' (n + n')) in En by (try lia; congruence). congruence.
  - exists g. pose proof E as Ev. apply verify_ok_inv in Ev as (d' & Ep'' & Ev & _); auto. assert (d' = d) as -> by congruence.
    unfold verify_domain in Ev. apply bind_ok in Ev as ([] & _ & Ev). apply bind_ok in Ev as (g' & Eg' & Ev). assert (g' = g) as -> by congruence.
    apply bind_ok in Ev as (ws' & Ew & _). unfold compound in Hc. apply in_map_iff in Hc as (t & <- & Ht).
    destruct (warnings_reach g n _ _ Ew t) as (r' & Er'); [apply (decl_In he Hhe); auto|].
    destruct (reachable_names d g Eg Hd he Hhe n (task_name t) r') as (_ & _ & nulls' & En' & _); auto; [apply in_map; auto|].
    exists nulls'. split; auto. split; auto. assert (nulls' = nulls) as ->; auto.
    rewrite <- (nullables_mono he g n (n + n')) in En' by (try lia; congruence).
    rewrite <- (nullables_mono he g n' (n + n')) in En by (try lia; congruence). congruence.
Qed.

End Env.

(** ** Adding declarations *)
Section Two.
Variables he he' : hash_env.
Hypothesis Hhe : hash_env_ok he.
Hypothesis Hhe' : hash_env_ok he'.

Lemma vanishes_refinable d x : vanishes d x -> refinable d x.
Proof. intros Hv. exists []. split; auto. Qed.

(** A warning about an old task was justified before the addition: the task
    could not be refined, reached no action and could not vanish.  If what was
    found nullable can vanish, the warning was there as well. *)
Theorem C66_no_new_warning : forall n n' nm lf dom dom' prob prob' ws ws' md d d' x l,
  verify he n dom prob = Ok ws -> verify he' n' dom' prob' = Ok ws' -> get_metadata he nm lf dom = Ok md ->
  parse n dom = Ok (ADomain d) -> parse n' dom' = Ok (ADomain d') -> distinct_names d -> distinct_names d' ->
  extends d d' -> compound d x -> In (NoPrimitiveRefinement x l) ws' ->
  ~ refinable d x /\ (forall a, primitive d a -> ~ reaches d x a)
  /\ ((forall y, In y (md_nullables md) -> vanishes d y) -> exists l0, In (NoPrimitiveRefinement x l0) ws).
Proof.
  intros n n' nm lf dom dom' prob prob' ws ws' md d d' x l E E' Em Ep Ep' Hd Hd' Hx Hc Hi.
  assert (~ refinable d x) as Hn.
  { intros Hr. destruct (C23_warning_true he' Hhe' n' dom' prob' ws' d' x l E' Ep' Hd' Hi) as [_ Hn]. apply Hn. eapply refinable_mono; eauto. }
  assert (forall a, primitive d a -> ~ reaches d x a) as Hp.
  { intros a Ha Hra. destruct (proj1 (warned_iff he' Hhe' n' dom' prob' ws' d' x E' Ep' Hd') (ex_intro _ l Hi)) as (_ & Hp & _).
    eapply Hp; [apply Hx; exact Ha|]. eapply reaches_mono; eauto. }
  split; auto. split; auto. intros Hs. apply (C66_warning_iff he Hhe n nm lf dom prob ws md d x E Em Ep Hd).
  split; auto. split; auto. intros Hm. apply Hn, vanishes_refinable. auto.
Qed.

(** A larger domain is at least as recursive. *)
Theorem C66_recursion_kept : forall n n' lf lf' dom dom' md md' d d',
  get_metadata he n lf dom = Ok md -> get_metadata he' n' lf' dom' = Ok md' ->
  parse n dom = Ok (ADomain d) -> parse n' dom' = Ok (ADomain d') -> distinct_names d -> distinct_names d' -> extends d d' ->
  md_recursion md' = NonRecursive -> md_recursion md = NonRecursive.
Proof.
  intros n n' lf lf' dom dom' md md' d d' E E' Ep Ep' Hd Hd' Hx Hr.
  apply (C26_non_recursive_iff he Hhe n lf dom md d E Ep Hd). intros x Hc.
  eapply (proj1 (C26_non_recursive_iff he' Hhe' n' lf' dom' md' d' E' Ep' Hd') Hr x).
  eapply t_mono; [|exact Hc]. intros a b. apply decomposes_mono. auto.
Qed.
Theorem C66_class_kept : forall n n' lf lf' dom dom' md md' d d',
  get_metadata he n lf dom = Ok md -> get_metadata he' n' lf' dom' = Ok md' ->
  parse n dom = Ok (ADomain d) -> parse n' dom' = Ok (ADomain d') -> distinct_names d -> distinct_names d' -> extends d d' ->
  incl (md_nullables md) (md_nullables md')
  \/ (forall m, In m (d_methods d') -> compound d' (sym_name (m_task m))) /\ (forall y, In y (md_nullables md) -> vanishes d y) ->
  class (md_recursion md) <= class (md_recursion md').
Proof.
  intros n n' lf lf' dom dom' md md' d d' E E' Ep Ep' Hd Hd' Hx Hi.
  assert (incl (md_nullables md) (md_nullables md')) as Hi'.
  { destruct Hi as [Hi|[Hh Hv]]; auto. intros y Hy. eapply C24_vanishing_found; eauto. eapply vanishes_mono; eauto. }
  destruct (C39_class_is_maximum he Hhe n lf dom md d E Ep Hd) as [_ [->|(ms & Hs & Hk & _)]]; [apply le_0_n|].
  destruct (proj1 (C39_class_is_maximum he' Hhe' n' lf' dom' md' d' E' Ep' Hd') ms) as (k & Hk' & Hl); [eapply cycle_mono; eauto|].
  pose proof (class_mono _ _ _ _ _ Hi' Hk Hk'). lia.
Qed.
End Two.
End S.

(** Without the condition on the tasks found nullable a warning can appear:
    another way to refine [a] makes the tool warn about [y]. *)
Definition fickle2 : string :=
  dm [tk "base"; tk "a"; tk "x"; tk "y"; tk "p"; me "m1" "base" nothing; me "m2" "a" (tot ["base"]);
      me "m3" "x" (tot ["a"; "p"]); me "m4" "y" (tot ["x"]); me "m5" "a" nothing].
Theorem C66_new_warning_refuted : exists d d',
  @parse uni0 300 fickle = Ok (ADomain d) /\ @parse uni0 300 fickle2 = Ok (ADomain d') /\ distinct_names d /\ distinct_names d'
  /\ extends d d'
  /\ @verify uni0 env_id 300 fickle None = Ok [NoPrimitiveRefinement "x" 1; NoPrimitiveRefinement "p" 1]
  /\ @verify uni0 env_id 300 fickle2 None = Ok [NoPrimitiveRefinement "x" 1; NoPrimitiveRefinement "y" 1; NoPrimitiveRefinement "p" 1].
Proof.
  destruct (is_ok_ex (@parse uni0 300 fickle)) as ([d|p] & E); [vm_compute; reflexivity| |vm_compute in E; discriminate].
  destruct (is_ok_ex (@parse uni0 300 fickle2)) as ([d'|p] & E'); [vm_compute; reflexivity| |vm_compute in E'; discriminate].
  exists d, d'. split; auto. split; auto.
  split; [vm_compute in E; injection E as <-; unfold distinct_names; simpl; nodup|].
  split; [vm_compute in E'; injection E' as <-; unfold distinct_names; simpl; nodup|].
  split; [|split; vm_compute; reflexivity].
  vm_compute in E, E'. injection E as <-. injection E' as <-. unfold extends. simpl.
  split; [intros y; simpl; tauto|]. split; [intros y []|].
  intros m Hm. simpl in *. tauto.
Qed.

Open Scope string_scope.
(** [t] calls [u], for which a method that does nothing is added: the warning
    about [u] and [t] goes away and the class does not fall. *)
Definition small : string := dm [tk "t"; tk "u"; ac "a"; me "m" "t" (tot ["u"])].
Definition large : string := dm [tk "t"; tk "u"; ac "a"; me "m" "t" (tot ["u"]); me "n" "u" (tot ["t"]); me "o" "u" nothing].
Example C66_example : exists d d' md md',
  @parse uni0 300 small = Ok (ADomain d) /\ @parse uni0 300 large = Ok (ADomain d') /\ distinct_names d /\ distinct_names d'
  /\ extends d d'
  /\ @verify uni0 env_id 300 small None = Ok [NoPrimitiveRefinement "t" 1; NoPrimitiveRefinement "u" 1]
  /\ @verify uni0 env_id 300 large None = Ok []
  /\ @get_metadata uni0 env_id 300 10 small = Ok md /\ @get_metadata uni0 env_id 300 10 large = Ok md'
  /\ md_nullables md = [] /\ class (md_recursion md) = 0 /\ class (md_recursion md') = 3.
Proof.
  destruct (is_ok_ex (@parse uni0 300 small)) as ([d|p] & E); [vm_compute; reflexivity| |vm_compute in E; discriminate].
  destruct (is_ok_ex (@parse uni0 300 large)) as ([d'|p] & E'); [vm_compute; reflexivity| |vm_compute in E'; discriminate].
  destruct (is_ok_ex (@get_metadata uni0 env_id 300 10 small)) as (md & Em); [vm_compute; reflexivity|].
  destruct (is_ok_ex (@get_metadata uni0 env_id 300 10 large)) as (md' & Em'); [vm_compute; reflexivity|].
  exists d, d', md, md'. split; auto. split; auto.
  split; [vm_compute in E; injection E as <-; unfold distinct_names; simpl; nodup|].
  split; [vm_compute in E'; injection E' as <-; unfold distinct_names; simpl; nodup|].
  split.
  { vm_compute in E, E'. injection E as <-. injection E' as <-. unfold extends. simpl.
    split; [intros y; simpl; tauto|]. split; [intros y; simpl; tauto|]. intros m Hm. simpl in *. tauto. }
  split; [vm_compute; reflexivity|]. split; [vm_compute; reflexivity|]. split; auto. split; auto.
  vm_compute in Em, Em'. injection Em as <-. injection Em' as <-. auto.
Qed.

Definition all_C66 := (@C66_warning_iff, @C66_no_new_warning, @C66_recursion_kept, @C66_class_kept, C66_new_warning_refuted).
