(** C73: constants of the domain and objects of the problem.  Specification: SpecMove.v. *)
From Coq Require Import String NArith Bool List Lia PeanoNat Permutation Relations Operators_Properties.
From Verif Require Import Base Token Lexer Errors Ast Parser Graph Semantic Tdg Api SpecSem SemFacts VerifyTop SpecExec SpecUnused SpecMove
  PropsLex PropsParse PropsSem PropsExec PropsUnused.
Import ListNotations.
Open Scope string_scope.
Open Scope list_scope.
Open Scope nat_scope.

Lemma first_named_in' {A} (name : A -> string) n l x : first_named name n l x -> In x l /\ name x = n.
Proof. induction 1 as [x l E|y l x Hn _ [H1 H2]]; simpl; auto. Qed.
Lemma named_or_not (n : string) (l : list symbol) : unnamed sym_name n l \/ exists o, In o l /\ sym_name o = n.
Proof.
  induction l as [|x l [IH|(o & Ho & E)]]; [left; intros x []| |right; exists o; simpl; auto].
  destruct (string_dec (sym_name x) n) as [E|E]; [right; exists x; simpl; auto|]. left. intros y [<-|Hy]; auto.
Qed.

Section Moved.
Variables (d : domain_ast) (p : problem_ast) (d' : domain_ast) (p' : problem_ast) (cs cs' : list symbol).
Hypothesis Hm : moved d p d' p' cs cs'.
Lemma Hcons : interleaved (constants_of d') cs (constants_of d).
Proof. apply Hm. Qed.
Lemma Hobjs : interleaved (p_objects p) cs' (p_objects p').
Proof. apply Hm. Qed.
Lemma Hsame : Forall2 (fun c c' => sym_name c = sym_name c' /\ sym_type c = sym_type c') cs cs'.
Proof. apply Hm. Qed.

Lemma moved_to c : In c cs -> exists c', In c' cs' /\ sym_name c' = sym_name c /\ sym_type c' = sym_type c.
Proof. pose proof Hsame as Hs. clear -Hs. induction Hs as [|a b l l' [E1 E2] _ IH]; [intros []|]. intros [<-|Hc]; [exists b; simpl; auto|]. destruct (IH Hc) as (x & Hx & E). exists x. simpl. auto. Qed.
Lemma moved_from c' : In c' cs' -> exists c, In c cs /\ sym_name c' = sym_name c /\ sym_type c' = sym_type c.
Proof. pose proof Hsame as Hs. clear -Hs. induction Hs as [|a b l l' [E1 E2] _ IH]; [intros []|]. intros [<-|Hc]; [exists a; simpl; auto|]. destruct (IH Hc) as (x & Hx & E). exists x. simpl. auto. Qed.

Section Domain.
Hypothesis Hfree : domain_free d cs.
Lemma mv_denotes params v t : dom_argument d params v ->
  denotes params (constants_of d) (sym_name v) t <-> denotes params (constants_of d') (sym_name v) t.
Proof.
  intros Hv. split; (intros [q Hq E1 E2|c Hn Hf E]; [eapply den_param; eauto|]); eapply den_const; eauto;
    (apply (il_first _ _ _ _ _ _ Hcons); [|auto]); intros y Hy; eapply Hfree; eauto.
Qed.
Lemma mv_args params args formals : (forall v, In v args -> dom_argument d params v) ->
  args_ok (d_types d) params (constants_of d) args formals <-> args_ok (d_types d) params (constants_of d') args formals.
Proof.
  intros Hv. unfold args_ok. apply Forall2_iff. intros v f Hi. split; intros (t & H1 & H2); exists t; (split; [apply (mv_denotes params v t (Hv v Hi)); auto|auto]).
Qed.
Lemma mv_formula params g : dom_formula d params g -> (formula_ok d params g <-> formula_ok d' params g).
Proof.
  intros Hg. destruct (mv_domain _ _ _ _ _ _ Hm) as (o & Ed').
  assert (forall q, within_open (FAtom q) g -> forall def, args_ok (d_types d) params (constants_of d) (pred_vars q) (pred_vars def)
    <-> args_ok (d_types d) params (constants_of d') (pred_vars q) (pred_vars def)) as Ha.
  { intros q Hq def. apply mv_args. intros v Hv. eapply da_atom; eauto. }
  assert (d_types d' = d_types d) as E1 by (rewrite Ed'; reflexivity). assert (d_preds d' = d_preds d) as E2 by (rewrite Ed'; reflexivity).
  unfold formula_ok. rewrite E1, E2. split; intros (H1 & H2 & H3 & H4); (split; [auto|split; [auto|split; [auto|]]]);
    intros q Hq; destruct (H4 q Hq) as (def & H5 & H6 & H7); exists def; (split; [auto|split; [auto|]]); apply (Ha q Hq); auto.
Qed.
Lemma mv_opt params o : (forall g, o = Some g -> dom_formula d params g) -> (opt_formula_ok d params o <-> opt_formula_ok d' params o).
Proof. destruct o; simpl; [intros Hg; apply mv_formula; auto|tauto]. Qed.
Lemma mv_callable h n formals : callable d h n formals <-> callable d' h n formals.
Proof.
  destruct (mv_domain _ _ _ _ _ _ Hm) as (o & Ed').
  assert (d_actions d' = d_actions d) as E1 by (rewrite Ed'; reflexivity). assert (d_tasks d' = d_tasks d) as E2 by (rewrite Ed'; reflexivity).
  split; (intros [a Ha|h' t Ht Hn]; [apply call_action|apply call_task]); rewrite ?E1, ?E2 in *; auto.
Qed.
Lemma mv_call h params task terms : dom_call d h params task terms -> (call_ok d h params task terms <-> call_ok d' h params task terms).
Proof.
  intros Hc. destruct (mv_domain _ _ _ _ _ _ Hm) as (o & Ed'). assert (d_types d' = d_types d) as E1 by (rewrite Ed'; reflexivity).
  assert (forall fo, args_ok (d_types d) params (constants_of d) terms fo <-> args_ok (d_types d) params (constants_of d') terms fo) as Ha.
  { intros fo. apply mv_args. intros v Hv. eapply da_call; eauto. }
  unfold call_ok. rewrite E1. split; intros (fo & H1 & H2); exists fo; (split; [apply mv_callable; auto|apply Ha; auto]).
Qed.
Lemma Forall_same {A} (P Q : A -> Prop) l : (forall x, In x l -> (P x <-> Q x)) -> (Forall P l <-> Forall Q l).
Proof. rewrite !Forall_forall. intros He. split; intros Hx x Hi; apply He; auto. Qed.
Lemma mv_domain_ok : domain_ok d <-> domain_ok d'.
Proof.
  assert (Forall (action_ok d) (d_actions d) <-> Forall (action_ok d') (d_actions d)) as Ha.
  { apply Forall_same. intros a Hi. unfold action_ok.
    rewrite (mv_opt (act_params a) (act_pre a)) by (intros g E; apply df_pre; auto).
    rewrite (mv_opt (act_params a) (act_eff a)) by (intros g E; apply df_eff; auto). tauto. }
  assert (Forall (method_ok d) (d_methods d) <-> Forall (method_ok d') (d_methods d)) as Hme.
  { apply Forall_same. intros m Hi. unfold method_ok.
    rewrite (mv_opt (m_params m) (m_pre m)) by (intros g E; apply df_method; auto).
    rewrite (mv_call true (m_params m) (m_task m) (m_task_terms m)) by (apply dc_head; auto).
    rewrite (Forall_same (fun s => call_ok d false (m_params m) (sub_task s) (sub_terms s)) (fun s => call_ok d' false (m_params m) (sub_task s) (sub_terms s)))
      by (intros s Hs; apply mv_call; apply dc_sub; auto). tauto. }
  unfold domain_ok. destruct (mv_domain _ _ _ _ _ _ Hm) as (o & Ed').
  replace (d_actions d') with (d_actions d) by (rewrite Ed'; reflexivity). replace (d_methods d') with (d_methods d) by (rewrite Ed'; reflexivity).
  replace (d_types d') with (d_types d) by (rewrite Ed'; reflexivity). replace (d_reqs d') with (d_reqs d) by (rewrite Ed'; reflexivity).
  replace (d_preds d') with (d_preds d) by (rewrite Ed'; reflexivity). replace (d_tasks d') with (d_tasks d) by (rewrite Ed'; reflexivity).
  rewrite Ha, Hme. tauto.
Qed.
End Domain.

Section Problem.
(** No name is declared twice. *)
Hypothesis Hnd : NoDup (map sym_name (p_objects p ++ constants_of d)).

Lemma objects_not_constants o c : In o (p_objects p) -> In c (constants_of d) -> sym_name o <> sym_name c.
Proof.
  revert Hnd. generalize (p_objects p) (constants_of d). clear. induction l as [|x l IH]; simpl; intros k Hn; [tauto|].
  inversion Hn as [|u v H1 H2]; subst. intros [->|Ho] Hc; [|apply (IH k); auto]. intros E. apply H1. rewrite E. apply in_map. apply in_or_app. auto.
Qed.
Lemma constants_distinct : NoDup (map sym_name (constants_of d)).
Proof. rewrite map_app in Hnd. revert Hnd. generalize (map sym_name (p_objects p)). clear. induction l; simpl; auto. intros Hn. inversion Hn; auto. Qed.
Lemma gone_not_kept c k : In c cs -> In k (constants_of d') -> sym_name k <> sym_name c.
Proof.
  pose proof constants_distinct as Hn. revert Hn. pose proof Hcons as Hi0. revert Hi0. generalize (constants_of d') (constants_of d) cs. clear.
  intros l l' l''. induction 1 as [|x l l'' l' Hi IH|x l l'' l' Hi IH]; simpl; intros Hn Hc Hk; try tauto.
  - inversion Hn as [|u v H1 H2]; subst. destruct Hk as [->|Hk]; [|auto]. intros E. apply H1. rewrite E. apply in_map. apply (il_in _ _ _ c Hi). auto.
  - inversion Hn as [|u v H1 H2]; subst. destruct Hc as [->|Hc]; [|auto]. intros E. apply H1. rewrite <- E. apply in_map. apply (il_in _ _ _ k Hi). auto.
Qed.
Lemma first_unique c : In c (constants_of d) -> first_named sym_name (sym_name c) (constants_of d) c.
Proof. intros Hc. apply (first_named_unique sym_name (sym_name c)); auto. apply constants_distinct. Qed.

Lemma mv_object n t : object_denotes d p n t <-> object_denotes d' p' n t.
Proof.
  split.
  - intros [o Ho E1 E2|c Hn Hf E].
    + apply (od_object _ _ _ _ o); auto. apply (il_in _ _ _ o Hobjs). auto.
    + pose proof (first_named_in' _ _ _ _ Hf) as [Hc En]. apply (il_in _ _ _ c Hcons) in Hc as [Hc|Hc].
      * assert (forall y, In y cs -> sym_name y <> n) as Hg by (intros y Hy E'; apply (gone_not_kept y c Hy Hc); congruence).
        apply (od_const _ _ _ _ c); auto; [|apply (il_first _ _ _ _ _ _ Hcons); auto].
        intros x Hx. apply (il_in _ _ _ x Hobjs) in Hx as [Hx|Hx]; [auto|]. apply moved_from in Hx as (y & Hy & E1 & _). rewrite E1. auto.
      * destruct (moved_to c Hc) as (c' & Hc' & E1 & E2). apply (od_object _ _ _ _ c'); [apply (il_in _ _ _ c' Hobjs); auto| |]; congruence.
  - intros [o Ho E1 E2|c Hn Hf E].
    + apply (il_in _ _ _ o Hobjs) in Ho as [Ho|Ho]; [apply (od_object _ _ _ _ o); auto|].
      apply moved_from in Ho as (c & Hc & E3 & E4). assert (In c (constants_of d)) as Hc' by (apply (il_in _ _ _ c Hcons); auto).
      apply (od_const _ _ _ _ c); [| |congruence]; [|replace n with (sym_name c) by congruence; apply first_unique; auto].
      intros x Hx E5. apply (objects_not_constants x c Hx Hc'). congruence.
    + assert (forall y, In y cs -> sym_name y <> n) as Hg.
      { intros y Hy E'. destruct (moved_to y Hy) as (c' & Hc' & E1 & _). apply (Hn c'); [apply (il_in _ _ _ c' Hobjs); auto|congruence]. }
      apply (od_const _ _ _ _ c); auto; [|apply (il_first _ _ _ _ _ _ Hcons); auto].
      intros x Hx. apply Hn. apply (il_in _ _ _ x Hobjs). auto.
Qed.
Lemma mv_term t n ty : params_free p cs -> p_init_tn p = Some t ->
  term_denotes d p (tn_params t) n ty <-> term_denotes d' p' (tn_params t) n ty.
Proof.
  intros Hpf Ht.
  assert (forall n, (exists q, In q (tn_params t) /\ sym_name q = n) -> (unnamed sym_name n (p_objects p) <-> unnamed sym_name n (p_objects p'))) as Hu.
  { intros m (q & Hq & Eq). split; intros Hn x Hx; [|apply Hn; apply (il_in _ _ _ x Hobjs); auto].
    apply (il_in _ _ _ x Hobjs) in Hx as [Hx|Hx]; auto. apply moved_from in Hx as (c & Hc & E & _). intros E'. apply (Hpf t q c Ht Hq Hc). congruence. }
  destruct (named_or_not n (tn_params t)) as [Hn|Hn].
  - assert (forall dd pp, term_denotes dd pp (tn_params t) n ty <-> object_denotes dd pp n ty) as Hto.
    { intros dd pp. split.
      - intros [o Ho E1 E2|q H1 Hf E|c H1 H2 Hf E]; [eapply od_object; eauto| |eapply od_const; eauto].
        apply first_named_in' in Hf as [Hq Eq]. destruct (Hn q Hq Eq).
      - intros [o Ho E1 E2|c H1 Hf E]; [eapply td_object; eauto|eapply td_const; eauto]. }
    rewrite !Hto. apply mv_object.
  - specialize (Hu n Hn). destruct Hn as (q0 & Hq0 & Eq0). split; (intros [o Ho E1 E2|q H1 Hf E|c H1 H2 Hf E]; [| |destruct (H2 q0 Hq0 Eq0)]).
    + apply (td_object _ _ _ _ _ o); auto. apply (il_in _ _ _ o Hobjs). auto.
    + apply (td_param _ _ _ _ _ q); auto. apply Hu; auto.
    + apply (il_in _ _ _ o Hobjs) in Ho as [Ho|Ho]; [apply (td_object _ _ _ _ _ o); auto|].
      apply moved_from in Ho as (c & Hc & E & _). destruct (Hpf t q0 c Ht Hq0 Hc). congruence.
    + apply (td_param _ _ _ _ _ q); auto. apply Hu; auto.
Qed.
Lemma il_permutation {A} (k g l : list A) : interleaved k g l -> Permutation l (k ++ g).
Proof. induction 1 as [|x k g l _ IH|x k g l _ IH]; simpl; auto. apply Permutation_cons_app. auto. Qed.
Lemma moved_names : map sym_name cs' = map sym_name cs.
Proof. pose proof Hsame as Hs. clear -Hs. induction Hs as [|a b l l' [E1 E2] _ IH]; simpl; congruence. Qed.
Lemma objects_distinct : NoDup (map sym_name (p_objects p')).
Proof.
  apply (Permutation_NoDup (l := map sym_name (p_objects p ++ cs'))); [apply Permutation_map, Permutation_sym, il_permutation, Hobjs|].
  rewrite map_app, moved_names, <- map_app. pose proof (Permutation_map sym_name (Permutation_app_head (p_objects p) (il_permutation _ _ _ Hcons))) as Hp.
  apply (Permutation_NoDup Hp) in Hnd. rewrite !map_app in *. apply (Permutation_NoDup (Permutation_app_swap_app _ _ _)) in Hnd.
  revert Hnd. generalize (map sym_name (constants_of d')). clear. induction l; simpl; auto. intros Hn. inversion Hn; auto.
Qed.

Lemma mv_fact q : fact_ok d p q <-> fact_ok d' p' q.
Proof.
  unfold fact_ok. destruct (mv_domain _ _ _ _ _ _ Hm) as (o & Ed'). replace (d_preds d') with (d_preds d) by (rewrite Ed'; reflexivity).
  replace (d_types d') with (d_types d) by (rewrite Ed'; reflexivity).
  split; intros (def & H1 & H2 & H3); exists def; (split; [auto|split; [auto|]]); revert H3; apply Forall2_iff; intros v f _;
    split; intros (t & H4 & H5); exists t; (split; [apply mv_object; auto|auto]).
Qed.
Lemma mv_problem_ok : params_free p cs -> types_declared (d_types d) cs -> (problem_ok d p <-> problem_ok d' p').
Proof.
  intros Hpf Htd.
  assert (forall t, p_init_tn p = Some t -> forall s, init_task_ok d p t s <-> init_task_ok d' p' t s) as Hi.
  { intros t Ht s. unfold init_task_ok. destruct (mv_domain _ _ _ _ _ _ Hm) as (o & Ed'). replace (d_types d') with (d_types d) by (rewrite Ed'; reflexivity).
    split; intros (fo & H1 & H2); exists fo; (split; [apply mv_callable; auto|]); revert H2; apply Forall2_iff; intros v f _;
      split; intros (ty & H4 & H5); exists ty; (split; [apply (mv_term t _ _ Hpf Ht); auto|auto]). }
  assert (types_declared (d_types d) (p_objects p) <-> types_declared (d_types d) (p_objects p')) as H1.
  { split; intros Hx s t Hs E.
    - apply (il_in _ _ _ s Hobjs) in Hs as [Hs|Hs]; [eauto|]. apply moved_from in Hs as (c & Hc & _ & E'). apply (Htd c t Hc). congruence.
    - apply (Hx s t); auto. apply (il_in _ _ _ s Hobjs). auto. }
  assert (NoDup (map sym_name (p_objects p))) as H2.
  { rewrite map_app in Hnd. apply (Permutation_NoDup (Permutation_app_comm _ _)) in Hnd. revert Hnd. generalize (map sym_name (constants_of d)). clear.
    induction l; simpl; auto. intros Hn. inversion Hn; auto. }
  pose proof objects_distinct as H3.
  destruct (mv_domain _ _ _ _ _ _ Hm) as (o & Ed'). destruct (mv_problem _ _ _ _ _ _ Hm) as (l & Ep').
  unfold problem_ok. replace (d_types d') with (d_types d) by (rewrite Ed'; reflexivity). replace (p_init p') with (p_init p) by (rewrite Ep'; reflexivity).
  replace (p_init_tn p') with (p_init_tn p) by (rewrite Ep'; reflexivity). replace (p_goal p') with (p_goal p) by (rewrite Ep'; reflexivity).
  rewrite <- H1, <- (Forall_same (fact_ok d p) (fact_ok d' p')) by (intros; apply mv_fact).
  assert (match p_init_tn p with None => True | Some t => order_acyclic (htn_orderings (itn_tn t)) /\ Forall (init_task_ok d p t) (htn_subtasks (itn_tn t)) end
    <-> match p_init_tn p with None => True | Some t => order_acyclic (htn_orderings (itn_tn t)) /\ Forall (init_task_ok d' p' t) (htn_subtasks (itn_tn t)) end) as H4.
  { destruct (p_init_tn p) as [t|] eqn:Et; [|tauto]. rewrite (Forall_same (init_task_ok d p t) (init_task_ok d' p' t)) by (intros; apply Hi; auto). tauto. }
  assert (match p_goal p with None => True | Some g => forall q, within_open (FAtom q) g -> fact_ok d p q end
    <-> match p_goal p with None => True | Some g => forall q, within_open (FAtom q) g -> fact_ok d' p' q end) as H5.
  { destruct (p_goal p); [|tauto]. split; intros Hx q Hq; apply mv_fact; auto. }
  tauto.
Qed.

(** Executions. *)
Lemma mv_value o f : value d p o f <-> value d' p' o f.
Proof.
  unfold value. destruct (mv_domain _ _ _ _ _ _ Hm) as (x & Ed'). replace (d_types d') with (d_types d) by (rewrite Ed'; reflexivity).
  split; intros (t & H1 & H2); exists t; (split; [apply mv_object; auto|auto]).
Qed.
Lemma mv_respects b params : respects d p b params <-> respects d' p' b params.
Proof. unfold respects. split; intros Hx n q Hq; apply mv_value; auto. Qed.
Lemma mv_mentions b params f x : SpecExec.mentions d p b params f x <-> SpecExec.mentions d' p' b params f x.
Proof.
  split; (induction 1 as [b params q|b params g f x Hc _ IH|b b' params vs f x Hb Hv _ IH|b b' params vs f x Hb Hv _ IH];
    [apply me_atom|eapply me_child; eauto|eapply me_forall|eapply me_exists]); eauto; apply mv_respects; auto.
Qed.
Lemma mv_visible t : params_free p cs -> p_init_tn p = Some t -> visible p' t = visible p t.
Proof.
  intros Hpf Ht. unfold visible. apply filter_ext_in. intros q Hq.
  destruct (in_dec string_dec (sym_name q) (map sym_name (p_objects p'))) as [H1|H1];
    destruct (in_dec string_dec (sym_name q) (map sym_name (p_objects p))) as [H2|H2]; auto; exfalso.
  - apply in_map_iff in H1 as (o & E & Ho). apply (il_in _ _ _ o Hobjs) in Ho as [Ho|Ho]; [apply H2; rewrite <- E; apply in_map; auto|].
    apply moved_from in Ho as (c & Hc & E' & _). apply (Hpf t q c Ht Hq Hc). congruence.
  - apply H1. apply in_map_iff in H2 as (o & E & Ho). rewrite <- E. apply in_map. apply (il_in _ _ _ o Hobjs). auto.
Qed.
Lemma mv_initial c : params_free p cs -> (initial d p c <-> initial d' p' c).
Proof.
  intros Hpf. destruct (mv_problem _ _ _ _ _ _ Hm) as (l & Ep').
  assert (facts0 p' = facts0 p) as Ef by (rewrite Ep'; reflexivity). assert (p_init_tn p' = p_init_tn p) as Et by (rewrite Ep'; reflexivity).
  split; intros [E|t b E Hb].
  - rewrite <- Ef. apply in_none. congruence.
  - rewrite <- Ef, <- (mv_visible t Hpf E). apply in_tn; [congruence|]. rewrite (mv_visible t Hpf E). apply mv_respects; auto.
  - rewrite Ef. apply in_none. congruence.
  - rewrite Et in E. rewrite Ef, (mv_visible t Hpf E) in *. apply in_tn; auto. apply mv_respects; auto.
Qed.
Lemma mv_step c c' : step d p c c' <-> step d' p' c c'.
Proof.
  destruct (mv_domain _ _ _ _ _ _ Hm) as (x & Ed'). assert (d_methods d' = d_methods d) as E1 by (rewrite Ed'; reflexivity).
  assert (d_actions d' = d_actions d) as E2 by (rewrite Ed'; reflexivity).
  split; (intros [m b facts w1 w2 Hi Hb|a b facts facts' w1 w2 Ha Hx]; [apply st_method|eapply st_action]); rewrite ?E1, ?E2 in *; auto;
    try (apply mv_respects; auto); intros y Hy; (destruct (Hx y Hy) as [|(f & Ef & Hf)]; [auto|]); right; exists f; (split; [auto|apply mv_mentions; auto]).
Qed.
Lemma mv_reachable c : params_free p cs -> (reachable d p c <-> reachable d' p' c).
Proof.
  intros Hpf. assert (forall c c', clos_refl_trans config (step d p) c c' <-> clos_refl_trans config (step d' p') c c') as Hs.
  { intros a b. split; (induction 1; [apply rt_step, mv_step; auto|apply rt_refl|eapply rt_trans; eauto]). }
  split; intros (c0 & Hi & Hc); exists c0; (split; [apply (mv_initial c0 Hpf); auto|apply Hs; auto]).
Qed.
End Problem.
End Moved.

Section Props.
Context `{Unicode}.
Variable he : hash_env.
Hypothesis Hhe : hash_env_ok he.
Notation accepts dom prob := (exists ws, settles (fun k => verify he k dom prob) (Ok ws)).

(** C73: constants that the domain does not use can be declared as objects of the
    problem and vice versa: the same documents are accepted, and the same
    executions are possible. *)
Theorem C73_domain : forall n dom dom' d d' p p' cs cs', parse n dom = Ok (ADomain d) -> parse n dom' = Ok (ADomain d') ->
  moved d p d' p' cs cs' -> domain_free d cs -> (accepts dom None <-> accepts dom' None).
Proof.
  intros n dom dom' d d' p p' cs cs' E1 E2 Hm Hf. rewrite (domain_verdict he Hhe n dom d E1), (domain_verdict he Hhe n dom' d' E2).
  apply (mv_domain_ok d p d' p' cs cs' Hm Hf).
Qed.
Theorem C73_problem : forall n dom dom' prob prob' d d' p p' cs cs',
  parse n dom = Ok (ADomain d) -> parse n dom' = Ok (ADomain d') -> parse n prob = Ok (AProblem p) -> parse n prob' = Ok (AProblem p') ->
  moved d p d' p' cs cs' -> domain_free d cs -> params_free p cs -> types_declared (d_types d) cs ->
  NoDup (map sym_name (p_objects p ++ constants_of d)) ->
  (accepts dom (Some prob) <-> accepts dom' (Some prob')) /\ (forall c, SpecExec.reachable d p c <-> SpecExec.reachable d' p' c).
Proof.
  intros n dom dom' prob prob' d d' p p' cs cs' E1 E2 E3 E4 Hm Hf Hpf Htd Hnd. split; [|intros c; eapply mv_reachable; eauto].
  assert (forall dom prob d p, parse n dom = Ok (ADomain d) -> parse n prob = Ok (AProblem p) -> (accepts dom (Some prob) <-> domain_ok d /\ problem_ok d p)) as Ha.
  { clear -Hhe. intros dom prob d p E1 E3. split.
    - intros Hx. assert (domain_ok d) as Hok.
      { destruct Hx as (ws & _ & k & Hk). apply (accepted he k n dom (Some prob) ws d (Hk k (le_n k)) E1). }
      split; auto. apply (C22_problem_decided he Hhe n dom d prob p E1 Hok E3). auto.
    - intros [Hok Hp]. apply (C22_problem_decided he Hhe n dom d prob p E1 Hok E3). auto. }
  rewrite (Ha dom prob d p E1 E3), (Ha dom' prob' d' p' E2 E4).
  rewrite (mv_domain_ok d p d' p' cs cs' Hm Hf), (mv_problem_ok d p d' p' cs cs' Hm Hnd Hpf Htd). tauto.
Qed.
End Props.

(** ** Examples *)
Definition mv_dom (cs : string) : string :=
  "(define (domain d) (:types a b) " ++ cs ++ " (:predicates (q ?x - a)) (:task t :parameters (?x - a)) (:action e :parameters (?x - a) :effect (q ?x)) (:method m :parameters (?x - a) :task (t ?x) :ordered-subtasks (and (e ?x) (e h))))" ++ nl.
Definition mv_prob (objs params init : string) : string :=
  prob_with ("(:objects o - a" ++ objs ++ ") (:htn " ++ params ++ ":ordered-subtasks (and (t k) (t o))) (:init " ++ init ++ ")").
Example C73_example : exists d d' p p' cs cs',
  run (mv_dom "(:constants h - a k - a)") (Some (mv_prob "" "" "(q k)")) = Ok []
  /\ @parse uni0 300 (mv_dom "(:constants h - a k - a)") = Ok (ADomain d) /\ @parse uni0 300 (mv_dom "(:constants h - a)") = Ok (ADomain d')
  /\ @parse uni0 300 (mv_prob "" "" "(q k)") = Ok (AProblem p) /\ @parse uni0 300 (mv_prob " k - a" "" "(q k)") = Ok (AProblem p')
  /\ moved d p d' p' cs cs' /\ domain_free d cs /\ params_free p cs /\ types_declared (d_types d) cs
  /\ NoDup (map sym_name (p_objects p ++ constants_of d)) /\ length cs = 1
  /\ is_ok (run (mv_dom "(:constants h - a)") (Some (mv_prob "" "" "(q k)"))) = false.
Proof.
  do 4 eexists. eexists [_], [_]. split; [vm_compute; reflexivity|]. split; [vm_compute; reflexivity|]. split; [vm_compute; reflexivity|].
  split; [vm_compute; reflexivity|]. split; [vm_compute; reflexivity|].
  split; [apply mkMoved; [eexists; reflexivity|eexists; reflexivity|cbn; repeat (first [apply il_nil|apply il_kept|apply il_gone])|
    cbn; repeat (first [apply il_nil|apply il_kept|apply il_gone])|repeat constructor]|].
  split; [|split; [|split; [|split; [|split]]]].
  - intros c params v [<-|[]] Hv. inversion Hv; scopes; try discriminate. apply open_leaf in H0; [|intros g Hc; inversion Hc]. injection H0 as ->. scopes; discriminate.
  - intros t q c E Hq. injection E as <-. destruct Hq.
  - intros s t [<-|[]] E. injection E as <-. eexists. split; [left; reflexivity|left; reflexivity].
  - simpl. repeat (constructor; [simpl; intuition discriminate|]). constructor.
  - reflexivity.
  - vm_compute. reflexivity.
Qed.
(** Objects hide parameters of the initial task network, constants do not. *)
Theorem C73_parameter_refuted : exists dom dom' prob prob' d d' p p' cs cs',
  @parse uni0 300 dom = Ok (ADomain d) /\ @parse uni0 300 dom' = Ok (ADomain d')
  /\ @parse uni0 300 prob = Ok (AProblem p) /\ @parse uni0 300 prob' = Ok (AProblem p')
  /\ moved d p d' p' cs cs' /\ NoDup (map sym_name (p_objects p ++ constants_of d))
  /\ run dom (Some prob) = Ok [] /\ run_error dom' (Some prob') <> None.
Proof.
  exists (mv_dom "(:constants h - a k - b)"), (mv_dom "(:constants h - a)"), (mv_prob "" ":parameters (?k - a) " ""), (mv_prob " k - b" ":parameters (?k - a) " "").
  do 4 eexists. eexists [_], [_]. split; [vm_compute; reflexivity|]. split; [vm_compute; reflexivity|]. split; [vm_compute; reflexivity|]. split; [vm_compute; reflexivity|].
  split; [apply mkMoved; [eexists; reflexivity|eexists; reflexivity|cbn; repeat (first [apply il_nil|apply il_kept|apply il_gone])|
    cbn; repeat (first [apply il_nil|apply il_kept|apply il_gone])|repeat constructor]|].
  split; [simpl; repeat (constructor; [simpl; intuition discriminate|]); constructor|]. split; [vm_compute; reflexivity|]. vm_compute. discriminate.
Qed.
(** The types of constants are not checked, those of objects are. *)
Theorem C73_type_refuted : exists dom dom' prob prob' d d' p p' cs cs',
  @parse uni0 300 dom = Ok (ADomain d) /\ @parse uni0 300 dom' = Ok (ADomain d')
  /\ @parse uni0 300 prob = Ok (AProblem p) /\ @parse uni0 300 prob' = Ok (AProblem p')
  /\ moved d p d' p' cs cs' /\ NoDup (map sym_name (p_objects p ++ constants_of d))
  /\ run dom (Some prob) = Ok [] /\ run_error dom' (Some prob') = Some (ESem (UndefinedType (mkUndef "c" 2))).
Proof.
  exists (mv_dom "(:constants h k - a l - c)"), (mv_dom "(:constants h k - a)"), (mv_prob "" "" ""), (mv_prob " l - c" "" "").
  do 4 eexists. eexists [_], [_]. split; [vm_compute; reflexivity|]. split; [vm_compute; reflexivity|]. split; [vm_compute; reflexivity|]. split; [vm_compute; reflexivity|].
  split; [apply mkMoved; [eexists; reflexivity|eexists; reflexivity|cbn; repeat (first [apply il_nil|apply il_kept|apply il_gone])|
    cbn; repeat (first [apply il_nil|apply il_kept|apply il_gone])|repeat constructor]|].
  split; [simpl; repeat (constructor; [simpl; intuition discriminate|]); constructor|]. split; vm_compute; reflexivity.
Qed.

Definition move_theorems := (@C73_domain, @C73_problem, @C73_parameter_refuted, @C73_type_refuted).
