(** Facts about the specification of well-formedness: an error's assertion
    excludes acceptance, and declaration order does not matter. *)
From Coq Require Import String NArith List Relations Permutation.
From Verif Require Import Base Token Errors Ast SpecSem SemProofs SemFormula SemDomain.
Import ListNotations.
Open Scope list_scope.

Lemma repeated_dup {A} (name : A -> string) (pos : A -> N) l e : repeated name pos l e -> ~ NoDup (map name l).
Proof.
  intros (l1 & x & l2 & y & l3 & -> & _ & E1 & E2 & _) Hn.
  rewrite map_app in Hn. simpl in Hn. apply NoDup_remove_2 in Hn. apply Hn. apply in_or_app. right.
  rewrite map_app. apply in_or_app. right. left. congruence.
Qed.

Lemma Forall2_nth {A B} (R : A -> B -> Prop) l l' i x y :
  Forall2 R l l' -> nth_error l i = Some x -> nth_error l' i = Some y -> R x y.
Proof.
  intros Hf. revert i. induction Hf as [|a b l l' Hab Hf IH]; intros [|i]; simpl; try discriminate; eauto.
  intros E1 E2. congruence.
Qed.
Lemma Forall2_in_l {A B} (R : A -> B -> Prop) l l' x : Forall2 R l l' -> In x l -> exists y, In y l' /\ R x y.
Proof.
  induction 1 as [|a b l l' Hab Hf IH]; simpl; [tauto|]. intros [<-|Hi]; eauto.
  destruct (IH Hi) as (y & Hy & Hr). eauto.
Qed.

Section Domain.
Variable d : domain_ast.
Hypothesis Hok : domain_ok d.

Lemma ok_formula params g : dom_formula d params g -> NoDup (map sym_name params) /\ formula_ok d params g.
Proof.
  destruct Hok as (_ & _ & _ & _ & _ & _ & _ & Ha & _ & Hm). rewrite Forall_forall in Ha, Hm.
  intros [a g' Hi E|a g' Hi E|m g' Hi E].
  - destruct (Ha _ Hi) as (H1 & H2 & _). rewrite E in H2. auto.
  - destruct (Ha _ Hi) as (H1 & _ & H2). rewrite E in H2. auto.
  - destruct (Hm _ Hi) as (H1 & H2 & _). rewrite E in H2. auto.
Qed.
Lemma ok_call h params task terms : dom_call d h params task terms ->
  NoDup (map sym_name params) /\ call_ok d h params task terms.
Proof.
  destruct Hok as (_ & _ & _ & _ & _ & _ & _ & _ & _ & Hm). rewrite Forall_forall in Hm.
  intros [m Hi|m s Hi Hs].
  - destruct (Hm _ Hi) as (H1 & _ & H2 & _). auto.
  - destruct (Hm _ Hi) as (H1 & _ & _ & H2 & _). rewrite Forall_forall in H2. auto.
Qed.
Lemma callable_fun h n l l' : callable d h n l -> callable d h n l' -> l = l'.
Proof.
  destruct Hok as (_ & _ & _ & _ & Ht & _ & Ha & _). intros H1 H2.
  inversion H1 as [a Hi|h1 t Hi Hu]; subst; inversion H2 as [a' Hi' Eh E0|h2 t' Hi' Hu']; subst.
  - f_equal. eapply (unique_named act_name); eauto.
  - exfalso. eapply (Hu' eq_refl); eauto.
  - exfalso. eapply (Hu eq_refl); eauto.
  - f_equal. eapply (unique_named task_name); eauto.
Qed.
Lemma ok_pred_unique p q : In p (d_preds d) -> In q (d_preds d) -> pred_name p = pred_name q -> p = q.
Proof. destruct Hok as (_ & _ & Hn & _). intros. eapply (unique_named pred_name); eauto. Qed.

Theorem ok_no_violation s : ~ domain_violation d s.
Proof.
  pose proof Hok as (O1 & O2 & O3 & O4 & O5 & O6 & O7 & O8 & O9 & O10). rewrite !Forall_forall in *.
  intros Hv. destruct Hv as
    [r l1 l2 l3 E|a Hc|e Hr|e Hr|e Hr|e Hr|l e Hs Hr|l s t p Hd Hs E1 E2 Hu|params g p Hf Hw Hu
    |params g p def Hf Hw Hi En Hl|params v Ha H1 H2|params g p def i v f t Hf Hw Hi En E1 E2 Hde Hfi
    |params tk terms Hc Hn|params tk terms Hc Hn|params tk terms fo Hc Hn Hl|params tk terms fo Hc Hn Hl
    |h params tk terms fo i v f t Hc Hn E1 E2 Hde Hfi|m p l a Hm Eo Hc Ep].
  - rewrite E in O1. apply NoDup_remove_2 in O1. apply O1. rewrite !in_app_iff. right; right; left; auto.
  - eapply O2; eauto.
  - eapply repeated_dup; eauto.
  - eapply repeated_dup; eauto.
  - eapply repeated_dup; eauto.
  - eapply repeated_dup; eauto.
  - apply repeated_dup in Hr. apply Hr. destruct Hs as [a Hi|m Hi]; [apply O8; auto|apply O10; auto].
  - apply Hu. destruct Hd as [q Hi|q Hi|params g Hf]; [eapply O4; eauto|eapply O6; eauto|].
    apply ok_formula in Hf as (_ & _ & _ & Hty & _). eapply Hty; eauto.
  - apply ok_formula in Hf as (_ & _ & Hf & _). destruct (Hf _ Hw) as (def & Hi & En & _). eapply Hu; eauto.
  - apply ok_formula in Hf as (_ & _ & Hf & _). destruct (Hf _ Hw) as (def' & Hi' & En' & El).
    assert (def = def') as -> by (apply ok_pred_unique; auto; congruence). congruence.
  - assert (exists t, denotes params (constants_of d) (sym_name v) t) as (t & Ht).
    { destruct Ha as [params g p v Hf Hw Hi|h params tk terms v Hc Hi].
      - apply ok_formula in Hf as (_ & _ & _ & _ & Hf). destruct (Hf _ Hw) as (def & _ & _ & Hargs).
        destruct (Forall2_in_l _ _ _ _ Hargs Hi) as (y & _ & t & Ht & _). eauto.
      - apply ok_call in Hc as (_ & fo & _ & Hargs).
        destruct (Forall2_in_l _ _ _ _ Hargs Hi) as (y & _ & t & Ht & _). eauto. }
    destruct Ht as [q Hq En _|c _ Hfn _]; [eapply H1; eauto|]. apply first_named_in in Hfn as [Hi En]. eapply H2; eauto.
  - apply ok_formula in Hf as (Hnd & _ & _ & _ & Hf). destruct (Hf _ Hw) as (def' & Hi' & En' & Hargs).
    assert (def = def') as <- by (apply ok_pred_unique; auto; congruence).
    destruct (Forall2_nth _ _ _ _ _ _ Hargs E1 E2) as (t' & Hde' & Hfi').
    apply Hfi. rewrite (denotes_fun _ _ _ _ _ Hnd Hde Hde'). auto.
  - apply ok_call in Hc as (_ & fo & Hca & _). eapply Hn; eauto.
  - apply ok_call in Hc as (_ & fo & Hca & _). eapply Hn; eauto.
  - apply ok_call in Hc as (_ & fo' & Hca & Hargs). rewrite (callable_fun _ _ _ _ Hn Hca) in Hl.
    apply Forall2_len in Hargs. congruence.
  - apply ok_call in Hc as (_ & fo' & Hca & Hargs). rewrite (callable_fun _ _ _ _ Hn Hca) in Hl.
    apply Forall2_len in Hargs. congruence.
  - apply ok_call in Hc as (Hnd & fo' & Hca & Hargs). rewrite (callable_fun _ _ _ _ Hn Hca) in *.
    destruct (Forall2_nth _ _ _ _ _ _ Hargs E1 E2) as (t' & Hde' & Hfi').
    apply Hfi. rewrite (denotes_fun _ _ _ _ _ Hnd Hde Hde'). auto.
  - destruct (O10 _ Hm) as (_ & _ & _ & _ & Ho). rewrite Eo in Ho. eapply Ho; eauto.
Qed.

Section Problem.
Variable p : problem_ast.
Hypothesis Pok : problem_ok d p.

Lemma object_fun n t t' : object_denotes d p n t -> object_denotes d p n t' -> t = t'.
Proof.
  destruct Pok as (_ & Hn & _). intros [o Ho En Et|c Hu Hf Et] [o' Ho' En' Et'|c' Hu' Hf' Et'].
  - assert (o = o') by (eapply (unique_named sym_name); eauto). congruence.
  - exfalso. eapply Hu'; eauto.
  - exfalso. eapply Hu; eauto.
  - assert (c = c') by (eapply first_named_fun; eauto). congruence.
Qed.
Lemma term_fun params n t t' : term_denotes d p params n t -> term_denotes d p params n t' -> t = t'.
Proof.
  destruct Pok as (_ & Hn & _).
  intros [o Ho En Et|q Hu Hq Et|c Hu Hv Hf Et] [o' Ho' En' Et'|q' Hu' Hq' Et'|c' Hu' Hv' Hf' Et'];
    try (exfalso; (eapply Hu' + eapply Hu); eauto; fail).
  - assert (o = o') by (eapply (unique_named sym_name); eauto). congruence.
  - assert (q = q') by (eapply first_named_fun; eauto). congruence.
  - exfalso. apply first_named_in in Hq as [Hi En]. eapply Hv'; eauto.
  - exfalso. apply first_named_in in Hq' as [Hi En]. eapply Hv; eauto.
  - assert (c = c') by (eapply first_named_fun; eauto). congruence.
Qed.
Lemma ok_fact q : prob_atom p q -> fact_ok d p q.
Proof.
  destruct Pok as (_ & _ & Hi & _ & Hg). rewrite Forall_forall in Hi. intros [q' Hq|g q' E Hw]; auto. rewrite E in Hg. auto.
Qed.
Lemma ok_prob_call t tk terms : prob_call p t tk terms ->
  exists formals, callable d false (sym_name tk) formals
    /\ Forall2 (fun v f => exists ty, term_denotes d p (tn_params t) (sym_name v) ty /\ fits (d_types d) ty (sym_type f)) terms formals.
Proof.
  destruct Pok as (_ & _ & _ & Ht & _). intros [t' s E Hs]. rewrite E in Ht. destruct Ht as (_ & Hf).
  rewrite Forall_forall in Hf. exact (Hf _ Hs).
Qed.

Theorem ok_no_problem_violation s : ~ problem_violation d p s.
Proof.
  pose proof Pok as (P1 & P2 & P3 & P4 & P5).
  intros Hv. destruct Hv as [s t tp Hs E1 E2 Hu|e Hr|q Ha Hu|q def Ha Hi En Hl|q v Ha Hi Hn|t tk terms v Hc Hi Hn
    |q def i v f t sh Ha Hi En E1 E2 Hde Hfi _|t tk terms Hc Hn|t tk terms fo Hc Hn Hl
    |t tk terms fo i v f ty e Hc Hn E1 E2 Hde Hfi _|t tk terms fo i v f ty e Hc Hn E1 E2 Hde Hfi _ _ _
    |t pos l a Et Eo Hc Ep].
  - apply Hu. eapply P1; eauto.
  - eapply repeated_dup; eauto.
  - destruct (ok_fact _ Ha) as (def & Hi & En & _). eapply Hu; eauto.
  - destruct (ok_fact _ Ha) as (def' & Hi' & En' & Hf).
    assert (def = def') as -> by (apply ok_pred_unique; auto; congruence). apply Forall2_len in Hf. congruence.
  - destruct (ok_fact _ Ha) as (def & _ & _ & Hf). destruct (Forall2_in_l _ _ _ _ Hf Hi) as (y & _ & t & Ht & _). eapply Hn; eauto.
  - destruct (ok_prob_call _ _ _ Hc) as (fo & _ & Hf). destruct (Forall2_in_l _ _ _ _ Hf Hi) as (y & _ & ty & Ht & _). eapply Hn; eauto.
  - destruct (ok_fact _ Ha) as (def' & Hi' & En' & Hf).
    assert (def = def') as <- by (apply ok_pred_unique; auto; congruence).
    destruct (Forall2_nth _ _ _ _ _ _ Hf E1 E2) as (t' & Hde' & Hfi'). apply Hfi. rewrite (object_fun _ _ _ Hde Hde'). auto.
  - destruct (ok_prob_call _ _ _ Hc) as (fo & Hca & _). eapply Hn; eauto.
  - destruct (ok_prob_call _ _ _ Hc) as (fo' & Hca & Hf). rewrite (callable_fun _ _ _ _ Hn Hca) in Hl.
    apply Forall2_len in Hf. congruence.
  - destruct (ok_prob_call _ _ _ Hc) as (fo' & Hca & Hf). rewrite (callable_fun _ _ _ _ Hn Hca) in *.
    destruct (Forall2_nth _ _ _ _ _ _ Hf E1 E2) as (t' & Hde' & Hfi'). apply Hfi. rewrite (term_fun _ _ _ _ Hde Hde'). auto.
  - destruct (ok_prob_call _ _ _ Hc) as (fo' & Hca & Hf). rewrite (callable_fun _ _ _ _ Hn Hca) in *.
    destruct (Forall2_nth _ _ _ _ _ _ Hf E1 E2) as (t' & Hde' & Hfi'). apply Hfi. rewrite (term_fun _ _ _ _ Hde Hde'). auto.
  - rewrite Et in P4. destruct P4 as (Ho & _). rewrite Eo in Ho. eapply Ho; eauto.
Qed.
End Problem.
End Domain.

(** ** Declaration order *)

(** The same declarations in another order (types: as a set). *)
Record reordered (d d' : domain_ast) : Prop := mkReordered {
  re_reqs : Permutation (d_reqs d) (d_reqs d');
  re_types : forall s, In s (type_decls (d_types d)) <-> In s (type_decls (d_types d'));
  re_constants : Permutation (constants_of d) (constants_of d');
  re_preds : Permutation (d_preds d) (d_preds d');
  re_tasks : Permutation (d_tasks d) (d_tasks d');
  re_actions : Permutation (d_actions d) (d_actions d');
  re_methods : Permutation (d_methods d) (d_methods d')
}.

Lemma reordered_sym d d' : reordered d d' -> reordered d' d.
Proof. intros []. constructor; auto using Permutation_sym. intros s. symmetry. auto. Qed.

Lemma perm_in_iff {A} (l l' : list A) x : Permutation l l' -> (In x l <-> In x l').
Proof. intros Hp. split; apply Permutation_in; auto using Permutation_sym. Qed.
Lemma perm_Forall {A} (P : A -> Prop) l l' : Permutation l l' -> Forall P l -> Forall P l'.
Proof. intros Hp. rewrite !Forall_forall. intros Hf x Hx. apply Hf. apply (perm_in_iff _ _ _ Hp); auto. Qed.
Lemma perm_NoDup_map {A B} (f : A -> B) l l' : Permutation l l' -> NoDup (map f l) -> NoDup (map f l').
Proof. intros Hp. apply Permutation_NoDup, Permutation_map; auto. Qed.

Lemma first_named_unique {A} (name : A -> string) n l x : NoDup (map name l) ->
  (first_named name n l x <-> In x l /\ name x = n).
Proof.
  intros Hn. split; [apply first_named_in|]. induction l as [|y l IH]; simpl in *; [tauto|].
  inversion Hn; subst. intros [[->|Hi] En]; [constructor; auto|]. apply fn_later; auto.
  intros Ey. apply H1. apply in_map_iff. exists x. split; auto; congruence.
Qed.
Lemma perm_first_named {A} (name : A -> string) n l l' x : Permutation l l' -> NoDup (map name l) ->
  first_named name n l x -> first_named name n l' x.
Proof.
  intros Hp Hn Hf. apply first_named_unique; [eapply perm_NoDup_map; eauto|].
  apply first_named_unique in Hf as [Hi En]; auto. split; auto. apply (perm_in_iff _ _ _ Hp); auto.
Qed.
Lemma perm_unnamed {A} (name : A -> string) n l l' : Permutation l l' -> unnamed name n l -> unnamed name n l'.
Proof. intros Hp Hu x Hx. apply Hu. apply (perm_in_iff _ _ _ Hp); auto. Qed.

Section Reorder.
Variables d d' : domain_ast.
Hypothesis Hr : reordered d d'.
Hypothesis Hc : NoDup (map sym_name (constants_of d)).

Lemma re_parent a b : parent (d_types d) a b -> parent (d_types d') a b.
Proof. intros (s & Hs & H1 & H2). exists s. split; auto. apply (re_types _ _ Hr); auto. Qed.
Lemma re_parent' a b : parent (d_types d') a b -> parent (d_types d) a b.
Proof. intros (s & Hs & H1 & H2). exists s. split; auto. apply (re_types _ _ Hr); auto. Qed.
Lemma re_fits f e : fits (d_types d) f e -> fits (d_types d') f e.
Proof.
  destruct f, e; simpl; auto. apply clos_rt_incl, re_parent.
Qed.
Lemma re_declared l : types_declared (d_types d) l -> types_declared (d_types d') l.
Proof.
  intros H s t Hs E. destruct (H s t Hs E) as (x & Hx & Ex). exists x. split; auto. apply (re_types _ _ Hr); auto.
Qed.
Lemma re_denotes params n t : denotes params (constants_of d) n t -> denotes params (constants_of d') n t.
Proof.
  intros [q Hq En Et|c Hu Hf Et]; [eapply den_param; eauto|]. eapply den_const; eauto.
  eapply perm_first_named; [exact (re_constants _ _ Hr)|auto|auto].
Qed.
Lemma re_args params args formals :
  args_ok (d_types d) params (constants_of d) args formals -> args_ok (d_types d') params (constants_of d') args formals.
Proof.
  unfold args_ok. induction 1 as [|v f args formals (t & H1 & H2) _ IH]; constructor; auto.
  exists t. split; [apply re_denotes|apply re_fits]; auto.
Qed.
Lemma re_pred q : In q (d_preds d) -> In q (d_preds d').
Proof. apply (perm_in_iff _ _ q (re_preds _ _ Hr)). Qed.
Lemma re_formula params g : formula_ok d params g -> formula_ok d' params g.
Proof.
  intros (H1 & H2 & H3 & H4). split; auto. split; [|split; [apply re_declared; auto|]].
  - intros q Hq. destruct (H2 q Hq) as (def & Hi & Hx). exists def. split; auto. apply re_pred; auto.
  - intros q Hq. destruct (H4 q Hq) as (def & Hi & En & Hx). exists def. split; [apply re_pred; auto|]. split; auto. apply re_args; auto.
Qed.
Lemma re_opt params o : opt_formula_ok d params o -> opt_formula_ok d' params o.
Proof. destruct o; simpl; auto. apply re_formula. Qed.
Lemma re_callable h n l : callable d h n l -> callable d' h n l.
Proof.
  intros [a Ha|h' t Ht Hu].
  - apply call_action. apply (perm_in_iff _ _ _ (re_actions _ _ Hr)); auto.
  - apply call_task; [apply (perm_in_iff _ _ _ (re_tasks _ _ Hr)); auto|].
    intros E. eapply perm_unnamed; [apply (re_actions _ _ Hr)|auto].
Qed.
Lemma re_call h params tk terms : call_ok d h params tk terms -> call_ok d' h params tk terms.
Proof. intros (fo & H1 & H2). exists fo. split; [apply re_callable|apply re_args]; auto. Qed.

Theorem reordered_ok : domain_ok d -> domain_ok d'.
Proof.
  intros (O1 & O2 & O3 & O4 & O5 & O6 & O7 & O8 & O9 & O10). unfold domain_ok.
  split; [eapply Permutation_NoDup; [apply (re_reqs _ _ Hr)|auto]|].
  split; [intros a Ha; apply (O2 a); revert Ha; apply clos_trans_incl, re_parent'|].
  split; [eapply perm_NoDup_map; [apply (re_preds _ _ Hr)|auto]|].
  split; [eapply perm_Forall; [apply (re_preds _ _ Hr)|]; revert O4; apply Forall_impl; intros q; apply re_declared|].
  split; [eapply perm_NoDup_map; [apply (re_tasks _ _ Hr)|auto]|].
  split; [eapply perm_Forall; [apply (re_tasks _ _ Hr)|]; revert O6; apply Forall_impl; intros q; apply re_declared|].
  split; [eapply perm_NoDup_map; [apply (re_actions _ _ Hr)|auto]|].
  split.
  { eapply perm_Forall; [apply (re_actions _ _ Hr)|]. revert O8. apply Forall_impl. intros a (H1 & H2 & H3).
    split; auto. split; apply re_opt; auto. }
  split; [eapply (perm_NoDup_map (fun m => sym_name (m_name m))); [apply (re_methods _ _ Hr)|auto]|].
  eapply perm_Forall; [apply (re_methods _ _ Hr)|]. revert O10. apply Forall_impl. intros m (H1 & H2 & H3 & H4 & H5).
  split; auto. split; [apply re_opt; auto|]. split; [apply re_call; auto|]. split; auto.
  revert H4. apply Forall_impl. intros s. apply re_call.
Qed.

(** Problems: the domain and the objects and facts may be reordered. *)
Variables p p' : problem_ast.
Hypothesis Hobj : Permutation (p_objects p) (p_objects p').
Hypothesis Hinit : Permutation (p_init p) (p_init p').
Hypothesis Htn : p_init_tn p = p_init_tn p'.
Hypothesis Hgoal : p_goal p = p_goal p'.

Lemma re_object n t : object_denotes d p n t -> object_denotes d' p' n t.
Proof.
  intros [o Ho En Et|c Hu Hf Et].
  - eapply od_object; eauto. apply (perm_in_iff _ _ _ Hobj); auto.
  - eapply od_const; eauto; [eapply perm_unnamed; eauto|]. eapply perm_first_named; [exact (re_constants _ _ Hr)|auto|auto].
Qed.
Lemma re_term params n t : term_denotes d p params n t -> term_denotes d' p' params n t.
Proof.
  intros [o Ho En Et|q Hu Hq Et|c Hu Hv Hf Et].
  - eapply td_object; eauto. apply (perm_in_iff _ _ _ Hobj); auto.
  - eapply td_param; eauto. eapply perm_unnamed; eauto.
  - eapply td_const; eauto; [eapply perm_unnamed; eauto|]. eapply perm_first_named; [exact (re_constants _ _ Hr)|auto|auto].
Qed.
Lemma re_fact q : fact_ok d p q -> fact_ok d' p' q.
Proof.
  intros (def & Hi & En & Hf). exists def. split; [apply re_pred; auto|]. split; auto.
  induction Hf as [|v f l l' (t & H1 & H2) _ IH]; constructor; auto. exists t. split; [apply re_object|apply re_fits]; auto.
Qed.
Theorem reordered_problem_ok : problem_ok d p -> problem_ok d' p'.
Proof.
  intros (P1 & P2 & P3 & P4 & P5). unfold problem_ok. rewrite <- Htn, <- Hgoal.
  split; [apply re_declared; intros s t Hs; apply P1; apply (perm_in_iff _ _ _ Hobj); auto|].
  split; [eapply perm_NoDup_map; eauto|].
  split; [eapply perm_Forall; eauto; revert P3; apply Forall_impl, re_fact|]. split.
  - destruct (p_init_tn p) as [t|]; auto. destruct P4 as [Ho Hf]. split; auto. revert Hf. apply Forall_impl.
    intros s (fo & H1 & H2). exists fo. split; [apply re_callable; auto|].
    clear H1. induction H2 as [|v f l l' (ty & H3 & H4) _ IH]; constructor; auto. exists ty. split; [apply re_term|apply re_fits]; auto.
  - destruct (p_goal p); auto. intros q Hq. apply re_fact, P5; auto.
Qed.
End Reorder.
