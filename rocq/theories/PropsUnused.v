(** C61: what nothing refers to can be removed.  Specification: SpecUnused.v. *)
From Coq Require Import String Ascii NArith Bool List Lia PeanoNat Relations.
From Verif Require Import Base Token Lexer Errors Ast Parser Graph Semantic Tdg Api AstLines StrFacts SpecLex SpecGrammar
  PropsLex PropsParse SpecSem SemProofs SemFacts VerifyTop PropsSem SpecUnused.
Import ListNotations.
Open Scope list_scope.
Open Scope nat_scope.

Lemma il_in {A} (k g l : list A) x : interleaved k g l -> (In x l <-> In x k \/ In x g).
Proof. induction 1; simpl; tauto. Qed.
Lemma il_NoDup {A} (name : A -> string) k g l : interleaved k g l -> NoDup (map name l) -> NoDup (map name k).
Proof.
  induction 1 as [|x k g l Hi IH|x k g l Hi IH]; simpl; intros Hn; auto; inversion Hn as [|y z H1 H2]; subst; auto.
  constructor; auto. intros Hx. apply H1. apply in_map_iff in Hx as (y & E & Hy). rewrite <- E. apply in_map. apply (il_in _ _ _ y Hi). auto.
Qed.
Lemma il_Forall {A} (P : A -> Prop) k g l : interleaved k g l -> Forall P l -> Forall P k.
Proof. intros Hi. rewrite !Forall_forall. intros Hf x Hx. apply Hf. apply (il_in _ _ _ x Hi). auto. Qed.
Lemma il_first {A} (name : A -> string) n k g l x : interleaved k g l -> (forall y, In y g -> name y <> n) ->
  (first_named name n l x <-> first_named name n k x).
Proof.
  induction 1 as [|y k g l Hi IH|y k g l Hi IH]; intros Hg; [tauto| |].
  - split; intros Hf; inversion Hf; subst; try (apply fn_here; auto; fail); apply fn_later; auto; apply IH; auto.
  - split; intros Hf.
    + inversion Hf; subst; [exfalso; apply (Hg x); simpl; auto|]. apply IH; auto. intros z Hz. apply Hg; simpl; auto.
    + apply fn_later; [apply Hg; simpl; auto|]. apply IH; auto. intros z Hz. apply Hg; simpl; auto.
Qed.

Section Prune.
Variables d d' : domain_ast.
Variables ts cs : list symbol.
Variable ps : list predicate.
Variable tks : list task.
Variable acts : list action.
Variable ms : list method.
Hypothesis Hp : pruned d d' ts cs ps tks acts ms.

(** Types. *)
Section M.
Variable M : string -> Prop.
Hypothesis HM : forall t, mentions d' t -> M t.
Hypothesis Ht : types_unused d' M ts.
Lemma pr_parent a b : parent (d_types d') a b -> parent (d_types d) a b.
Proof. intros (s & Hs & E). exists s. split; auto. apply (il_in _ _ _ s (pr_types _ _ _ _ _ _ _ _ Hp)). auto. Qed.
Lemma pr_subtype a b : subtype (d_types d') a b -> subtype (d_types d) a b.
Proof. induction 1; [apply rt_step, pr_parent; auto|apply rt_refl|eapply rt_trans; eauto]. Qed.
Lemma pr_subtype_back a b : M a -> subtype (d_types d) a b -> subtype (d_types d') a b.
Proof.
  intros Ha Hs. apply clos_rt_rt1n in Hs. induction Hs as [a|a b c (s & Hs & E1 & E2) Hbc IH]; [apply rt_refl|].
  apply (il_in _ _ _ s (pr_types _ _ _ _ _ _ _ _ Hp)) in Hs as [Hs|Hs]; [|exfalso; destruct (Ht s Hs) as [Hn _]; apply Hn; congruence].
  eapply rt_trans; [apply rt_step; exists s; eauto|]. apply IH. apply HM. eapply mt_parent; eauto.
Qed.
Lemma pr_fits a b : (forall t, a = Some t -> M t) -> (fits (d_types d) a b <-> fits (d_types d') a b).
Proof.
  intros Ha. destruct a as [a|], b as [b|]; simpl; try tauto. split; [apply pr_subtype_back; auto|apply pr_subtype].
Qed.
Lemma pr_declared l : (forall s t, In s l -> sym_type s = Some t -> M t) ->
  (types_declared (d_types d) l <-> types_declared (d_types d') l).
Proof.
  intros Hl. split; intros Hd s t Hs Et; destruct (Hd s t Hs Et) as (x & Hx & E).
  - apply (il_in _ _ _ x (pr_types _ _ _ _ _ _ _ _ Hp)) in Hx as [Hx|Hx]; [exists x; auto|].
    destruct (Ht x Hx) as [H1 H2]. destruct E as [E|E]; [exfalso; apply H1; rewrite E; eauto|eauto].
  - exists x. split; auto. apply (il_in _ _ _ x (pr_types _ _ _ _ _ _ _ _ Hp)). auto.
Qed.
End M.

Hypothesis Hu : unused d' ts cs ps tks acts.
Notation M := (mentions d').
Let HM : forall t, mentions d' t -> M t := fun t Hx => Hx.
Let Ht := un_types _ _ _ _ _ _ Hu.

Lemma pr_denotes params v t : dom_argument d' params v ->
  denotes params (constants_of d) (sym_name v) t <-> denotes params (constants_of d') (sym_name v) t.
Proof.
  intros Hv. split; (intros [q Hq E1 E2|c Hn Hf E]; [eapply den_param; eauto|]); eapply den_const; eauto;
    (apply (il_first _ _ _ _ _ _ (pr_constants _ _ _ _ _ _ _ _ Hp)); [|auto]); intros y Hy; eapply un_constants; eauto.
Qed.
Lemma first_in {A} (name : A -> string) n l x : first_named name n l x -> In x l.
Proof. induction 1; simpl; auto. Qed.
Lemma denoted_mentioned params n t : dom_scope d' params -> denotes params (constants_of d') n (Some t) -> M t.
Proof.
  intros Hs [q Hq E1 E2|c Hn Hf E]; [eapply mt_scope; eauto|]. apply first_in in Hf. eapply mt_constant; eauto.
Qed.
Lemma pr_args params args formals : dom_scope d' params -> (forall v, In v args -> dom_argument d' params v) ->
  args_ok (d_types d) params (constants_of d) args formals -> args_ok (d_types d') params (constants_of d') args formals.
Proof.
  intros Hs Hv Ha. induction Ha as [|v f l l' (t & H1 & H2) Ha IH]; constructor; [|apply IH; intros; apply Hv; simpl; auto].
  assert (dom_argument d' params v) as Hv' by (apply Hv; simpl; auto). exists t. apply (pr_denotes _ _ _ Hv') in H1. split; auto.
  apply (pr_fits M HM Ht); auto. intros x ->. eapply denoted_mentioned; eauto.
Qed.
Lemma formula_scope params g : dom_formula d' params g -> dom_scope d' params.
Proof. intros [a f Ha E|a f Ha E|m f Hm E]; [apply ds_action|apply ds_action|apply ds_method]; auto. Qed.
Lemma call_scope h params task terms : dom_call d' h params task terms -> dom_scope d' params.
Proof. intros [m Hm|m s Hm Hs]; apply ds_method; auto. Qed.
Lemma pr_formula params g : dom_formula d' params g -> formula_ok d params g -> formula_ok d' params g.
Proof.
  intros Hg (H1 & H2 & H3 & H4). split; auto. split; [|split].
  - intros p Hi. destruct (H2 p Hi) as (def & Hd & E1 & E2). exists def. split; auto.
    apply (il_in _ _ _ def (pr_preds _ _ _ _ _ _ _ _ Hp)) in Hd as [Hd|Hd]; auto. exfalso. eapply un_preds; eauto.
  - apply (pr_declared M Ht); auto. intros s t Hs Et. eapply mt_typed; eauto. eapply dt_formula; eauto.
  - intros p Hi. destruct (H4 p Hi) as (def & Hd & E1 & E2). exists def.
    assert (within (FAtom p) g) as Hw by (clear - Hi; induction Hi as [x y Hc| |]; [apply rt_step; destruct Hc; auto|apply rt_refl|eapply rt_trans; eauto]).
    split; [|split; auto].
    + apply (il_in _ _ _ def (pr_preds _ _ _ _ _ _ _ _ Hp)) in Hd as [Hd|Hd]; auto. exfalso. eapply un_preds; eauto.
    + apply pr_args; auto; [eapply formula_scope; eauto|]. intros v Hv. eapply da_atom; eauto.
Qed.
Lemma pr_opt params o : (forall g, o = Some g -> dom_formula d' params g) -> opt_formula_ok d params o -> opt_formula_ok d' params o.
Proof. destruct o; simpl; auto. intros Hg. apply pr_formula; auto. Qed.
Lemma pr_callable h n formals : (forall t, In t tks -> task_name t <> n) -> (h = false -> forall a, In a acts -> act_name a <> n) ->
  (callable d h n formals <-> callable d' h n formals).
Proof.
  intros Hn Ha. split.
  - intros Hc; inversion Hc as [a Hi|h' t Hi Hx]; subst.
    + apply call_action. apply (il_in _ _ _ a (pr_actions _ _ _ _ _ _ _ _ Hp)) in Hi as [Hi|Hi]; auto. destruct (Ha eq_refl a Hi eq_refl).
    + apply call_task.
      * apply (il_in _ _ _ t (pr_tasks _ _ _ _ _ _ _ _ Hp)) in Hi as [Hi|Hi]; auto. destruct (Hn t Hi eq_refl).
      * intros E a Hi'. apply Hx; auto. apply (il_in _ _ _ a (pr_actions _ _ _ _ _ _ _ _ Hp)). auto.
  - intros Hc; inversion Hc as [a Hi|h' t Hi Hx]; subst.
    + apply call_action. apply (il_in _ _ _ a (pr_actions _ _ _ _ _ _ _ _ Hp)). auto.
    + apply call_task; [apply (il_in _ _ _ t (pr_tasks _ _ _ _ _ _ _ _ Hp)); auto|]. intros E a Hi'.
      apply (il_in _ _ _ a (pr_actions _ _ _ _ _ _ _ _ Hp)) in Hi' as [Hi'|Hi']; [apply Hx; auto|]. apply Ha; auto.
Qed.
Lemma pr_call h params task terms : dom_call d' h params task terms -> call_ok d h params task terms -> call_ok d' h params task terms.
Proof.
  intros Hc (fo & H1 & H2). exists fo. split.
  - apply pr_callable; auto; [intros t Hi; eapply un_tasks; eauto|]. intros -> a Hi. eapply un_actions; eauto.
  - apply pr_args; auto; [eapply call_scope; eauto|]. intros v Hv. eapply da_call; eauto.
Qed.
Lemma pr_domain : domain_ok d -> domain_ok d'.
Proof.
  intros (O1 & O2 & O3 & O4 & O5 & O6 & O7 & O8 & O9 & O10).
  split; [rewrite (pr_reqs _ _ _ _ _ _ _ _ Hp); auto|]. split.
  { assert (forall x y, clos_trans string (parent (d_types d')) x y -> clos_trans string (parent (d_types d)) x y) as Hc.
    { induction 1; [apply t_step, pr_parent; auto|eapply t_trans; eauto]. }
    intros a Ha. apply (O2 a). auto. }
  split; [eapply il_NoDup; [apply (pr_preds _ _ _ _ _ _ _ _ Hp)|auto]|]. split.
  { apply (il_Forall _ _ _ _ (pr_preds _ _ _ _ _ _ _ _ Hp)) in O4. rewrite Forall_forall in *. intros x Hx. specialize (O4 x Hx).
    apply (pr_declared M Ht); auto. intros s t Hs Et. eapply mt_typed; eauto. apply dt_pred; auto. }
  split; [eapply il_NoDup; [apply (pr_tasks _ _ _ _ _ _ _ _ Hp)|auto]|]. split.
  { apply (il_Forall _ _ _ _ (pr_tasks _ _ _ _ _ _ _ _ Hp)) in O6. rewrite Forall_forall in *. intros x Hx. specialize (O6 x Hx).
    apply (pr_declared M Ht); auto. intros s t Hs Et. eapply mt_typed; eauto. apply dt_task; auto. }
  split; [eapply il_NoDup; [apply (pr_actions _ _ _ _ _ _ _ _ Hp)|auto]|]. split.
  { apply (il_Forall _ _ _ _ (pr_actions _ _ _ _ _ _ _ _ Hp)) in O8. rewrite Forall_forall in *. intros x Hx. destruct (O8 x Hx) as (H1 & H2 & H3).
    split; auto. split; apply pr_opt; auto; intros g E; [apply df_pre|apply df_eff]; auto. }
  split; [eapply (il_NoDup (fun m => sym_name (m_name m))); [apply (pr_methods _ _ _ _ _ _ _ _ Hp)|auto]|].
  apply (il_Forall _ _ _ _ (pr_methods _ _ _ _ _ _ _ _ Hp)) in O10. rewrite Forall_forall in *. intros m Hm. destruct (O10 m Hm) as (H1 & H2 & H3 & H4 & H5).
  split; auto. split; [apply pr_opt; auto; intros g E; apply df_method; auto|]. split; [apply pr_call; auto; apply dc_head; auto|]. split; auto.
  rewrite Forall_forall in *. intros s Hs. apply pr_call; auto. apply dc_sub; auto.
Qed.

Section Problem.
Variable p : problem_ast.
Hypothesis Hq : prob_unused d' p ts cs ps tks acts.
Notation M' := (fun t => mentions d' t \/ prob_mentions p t).
Let HM' : forall t, mentions d' t -> M' t := fun t Hx => or_introl Hx.
Let Ht' := pu_types _ _ _ _ _ _ _ Hq.
Lemma pr_object n t : (forall c, In c cs -> sym_name c <> n) -> (object_denotes d p n t <-> object_denotes d' p n t).
Proof.
  intros Hn. split; (intros [o Ho E1 E2|c Hx Hf E]; [eapply od_object; eauto|]); eapply od_const; eauto;
    apply (il_first _ _ _ _ _ _ (pr_constants _ _ _ _ _ _ _ _ Hp)); auto.
Qed.
Lemma pr_term params n t : (forall c, In c cs -> sym_name c <> n) -> (term_denotes d p params n t <-> term_denotes d' p params n t).
Proof.
  intros Hn. split; (intros [o Ho E1 E2|q Hx Hf E|c Hx Hy Hf E]; [eapply td_object; eauto|eapply td_param; eauto|]); eapply td_const; eauto;
    apply (il_first _ _ _ _ _ _ (pr_constants _ _ _ _ _ _ _ _ Hp)); auto.
Qed.
Lemma object_mentioned n t : object_denotes d' p n (Some t) -> M' t.
Proof.
  intros [o Ho E1 E2|c Hx Hf E]; [right; eapply pm_object; eauto|]. left. apply first_in in Hf. eapply mt_constant; eauto.
Qed.
Lemma term_mentioned i n t : p_init_tn p = Some i -> term_denotes d' p (tn_params i) n (Some t) -> M' t.
Proof.
  intros Ei [o Ho E1 E2|q Hx Hf E|c Hx Hy Hf E]; [right; eapply pm_object; eauto| |]; apply first_in in Hf;
    [right; eapply pm_param; eauto|left; eapply mt_constant; eauto].
Qed.
Lemma Forall2_iff {A B} (P Q : A -> B -> Prop) l l' : (forall x y, In x l -> (P x y <-> Q x y)) -> (Forall2 P l l' <-> Forall2 Q l l').
Proof.
  intros Hx. split; intros Hf; induction Hf; constructor; try (apply Hx; simpl; auto; fail); apply IHHf; intros; apply Hx; simpl; auto.
Qed.
Lemma pr_fact q : prob_atom p q -> (fact_ok d p q <-> fact_ok d' p q).
Proof.
  intros Ha.
  assert (forall def, Forall2 (fun v f => exists t, object_denotes d p (sym_name v) t /\ fits (d_types d) t (sym_type f)) (pred_vars q) (pred_vars def)
    <-> Forall2 (fun v f => exists t, object_denotes d' p (sym_name v) t /\ fits (d_types d') t (sym_type f)) (pred_vars q) (pred_vars def)) as Hf.
  { intros def. apply Forall2_iff. intros v f Hv.
    assert (forall c, In c cs -> sym_name c <> sym_name v) as Hn by (intros c Hc; eapply pu_facts; eauto).
    split; intros (t & H1 & H2); exists t; [assert (H1' := proj1 (pr_object _ _ Hn) H1)|assert (H1' := proj2 (pr_object _ _ Hn) H1)];
      (split; [exact H1'|]); eapply (pr_fits M' HM' Ht'); eauto; intros x ->; eapply object_mentioned; eauto. }
  split; intros (def & Hd & E & Hx); exists def.
  - apply (il_in _ _ _ def (pr_preds _ _ _ _ _ _ _ _ Hp)) in Hd as [Hd|Hd]; [|exfalso; eapply pu_preds; eauto].
    split; auto. split; auto. apply Hf; auto.
  - split; [apply (il_in _ _ _ def (pr_preds _ _ _ _ _ _ _ _ Hp)); auto|]. split; auto. apply Hf; auto.
Qed.
Lemma pr_init_task i s : p_init_tn p = Some i -> In s (htn_subtasks (itn_tn i)) -> (init_task_ok d p i s <-> init_task_ok d' p i s).
Proof.
  intros Ei Hs. assert (prob_call p i (sub_task s) (sub_terms s)) as Hc by (apply pc; auto).
  assert (forall fo, callable d false (sym_name (sub_task s)) fo <-> callable d' false (sym_name (sub_task s)) fo) as Hcal.
  { intros fo. apply pr_callable; [intros t Hi; eapply pu_tasks; eauto|]. intros _ a Hi. eapply pu_actions; eauto. }
  assert (forall fo, Forall2 (fun v f => exists ty, term_denotes d p (tn_params i) (sym_name v) ty /\ fits (d_types d) ty (sym_type f)) (sub_terms s) fo
    <-> Forall2 (fun v f => exists ty, term_denotes d' p (tn_params i) (sym_name v) ty /\ fits (d_types d') ty (sym_type f)) (sub_terms s) fo) as Hf.
  { intros fo. apply Forall2_iff. intros v f Hv.
    assert (forall c, In c cs -> sym_name c <> sym_name v) as Hn by (intros c Hi; eapply pu_terms; eauto).
    split; intros (t & H1 & H2); exists t; [assert (H1' := proj1 (pr_term _ _ _ Hn) H1)|assert (H1' := proj2 (pr_term _ _ _ Hn) H1)];
      (split; [exact H1'|]); eapply (pr_fits M' HM' Ht'); eauto; intros x ->; eapply term_mentioned; eauto. }
  unfold init_task_ok. split; intros (fo & H1 & H2); exists fo; (split; [apply Hcal; auto|apply Hf; auto]).
Qed.
Lemma pr_problem : problem_ok d p <-> problem_ok d' p.
Proof.
  unfold problem_ok.
  assert (types_declared (d_types d) (p_objects p) <-> types_declared (d_types d') (p_objects p)) as H1.
  { apply (pr_declared M' Ht'). intros s t Hs Et. right. eapply pm_object; eauto. }
  assert (Forall (fact_ok d p) (p_init p) <-> Forall (fact_ok d' p) (p_init p)) as H2.
  { rewrite !Forall_forall. split; intros Hx q Hi; (apply pr_fact; [apply pa_init; auto|auto]). }
  assert (match p_goal p with None => True | Some g => forall q, within_open (FAtom q) g -> fact_ok d p q end <->
          match p_goal p with None => True | Some g => forall q, within_open (FAtom q) g -> fact_ok d' p q end) as H3.
  { destruct (p_goal p) as [g|] eqn:Eg; [|tauto]. split; intros Hx q Hi; (apply pr_fact; [eapply pa_goal; eauto|auto]). }
  assert (match p_init_tn p with None => True | Some t => order_acyclic (htn_orderings (itn_tn t)) /\ Forall (init_task_ok d p t) (htn_subtasks (itn_tn t)) end <->
          match p_init_tn p with None => True | Some t => order_acyclic (htn_orderings (itn_tn t)) /\ Forall (init_task_ok d' p t) (htn_subtasks (itn_tn t)) end) as H4.
  { destruct (p_init_tn p) as [i|] eqn:Ei; [|tauto]. rewrite !Forall_forall.
    split; intros [Ho Hx]; (split; [auto|]); intros s Hs; (apply pr_init_task; auto). }
  tauto.
Qed.
End Problem.
End Prune.

Section Props.
Context `{Unicode}.
Variable he : hash_env.
Hypothesis Hhe : hash_env_ok he.
Notation accepts dom prob := (exists ws, settles (fun k => verify he k dom prob) (Ok ws)).

(** Declarations that nothing kept refers to can be removed, several at once and
    wherever they are written. *)
Theorem C61_domain : forall n dom dom' d d' ts cs ps tks acts ms,
  parse n dom = Ok (ADomain d) -> parse n dom' = Ok (ADomain d') ->
  pruned d d' ts cs ps tks acts ms -> unused d' ts cs ps tks acts ->
  accepts dom None -> accepts dom' None.
Proof.
  intros n dom dom' d d' ts cs ps tks acts ms E1 E2 Hp Hu Ha. apply (domain_verdict he Hhe n dom' d' E2).
  apply (domain_verdict he Hhe n dom d E1) in Ha. eapply pr_domain; eauto.
Qed.
(** A problem that does not refer to them either is accepted with the one domain
    exactly if it is with the other. *)
Theorem C61_problem : forall n dom dom' d d' ts cs ps tks acts ms s p,
  parse n dom = Ok (ADomain d) -> parse n dom' = Ok (ADomain d') -> parse n s = Ok (AProblem p) ->
  pruned d d' ts cs ps tks acts ms -> unused d' ts cs ps tks acts -> prob_unused d' p ts cs ps tks acts ->
  accepts dom None -> (accepts dom (Some s) <-> accepts dom' (Some s)).
Proof.
  intros n dom dom' d d' ts cs ps tks acts ms s p E1 E2 E3 Hp Hu Hq Ha.
  assert (accepts dom' None) as Ha' by exact (C61_domain n dom dom' d d' ts cs ps tks acts ms E1 E2 Hp Hu Ha).
  apply (domain_verdict he Hhe n dom d E1) in Ha. apply (domain_verdict he Hhe n dom' d' E2) in Ha'.
  rewrite (C22_problem_decided he Hhe n dom d s p E1 Ha E3), (C22_problem_decided he Hhe n dom' d' s p E2 Ha' E3).
  eapply pr_problem; eauto.
Qed.
End Props.

(** ** Concrete cases *)
Open Scope string_scope.
Open Scope list_scope.
Definition lean : string := dom_with (meth "?x - a" "(t ?x)" ":ordered-subtasks (and (t ?x))").
Definition cluttered : string :=
  dom_with ("(:types e - a) (:constants k - e) (:predicates (r ?z - e))"
            ++ "(:task u :parameters (?z - e)) (:action g :parameters (?z - e) :precondition (and (p ?z) (r ?z)))"
            ++ "(:method n :parameters (?z - e) :task (u ?z) :ordered-subtasks (and (t ?z) (g k)))"
            ++ meth "?x - a" "(t ?x)" ":ordered-subtasks (and (t ?x))").
Definition lean_prob : string := prob_with "(:objects o - a) (:htn :ordered-subtasks (and (t o))) (:init (p o))".
Ltac scopes := repeat match goal with
  | Hx : dom_typed _ _ |- _ => inversion Hx; clear Hx; subst
  | Hx : dom_scope _ _ |- _ => inversion Hx; clear Hx; subst
  | Hx : dom_formula _ _ _ |- _ => inversion Hx; clear Hx; subst
  | Hx : dom_call _ _ _ _ _ |- _ => inversion Hx; clear Hx; subst
  | Hx : prob_call _ _ _ _ |- _ => inversion Hx; clear Hx; subst
  | Hx : Some _ = Some _ |- _ => injection Hx as <-
  | Hx : _ \/ _ |- _ => destruct Hx
  | Hx : False |- _ => destruct Hx
  | Hx : In _ _ |- _ => progress simpl in Hx
  | Hx : _ = Some _ |- _ => first [discriminate Hx|progress simpl in Hx]
  | Hx : _ = ?x |- _ => is_var x; subst x
  end.
Lemma within_leaf f p : (forall g, ~ child g f) -> within (FAtom p) f -> FAtom p = f.
Proof. intros Hn Hw. apply clos_rt_rtn1 in Hw. inversion Hw as [|y z Hc]; subst; auto. exfalso. eapply Hn; eauto. Qed.
Lemma open_leaf f p : (forall g, ~ child g f) -> within_open (FAtom p) f -> FAtom p = f.
Proof. intros Hn Hw. apply clos_rt_rtn1 in Hw. inversion Hw as [|y z Hc]; subst; auto. exfalso. destruct Hc. eapply Hn; eauto. Qed.
Example C61_example : is_ok (run cluttered None) = true /\ exists d d' p ts cs ps tks acts ms,
  @parse uni0 300 cluttered = Ok (ADomain d) /\ @parse uni0 300 lean = Ok (ADomain d')
  /\ @parse uni0 300 lean_prob = Ok (AProblem p)
  /\ pruned d d' ts cs ps tks acts ms /\ unused d' ts cs ps tks acts /\ prob_unused d' p ts cs ps tks acts
  /\ length ts = 1 /\ length cs = 1 /\ length ps = 1 /\ length tks = 1 /\ length acts = 1 /\ length ms = 1.
Proof.
  split; [vm_compute; reflexivity|]. do 3 eexists. do 6 (eexists [_]).
  split; [vm_compute; reflexivity|]. split; [vm_compute; reflexivity|]. split; [vm_compute; reflexivity|].
  split; [apply mkPruned; cbn; repeat (first [apply il_nil|apply il_kept|apply il_gone]); reflexivity|].
  split; [|split; [|repeat split]].
  - apply mkUnused.
    + intros s [<-|[]]. cbn. split.
      * intros Hm. inversion Hm; scopes.
      * intros b E _. injection E as <-. eexists. split; [left; reflexivity|]. auto.
    + intros c params v [<-|[]] Hv. cbn. inversion Hv; scopes; try discriminate.
      apply open_leaf in H0; [|intros g Hc; inversion Hc]. injection H0 as ->. scopes.
    + intros q params g a [<-|[]] Hf Hw. scopes. apply within_leaf in Hw; [|intros g Hc; inversion Hc]. injection Hw as ->. discriminate.
    + intros t h params task terms [<-|[]] Hc. scopes; discriminate.
    + intros t params task terms [<-|[]] Hc. scopes; discriminate.
  - apply mkProbUnused.
    + intros s [<-|[]]. cbn. split.
      * intros [Hm|Hm]; inversion Hm; scopes.
      * intros b E _. injection E as <-. eexists. split; [left; reflexivity|]. auto.
    + intros c q v [<-|[]] Ha Hv. inversion Ha; scopes. discriminate.
    + intros c t task terms v [<-|[]] Ha Hv. scopes. discriminate.
    + intros x q [<-|[]] Ha. inversion Ha; scopes. discriminate.
    + intros x t task terms [<-|[]] Ha. scopes. discriminate.
    + intros x t task terms [<-|[]] Ha. scopes. discriminate.
Qed.
(** A declaration whose name is mentioned nowhere may still be what declares its
    parent. *)
Definition parented : string := "(define (domain d) (:types b - c) (:predicates (p ?x - c)))" ++ nl.
Definition orphaned : string := "(define (domain d) (:predicates (p ?x - c)))" ++ nl.
Theorem C61_parent_refuted : exists d d' s, run parented None = Ok []
  /\ @parse uni0 300 parented = Ok (ADomain d) /\ @parse uni0 300 orphaned = Ok (ADomain d')
  /\ pruned d d' [s] [] [] [] [] [] /\ ~ mentions d' (sym_name s)
  /\ run orphaned None = Err (ESem (UndefinedType (mkUndef "c" 1))).
Proof.
  do 3 eexists. split; [vm_compute; reflexivity|]. split; [vm_compute; reflexivity|]. split; [vm_compute; reflexivity|].
  split; [apply mkPruned; cbn; repeat (first [apply il_nil|apply il_kept|apply il_gone]); reflexivity|].
  split; [|vm_compute; reflexivity]. cbn. intros Hm. inversion Hm; scopes.
Qed.
Definition unused_theorems := (@C61_domain, @C61_problem, @C61_parent_refuted).
