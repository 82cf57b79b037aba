(** The whole domain check. *)
From Coq Require Import String NArith Bool List Relations Lia PeanoNat.
From Verif Require Import Base Token Lexer Errors Ast Graph Semantic GraphProofs FormulaInd SpecSem SemProofs SemFormula SpecPrint.
Import ListNotations.
Open Scope list_scope.
Open Scope outcome_scope.

Lemma constants_eq d : declared_constants d = constants_of d.
Proof. reflexivity. Qed.

(** ** Orderings *)
Lemma ordering_ok tn : verify_ordering tn = Ok tt <-> order_acyclic (htn_orderings tn).
Proof.
  unfold verify_ordering, is_acyclic, order_acyclic. destruct (htn_orderings tn) as [|l]; [tauto|].
  destruct (acyclicb l) eqn:E.
  - apply acyclicb_spec in E. split; auto.
  - apply acyclicb_false in E as (a & Ha). split.
    + destruct (htn_ordering_pos tn); discriminate.
    + intros Hn. exfalso. exact (Hn a Ha).
Qed.
Lemma ordering_err tn e : verify_ordering tn = Err e ->
  exists l p a, htn_orderings tn = Partial l /\ clos_trans string (before l) a a
    /\ htn_ordering_pos tn = Some p /\ e = ESem (CyclicOrdering p).
Proof.
  unfold verify_ordering, is_acyclic. destruct (htn_orderings tn) as [|l]; [discriminate|].
  destruct (acyclicb l) eqn:E; [discriminate|]. apply acyclicb_false in E as (a & Ha).
  destruct (htn_ordering_pos tn) as [p|] eqn:Ep; [|discriminate]. intros Ee. apply sem_inj in Ee as ->.
  exists l, p, a. auto.
Qed.
Lemma ordering_panic tn p : verify_ordering tn = Panic p -> ~ wf_htn tn.
Proof.
  unfold verify_ordering, is_acyclic, wf_htn. destruct (htn_orderings tn) as [|l]; [discriminate|].
  destruct (acyclicb l) eqn:E; [discriminate|].
  destruct (htn_ordering_pos tn) as [q|] eqn:Ep; [discriminate|]. intros _ [_ Hw].
  rewrite Hw in E by auto. discriminate.
Qed.
Lemma ordering_fuel tn : verify_ordering tn <> OutOfFuel.
Proof.
  unfold verify_ordering. destruct (is_acyclic _); [discriminate|]. destruct (htn_ordering_pos tn); discriminate.
Qed.

(** ** Method heads and subtasks *)
Section Calls.
Variable d : domain_ast.
Hypothesis Ht : NoDup (map task_name (d_tasks d)).
Hypothesis Ha : NoDup (map act_name (d_actions d)).

Definition visible_actions (head : bool) : list action := if head then [] else d_actions d.
Definition formals_of (head : bool) (n : string) : option (list symbol) :=
  match find_action n (visible_actions head) with
  | Some a => Some (act_params a)
  | None => option_map task_params (find_task n (d_tasks d))
  end.

Lemma formals_some head n l : formals_of head n = Some l <-> callable d head n l.
Proof.
  unfold formals_of, find_action, find_task.
  assert (Hv : NoDup (map act_name (visible_actions head))) by (destruct head; simpl; auto; constructor).
  destruct (find _ (visible_actions head)) as [a|] eqn:E.
  - apply (find_unique act_name) in E as [Hi En]; auto. destruct head; [destruct Hi|]. simpl in Hi. split.
    + intros E. injection E as <-. rewrite <- En. constructor; auto.
    + intros Hc. inversion Hc as [b Hb|h t Hti Hu]; subst.
      * f_equal. f_equal. eapply (unique_named act_name); eauto.
      * exfalso. apply (Hu eq_refl a Hi). congruence.
  - apply find_none in E. destruct (find _ (d_tasks d)) as [t|] eqn:Et; simpl.
    + apply (find_unique task_name) in Et as [Hi En]; auto. split.
      * intros Ee. injection Ee as <-. rewrite <- En. constructor; auto.
        intros ->. rewrite En. exact E.
      * intros Hc. inversion Hc as [b Hb|h t' Hti Hu]; subst.
        -- exfalso. eapply E; simpl; eauto.
        -- f_equal. f_equal. eapply (unique_named task_name); eauto.
    + apply find_none in Et. split; [discriminate|]. intros Hc. inversion Hc as [b Hb|h t' Hti Hu]; subst.
      * exfalso. eapply E; simpl; eauto.
      * exfalso. eapply Et; eauto.
Qed.
Lemma formals_none head n : formals_of head n = None <-> forall l, ~ callable d head n l.
Proof.
  split.
  - intros E l Hc. apply formals_some in Hc. congruence.
  - intros Hn. destruct (formals_of head n) as [l|] eqn:E; auto. apply formals_some in E. exfalso. eapply Hn; eauto.
Qed.

Variable params : list symbol.
Hypothesis Hp : NoDup (map sym_name params).
Notation types := (d_types d).
Notation consts := (constants_of d).

Lemma consistent_unfold head tsk terms :
  is_task_consistent types tsk terms params consts (d_tasks d) (visible_actions head) =
  (found <-- arg_types params consts terms ;;
   match formals_of head (sym_name tsk) with
   | Some formals =>
     if Nat.eqb (length terms) (length formals)
     then check_arg_types types InconsistentTaskArgType found (map sym_type formals)
     else sem (InconsistentTaskArity (mkArity (sym_name tsk) (length formals) (length terms) (sym_pos tsk)))
   | None => sem (UndefinedSubtask (mkUndef (sym_name tsk) (sym_pos tsk)))
   end).
Proof.
  unfold is_task_consistent, formals_of.
  destruct (arg_types params consts terms) as [l| | |] eqn:E; simpl; auto.
  apply arg_types_ok in E; auto. apply Forall2_len in E.
  destruct (find_action (sym_name tsk) (visible_actions head)) as [a|].
  - rewrite map_length. destruct (Nat.eqb _ _); reflexivity.
  - destruct (find_task (sym_name tsk) (d_tasks d)) as [t|]; simpl; auto.
    rewrite map_length, <- E. destruct (Nat.eqb _ _); reflexivity.
Qed.

Lemma call_ok_iff head tsk terms :
  is_task_consistent types tsk terms params consts (d_tasks d) (visible_actions head) = Ok tt
  <-> call_ok d head params tsk terms.
Proof.
  rewrite consistent_unfold. unfold call_ok. split.
  - intros E. destruct (arg_types params consts terms) as [l| | |] eqn:El; simpl in E; try discriminate.
    destruct (formals_of head (sym_name tsk)) as [f|] eqn:Ef; [|discriminate].
    destruct (Nat.eqb _ _) eqn:Eq; [|discriminate]. apply Nat.eqb_eq in Eq.
    exists f. split; [apply formals_some; auto|]. eapply args_check_ok; eauto.
  - intros (f & Hc & Hok). destruct (args_ok_types _ _ Hp _ _ _ Hok) as (l & El & Hl).
    apply formals_some in Hc. rewrite El. simpl. rewrite Hc, Hl, Nat.eqb_refl.
    eapply args_check_ok; eauto.
Qed.

Lemma call_err head tsk terms e :
  is_task_consistent types tsk terms params consts (d_tasks d) (visible_actions head) = Err e ->
  (exists v, In v terms /\ e = ESem (UndefinedParameter (mkUndef (sym_name v) (sym_pos v)))
      /\ unnamed sym_name (sym_name v) params /\ unnamed sym_name (sym_name v) consts)
  \/ ((forall l, ~ callable d head (sym_name tsk) l)
      /\ e = ESem (UndefinedSubtask (mkUndef (sym_name tsk) (sym_pos tsk))))
  \/ (exists f, callable d head (sym_name tsk) f /\ length f <> length terms
      /\ e = ESem (InconsistentTaskArity (mkArity (sym_name tsk) (length f) (length terms) (sym_pos tsk))))
  \/ (exists fs i v f t, callable d head (sym_name tsk) fs
      /\ nth_error terms i = Some v /\ nth_error fs i = Some f
      /\ denotes params consts (sym_name v) t /\ ~ fits types t (sym_type f)
      /\ e = ESem (InconsistentTaskArgType (mkTypeErr (sym_type f) t (sym_name v) (sym_pos v)))).
Proof.
  rewrite consistent_unfold.
  destruct (arg_types params consts terms) as [l|e'| |] eqn:El; simpl; try discriminate.
  - destruct (formals_of head (sym_name tsk)) as [f|] eqn:Ef.
    + destruct (Nat.eqb _ _) eqn:Eq.
      * intros E. right; right; right. apply (args_check_err params consts Hp _ _ terms) in E as (i & v & g & t & ?); auto.
        exists f, i, v, g, t. split; [apply formals_some; auto|]. tauto.
      * apply Nat.eqb_neq in Eq. intros E. apply sem_inj in E as ->. right; right; left. exists f.
        split; [apply formals_some; auto|]. auto.
    + intros E. apply sem_inj in E as ->. right; left. split; auto. apply formals_none; auto.
  - intros E. injection E as <-. left. apply arg_types_err in El as (v & ?). exists v. tauto.
Qed.

Lemma call_calm head tsk terms :
  (forall p, is_task_consistent types tsk terms params consts (d_tasks d) (visible_actions head) <> Panic p)
  /\ is_task_consistent types tsk terms params consts (d_tasks d) (visible_actions head) <> OutOfFuel.
Proof.
  rewrite consistent_unfold. destruct (arg_types_calm params consts terms) as [H1 H2].
  destruct (arg_types params consts terms) as [l|e'| |]; simpl; try (split; congruence).
  destruct (formals_of _ _); [|split; discriminate].
  destruct (Nat.eqb _ _); [|split; discriminate]. apply check_arg_types_calm.
Qed.
End Calls.

Section Domain.
Variable d : domain_ast.

(** ** Parameters *)
Lemma params_ok l : check_params_fresh l = Ok tt <-> NoDup (map sym_name l).
Proof.
  unfold check_params_fresh. rewrite (each_fresh_ok DuplicateParameter sym_name sym_pos (fun _ => Ok tt)) by constructor.
  simpl. split; [tauto|]. intros Hn. split; auto. apply Forall_forall. auto.
Qed.
Lemma params_err l e : check_params_fresh l = Err e ->
  exists de, e = ESem (DuplicateParameter de) /\ repeated sym_name sym_pos l de.
Proof.
  unfold check_params_fresh. intros E.
  apply (each_fresh_err DuplicateParameter sym_name sym_pos (fun _ => Ok tt)) in E as [?|(x & _ & E & _)]; auto; try discriminate. constructor.
Qed.
Lemma params_panic l p : check_params_fresh l <> Panic p.
Proof.
  unfold check_params_fresh. intros E.
  apply (each_fresh_panic DuplicateParameter sym_name sym_pos (fun _ => Ok tt)) in E as (x & _ & E); [discriminate|constructor].
Qed.
Lemma params_fuel l : check_params_fresh l <> OutOfFuel.
Proof.
  unfold check_params_fresh. intros E.
  apply (each_fresh_fuel DuplicateParameter sym_name sym_pos (fun _ => Ok tt)) in E as (x & _ & E); [discriminate|constructor].
Qed.

Hypothesis Hn : NoDup (map pred_name (d_preds d)).

(** ** Actions *)
Lemma action_ok_iff a : verify_action d a = Ok tt <-> action_ok d a.
Proof.
  unfold verify_action, action_ok. rewrite !seq_ok, params_ok. split.
  - intros (H1 & H2 & H3). rewrite !verify_formula_ok in * by auto. auto.
  - intros (H1 & H2 & H3). rewrite !verify_formula_ok by auto. auto.
Qed.

Lemma formula_violation params o e :
  NoDup (map sym_name params) -> (forall g, o = Some g -> dom_formula d params g) -> dom_scope d params ->
  verify_formula d params o = Err e -> exists s, e = ESem s /\ domain_violation d s.
Proof.
  intros Hp Hd Hs E. apply verify_formula_err in E as (g & -> & Hc); auto. specialize (Hd g eq_refl).
  destruct Hc as [(p & Hw & [(Hu & ->)|(def & Hi & En & Hl & ->)])|[(s & t & p & -> & Hi & E1 & E2 & Hu)
    |[(p & v & Hw & Hi & -> & H1 & H2)|(p & def & i & v & f & t & Hw & Hi & En & E1 & E2 & Ed & Hf & ->)]]];
    eexists; (split; [reflexivity|]).
  - eapply dv_undef_predicate; eauto.
  - eapply dv_predicate_arity; eauto.
  - eapply dv_type; eauto. eapply dt_formula; eauto.
  - apply (dv_undef_parameter d params); auto. eapply da_atom; eauto.
  - eapply dv_predicate_type; eauto.
Qed.

Lemma action_err a e : In a (d_actions d) -> verify_action d a = Err e ->
  exists s, e = ESem s /\ domain_violation d s.
Proof.
  intros Hi E. assert (dom_scope d (act_params a)) as Hs by (constructor; auto).
  apply seq_err in E as [E|[E0 E]].
  - apply params_err in E as (de & -> & Hr). eexists. split; [reflexivity|]. eapply dv_parameter; eauto.
  - apply params_ok in E0. apply seq_err in E as [E|[_ E]].
    + eapply formula_violation; eauto. intros g Eg. apply df_pre; auto.
    + eapply formula_violation; eauto. intros g Eg. apply df_eff; auto.
Qed.

(** ** Methods *)
Hypothesis Ht : NoDup (map task_name (d_tasks d)).
Hypothesis Ha : NoDup (map act_name (d_actions d)).

Lemma find_task_callable n : find_task n (d_tasks d) = None <-> forall l, ~ callable d true n l.
Proof.
  rewrite <- formals_none by auto. unfold formals_of. simpl. destruct (find_task n (d_tasks d)); simpl; split; congruence.
Qed.
Lemma find_task_formals n t : find_task n (d_tasks d) = Some t -> callable d true n (task_params t).
Proof. intros E. apply formals_some; auto. unfold formals_of. simpl. rewrite E. auto. Qed.

Lemma head_ok m params : NoDup (map sym_name params) ->
  call_ok d true params (m_task m) (m_task_terms m) -> verify_method_task d m = Ok tt.
Proof.
  intros Hp (f & Hc & Hok). unfold verify_method_task. apply (formals_some d Ht Ha) in Hc. unfold formals_of in Hc. simpl in Hc.
  destruct (find_task _ _) as [t|]; [|discriminate]. injection Hc as <-.
  apply Forall2_len in Hok. rewrite Hok, Nat.eqb_refl. auto.
Qed.

Lemma method_ok_iff m : verify_method d m = Ok tt <-> method_ok d m.
Proof.
  unfold verify_method, method_ok. rewrite !seq_ok, params_ok, for_each_ok, ordering_ok, constants_eq.
  split.
  - intros (H1 & H2 & H3 & H4 & H5 & H6). rewrite verify_formula_ok in * by auto. split; auto. split; auto.
    split; [apply (call_ok_iff d Ht Ha (m_params m) H1 true); auto|]. split; auto.
    revert H5. apply Forall_impl. intros s E. apply (call_ok_iff d Ht Ha (m_params m) H1 false); auto.
  - intros (H1 & H2 & H3 & H4 & H5). rewrite verify_formula_ok by auto. split; auto. split; auto.
    split; [eapply head_ok; eauto|]. split; [apply (call_ok_iff d Ht Ha (m_params m) H1 true); auto|]. split; auto.
    revert H4. apply Forall_impl. intros s E. apply (call_ok_iff d Ht Ha (m_params m) H1 false); auto.
Qed.

Lemma method_err m e : In m (d_methods d) -> verify_method d m = Err e ->
  exists s, e = ESem s /\ domain_violation d s.
Proof.
  intros Hi E. assert (dom_scope d (m_params m)) as Hs by (apply ds_method; auto).
  apply seq_err in E as [E|[E0 E]].
  { apply params_err in E as (de & -> & Hr). eexists. split; [reflexivity|]. eapply dv_parameter; eauto. }
  apply params_ok in E0. apply seq_err in E as [E|[_ E]].
  { eapply formula_violation; eauto. intros g Eg. apply df_method; auto. }
  assert (dom_call d true (m_params m) (m_task m) (m_task_terms m)) as Hh by (constructor; auto).
  apply seq_err in E as [E|[E1 E]].
  { unfold verify_method_task in E. destruct (find_task (sym_name (m_task m)) (d_tasks d)) as [t|] eqn:Et.
    - destruct (Nat.eqb _ _) eqn:El; [discriminate|]. apply Nat.eqb_neq in El. apply sem_inj in E as ->.
      eexists. split; [reflexivity|]. apply find_task_formals in Et. eapply dv_head_arity; eauto.
    - apply sem_inj in E as ->. pose proof (proj1 (find_task_callable _) Et) as Hu. eexists. split; [reflexivity|].
      eapply dv_undef_task; eauto. }
  rewrite constants_eq in E.
  assert (forall h params task terms, dom_call d h params task terms -> NoDup (map sym_name params) ->
    (h = true -> exists f, callable d true (sym_name task) f /\ length f = length terms) ->
    is_task_consistent (d_types d) task terms params (constants_of d) (d_tasks d) (visible_actions d h) = Err e ->
    exists s, e = ESem s /\ domain_violation d s) as Hcall.
  { intros h params task terms Hd Hp Hh' Ec.
    apply call_err in Ec as [(v & Hv & -> & H1 & H2)|[(Hu & ->)|[(f & Hc & Hl & ->)|(fs & i & v & f & t & Hc & E2 & E3 & Hde & Hf & ->)]]];
      auto; eexists; (split; [reflexivity|]).
    - apply (dv_undef_parameter d params); auto. eapply da_call; eauto.
    - destruct h.
      + exfalso. destruct (Hh' eq_refl) as (f & Hc & _). eapply Hu; eauto.
      + eapply dv_undef_subtask; eauto.
    - destruct h.
      + exfalso. destruct (Hh' eq_refl) as (f' & Hc' & Hl'). apply (formals_some d Ht Ha) in Hc, Hc'. congruence.
      + eapply dv_subtask_arity; eauto.
    - eapply dv_task_type; eauto. }
  apply seq_err in E as [E|[_ E]].
  { eapply (Hcall true); eauto. intros _. unfold verify_method_task in E1.
    destruct (find_task (sym_name (m_task m)) (d_tasks d)) as [t|] eqn:Et; [|discriminate].
    destruct (Nat.eqb _ _) eqn:El; [|discriminate]. apply Nat.eqb_eq in El.
    exists (task_params t). split; auto. apply find_task_formals; auto. }
  apply seq_err in E as [E|[_ E]].
  { apply for_each_err in E as (s & Hsi & E). eapply (Hcall false); eauto; [|discriminate]. constructor; auto. }
  apply ordering_err in E as (l & p & a & E2 & Hc & Ep & ->). eexists. split; [reflexivity|].
  eapply dv_ordering; eauto.
Qed.

(** ** Panics *)
Definition scope_typed (l : list symbol) : Prop := Forall typed_pos l.

Lemma is_untyped_pos s : is_untyped s -> typed_pos s.
Proof. unfold is_untyped, typed_pos. intros [E _]. congruence. Qed.
Lemma is_typed_pos s : is_typed s -> typed_pos s.
Proof. unfold is_typed, typed_pos. tauto. Qed.
Lemma wf_args_pos l : wf_args l -> scope_typed l.
Proof.
  intros (a & b & -> & H1 & H2). apply Forall_app. split.
  - revert H1. apply Forall_impl, is_typed_pos.
  - revert H2. apply Forall_impl, is_untyped_pos.
Qed.

Definition quantified (f : formula) : Prop :=
  exists g, within g f /\ match g with FExists _ _ | FImply _ _ => True | _ => False end.

Lemma verify_formula_panic_wf params o p :
  wf_args params -> verify_formula d params o = Panic p -> p = PanicFormula /\ exists g, o = Some g /\ quantified g.
Proof.
  intros Hw E. apply verify_formula_panic in E as [(g & h & -> & Hwi & Hh & ->)|(s & Hs & Hn')].
  - split; auto. exists g. split; auto. exists h. auto.
  - exfalso. apply Hn'. apply wf_args_pos in Hw. unfold scope_typed in Hw. rewrite Forall_forall in Hw. auto.
Qed.

Lemma action_panic a p : In a (d_actions d) -> wf_action a -> verify_action d a = Panic p ->
  p = PanicFormula /\ exists params g, dom_formula d params g /\ quantified g.
Proof.
  intros Hi (Hw & _) E. apply seq_panic in E as [E|[_ E]]; [exfalso; eapply params_panic; eauto|].
  apply seq_panic in E as [E|[_ E]]; apply verify_formula_panic_wf in E as (-> & g & Eg & Hq); auto;
    split; auto; exists (act_params a), g; (split; [|auto]).
  - apply df_pre; auto.
  - apply df_eff; auto.
Qed.
Lemma method_panic m p : In m (d_methods d) -> wf_method m -> verify_method d m = Panic p ->
  p = PanicFormula /\ exists params g, dom_formula d params g /\ quantified g.
Proof.
  intros Hi (_ & _ & _ & Hw & _ & Hh) E. apply seq_panic in E as [E|[E0 E]]; [exfalso; eapply params_panic; eauto|].
  apply params_ok in E0.
  apply seq_panic in E as [E|[_ E]].
  { apply verify_formula_panic_wf in E as (-> & g & Eg & Hq); auto.
    split; auto; exists (m_params m), g; (split; [|auto]). apply df_method; auto. }
  exfalso. apply seq_panic in E as [E|[_ E]].
  { unfold verify_method_task in E. destruct (find_task _ _); [|discriminate]. destruct (Nat.eqb _ _); discriminate. }
  apply seq_panic in E as [E|[_ E]].
  { eapply (proj1 (call_calm d (m_params m) E0 true _ _)); eauto. }
  apply seq_panic in E as [E|[_ E]].
  { apply for_each_panic in E as (s & _ & E).
    eapply (proj1 (call_calm d (m_params m) E0 false _ _)); eauto. }
  eapply ordering_panic; eauto.
Qed.

Lemma action_fuel a : verify_action d a <> OutOfFuel.
Proof.
  intros E. apply seq_fuel in E as [E|[_ E]]; [eapply params_fuel; eauto|].
  apply seq_fuel in E as [E|[_ E]]; eapply verify_formula_fuel; eauto.
Qed.
Lemma method_fuel m : verify_method d m <> OutOfFuel.
Proof.
  intros E. apply seq_fuel in E as [E|[E0 E]]; [eapply params_fuel; eauto|]. apply params_ok in E0.
  apply seq_fuel in E as [E|[_ E]]; [eapply verify_formula_fuel; eauto|].
  apply seq_fuel in E as [E|[_ E]].
  { unfold verify_method_task in E. destruct (find_task _ _); [|discriminate]. destruct (Nat.eqb _ _); discriminate. }
  apply seq_fuel in E as [E|[_ E]].
  { eapply (proj2 (call_calm d (m_params m) E0 true _ _)); eauto. }
  apply seq_fuel in E as [E|[_ E]].
  { apply for_each_fuel in E as (s & _ & E).
    eapply (proj2 (call_calm d (m_params m) E0 false _ _)); eauto. }
  eapply ordering_fuel; eauto.
Qed.
End Domain.

(** ** The whole check *)
Section Top.
Variable d : domain_ast.

Theorem check_domain_ok : check_domain d = Ok tt <-> domain_ok d.
Proof.
  unfold check_domain, domain_ok, verify_predicates, verify_compound_tasks.
  rewrite !seq_ok, dup_reqs_ok, hierarchy_ok.
  rewrite !each_fresh_ok by constructor. cbn [app].
  assert (forall l, check_type_declarations (d_types d) l = Ok tt <-> types_declared (d_types d) l) as Hd by apply decls_ok.
  split.
  - intros ((H1 & _) & H2 & (H3 & H4) & (H5 & H6) & (H7 & H8) & (H9 & H10)).
    repeat match goal with |- _ /\ _ => split end; auto.
    + revert H4. apply Forall_impl. intros p. apply Hd.
    + revert H6. apply Forall_impl. intros p. apply Hd.
    + revert H8. apply Forall_impl. intros p. apply action_ok_iff; auto.
    + revert H10. apply Forall_impl. intros p. apply method_ok_iff; auto.
  - intros (H1 & H2 & H3 & H4 & H5 & H6 & H7 & H8 & H9 & H10).
    repeat match goal with |- _ /\ _ => split end; auto.
    + revert H4. apply Forall_impl. intros p. apply Hd.
    + revert H6. apply Forall_impl. intros p. apply Hd.
    + revert H8. apply Forall_impl. intros p. apply action_ok_iff; auto.
    + revert H10. apply Forall_impl. intros p. apply method_ok_iff; auto.
Qed.

Theorem check_domain_err e : check_domain d = Err e -> exists s, e = ESem s /\ domain_violation d s.
Proof.
  unfold check_domain. intros E. apply seq_err in E as [E|[_ E]].
  { apply dup_reqs_err in E as (r & -> & [(l1 & l2 & l3 & Hl)|[[] _]]). eexists. split; [reflexivity|].
    eapply dv_requirement; eauto. }
  apply seq_err in E as [E|[_ E]].
  { apply hierarchy_err in E as (-> & a & Ha). eexists. split; [reflexivity|]. eapply dv_types; eauto. }
  apply seq_err in E as [E|[E1 E]].
  { apply each_fresh_err in E as [(de & -> & Hr)|(p & Hp & E & _)]; [| |constructor].
    - eexists. split; [reflexivity|]. apply dv_predicate; auto.
    - apply decls_err in E as (s & t & q & -> & Hs & H1 & H2 & H3). eexists. split; [reflexivity|].
      eapply dv_type; eauto. apply dt_pred; auto. }
  apply each_fresh_ok in E1 as [Hn _]; [|constructor]. simpl in Hn.
  apply seq_err in E as [E|[E2 E]].
  { apply each_fresh_err in E as [(de & -> & Hr)|(p & Hp & E & _)]; [| |constructor].
    - eexists. split; [reflexivity|]. apply dv_task; auto.
    - apply decls_err in E as (s & t & q & -> & Hs & H1 & H2 & H3). eexists. split; [reflexivity|].
      eapply dv_type; eauto. apply dt_task; auto. }
  apply each_fresh_ok in E2 as [Ht _]; [|constructor]. simpl in Ht.
  apply seq_err in E as [E|[E3 E]].
  { apply each_fresh_err in E as [(de & -> & Hr)|(p & Hp & E & _)]; [| |constructor].
    - eexists. split; [reflexivity|]. apply dv_action; auto.
    - eapply action_err; eauto. }
  apply each_fresh_ok in E3 as [Ha _]; [|constructor]. simpl in Ha.
  apply each_fresh_err in E as [(de & -> & Hr)|(p & Hp & E & _)]; [| |constructor].
  - eexists. split; [reflexivity|]. apply dv_method; auto.
  - eapply method_err; eauto.
Qed.

Theorem check_domain_panic p : wf_domain d -> check_domain d = Panic p ->
  p = PanicFormula /\ exists params g, dom_formula d params g /\ quantified g.
Proof.
  intros (_ & _ & Hw1 & _ & Hw2 & Hw3 & Hw4). rewrite Forall_forall in *.
  unfold check_domain. intros E. apply seq_panic in E as [E|[_ E]].
  { exfalso. revert E. generalize (@nil requirement). induction (d_reqs d) as [|r l IH]; intros seen; simpl; [discriminate|].
    destruct (existsb _ _); [discriminate|]. apply IH. }
  apply seq_panic in E as [E|[_ E]].
  { unfold verify_type_hierarchy in E. destruct (acyclicb _); discriminate. }
  apply seq_panic in E as [E|[E1 E]].
  { exfalso. apply each_fresh_panic in E as (q & Hq & E); [|constructor].
    apply decls_panic in E as (s & Hs & Hn). apply Hn. apply Hw1, wf_args_pos in Hq.
    unfold scope_typed in Hq. rewrite Forall_forall in Hq. auto. }
  apply seq_panic in E as [E|[E2 E]].
  { exfalso. apply each_fresh_panic in E as (q & Hq & E); [|constructor].
    apply decls_panic in E as (s & Hs & Hn). apply Hn. apply Hw2, wf_args_pos in Hq.
    unfold scope_typed in Hq. rewrite Forall_forall in Hq. auto. }
  apply seq_panic in E as [E|[E3 E]].
  { apply each_fresh_panic in E as (a & Ha & E); [|constructor]. eapply action_panic; eauto. }
  apply each_fresh_panic in E as (m & Hm & E); [|constructor]. eapply method_panic; eauto.
Qed.

Theorem check_domain_fuel : check_domain d <> OutOfFuel.
Proof.
  unfold check_domain. intros E. apply seq_fuel in E as [E|[_ E]].
  { revert E. generalize (@nil requirement). induction (d_reqs d) as [|r l IH]; intros seen; simpl; [discriminate|].
    destruct (existsb _ _); [discriminate|]. apply IH. }
  apply seq_fuel in E as [E|[_ E]].
  { unfold verify_type_hierarchy in E. destruct (acyclicb _); discriminate. }
  assert (forall l, check_type_declarations (d_types d) l <> OutOfFuel) as Hd.
  { intros l El. apply for_each_fuel in El as (s & _ & El). simpl in El. destruct (sym_type s); [|discriminate].
    destruct (mem_str _ _); [discriminate|]. destruct (sym_type_pos s); discriminate. }
  apply seq_fuel in E as [E|[E1 E]].
  { apply each_fresh_fuel in E as (q & Hq & E); [|constructor]. eapply Hd; eauto. }
  apply seq_fuel in E as [E|[E2 E]].
  { apply each_fresh_fuel in E as (q & Hq & E); [|constructor]. eapply Hd; eauto. }
  apply seq_fuel in E as [E|[E3 E]].
  { apply each_fresh_fuel in E as (a & Ha & E); [|constructor]. eapply action_fuel; eauto. }
  apply each_fresh_fuel in E as (m & Hm & E); [|constructor]. eapply method_fuel; eauto.
Qed.
End Top.
