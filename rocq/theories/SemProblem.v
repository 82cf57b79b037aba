(** The whole problem check. *)
From Coq Require Import String NArith Bool List Relations Lia PeanoNat.
From Verif Require Import Base Token Lexer Errors Ast Graph Semantic GraphProofs FormulaInd SpecSem SemProofs SemFormula SpecPrint SemDomain.
Import ListNotations.
Open Scope list_scope.
Open Scope outcome_scope.

(** The table built from a domain. *)
Definition table (ws : list warning) (d : domain_ast) : symbol_table :=
  mkTable ws (declared_constants d) (d_preds d) (d_tasks d) (d_actions d) (d_types d).

(** ** Pairwise checks *)
Lemma pairs_ok {A B} (f : A * B -> outcome unit) : forall l l', length l = length l' ->
  (for_each f (combine l l') = Ok tt <-> Forall2 (fun b a => f (a, b) = Ok tt) l' l).
Proof.
  induction l as [|a l IH]; intros [|b l'] El; simpl; try discriminate.
  - split; auto.
  - rewrite seq_ok, IH by (simpl in El; congruence). split.
    + intros []. constructor; auto.
    + inversion 1; auto.
Qed.
Lemma combine_nth_in {A B} (x : A) (y : B) : forall l l', In (x, y) (combine l l') ->
  exists i, nth_error l i = Some x /\ nth_error l' i = Some y.
Proof.
  induction l as [|a l IH]; intros [|b l']; simpl; try tauto.
  intros [E|Hi].
  - injection E as -> ->. exists O. auto.
  - apply IH in Hi as (i & ? & ?). exists (S i). auto.
Qed.

Section Problem.
Variable d : domain_ast.
Hypothesis Hn : NoDup (map pred_name (d_preds d)).
Hypothesis Ht : NoDup (map task_name (d_tasks d)).
Hypothesis Ha : NoDup (map act_name (d_actions d)).
Variable ws : list warning.
Notation tb := (table ws d).
Variable p : problem_ast.
Hypothesis Ho : NoDup (map sym_name (p_objects p)).
Notation objs := (p_objects p).

(** ** Facts *)
Lemma find_objs n o : find_symbol_last n objs = Some o <-> In o objs /\ sym_name o = n.
Proof. unfold find_symbol_last, find_symbol. apply (find_rev sym_name); auto. Qed.
Lemma find_objs_none n : find_symbol_last n objs = None <-> unnamed sym_name n objs.
Proof. unfold find_symbol_last, find_symbol. apply (find_rev_none sym_name). Qed.
Lemma find_consts n c : find_symbol n (constants_of d) = Some c <-> first_named sym_name n (constants_of d) c.
Proof. apply (find_first sym_name). Qed.
Lemma find_consts_none n : find_symbol n (constants_of d) = None <-> unnamed sym_name n (constants_of d).
Proof. apply (SemProofs.find_none sym_name). Qed.

Lemma pred_arg_ok pn e v : check_pred_arg tb objs pn e v = Ok tt <->
  exists t, object_denotes d p (sym_name v) t /\ fits (d_types d) t (sym_type e).
Proof.
  unfold check_pred_arg, table. cbn [st_types st_constants]. rewrite constants_eq.
  destruct (find_symbol_last (sym_name v) objs) as [o|] eqn:Eo.
  - apply find_objs in Eo as [Hi En]. split.
    + destruct (is_var_type_consistent _ _ _) eqn:E; [|discriminate]. intros _. apply consistent_spec in E.
      exists (sym_type o). split; auto. eapply od_object; eauto.
    + intros (t & Hd & Hf). assert (t = sym_type o) as ->.
      { destruct Hd as [o' Hi' En' <-|c Hu Hc Et].
        - f_equal. eapply (unique_named sym_name); eauto.
        - exfalso. eapply Hu; eauto. }
      apply consistent_spec in Hf. rewrite Hf. auto.
  - apply find_objs_none in Eo. destruct (find_symbol _ _) as [c|] eqn:Ec.
    + apply find_consts in Ec. split.
      * destruct (is_var_type_consistent _ _ _) eqn:E; [|discriminate]. intros _. apply consistent_spec in E.
        exists (sym_type c). split; auto. eapply od_const; eauto.
      * intros (t & Hd & Hf). assert (t = sym_type c) as ->.
        { destruct Hd as [o' Hi' En' <-|c' Hu Hc <-].
          - exfalso. eapply Eo; eauto.
          - f_equal. eapply first_named_fun; eauto. }
        apply consistent_spec in Hf. rewrite Hf. auto.
    + apply find_consts_none in Ec. split; [discriminate|]. intros (t & Hd & _). exfalso.
      destruct Hd as [o' Hi' En' <-|c' Hu Hc <-].
      * eapply Eo; eauto.
      * apply first_named_in in Hc as []. eapply Ec; eauto.
Qed.
Lemma pred_arg_err pn e v er : check_pred_arg tb objs pn e v = Err er ->
  ((forall t, ~ object_denotes d p (sym_name v) t) /\ er = ESem (UndefinedObject (mkUndef (sym_name v) (sym_pos v))))
  \/ exists t shown, object_denotes d p (sym_name v) t /\ ~ fits (d_types d) t (sym_type e)
    /\ (unnamed sym_name (sym_name v) (p_objects p) /\ shown = t
        \/ In (sym_name v) (map sym_name (p_objects p)) /\ shown = sym_type v)
    /\ er = ESem (InconsistentPredicateArgType (mkTypeErr (sym_type e) shown pn (sym_pos v))).
Proof.
  unfold check_pred_arg, table. cbn [st_types st_constants]. rewrite constants_eq.
  destruct (find_symbol_last (sym_name v) objs) as [o|] eqn:Eo.
  - apply find_objs in Eo as [Hi En].
    destruct (is_var_type_consistent _ _ _) eqn:E; [discriminate|]. apply consistent_false in E.
    intros Ee. apply sem_inj in Ee as ->. right. exists (sym_type o), (sym_type v). split; [eapply od_object; eauto|].
    split; auto. split; auto. right. split; auto. rewrite <- En. apply in_map. auto.
  - apply find_objs_none in Eo. destruct (find_symbol _ _) as [c|] eqn:Ec.
    + apply find_consts in Ec.
      destruct (is_var_type_consistent _ _ _) eqn:E; [discriminate|]. apply consistent_false in E.
      intros Ee. apply sem_inj in Ee as ->. right. exists (sym_type c), (sym_type c). split; [eapply od_const; eauto|]. auto.
    + apply find_consts_none in Ec. intros Ee. apply sem_inj in Ee as ->. left. split; auto. intros t Hd.
      destruct Hd as [o' Hi' En' <-|c' Hu Hc <-].
      * eapply Eo; eauto.
      * apply first_named_in in Hc as []. eapply Ec; eauto.
Qed.
Lemma pred_arg_calm pn e v :
  (forall q, check_pred_arg tb objs pn e v <> Panic q) /\ check_pred_arg tb objs pn e v <> OutOfFuel.
Proof.
  unfold check_pred_arg. destruct (find_symbol_last _ _).
  - destruct (is_var_type_consistent _ _ _); split; discriminate.
  - destruct (find_symbol _ _); [|split; discriminate]. destruct (is_var_type_consistent _ _ _); split; discriminate.
Qed.

Lemma fact_ok_iff q : check_predicate_instantiation tb objs q = Ok tt <-> fact_ok d p q.
Proof.
  unfold check_predicate_instantiation, fact_ok, table at 1. cbn [st_predicates].
  destruct (find_predicate (pred_name q) (d_preds d)) as [def|] eqn:E.
  - apply (find_pred_some _ Hn) in E as [Hi En].
    assert (Hu : forall def', In def' (d_preds d) -> pred_name def' = pred_name q -> def' = def)
      by (intros; eapply (unique_named pred_name); eauto).
    destruct (Nat.eqb _ _) eqn:El; simpl.
    + apply Nat.eqb_eq in El. rewrite pairs_ok by auto. split.
      * intros Hf. exists def. split; auto. split; auto. revert Hf. generalize (pred_vars q), (pred_vars def).
        induction 1; constructor; auto. eapply pred_arg_ok; eauto.
      * intros (def' & Hi' & En' & Hf). rewrite (Hu def') in Hf by auto. clear - Hf Ho.
        induction Hf; constructor; auto. apply pred_arg_ok; auto.
    + apply Nat.eqb_neq in El. split; [discriminate|]. intros (def' & Hi' & En' & Hf). rewrite (Hu def') in Hf by auto.
      apply Forall2_len in Hf. congruence.
  - apply find_pred_none in E. split; [discriminate|]. intros (def' & Hi & En & _). exfalso. eapply E; eauto.
Qed.
Lemma fact_err q e : prob_atom p q -> check_predicate_instantiation tb objs q = Err e ->
  exists s, e = ESem s /\ problem_violation d p s.
Proof.
  intros Hq. unfold check_predicate_instantiation, table at 1. cbn [st_predicates].
  destruct (find_predicate (pred_name q) (d_preds d)) as [def|] eqn:E.
  - apply (find_pred_some _ Hn) in E as [Hi En]. destruct (Nat.eqb _ _) eqn:El; simpl.
    + intros Ee. apply for_each_err in Ee as ((f & v) & Hin & Ee). apply combine_nth_in in Hin as (i & E1 & E2).
      simpl in Ee. apply pred_arg_err in Ee as [(Hno & ->)|(t & shown & Hd & Hf & Hs & ->)]; eexists; (split; [reflexivity|]).
      * eapply pv_undef_object; eauto. eapply nth_error_In; eauto.
      * eapply pv_predicate_type; eauto.
    + apply Nat.eqb_neq in El. intros Ee. apply sem_inj in Ee as ->. eexists; (split; [reflexivity|]).
      eapply pv_predicate_arity; eauto.
  - apply find_pred_none in E. intros Ee. apply sem_inj in Ee as ->. eexists; (split; [reflexivity|]).
    apply pv_undef_predicate; auto.
Qed.
Lemma fact_calm q :
  (forall r, check_predicate_instantiation tb objs q <> Panic r) /\ check_predicate_instantiation tb objs q <> OutOfFuel.
Proof.
  unfold check_predicate_instantiation. destruct (find_predicate _ _); [|split; discriminate].
  destruct (negb _); [split; discriminate|]. split.
  - intros r E. apply for_each_panic in E as ((a & b) & _ & E). eapply (proj1 (pred_arg_calm _ _ _)); eauto.
  - intros E. apply for_each_fuel in E as ((a & b) & _ & E). eapply (proj2 (pred_arg_calm _ _ _)); eauto.
Qed.

(** ** Initial task network *)
Section Network.
Variable t : init_tn.
Definition find_tn_param (n : string) : option symbol :=
  match itn_params t with Some ps => find_symbol n ps | None => None end.
Lemma find_tn n q : find_tn_param n = Some q <-> first_named sym_name n (tn_params t) q.
Proof.
  unfold find_tn_param, tn_params. destruct (itn_params t).
  - apply (find_first sym_name).
  - split; [discriminate|inversion 1].
Qed.
Lemma find_tn_none n : find_tn_param n = None <-> unnamed sym_name n (tn_params t).
Proof.
  unfold find_tn_param, tn_params. destruct (itn_params t).
  - apply (SemProofs.find_none sym_name).
  - split; auto. intros _ x [].
Qed.

Definition term_type (n : string) : option (option string) :=
  match find_symbol_last n objs with
  | Some o => Some (sym_type o)
  | None => match find_tn_param n with
            | Some q => Some (sym_type q)
            | None => option_map sym_type (find_symbol n (constants_of d))
            end
  end.
Lemma term_type_some n ty : term_type n = Some ty <-> term_denotes d p (tn_params t) n ty.
Proof.
  unfold term_type. destruct (find_symbol_last n objs) as [o|] eqn:Eo.
  - apply find_objs in Eo as [Hi En]. split.
    + intros E. injection E as <-. eapply td_object; eauto.
    + intros [o' Hi' En' <-|q Hu|c Hu].
      * do 2 f_equal. eapply (unique_named sym_name); eauto.
      * exfalso. eapply Hu; eauto.
      * exfalso. eapply Hu; eauto.
  - apply find_objs_none in Eo. destruct (find_tn_param n) as [q|] eqn:Eq.
    + apply find_tn in Eq. split.
      * intros E. injection E as <-. eapply td_param; eauto.
      * intros [o' Hi' En' <-|q' Hu Hq <-|c Hu Hu2].
        -- exfalso. eapply Eo; eauto.
        -- do 2 f_equal. eapply first_named_fun; eauto.
        -- exfalso. apply first_named_in in Eq as []. eapply Hu2; eauto.
    + apply find_tn_none in Eq. destruct (find_symbol n (constants_of d)) as [c|] eqn:Ec; simpl.
      * apply find_consts in Ec. split.
        -- intros E. injection E as <-. eapply td_const; eauto.
        -- intros [o' Hi' En' <-|q' Hu Hq <-|c' Hu Hu2 Hc <-].
           ++ exfalso. eapply Eo; eauto.
           ++ exfalso. apply first_named_in in Hq as []. eapply Eq; eauto.
           ++ do 2 f_equal. eapply first_named_fun; eauto.
      * apply find_consts_none in Ec. split; [discriminate|].
        intros [o' Hi' En' <-|q' Hu Hq <-|c' Hu Hu2 Hc <-]; exfalso.
        -- eapply Eo; eauto.
        -- apply first_named_in in Hq as []. eapply Eq; eauto.
        -- apply first_named_in in Hc as []. eapply Ec; eauto.
Qed.

Lemma subtask_arg_unfold tn e v :
  check_subtask_arg tb objs (itn_params t) tn e v =
  match term_type (sym_name v) with
  | Some ty => if is_var_type_consistent (d_types d) ty (sym_type e) then Ok tt
               else sem ((match find_symbol_last (sym_name v) objs, find_tn_param (sym_name v) with
                          | None, None => InconsistentPredicateArgType
                          | _, _ => InconsistentTaskArgType
                          end) (mkTypeErr (sym_type e) ty tn (sym_pos v)))
  | None => sem (UndefinedObject (mkUndef (sym_name v) (sym_pos v)))
  end.
Proof.
  unfold check_subtask_arg, term_type, table. cbn [st_types st_constants]. rewrite constants_eq.
  fold (find_tn_param (sym_name v)).
  destruct (find_symbol_last _ _); auto. destruct (find_tn_param _); auto. destruct (find_symbol _ _); auto.
Qed.

Lemma subtask_arg_ok tn e v : check_subtask_arg tb objs (itn_params t) tn e v = Ok tt <->
  exists ty, term_denotes d p (tn_params t) (sym_name v) ty /\ fits (d_types d) ty (sym_type e).
Proof.
  rewrite subtask_arg_unfold. destruct (term_type (sym_name v)) as [ty|] eqn:E.
  - split.
    + destruct (is_var_type_consistent _ _ _) eqn:Ec; [|discriminate]. intros _. exists ty.
      split; [apply term_type_some; auto|apply consistent_spec; auto].
    + intros (ty' & Hd & Hf). apply term_type_some in Hd. assert (ty' = ty) as -> by congruence.
      apply consistent_spec in Hf. rewrite Hf. auto.
  - split; [discriminate|]. intros (ty & Hd & _). apply term_type_some in Hd. congruence.
Qed.
Lemma subtask_arg_calm tn e v :
  (forall q, check_subtask_arg tb objs (itn_params t) tn e v <> Panic q)
  /\ check_subtask_arg tb objs (itn_params t) tn e v <> OutOfFuel.
Proof.
  rewrite subtask_arg_unfold. destruct (term_type _); [|split; discriminate].
  destruct (is_var_type_consistent _ _ _); split; discriminate.
Qed.

Lemma instantiation_unfold s :
  check_subtask_instantiation tb objs (itn_params t) s =
  match formals_of d false (sym_name (sub_task s)) with
  | Some formals =>
    if Nat.eqb (length formals) (length (sub_terms s))
    then for_each (fun ef => check_subtask_arg tb objs (itn_params t) (sym_name (sub_task s)) (fst ef) (snd ef))
                  (combine formals (sub_terms s))
    else sem (InconsistentTaskArity
             (mkArity (sym_name (sub_task s)) (length formals) (length (sub_terms s)) (sym_pos (sub_task s))))
  | None => sem (UndefinedSubtask (mkUndef (sym_name (sub_task s)) (sym_pos (sub_task s))))
  end.
Proof.
  unfold check_subtask_instantiation, formals_of, table at 1 3. cbn [st_actions st_tasks visible_actions].
  destruct (find_action _ _) as [a|].
  - destruct (Nat.eqb _ _); reflexivity.
  - destruct (find_task _ _) as [k|]; simpl; auto. destruct (Nat.eqb _ _); reflexivity.
Qed.

Lemma init_task_ok_iff s : check_subtask_instantiation tb objs (itn_params t) s = Ok tt <-> init_task_ok d p t s.
Proof.
  rewrite instantiation_unfold. unfold init_task_ok. split.
  - destruct (formals_of _ _ _) as [f|] eqn:Ef; [|discriminate]. destruct (Nat.eqb _ _) eqn:El; [|discriminate].
    apply Nat.eqb_eq in El. rewrite pairs_ok by auto. intros Hf. exists f. split; [apply formals_some; auto|].
    revert Hf. generalize f (sub_terms s). clear - Ho. induction 1; constructor; auto. eapply subtask_arg_ok; eauto.
  - intros (f & Hc & Hf). apply formals_some in Hc; auto. rewrite Hc. rewrite (Forall2_len _ _ _ Hf), Nat.eqb_refl.
    rewrite pairs_ok by (symmetry; apply (Forall2_len _ _ _ Hf)). clear - Hf Ho.
    induction Hf; constructor; auto. apply subtask_arg_ok; auto.
Qed.
Lemma init_task_err s e : p_init_tn p = Some t -> In s (htn_subtasks (itn_tn t)) ->
  check_subtask_instantiation tb objs (itn_params t) s = Err e -> exists x, e = ESem x /\ problem_violation d p x.
Proof.
  intros Et Hs. assert (Hc : prob_call p t (sub_task s) (sub_terms s)) by (constructor; auto).
  rewrite instantiation_unfold. destruct (formals_of _ _ _) as [f|] eqn:Ef.
  - apply formals_some in Ef; auto. destruct (Nat.eqb _ _) eqn:El.
    + intros Ee. apply for_each_err in Ee as ((g & v) & Hin & Ee). apply combine_nth_in in Hin as (i & E1 & E2).
      simpl in Ee. rewrite subtask_arg_unfold in Ee. destruct (term_type (sym_name v)) as [ty|] eqn:Ety.
      * apply term_type_some in Ety. destruct (is_var_type_consistent _ _ _) eqn:Ei; [discriminate|].
        apply consistent_false in Ei. apply sem_inj in Ee as ->. eexists; (split; [reflexivity|]).
        destruct (find_symbol_last (sym_name v) objs) eqn:Eo; [eapply pv_task_type; eauto|].
        destruct (find_tn_param (sym_name v)) eqn:Eq; [eapply pv_task_type; eauto|].
        eapply pv_const_type; eauto.
        -- apply find_objs_none; auto.
        -- apply find_tn_none; auto.
      * apply sem_inj in Ee as ->. eexists; (split; [reflexivity|]).
        eapply pv_undef_term; eauto.
        -- eapply nth_error_In; eauto.
        -- intros ty Hd. apply term_type_some in Hd. congruence.
    + apply Nat.eqb_neq in El. intros Ee. apply sem_inj in Ee as ->. eexists; (split; [reflexivity|]).
      eapply pv_task_arity; eauto.
  - pose proof (proj1 (formals_none d Ht Ha _ _) Ef) as Hu. intros Ee. apply sem_inj in Ee as ->. eexists; (split; [reflexivity|]).
    eapply pv_undef_subtask; eauto.
Qed.
Lemma init_task_calm s :
  (forall q, check_subtask_instantiation tb objs (itn_params t) s <> Panic q)
  /\ check_subtask_instantiation tb objs (itn_params t) s <> OutOfFuel.
Proof.
  rewrite instantiation_unfold. destruct (formals_of _ _ _); [|split; discriminate].
  destruct (Nat.eqb _ _); [|split; discriminate]. split.
  - intros r E. apply for_each_panic in E as ((a & b) & _ & E). eapply (proj1 (subtask_arg_calm _ _ _)); eauto.
  - intros E. apply for_each_fuel in E as ((a & b) & _ & E). eapply (proj2 (subtask_arg_calm _ _ _)); eauto.
Qed.
End Network.
End Problem.

Section Top.
Variable d : domain_ast.
Hypothesis Hn : NoDup (map pred_name (d_preds d)).
Hypothesis Ht : NoDup (map task_name (d_tasks d)).
Hypothesis Ha : NoDup (map act_name (d_actions d)).
Variable ws : list warning.
Notation tb := (table ws d).
Variable p : problem_ast.

(** verify_problem without its result. *)
Definition check_problem : outcome unit :=
  check_type_declarations (st_types tb) (p_objects p) ;;;
  each_fresh DuplicateObject sym_name sym_pos (fun _ _ => Ok tt) [] (p_objects p) ;;;
  for_each (check_predicate_instantiation tb (p_objects p)) (p_init p) ;;;
  match p_init_tn p with
  | None => Ok tt
  | Some tn =>
    verify_ordering (itn_tn tn) ;;;
    for_each (check_subtask_instantiation tb (p_objects p) (itn_params tn))
             (htn_subtasks (itn_tn tn))
  end ;;;
  match p_goal p with
  | None => Ok tt
  | Some g => for_each (check_predicate_instantiation tb (p_objects p)) (prop_preds g)
  end.
Lemma verify_problem_check : verify_problem tb p = (check_problem ;;; Ok ws).
Proof.
  unfold verify_problem, check_problem.
  destruct (check_type_declarations _ _); simpl; auto.
  destruct (each_fresh _ _ _ _ _ _); simpl; auto.
  destruct (for_each _ (p_init p)); simpl; auto.
  destruct (match p_init_tn p with Some _ => _ | None => _ end); simpl; auto.
Qed.

Lemma fresh_objects : each_fresh DuplicateObject sym_name sym_pos (fun _ _ => Ok tt) [] (p_objects p) = Ok tt
  <-> NoDup (map sym_name (p_objects p)).
Proof.
  rewrite (each_fresh_ok DuplicateObject sym_name sym_pos (fun _ => Ok tt)) by constructor.
  simpl. split; [tauto|]. intros H. split; auto. apply Forall_forall. auto.
Qed.

Lemma check_problem_ok : check_problem = Ok tt <-> problem_ok d p.
Proof.
  unfold check_problem, problem_ok. rewrite !seq_ok, decls_ok, fresh_objects, for_each_ok.
  split.
  - intros (H1 & H2 & H3 & H4 & H5). split; auto. split; auto. split; [|split].
    + revert H3. apply Forall_impl. intros q. apply fact_ok_iff; auto.
    + destruct (p_init_tn p) as [t|]; auto. rewrite seq_ok, ordering_ok, for_each_ok in H4. destruct H4 as [H4 H6].
      split; auto. revert H6. apply Forall_impl. intros s. apply init_task_ok_iff; auto.
    + destruct (p_goal p) as [g|]; auto. rewrite for_each_ok, Forall_forall in H5. intros q Hq.
      apply prop_preds_open in Hq. apply H5 in Hq. apply fact_ok_iff in Hq; auto.
  - intros (H1 & H2 & H3 & H4 & H5). split; auto. split; auto. split; [|split].
    + revert H3. apply Forall_impl. intros q. apply fact_ok_iff; auto.
    + destruct (p_init_tn p) as [t|]; auto. rewrite seq_ok, ordering_ok, for_each_ok. destruct H4 as [H4 H6].
      split; auto. revert H6. apply Forall_impl. intros s. apply init_task_ok_iff; auto.
    + destruct (p_goal p) as [g|]; auto. rewrite for_each_ok, Forall_forall. intros q Hq.
      apply prop_preds_open in Hq. apply H5 in Hq. apply fact_ok_iff; auto.
Qed.
Lemma check_problem_err e : check_problem = Err e -> exists s, e = ESem s /\ problem_violation d p s.
Proof.
  unfold check_problem. intros E. apply seq_err in E as [E|[E0 E]].
  { apply decls_err in E as (s & t & q & -> & Hs & H1 & H2 & H3). eexists. split; [reflexivity|]. eapply pv_type; eauto. }
  apply seq_err in E as [E|[E1 E]].
  { apply (each_fresh_err DuplicateObject sym_name sym_pos (fun _ => Ok tt)) in E as [(de & -> & Hr)|(x & _ & E & _)];
      [|discriminate|constructor]. eexists. split; [reflexivity|]. apply pv_object; auto. }
  apply fresh_objects in E1.
  apply seq_err in E as [E|[E2 E]].
  { apply for_each_err in E as (q & Hq & E). eapply fact_err; eauto. constructor; auto. }
  apply seq_err in E as [E|[E3 E]].
  { destruct (p_init_tn p) as [t|] eqn:Et; [|discriminate]. apply seq_err in E as [E|[_ E]].
    - apply ordering_err in E as (l & pos & a & El & Hc & Ep & ->). eexists. split; [reflexivity|]. eapply pv_ordering; eauto.
    - apply for_each_err in E as (s & Hs & E). eapply init_task_err; eauto. }
  destruct (p_goal p) as [g|] eqn:Eg; [|discriminate]. apply for_each_err in E as (q & Hq & E). apply prop_preds_open in Hq.
  eapply fact_err; eauto. eapply pa_goal; eauto.
Qed.
Lemma check_problem_calm : wf_problem p -> (forall q, check_problem <> Panic q) /\ check_problem <> OutOfFuel.
Proof.
  intros (Hw1 & Hw2 & _).
  unfold check_problem. split.
  - intros r E. apply seq_panic in E as [E|[E0 E]].
    { apply decls_panic in E as (s & Hs & Hp). apply Hp. unfold wf_decl in Hw1. rewrite Forall_forall in Hw1.
      destruct (Hw1 s Hs); [apply is_typed_pos|apply is_untyped_pos]; auto. }
    apply seq_panic in E as [E|[E1 E]].
    { apply (each_fresh_panic DuplicateObject sym_name sym_pos (fun _ => Ok tt)) in E as (x & _ & E); [discriminate|constructor]. }
    apply seq_panic in E as [E|[E2 E]].
    { apply for_each_panic in E as (q & Hq & E). eapply (proj1 (fact_calm d ws p q)); eauto. }
    apply seq_panic in E as [E|[E3 E]].
    { destruct (p_init_tn p) as [t|] eqn:Et; [|discriminate]. apply seq_panic in E as [E|[_ E]].
      - eapply ordering_panic; eauto. simpl in Hw2. tauto.
      - apply for_each_panic in E as (s & Hs & E). eapply (proj1 (init_task_calm d ws p t s)); eauto. }
    destruct (p_goal p) as [g|] eqn:Eg; [|discriminate]. apply for_each_panic in E as (q & Hq & E).
    eapply (proj1 (fact_calm d ws p q)); eauto.
  - intros E. apply seq_fuel in E as [E|[E0 E]].
    { apply for_each_fuel in E as (s & _ & E). simpl in E. destruct (sym_type s); [|discriminate].
      destruct (mem_str _ _); [discriminate|]. destruct (sym_type_pos s); discriminate. }
    apply seq_fuel in E as [E|[E1 E]].
    { apply (each_fresh_fuel DuplicateObject sym_name sym_pos (fun _ => Ok tt)) in E as (x & _ & E); [discriminate|constructor]. }
    apply seq_fuel in E as [E|[E2 E]].
    { apply for_each_fuel in E as (q & Hq & E). eapply (proj2 (fact_calm d ws p q)); eauto. }
    apply seq_fuel in E as [E|[E3 E]].
    { destruct (p_init_tn p) as [t|] eqn:Et; [|discriminate]. apply seq_fuel in E as [E|[_ E]].
      - eapply ordering_fuel; eauto.
      - apply for_each_fuel in E as (s & Hs & E). eapply (proj2 (init_task_calm d ws p t s)); eauto. }
    destruct (p_goal p) as [g|] eqn:Eg; [|discriminate]. apply for_each_fuel in E as (q & Hq & E).
    eapply (proj2 (fact_calm d ws p q)); eauto.
Qed.
End Top.
