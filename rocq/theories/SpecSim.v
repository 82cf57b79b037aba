(** Specification for C42-C44: two trees that differ only in what verification
    must not look at.  [fT fP fA fM fV fI] rename types, predicates, tasks and
    actions, methods, variables/constants/objects and subtask ids; [RL] relates
    the lines.  The relation says nothing about the domain name, function
    declarations, constraints, weights, equalities, quantified variables and
    problem requirements. *)
From Coq Require Import String NArith Bool List Permutation.
From Verif Require Import Base Token Lexer Errors Ast AstRel Tdg LexProofs2 LexProofs3.
Import ListNotations.
Open Scope list_scope.

Record renaming := mkRen {
  fT : string -> string; fP : string -> string; fA : string -> string;
  fM : string -> string; fV : string -> string; fI : string -> string
}.
Definition injective (f : string -> string) : Prop := forall x y, f x = f y -> x = y.
Record renaming_ok (rn : renaming) : Prop := mkRenOk {
  fT_inj : injective (fT rn); fP_inj : injective (fP rn); fA_inj : injective (fA rn);
  fM_inj : injective (fM rn); fV_inj : injective (fV rn); fI_inj : injective (fI rn)
}.
(** Nothing is renamed. *)
Definition ren_id : renaming :=
  mkRen (fun x => x) (fun x => x) (fun x => x) (fun x => x) (fun x => x) (fun x => x).

(** Every name is renamed in the same way, whatever it denotes. *)
Definition ren_uniform (f : string -> string) : renaming := mkRen f f f f f f.
Definition ren_tok (f : string -> string) (t : token * N) : token * N :=
  (match fst t with TIdent s => TIdent (f s) | t => t end, snd t).

Section Sim.
Variable rn : renaming.
Variable RL : N -> N -> Prop.

Record sym_sim (f : string -> string) (s s' : symbol) : Prop := mkSymSim {
  ss_name : sym_name s' = f (sym_name s);
  ss_pos : RL (sym_pos s) (sym_pos s');
  ss_type : sym_type s' = option_map (fT rn) (sym_type s);
  ss_tpos : opt_rel RL (sym_type_pos s) (sym_type_pos s')
}.
Definition vars_sim := Forall2 (sym_sim (fV rn)).
Record pred_sim (p p' : predicate) : Prop := mkPredSim {
  ps_name : pred_name p' = fP rn (pred_name p);
  ps_pos : RL (pred_pos p) (pred_pos p');
  ps_vars : vars_sim (pred_vars p) (pred_vars p')
}.
Inductive formula_sim : formula -> formula -> Prop :=
| fs_empty : formula_sim FEmpty FEmpty
| fs_atom p p' : pred_sim p p' -> formula_sim (FAtom p) (FAtom p')
| fs_not f f' : formula_sim f f' -> formula_sim (FNot f) (FNot f')
| fs_and l l' : formulas_sim l l' -> formula_sim (FAnd l) (FAnd l')
| fs_or l l' : formulas_sim l l' -> formula_sim (FOr l) (FOr l')
| fs_xor l l' : formulas_sim l l' -> formula_sim (FXor l) (FXor l')
| fs_imply l l' k k' : formulas_sim l l' -> formulas_sim k k' -> formula_sim (FImply l k) (FImply l' k')
| fs_exists v v' f f' : formula_sim f f' -> formula_sim (FExists v f) (FExists v' f')
| fs_forall v v' f f' : formula_sim f f' -> formula_sim (FForAll v f) (FForAll v' f')
| fs_weighted w w' f f' : formula_sim f f' -> formula_sim (FWeighted w f) (FWeighted w' f')
| fs_equals a b a' b' : formula_sim (FEquals a b) (FEquals a' b')
with formulas_sim : list formula -> list formula -> Prop :=
| fss_nil : formulas_sim [] []
| fss_cons f f' l l' : formula_sim f f' -> formulas_sim l l' -> formulas_sim (f :: l) (f' :: l').
Record task_sim (t t' : task) : Prop := mkTaskSim {
  ts_name : task_name t' = fA rn (task_name t);
  ts_pos : RL (task_pos t) (task_pos t');
  ts_params : vars_sim (task_params t) (task_params t')
}.
Record action_sim (a a' : action) : Prop := mkActionSim {
  as_name : act_name a' = fA rn (act_name a);
  as_pos : RL (act_pos a) (act_pos a');
  as_params : vars_sim (act_params a) (act_params a');
  as_pre : opt_rel formula_sim (act_pre a) (act_pre a');
  as_eff : opt_rel formula_sim (act_eff a) (act_eff a')
}.
Record subtask_sim (s s' : subtask) : Prop := mkSubSim {
  us_id : opt_rel (fun i i' => sym_name i' = fI rn (sym_name i)) (sub_id s) (sub_id s');
  us_task : sym_name (sub_task s') = fA rn (sym_name (sub_task s));
  us_pos : RL (sym_pos (sub_task s)) (sym_pos (sub_task s'));
  us_terms : vars_sim (sub_terms s) (sub_terms s')
}.
Definition ordering_sim (o o' : ordering) : Prop :=
  match o, o' with
  | Total, Total => True
  | Partial l, Partial l' => l' = map (fun e => (fI rn (fst e), fI rn (snd e))) l
  | _, _ => False
  end.
Record htn_sim (t t' : htn) : Prop := mkHtnSim {
  hs_subtasks : Forall2 subtask_sim (htn_subtasks t) (htn_subtasks t');
  hs_pos : opt_rel RL (htn_ordering_pos t) (htn_ordering_pos t');
  hs_orderings : ordering_sim (htn_orderings t) (htn_orderings t')
}.
Record method_sim (m m' : method) : Prop := mkMethodSim {
  ms_name : sym_name (m_name m') = fM rn (sym_name (m_name m));
  ms_pos : RL (sym_pos (m_name m)) (sym_pos (m_name m'));
  ms_task : sym_name (m_task m') = fA rn (sym_name (m_task m));
  ms_task_pos : RL (sym_pos (m_task m)) (sym_pos (m_task m'));
  ms_terms : vars_sim (m_task_terms m) (m_task_terms m');
  ms_params : vars_sim (m_params m) (m_params m');
  ms_pre : opt_rel formula_sim (m_pre m) (m_pre m');
  ms_tn : htn_sim (m_tn m) (m_tn m')
}.
Record domain_sim (d d' : domain_ast) : Prop := mkDomainSim {
  ds_types : opt_rel (Forall2 (sym_sim (fT rn))) (d_types d) (d_types d');
  ds_constants : opt_rel vars_sim (d_constants d) (d_constants d');
  ds_reqs : d_reqs d' = d_reqs d;
  ds_preds : Forall2 pred_sim (d_preds d) (d_preds d');
  ds_tasks : Forall2 task_sim (d_tasks d) (d_tasks d');
  ds_methods : Forall2 method_sim (d_methods d) (d_methods d');
  ds_actions : Forall2 action_sim (d_actions d) (d_actions d')
}.
Record init_sim (t t' : init_tn) : Prop := mkInitSim {
  is_params : opt_rel vars_sim (itn_params t) (itn_params t');
  is_tn : htn_sim (itn_tn t) (itn_tn t')
}.
Record problem_sim (p p' : problem_ast) : Prop := mkProblemSim {
  prs_tn : opt_rel init_sim (p_init_tn p) (p_init_tn p');
  prs_init : Forall2 pred_sim (p_init p) (p_init p');
  prs_goal : opt_rel formula_sim (p_goal p) (p_goal p');
  prs_objects : vars_sim (p_objects p) (p_objects p')
}.

(** Errors that say the same about the renamed names.  The name in a type
    error is that of a variable, a predicate or a task, depending on the place
    that reports it. *)
Inductive dup_sim (f : string -> string) : dup_err -> dup_err -> Prop :=
| du s a a' b b' : RL a a' -> RL b b' -> dup_sim f (mkDup s a b) (mkDup (f s) a' b').
Inductive undef_sim (f : string -> string) : undef_err -> undef_err -> Prop :=
| un s a a' : RL a a' -> undef_sim f (mkUndef s a) (mkUndef (f s) a').
Inductive arity_sim (f : string -> string) : arity_err -> arity_err -> Prop :=
| ari s x y a a' : RL a a' -> arity_sim f (mkArity s x y a) (mkArity (f s) x y a').
Inductive type_sim : type_err -> type_err -> Prop :=
| tys f e x s a a' : In f [fV rn; fP rn; fA rn] -> RL a a' ->
    type_sim (mkTypeErr e x s a)
             (mkTypeErr (option_map (fT rn) e) (option_map (fT rn) x) (f s) a').
Inductive sem_sim : sem_err -> sem_err -> Prop :=
| se_obj e e' : dup_sim (fV rn) e e' -> sem_sim (DuplicateObject e) (DuplicateObject e')
| se_req r : sem_sim (DuplicateRequirement r) (DuplicateRequirement r)
| se_pred e e' : dup_sim (fP rn) e e' -> sem_sim (DuplicatePredicate e) (DuplicatePredicate e')
| se_act e e' : dup_sim (fA rn) e e' -> sem_sim (DuplicateAction e) (DuplicateAction e')
| se_task e e' : dup_sim (fA rn) e e' -> sem_sim (DuplicateCompoundTask e) (DuplicateCompoundTask e')
| se_meth e e' : dup_sim (fM rn) e e' -> sem_sim (DuplicateMethod e) (DuplicateMethod e')
| se_param e e' : dup_sim (fV rn) e e' -> sem_sim (DuplicateParameter e) (DuplicateParameter e')
| se_upred e e' : undef_sim (fP rn) e e' -> sem_sim (UndefinedPredicate e) (UndefinedPredicate e')
| se_utype e e' : undef_sim (fT rn) e e' -> sem_sim (UndefinedType e) (UndefinedType e')
| se_usub e e' : undef_sim (fA rn) e e' -> sem_sim (UndefinedSubtask e) (UndefinedSubtask e')
| se_utask e e' : undef_sim (fA rn) e e' -> sem_sim (UndefinedTask e) (UndefinedTask e')
| se_uparam e e' : undef_sim (fV rn) e e' -> sem_sim (UndefinedParameter e) (UndefinedParameter e')
| se_uobj e e' : undef_sim (fV rn) e e' -> sem_sim (UndefinedObject e) (UndefinedObject e')
| se_parity e e' : arity_sim (fP rn) e e' ->
    sem_sim (InconsistentPredicateArity e) (InconsistentPredicateArity e')
| se_tarity e e' : arity_sim (fA rn) e e' -> sem_sim (InconsistentTaskArity e) (InconsistentTaskArity e')
| se_ptype e e' : type_sim e e' ->
    sem_sim (InconsistentPredicateArgType e) (InconsistentPredicateArgType e')
| se_ttype e e' : type_sim e e' -> sem_sim (InconsistentTaskArgType e) (InconsistentTaskArgType e')
| se_cyc : sem_sim CyclicType CyclicType
| se_ord a a' : RL a a' -> sem_sim (CyclicOrdering a) (CyclicOrdering a').
(** Lexical and syntactic errors are compared up to lines. *)
Inductive error_sim : parsing_error -> parsing_error -> Prop :=
| es_lex t l a a' : RL a a' -> error_sim (ELex (mkLexErr t l a)) (ELex (mkLexErr t l a'))
| es_syn x t a a' : RL a a' -> error_sim (ESyn (mkSynErr x t a)) (ESyn (mkSynErr x t a'))
| es_sem e e' : sem_sim e e' -> error_sim (ESem e) (ESem e').

Inductive warning_sim : warning -> warning -> Prop :=
| ws_intro s a a' : RL a a' -> warning_sim (NoPrimitiveRefinement s a) (NoPrimitiveRefinement (fA rn s) a').
(** The same warnings, in any order. *)
Definition warnings_sim (ws ws' : list warning) : Prop :=
  exists vs, Permutation vs ws' /\ Forall2 warning_sim ws vs.

(** The same result. *)
Inductive result_sim {A B} (R : A -> B -> Prop) : outcome A -> outcome B -> Prop :=
| ok_sim a b : R a b -> result_sim R (Ok a) (Ok b)
| err_sim e e' : error_sim e e' -> result_sim R (Err e) (Err e')
| panic_sim p : result_sim R (Panic p) (Panic p)
| fuel_sim : result_sim R OutOfFuel OutOfFuel.

(** The same metadata, the names renamed.  The nullable names are printed in
    an unspecified order. *)
Definition ren_cycle (c : list (string * string)) : list (string * string) :=
  map (fun tm => (fA rn (fst tm), fM rn (snd tm))) c.
Definition ren_recursion (r : recursion) : recursion :=
  match r with
  | NonRecursive => NonRecursive
  | Recursive c => Recursive (ren_cycle c)
  | EmptyRecursion c => EmptyRecursion (ren_cycle c)
  | GrowingEmptyPrefix c => GrowingEmptyPrefix (ren_cycle c)
  | GrowAndShrink c => GrowAndShrink (ren_cycle c)
  end.
Record metadata_sim (m m' : metadata) : Prop := mkMetaSim {
  mds_recursion : md_recursion m' = ren_recursion (md_recursion m);
  mds_nullables : Permutation (md_nullables m') (map (fA rn) (md_nullables m));
  mds_counts : (md_actions m', md_tasks m', md_methods m') = (md_actions m, md_tasks m, md_methods m);
  mds_name : md_domain_name m' = md_domain_name m
}.
End Sim.

Scheme formula_sim_mut := Induction for formula_sim Sort Prop
  with formulas_sim_mut := Induction for formulas_sim Sort Prop.

(** ** Renaming a tree *)
Section Rename.
Variable rn : renaming.
Definition ren_sym (f : string -> string) (s : symbol) : symbol :=
  mkSym (f (sym_name s)) (sym_pos s) (option_map (fT rn) (sym_type s)) (sym_type_pos s).
Definition ren_vars := map (ren_sym (fV rn)).
Definition ren_pred (p : predicate) : predicate :=
  mkPred (fP rn (pred_name p)) (pred_pos p) (ren_vars (pred_vars p)).
Fixpoint ren_formula (f : formula) : formula :=
  match f with
  | FEmpty => FEmpty
  | FAtom p => FAtom (ren_pred p)
  | FNot g => FNot (ren_formula g)
  | FAnd fs => FAnd (map ren_formula fs)
  | FOr fs => FOr (map ren_formula fs)
  | FXor fs => FXor (map ren_formula fs)
  | FImply ps qs => FImply (map ren_formula ps) (map ren_formula qs)
  | FExists vs g => FExists (ren_vars vs) (ren_formula g)
  | FForAll vs g => FForAll (ren_vars vs) (ren_formula g)
  | FWeighted w g => FWeighted w (ren_formula g)
  | FEquals a b => FEquals (fV rn a) (fV rn b)
  end.
Definition ren_task (t : task) : task :=
  mkTask (fA rn (task_name t)) (task_pos t) (ren_vars (task_params t)).
Definition ren_func (t : func) : func :=
  mkFunc (func_name t) (func_pos t) (ren_vars (func_vars t)).
Definition ren_action (a : action) : action :=
  mkAction (fA rn (act_name a)) (act_pos a) (ren_vars (act_params a))
           (option_map ren_formula (act_pre a)) (option_map ren_formula (act_eff a)).
Definition ren_subtask (s : subtask) : subtask :=
  mkSub (option_map (ren_sym (fI rn)) (sub_id s)) (ren_sym (fA rn) (sub_task s)) (ren_vars (sub_terms s)).
Definition ren_constr (c : constr) : constr :=
  match c with
  | CEqual a b => CEqual (fV rn a) (fV rn b)
  | CNotEqual a b => CNotEqual (fV rn a) (fV rn b)
  end.
Definition ren_ordering (o : ordering) : ordering :=
  match o with
  | Total => Total
  | Partial l => Partial (map (fun e => (fI rn (fst e), fI rn (snd e))) l)
  end.
Definition ren_htn (t : htn) : htn :=
  mkHtn (map ren_subtask (htn_subtasks t)) (htn_ordering_pos t) (ren_ordering (htn_orderings t))
        (option_map (map ren_constr) (htn_constraints t)).
Definition ren_method (m : method) : method :=
  mkMethod (ren_sym (fM rn) (m_name m)) (ren_sym (fA rn) (m_task m)) (ren_vars (m_task_terms m))
           (ren_vars (m_params m)) (option_map ren_formula (m_pre m)) (ren_htn (m_tn m)).
Definition ren_domain (d : domain_ast) : domain_ast :=
  mkDomain (d_name d) (option_map (map (ren_sym (fT rn))) (d_types d))
           (option_map ren_vars (d_constants d)) (d_reqs d) (map ren_pred (d_preds d))
           (map ren_task (d_tasks d)) (map ren_method (d_methods d)) (map ren_action (d_actions d))
           (map ren_func (d_funcs d)).
Definition ren_problem (p : problem_ast) : problem_ast :=
  mkProblem (p_reqs p)
            (option_map (fun t => mkInit (option_map ren_vars (itn_params t)) (ren_htn (itn_tn t)))
                        (p_init_tn p))
            (map ren_pred (p_init p)) (option_map ren_formula (p_goal p)) (ren_vars (p_objects p)).
End Rename.

(** ** Documents *)
(** [s'] is [s] with every identifier [x] replaced by [f x], on the same lines. *)
Definition renamed `{Unicode} (f : string -> string) (s s' : string) : Prop :=
  forall k, stream k (lex_new s')
            = map (fun i => (match fst i with LTok (TIdent x) => LTok (TIdent (f x)) | o => o end, snd i))
                  (stream k (lex_new s)).
(** [name] is one of the identifiers of the document. *)
Definition word_of `{Unicode} (s name : string) : Prop :=
  exists ts st, Reads (lex_new s) ts st /\ In (TIdent name) (map fst ts).
