(** All line numbers recorded in a syntax tree or carried by an error
    (specification for C13). *)
From Coq Require Import String NArith List.
From Verif Require Import Base Token Lexer Errors Ast.
Import ListNotations.
Open Scope list_scope.

Definition opt_lines {A} (f : A -> list N) (o : option A) : list N :=
  match o with None => [] | Some x => f x end.
Definition sym_lines (s : symbol) : list N := sym_pos s :: opt_lines (fun p => [p]) (sym_type_pos s).
Definition pred_lines (p : predicate) : list N := pred_pos p :: flat_map sym_lines (pred_vars p).
Definition func_lines (p : func) : list N := func_pos p :: flat_map sym_lines (func_vars p).
Definition task_lines (p : task) : list N := task_pos p :: flat_map sym_lines (task_params p).
Fixpoint formula_lines (f : formula) : list N :=
  match f with
  | FEmpty | FEquals _ _ => []
  | FAtom p => pred_lines p
  | FNot g | FWeighted _ g => formula_lines g
  | FAnd fs | FOr fs | FXor fs => flat_map formula_lines fs
  | FImply ps qs => flat_map formula_lines ps ++ flat_map formula_lines qs
  | FExists v g | FForAll v g => flat_map sym_lines v ++ formula_lines g
  end.
Definition subtask_lines (s : subtask) : list N :=
  opt_lines sym_lines (sub_id s) ++ sym_lines (sub_task s) ++ flat_map sym_lines (sub_terms s).
Definition htn_lines (h : htn) : list N :=
  flat_map subtask_lines (htn_subtasks h) ++ opt_lines (fun p => [p]) (htn_ordering_pos h).
Definition method_lines (m : method) : list N :=
  sym_lines (m_name m) ++ sym_lines (m_task m) ++ flat_map sym_lines (m_task_terms m)
  ++ flat_map sym_lines (m_params m) ++ opt_lines formula_lines (m_pre m) ++ htn_lines (m_tn m).
Definition action_lines (a : action) : list N :=
  act_pos a :: flat_map sym_lines (act_params a) ++ opt_lines formula_lines (act_pre a)
  ++ opt_lines formula_lines (act_eff a).
Definition domain_lines (d : domain_ast) : list N :=
  opt_lines (flat_map sym_lines) (d_types d) ++ opt_lines (flat_map sym_lines) (d_constants d)
  ++ flat_map pred_lines (d_preds d) ++ flat_map func_lines (d_funcs d) ++ flat_map task_lines (d_tasks d)
  ++ flat_map method_lines (d_methods d) ++ flat_map action_lines (d_actions d).
Definition problem_lines (p : problem_ast) : list N :=
  flat_map sym_lines (p_objects p)
  ++ opt_lines (fun t => opt_lines (flat_map sym_lines) (itn_params t) ++ htn_lines (itn_tn t)) (p_init_tn p)
  ++ flat_map pred_lines (p_init p) ++ opt_lines formula_lines (p_goal p).
Definition ast_lines (a : ast) : list N :=
  match a with ADomain d => domain_lines d | AProblem p => problem_lines p end.

(** Lines carried by an error. *)
Definition sem_lines (e : sem_err) : list N :=
  match e with
  | DuplicateObject e | DuplicatePredicate e | DuplicateAction e | DuplicateCompoundTask e
  | DuplicateMethod e | DuplicateParameter e => [dup_first e; dup_second e]
  | DuplicateRequirement _ => []
  | UndefinedPredicate e | UndefinedType e | UndefinedSubtask e | UndefinedTask e
  | UndefinedParameter e | UndefinedObject e => [un_pos e]
  | InconsistentPredicateArity e | InconsistentTaskArity e => [ar_pos e]
  | InconsistentPredicateArgType e | InconsistentTaskArgType e => [ty_pos e]
  | CyclicType => []
  | CyclicOrdering p => [p]
  end.
Definition err_lines (e : parsing_error) : list N :=
  match e with
  | ELex e => [le_line e]
  | ESyn e => [se_line e]
  | ESem e => sem_lines e
  end.
