(** Abstract syntax: src/syntactic_analyzer/syntax_tree.  A [TokenPosition]
    is its line number. *)
From Coq Require Import String Ascii NArith ZArith Bool List.
From Verif Require Import Base Token.
Import ListNotations.
Open Scope list_scope.

(** nodes/symbol.rs 7-15. *)
Record symbol := mkSym {
  sym_name : string;
  sym_pos : N;
  sym_type : option string;
  sym_type_pos : option N
}.

(** nodes/predicate.rs 9-14. *)
Record predicate := mkPred {
  pred_name : string;
  pred_pos : N;
  pred_vars : list symbol
}.

(** nodes/formula.rs 9-27. *)
Inductive formula :=
| FEmpty
| FAtom (p : predicate)
| FNot (f : formula)
| FAnd (fs : list formula)
| FOr (fs : list formula)
| FXor (fs : list formula)
| FImply (ps qs : list formula)
| FExists (vars : list symbol) (f : formula)
| FForAll (vars : list symbol) (f : formula)
| FWeighted (w : number) (f : formula)
| FEquals (a b : string).

(** nodes/task.rs 9-14. *)
Record task := mkTask {
  task_name : string;
  task_pos : N;
  task_params : list symbol
}.

(** nodes/action.rs 10-17. *)
Record action := mkAction {
  act_name : string;
  act_pos : N;
  act_params : list symbol;
  act_pre : option formula;
  act_eff : option formula
}.

(** nodes/function.rs 6-11. *)
Record func := mkFunc {
  func_name : string;
  func_pos : N;
  func_vars : list symbol
}.

(** nodes/htn.rs 23-28. *)
Record subtask := mkSub {
  sub_id : option symbol;
  sub_task : symbol;
  sub_terms : list symbol
}.

(** nodes/htn.rs 31-35. *)
Inductive constr := CEqual (a b : string) | CNotEqual (a b : string).

(** nodes/htn.rs 37-41. *)
Inductive ordering := Total | Partial (l : list (string * string)).

(** nodes/htn.rs 15-21. *)
Record htn := mkHtn {
  htn_subtasks : list subtask;
  htn_ordering_pos : option N;
  htn_orderings : ordering;
  htn_constraints : option (list constr)
}.

(** nodes/htn.rs 9-13. *)
Record init_tn := mkInit {
  itn_params : option (list symbol);
  itn_tn : htn
}.

(** nodes/method.rs 8-16. *)
Record method := mkMethod {
  m_name : symbol;
  m_task : symbol;
  m_task_terms : list symbol;
  m_params : list symbol;
  m_pre : option formula;
  m_tn : htn
}.

(** domain.rs 3-14. *)
Record domain_ast := mkDomain {
  d_name : string;
  d_types : option (list symbol);
  d_constants : option (list symbol);
  d_reqs : list requirement;
  d_preds : list predicate;
  d_tasks : list task;
  d_methods : list method;
  d_actions : list action;
  d_funcs : list func
}.

(** problem.rs 4-11. *)
Record problem_ast := mkProblem {
  p_reqs : list requirement;
  p_init_tn : option init_tn;
  p_init : list predicate;
  p_goal : option formula;
  p_objects : list symbol
}.

(** generic.rs 3-8. *)
Inductive ast := ADomain (d : domain_ast) | AProblem (p : problem_ast).

(** domain.rs 17-29. *)
Definition new_domain (name : string) : domain_ast :=
  mkDomain name None None [] [] [] [] [] [].
(** problem.rs 14-22. *)
Definition new_problem : problem_ast := mkProblem [] None [] None [].

(** domain.rs 31-75 and problem.rs 23-42, applied to whole lists: pushing the
    elements of [l] one by one appends [l]; for the optional vectors, [None]
    becomes [Some] only when something is pushed. *)
Definition push_opt {A} (o : option (list A)) (l : list A) : option (list A) :=
  match l, o with
  | [], _ => o
  | _, Some old => Some (old ++ l)
  | _, None => Some l
  end.

Definition add_reqs (d : domain_ast) l :=
  mkDomain (d_name d) (d_types d) (d_constants d) (d_reqs d ++ l) (d_preds d)
           (d_tasks d) (d_methods d) (d_actions d) (d_funcs d).
Definition add_types (d : domain_ast) l :=
  mkDomain (d_name d) (push_opt (d_types d) l) (d_constants d) (d_reqs d) (d_preds d)
           (d_tasks d) (d_methods d) (d_actions d) (d_funcs d).
Definition add_constants (d : domain_ast) l :=
  mkDomain (d_name d) (d_types d) (push_opt (d_constants d) l) (d_reqs d) (d_preds d)
           (d_tasks d) (d_methods d) (d_actions d) (d_funcs d).
Definition add_preds (d : domain_ast) l :=
  mkDomain (d_name d) (d_types d) (d_constants d) (d_reqs d) (d_preds d ++ l)
           (d_tasks d) (d_methods d) (d_actions d) (d_funcs d).
Definition add_task (d : domain_ast) t :=
  mkDomain (d_name d) (d_types d) (d_constants d) (d_reqs d) (d_preds d)
           (d_tasks d ++ [t]) (d_methods d) (d_actions d) (d_funcs d).
Definition add_method (d : domain_ast) m :=
  mkDomain (d_name d) (d_types d) (d_constants d) (d_reqs d) (d_preds d)
           (d_tasks d) (d_methods d ++ [m]) (d_actions d) (d_funcs d).
Definition add_action (d : domain_ast) a :=
  mkDomain (d_name d) (d_types d) (d_constants d) (d_reqs d) (d_preds d)
           (d_tasks d) (d_methods d) (d_actions d ++ [a]) (d_funcs d).
Definition add_funcs (d : domain_ast) l :=
  mkDomain (d_name d) (d_types d) (d_constants d) (d_reqs d) (d_preds d)
           (d_tasks d) (d_methods d) (d_actions d) (d_funcs d ++ l).

Definition p_add_reqs (p : problem_ast) l :=
  mkProblem (p_reqs p ++ l) (p_init_tn p) (p_init p) (p_goal p) (p_objects p).
Definition p_add_objects (p : problem_ast) l :=
  mkProblem (p_reqs p) (p_init_tn p) (p_init p) (p_goal p) (p_objects p ++ l).
Definition p_set_init_tn (p : problem_ast) tn :=
  mkProblem (p_reqs p) (Some tn) (p_init p) (p_goal p) (p_objects p).
Definition p_set_init (p : problem_ast) l :=
  mkProblem (p_reqs p) (p_init_tn p) l (p_goal p) (p_objects p).
Definition p_set_goal (p : problem_ast) f :=
  mkProblem (p_reqs p) (p_init_tn p) (p_init p) (Some f) (p_objects p).

(** nodes/formula.rs 30-61. *)
Fixpoint prop_preds (f : formula) : list predicate :=
  match f with
  | FEmpty => []
  | FAtom p => [p]
  | FNot g => prop_preds g
  | FAnd fs | FOr fs | FXor fs => flat_map prop_preds fs
  | FImply ps qs => flat_map prop_preds ps ++ flat_map prop_preds qs
  | FWeighted _ g => prop_preds g
  | FEquals _ _ => []
  | FForAll _ _ | FExists _ _ => []
  end.
