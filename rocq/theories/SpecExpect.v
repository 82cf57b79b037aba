(** Specification for C59: what the expectation quoted in a syntax error says, in
    terms of tokens. *)
From Coq Require Import String NArith List.
From Verif Require Import Base Token Lexer LexProofs2.
Import ListNotations.
Open Scope string_scope.

(** What a message can name: one token, or a class of tokens. *)
Inductive what := One (t : token) | Identifier | Probability | Requirement.
Definition covers (w : what) (t : token) : Prop :=
  match w with
  | One u => t = u
  | Identifier => exists s, t = TIdent s
  | Probability => exists n, t = TNumber n
  | Requirement => exists r, t = TReq r
  end.
Definition named (l : list what) (t : token) : Prop := exists w, In w l /\ covers w t.

(** Does the message name all that may stand there, or some of it? *)
Inductive extent := All | Some_of.

Definition open_ := One (TPunct LParen).
Definition close_ := One (TPunct RParen).
Definition kw (k : keyword) := One (TKeyword k).
Definition formula_starts : list what :=
  [One (TOp ONot); One (TOp OAnd); One (TOp OXor); One (TOp OOr); One (TOp OEqual); One (TOp OForAll);
   One (TOp OExists); One (TOp OProbabilistic); Identifier].

(** The messages, as an English reader understands them.  [x] is a name taken
    from the document. *)
Inductive phrase : string -> list what -> extent -> Prop :=
(* documents *)
| ph_start : phrase "start of the file with '('" [open_] All
| ph_define : phrase "keyword 'define'" [kw KDefine] All
| ph_after_define : phrase "'(' after keyword 'define'" [open_] All
| ph_kind : phrase "either keyword 'domain' or 'problem'" [kw KDomain; kw KProblem] All
| ph_domain_name : phrase "domain name" [Identifier] All
| ph_problem_name : phrase "problem name" [Identifier] All
| ph_close : phrase "')'" [close_] All
| ph_open : phrase "'('" [open_] Some_of
| ph_kdomain : phrase "keyword 'domain'" [kw KDomain] All
| ph_problem_close x : phrase ("the block of the definition of problem '" ++ x ++ "' is not closed with ')'") [close_] All
| ph_parts x : phrase ("either ')' to close the definition of " ++ x ++ ", or '(' to start defining new components")
    [close_; open_] All
| ph_domain_keyword : phrase "a keyword"
    [kw KPredicates; kw KFunctions; kw KTask; kw KMethod; kw KAction; kw KRequirements; kw KTypes; kw KConstants] All
| ph_problem_keyword : phrase "a keyword for block definition"
    [kw KRequirements; kw KObjects; kw KHTN; kw KGoal; kw KInit] All
| ph_requirement : phrase "either a requirement or a ')'" [Requirement; close_] All
(* lists of symbols, predicates, functions *)
| ph_identifier : phrase "an identifier" [Identifier] Some_of
| ph_type : phrase "The type of objects" [Identifier] All
| ph_predicate_name : phrase "a predicate name" [Identifier] All
| ph_predicate : phrase "predicate definition" [open_] Some_of
| ph_function_name : phrase "a function name" [Identifier] All
| ph_function : phrase "function definition" [open_] Some_of
(* formulas *)
| ph_formula : phrase "a (potentially empty) boolean formula definition" [open_] Some_of
| ph_formula_start : phrase "a boolean formula" formula_starts Some_of
| ph_not_close : phrase "closing the not operator with ')'" [close_] All
| ph_eq_left : phrase "left hand side of the equality" [Identifier] All
| ph_eq_right : phrase "right hand side of the equality" [Identifier] All
| ph_eq_close : phrase "equality's closing parenthesis" [close_] All
| ph_forall : phrase "'(' after forall keyword" [open_] All
| ph_forall_close : phrase "')' to close the forall statement" [close_] All
| ph_exists : phrase "'(' after existential quantification keyword" [open_] All
| ph_exists_close : phrase "')' to close the existential statement" [close_] All
| ph_probability : phrase "a probability or ')' to close the probabilistic block" [Probability; close_] All
(* directly after the probability, and after a '(' that was closed at once *)
| ph_weighted : phrase "a formula following the probability" [open_] Some_of
| ph_weighted_start : phrase "a formula following the probability" formula_starts Some_of
(* tasks, actions *)
| ph_task_name : phrase "a task/action name (identifier)" [Identifier] All
| ph_parameters x : phrase ("a (potentially empty) list of parameters after defininig " ++ x) [kw KParameters] All
| ph_after_parameters : phrase "'(' after :parameters" [open_] All
| ph_task_close x : phrase ("')' after definition of " ++ x) [close_] All
| ph_preconditions x : phrase ("(potentially empty) preconditions of " ++ x) [kw KPrecondition] Some_of
| ph_effects x : phrase ("(potentially empty) effects of " ++ x) [kw KEffect] Some_of
| ph_action_close x : phrase ("closing the scope of " ++ x ++ " using ')'") [close_] All
(* methods *)
| ph_method_name : phrase "method name" [Identifier] All
| ph_method_parameters x : phrase ("The parameters of method " ++ x ++ " ") [kw KParameters] All
| ph_method_after_parameters : phrase "'(' after keyword :parameters" [open_] All
| ph_method_task : phrase "keyword :task" [kw KTask] All
| ph_method_after_task : phrase "'(' after keyword :task" [open_] All
| ph_method_decomposes x : phrase ("The task that method " ++ x ++ " decomposes") [Identifier] All
| ph_method_body x : phrase ("Either preconditions for " ++ x ++ " or its decomposition")
    [kw KPrecondition; kw KSubtasks; kw KOrderedSubtasks] All
(* task networks *)
| ph_initial : phrase "expected the definition of the initial task network"
    [kw KParameters; kw KSubtasks; kw KOrderedSubtasks] Some_of
| ph_initial_parameters : phrase "'(' afer keyword :parameters" [open_] All
| ph_subtasks : phrase ":subtasks or :ordered-subtasks keyword" [kw KSubtasks; kw KOrderedSubtasks] Some_of
| ph_network_close : phrase "closing ')' after task network definition" [close_] Some_of
| ph_network_order : phrase "the (potentially empty) ordering constraints of the task network" [kw KOrdering] Some_of
| ph_declarations : phrase "subtask declarations" [open_] Some_of
| ph_declarations_start : phrase "subtask declarations" [One (TOp OAnd); Identifier] Some_of
| ph_task_id : phrase "task id" [Identifier] All
| ph_subtask : phrase "subtask definition" [open_; Identifier; close_] All
| ph_subtask_name x : phrase ("a subtask name for " ++ x ++ "!=...") [Identifier] All
| ph_subtask_terms : phrase "either a ')' or an identifier" [close_; Identifier] All
| ph_subtask_close x : phrase ("')' to close the block of " ++ x) [close_] All
| ph_subtask_term x : phrase ("either a term for " ++ x ++ ", or ')'") [Identifier; close_] All
(* ordering constraints *)
| ph_orders : phrase "ordering constraints" [One (TOp OAnd); One (TOp OLess)] Some_of
| ph_order_first : phrase "expected a task identifier" [Identifier] All
| ph_order_second x : phrase ("another task id after " ++ x) [Identifier] Some_of
| ph_less : phrase "character '<' to start an ordering constraint" [One (TOp OLess)] All
| ph_task_identifier : phrase "task identifier" [Identifier] All
| ph_order_after x : phrase ("the task ids that come after " ++ x) [Identifier] Some_of
(* equality constraints *)
| ph_constraints : phrase "constraint declerations" [One (TOp OAnd); One (TOp ONot); One (TOp OEqual)] Some_of
| ph_constraint : phrase "a constraint definition" [open_] Some_of
| ph_constraint_start : phrase "either an equalilty or non-equality constraint" [One (TOp ONot); One (TOp OEqual)] All
| ph_after_not : phrase "'(' after keyword 'not'" [open_] All
| ph_equality : phrase "equality keyword '='" [One (TOp OEqual)] All
| ph_a_task_identifier : phrase "a task identifier" [Identifier] All
| ph_unequal_right x : phrase ("right hand side of " ++ x ++ "!=...") [Identifier] All
| ph_equal_right x : phrase ("right hand side of " ++ x ++ "=...") [Identifier] All
| ph_unequal_close : phrase ") to close the inequality constraint" [close_] All
| ph_equal_close : phrase ") to close the equality constraint" [close_] All.

Section Spec.
Context `{Unicode}.
(** Tokens the tokenizer can deliver. *)
Definition writable (t : token) : Prop := exists text l st, Reads (lex_new text) [(t, l)] st.
End Spec.
