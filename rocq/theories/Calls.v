(** The parser, with a record of its calls to the tokenizer.

    Parser.v gives the result of each function of src/syntactic_analyzer; here
    every function is written down once more, word for word, over actions that
    also list the calls of [get_token] and [lookahead] made on the way, in
    order.  CallsProofs.v shows that the results are those of Parser.v. *)
From Coq Require Import String Ascii NArith ZArith Bool List.
From Verif Require Import Base Token Lexer Errors Ast Parser.
Import ListNotations.
Open Scope string_scope.
Open Scope list_scope.

(** One call of the tokenizer: [lookahead] (true) or [get_token] (false,
    tokenizer.rs 26-36), and the state of the tokenizer at the call. *)
Record call := mkCall { c_peek : bool; c_at : lstate }.

Definition T (A : Type) := lstate -> presult A * list call.
Definition tret {A} (a : A) : T A := fun st => (POk a st, []).
Definition tbind {A B} (m : T A) (k : A -> T B) : T B :=
  fun st => match m st with
            | (POk a st', l) => let '(r, l') := k a st' in (r, l ++ l')
            | (PErr e, l) => (PErr e, l)
            | (PPanic p, l) => (PPanic p, l)
            | (PFuel, l) => (PFuel, l)
            end.
Definition tfuel {A} : T A := fun _ => (PFuel, []).
Definition tpanic {A} (p : panic_site) : T A := fun _ => (PPanic p, []).

Declare Scope calls_scope.
Delimit Scope calls_scope with calls.
Notation "x <<- m ; k" := (tbind m (fun x => k))
  (at level 61, m at next level, right associativity) : calls_scope.
Open Scope calls_scope.

(** self.tokenizer.get_last_token_position() *)
Definition tpos : T N := fun st => (POk (line st) st, []).
Definition tsyn {A} (expected : string) (found : token) : T A :=
  fun st => (PErr (ESyn (mkSynErr expected found (line st))), []).

Section Calls.
Context `{Unicode}.

(** self.tokenizer.get_token()? *)
Definition tget : T token := fun st => (of_lex (get_token st), [mkCall false st]).
(** self.tokenizer.lookahead()? *)
Definition tpeek : T token := fun st => (of_lex (lookahead st), [mkCall true st]).

(** list_parser.rs 4-57.  The outer [loop] and the inner [while let] are one
    loop whose argument is the current [token]. *)
Fixpoint args_loop_tr (n : nat) (objects : list (string * N)) (result : list symbol)
         (tok : token) : T (list symbol) :=
  match n with
  | O => tfuel
  | S n' =>
    match tok with
    | TIdent s =>
      p <<- tpos; t <<- tget; args_loop_tr n' (objects ++ [(s, p)]) result t
    | TPunct Dash =>
      ty <<- tget; tp <<- tpos;
      match ty with
      | TIdent t =>
        next <<- tget;
        args_loop_tr n' [] (result ++ map (typed t tp) objects) next
      | other => tsyn "The type of objects" other
      end
    | TPunct RParen => tret (result ++ map plain objects)
    | other => tsyn "an identifier" other
    end
  end.
Definition parse_args_tr (fuel : nat) : T (list symbol) :=
  t <<- tget; args_loop_tr fuel [] [] t.

(** parser.rs 221-243. *)
Fixpoint parse_requirements_tr (n : nat) (acc : list requirement) : T (list requirement) :=
  match n with
  | O => tfuel
  | S n' =>
    t <<- tget;
    match t with
    | TReq r => parse_requirements_tr n' (acc ++ [r])
    | TPunct RParen => tret acc
    | other => tsyn "either a requirement or a ')'" other
    end
  end.

(** predicate_parser.rs 30-48. *)
Definition parse_predicate_definition_tr (fuel : nat) : T predicate :=
  t <<- tget;
  match t with
  | TIdent name => p <<- tpos; vars <<- parse_args_tr fuel; tret (mkPred name p vars)
  | other => tsyn "a predicate name" other
  end.

(** predicate_parser.rs 4-27. *)
Fixpoint parse_predicates_tr (fuel n : nat) (acc : list predicate) : T (list predicate) :=
  match n with
  | O => tfuel
  | S n' =>
    t <<- tget;
    match t with
    | TPunct LParen =>
      p <<- parse_predicate_definition_tr fuel; parse_predicates_tr fuel n' (acc ++ [p])
    | TPunct RParen => tret acc
    | other => tsyn "predicate definition" other
    end
  end.

(** function_parser.rs 30-46. *)
Definition parse_function_definition_tr (fuel : nat) : T func :=
  t <<- tget;
  match t with
  | TIdent name => p <<- tpos; vars <<- parse_args_tr fuel; tret (mkFunc name p vars)
  | other => tsyn "a function name" other
  end.

(** function_parser.rs 4-27. *)
Fixpoint parse_functions_tr (fuel n : nat) (acc : list func) : T (list func) :=
  match n with
  | O => tfuel
  | S n' =>
    t <<- tget;
    match t with
    | TPunct LParen =>
      f <<- parse_function_definition_tr fuel; parse_functions_tr fuel n' (acc ++ [f])
    | TPunct RParen => tret acc
    | other => tsyn "function definition" other
    end
  end.

(** formula_parser.rs 4-218.  [fuel] is for [parse_args]; [n] bounds the
    recursion depth and the iterations of the connective loops.
    [connective] is the loop of lines 31-38 / 43-50 / 55-62; [branches] is the
    loop of lines 157-185. *)
Fixpoint parse_formula_tr (fuel n : nat) {struct n} : T formula :=
  match n with
  | O => tfuel
  | S n' =>
    t <<- tget;
    match t with
    | TPunct RParen => tret FEmpty
    | TPunct LParen =>
      u <<- tget;
      match u with
      | TOp ONot =>
        f <<- parse_formula_tr fuel n';
        c <<- tget;
        match c with
        | TPunct RParen => tret (FNot f)
        | other => tsyn "closing the not operator with ')'" other
        end
      | TOp OAnd => fs <<- connective_tr fuel n' []; tret (FAnd fs)
      | TOp OXor => fs <<- connective_tr fuel n' []; tret (FXor fs)
      | TOp OOr => fs <<- connective_tr fuel n' []; tret (FOr fs)
      | TOp OEqual =>
        t1 <<- tget;
        match t1 with
        | TIdent p1 =>
          t2 <<- tget;
          match t2 with
          | TIdent p2 =>
            c <<- tget;
            match c with
            | TPunct RParen => tret (FEquals p1 p2)
            | other => tsyn "equality's closing parenthesis" other
            end
          | other => tsyn "right hand side of the equality" other
          end
        | other => tsyn "left hand side of the equality" other
        end
      | TOp OForAll =>
        t1 <<- tget;
        match t1 with
        | TPunct LParen =>
          params <<- parse_args_tr fuel;
          f <<- parse_formula_tr fuel n';
          c <<- tget;
          match c with
          | TPunct RParen => tret (FForAll params f)
          | other => tsyn "')' to close the forall statement" other
          end
        | other => tsyn "'(' after forall keyword" other
        end
      | TOp OExists =>
        t1 <<- tget;
        match t1 with
        | TPunct LParen =>
          params <<- parse_args_tr fuel;
          f <<- parse_formula_tr fuel n';
          c <<- tget;
          match c with
          | TPunct RParen => tret (FExists params f)
          | other => tsyn "')' to close the existential statement" other
          end
        | other => tsyn "'(' after existential quantification keyword" other
        end
      | TOp OProbabilistic => fs <<- branches_tr fuel n' []; tret (FAnd fs)
      | TIdent name =>
        p <<- tpos; vars <<- parse_args_tr fuel; tret (FAtom (mkPred name p vars))
      | TPunct RParen => tret FEmpty
      | other => tsyn "a boolean formula" other
      end
    | other => tsyn "a (potentially empty) boolean formula definition" other
    end
  end
with connective_tr (fuel n : nat) (acc : list formula) {struct n} : T (list formula) :=
  match n with
  | O => tfuel
  | S n' =>
    f <<- parse_formula_tr fuel n';
    match f with
    | FEmpty => tret acc
    | _ => connective_tr fuel n' (acc ++ [f])
    end
  end
with branches_tr (fuel n : nat) (acc : list formula) {struct n} : T (list formula) :=
  match n with
  | O => tfuel
  | S n' =>
    t <<- tget;
    match t with
    | TPunct RParen => tret acc
    | TNumber w =>
      f <<- parse_formula_tr fuel n';
      match f with
      | FEmpty => tsyn "a formula following the probability" (TPunct RParen)
      | _ => branches_tr fuel n' (acc ++ [FWeighted w f])
      end
    | other => tsyn "a probability or ')' to close the probabilistic block" other
    end
  end.

(** compound_task_parser.rs 4-45. *)
Definition parse_task_tr (fuel : nat) : T task :=
  t <<- tget;
  match t with
  | TIdent name =>
    p <<- tpos;
    u <<- tget;
    match u with
    | TKeyword KParameters =>
      v <<- tget;
      match v with
      | TPunct LParen => params <<- parse_args_tr fuel; tret (mkTask name p params)
      | other => tsyn "'(' after :parameters" other
      end
    | other =>
      tsyn ("a (potentially empty) list of parameters after defininig " ++ name) other
    end
  | other => tsyn "a task/action name (identifier)" other
  end.

(** action_parser.rs 4-67.  Line 33 also renders every effect (Display of
    Formula) and drops the string, which has no effect here; see FormulaText.v. *)
Definition parse_action_tr (fuel : nat) : T action :=
  t <<- parse_task_tr fuel;
  la <<- tpeek;
  pre <<- match la with
         | TKeyword KPrecondition =>
           _ <<- tget; f <<- parse_formula_tr fuel fuel; tret (Some f)
         | TKeyword KEffect | TPunct RParen => tret None
         | other => tsyn ("(potentially empty) preconditions of " ++ task_name t) other
         end;
  lb <<- tpeek;
  eff <<- match lb with
         | TKeyword KEffect =>
           _ <<- tget; f <<- parse_formula_tr fuel fuel; tret (Some f)
         | TPunct RParen => tret None
         | other => tsyn ("(potentially empty) effects of " ++ task_name t) other
         end;
  c <<- tget;
  match c with
  | TPunct RParen =>
    tret (mkAction (task_name t) (task_pos t) (task_params t) pre eff)
  | other => tsyn ("closing the scope of " ++ task_name t ++ " using ')'") other
  end.

(** init_tn_parser.rs 241-259 and 110-137: the task ids following [t1]; the
    two Rust loops differ in the error message only. *)
Fixpoint ordering_ids_tr (msg : string) (t1 : string) (n : nat)
         (acc : list (string * string)) : T (list (string * string)) :=
  match n with
  | O => tfuel
  | S n' =>
    t <<- tget;
    match t with
    | TIdent t2 => ordering_ids_tr msg t1 n' (acc ++ [(t1, t2)])
    | TPunct RParen => tret acc
    | other => tsyn msg other
    end
  end.

(** init_tn_parser.rs 237-278. *)
Definition parse_ordering_tr (fuel : nat) : T (list (string * string)) :=
  t <<- tget;
  match t with
  | TOp OLess =>
    u <<- tget;
    match u with
    | TIdent t1 => ordering_ids_tr ("the task ids that come after " ++ t1) t1 fuel []
    | other => tsyn "task identifier" other
    end
  | other => tsyn "character '<' to start an ordering constraint" other
  end.

(** init_tn_parser.rs 83-107. *)
Fixpoint ordering_conj_tr (fuel n : nat) (acc : list (string * string))
  : T (list (string * string)) :=
  match n with
  | O => tfuel
  | S n' =>
    t <<- tget;
    match t with
    | TPunct LParen => l <<- parse_ordering_tr fuel; ordering_conj_tr fuel n' (acc ++ l)
    | TPunct RParen => tret acc
    | other => tsyn "'('" other
    end
  end.

(** init_tn_parser.rs 80-171: the part after the keyword :ordering; [acc] is
    [orderings] so far. *)
Definition parse_orderings_tr (fuel : nat) (acc : list (string * string))
  : T (list (string * string)) :=
  t <<- tget;
  match t with
  | TPunct LParen =>
    u <<- tget;
    match u with
    | TOp OAnd => ordering_conj_tr fuel fuel acc
    | TOp OLess =>
      v <<- tget;
      match v with
      | TIdent t1 => ordering_ids_tr ("another task id after " ++ t1) t1 fuel acc
      | other => tsyn "expected a task identifier" other
      end
    | TPunct RParen => tret acc
    | other => tsyn "ordering constraints" other
    end
  | other => tsyn "'('" other
  end.

(** init_tn_parser.rs 359-406: terms of a subtask with an id, including the
    two closing parentheses. *)
Fixpoint id_subtask_terms_tr (id tsk : symbol) (n : nat) (acc : list symbol) : T subtask :=
  match n with
  | O => tfuel
  | S n' =>
    t <<- tget;
    match t with
    | TIdent s => p <<- tpos; id_subtask_terms_tr id tsk n' (acc ++ [plain (s, p)])
    | TPunct RParen =>
      c <<- tget;
      match c with
      | TPunct RParen => tret (mkSub (Some id) tsk acc)
      | other => tsyn ("')' to close the block of " ++ sym_name tsk) other
      end
    | other => tsyn "either a ')' or an identifier" other
    end
  end.

(** init_tn_parser.rs 425-452: remaining terms of a subtask without id;
    [last] is the variable [term] of line 418 (the inner [term] of line 427
    shadows it only inside its arm, so the message shows the first term). *)
Fixpoint plain_subtask_terms_tr (tsk : symbol) (first : string) (n : nat)
         (acc : list symbol) : T subtask :=
  match n with
  | O => tfuel
  | S n' =>
    t <<- tget;
    match t with
    | TIdent s => p <<- tpos; plain_subtask_terms_tr tsk first n' (acc ++ [plain (s, p)])
    | TPunct RParen => tret (mkSub None tsk acc)
    | other => tsyn ("either a term for " ++ first ++ ", or ')'") other
    end
  end.

(** init_tn_parser.rs 339-480. *)
Definition parse_subtask_tr (fuel : nat) : T subtask :=
  t <<- tget;
  match t with
  | TIdent id =>
    p <<- tpos;
    let id_symbol := plain (id, p) in
    u <<- tget;
    match u with
    | TPunct LParen =>
      v <<- tget;
      match v with
      | TIdent tsk =>
        q <<- tpos; id_subtask_terms_tr id_symbol (plain (tsk, q)) fuel []
      | other => tsyn ("a subtask name for " ++ id ++ "!=...") other
      end
    | TIdent term =>
      q <<- tpos; plain_subtask_terms_tr id_symbol term fuel [plain (term, q)]
    | TPunct RParen => tret (mkSub None id_symbol [])
    | other => tsyn "subtask definition" other
    end
  | other => tsyn "task id" other
  end.

(** init_tn_parser.rs 288-305. *)
Fixpoint subtasks_loop_tr (fuel n : nat) (acc : list subtask) : T (list subtask) :=
  match n with
  | O => tfuel
  | S n' =>
    t <<- tget;
    match t with
    | TPunct RParen => tret acc
    | TPunct LParen => s <<- parse_subtask_tr fuel; subtasks_loop_tr fuel n' (acc ++ [s])
    | other => tsyn "subtask declarations" other
    end
  end.

(** init_tn_parser.rs 280-336. *)
Definition parse_subtasks_tr (fuel : nat) : T (list subtask) :=
  t <<- tget;
  match t with
  | TPunct LParen =>
    la <<- tpeek;
    match la with
    | TOp OAnd => _ <<- tget; subtasks_loop_tr fuel fuel []
    | TIdent _ => s <<- parse_subtask_tr fuel; tret [s]
    | TPunct RParen => _ <<- tget; tret []
    | other => tsyn "subtask declarations" other
    end
  | other => tsyn "'('" other
  end.

(** init_tn_parser.rs 542-665. *)
Definition parse_constraint_tr : T constr :=
  t <<- tget;
  match t with
  | TOp ONot =>
    a <<- tget;
    match a with
    | TPunct LParen =>
      b <<- tget;
      match b with
      | TOp OEqual =>
        c <<- tget;
        match c with
        | TIdent t1 =>
          d <<- tget;
          match d with
          | TIdent t2 =>
            e <<- tget;
            match e with
            | TPunct RParen =>
              f <<- tget;
              match f with
              | TPunct RParen => tret (CNotEqual t1 t2)
              | other => tsyn ") to close the inequality constraint" other
              end
            | other => tsyn ") to close the inequality constraint" other
            end
          | other => tsyn ("right hand side of " ++ t1 ++ "!=...") other
          end
        | other => tsyn "task identifier" other
        end
      | other => tsyn "equality keyword '='" other
      end
    | other => tsyn "'(' after keyword 'not'" other
    end
  | TOp OEqual =>
    c <<- tget;
    match c with
    | TIdent t1 =>
      d <<- tget;
      match d with
      | TIdent t2 =>
        e <<- tget;
        match e with
        | TPunct RParen => tret (CEqual t1 t2)
        | other => tsyn ") to close the equality constraint" other
        end
      | other => tsyn ("right hand side of " ++ t1 ++ "=...") other
      end
    | other => tsyn "a task identifier" other
    end
  | other => tsyn "either an equalilty or non-equality constraint" other
  end.

(** init_tn_parser.rs 497-514. *)
Fixpoint constraints_loop_tr (n : nat) (acc : list constr) : T (list constr) :=
  match n with
  | O => tfuel
  | S n' =>
    t <<- tget;
    match t with
    | TPunct LParen => c <<- parse_constraint_tr; constraints_loop_tr n' (acc ++ [c])
    | TPunct RParen => tret acc
    | other => tsyn "a constraint definition" other
    end
  end.

(** init_tn_parser.rs 482-540. *)
Definition parse_constraints_tr (fuel : nat) : T (list constr) :=
  t <<- tget;
  match t with
  | TPunct LParen =>
    la <<- tpeek;
    match la with
    | TPunct RParen => _ <<- tget; tret []
    | TOp OAnd => _ <<- tget; constraints_loop_tr fuel []
    | TOp ONot | TOp OEqual => c <<- parse_constraint_tr; tret [c]
    | other => tsyn "constraint declerations" other
    end
  | other => tsyn "'('" other
  end.

(** init_tn_parser.rs 76-193: the loop after :subtasks. *)
Fixpoint htn_loop_tr (fuel n : nat) (subtasks : list subtask) (opos : option N)
         (ords : list (string * string)) (cons : option (list constr)) : T htn :=
  match n with
  | O => tfuel
  | S n' =>
    t <<- tget;
    match t with
    | TKeyword KOrdering =>
      p <<- tpos;
      ords' <<- parse_orderings_tr fuel ords;
      htn_loop_tr fuel n' subtasks (Some p) ords' cons
    | TKeyword KConstraints =>
      c <<- parse_constraints_tr fuel;
      htn_loop_tr fuel n' subtasks opos ords (Some c)
    | TPunct RParen => tret (mkHtn subtasks opos (Partial ords) cons)
    | other =>
      tsyn "the (potentially empty) ordering constraints of the task network" other
    end
  end.

(** init_tn_parser.rs 56-234.  Note that the empty network (line 63) and
    ordered subtasks with constraints (line 198) do not consume the closing
    parenthesis of the enclosing block. *)
Definition parse_htn_tr (fuel : nat) : T htn :=
  la <<- tpeek;
  match la with
  | TPunct RParen => tret (mkHtn [] None (Partial []) None)
  | _ =>
    t <<- tget;
    match t with
    | TKeyword KSubtasks =>
      subtasks <<- parse_subtasks_tr fuel;
      htn_loop_tr fuel fuel subtasks None [] None
    | TKeyword KOrderedSubtasks =>
      subtasks <<- parse_subtasks_tr fuel;
      u <<- tget;
      match u with
      | TKeyword KConstraints =>
        c <<- parse_constraints_tr fuel;
        tret (mkHtn subtasks None Total (Some c))
      | TPunct RParen => tret (mkHtn subtasks None Total None)
      | other => tsyn "closing ')' after task network definition" other
      end
    | other => tsyn ":subtasks or :ordered-subtasks keyword" other
    end
  end.

(** init_tn_parser.rs 4-54 (the [loop] never iterates twice). *)
Definition parse_initial_tn_tr (fuel : nat) : T init_tn :=
  la <<- tpeek;
  match la with
  | TKeyword KParameters =>
    _ <<- tget;
    t <<- tget;
    match t with
    | TPunct LParen =>
      params <<- parse_args_tr fuel;
      tn <<- parse_htn_tr fuel;
      tret (mkInit (Some params) tn)
    | other => tsyn "'(' afer keyword :parameters" other
    end
  | TKeyword KSubtasks | TKeyword KOrderedSubtasks =>
    tn <<- parse_htn_tr fuel; tret (mkInit None tn)
  | TPunct RParen => tret (mkInit None (mkHtn [] None (Partial []) None))
  | other => tsyn "expected the definition of the initial task network" other
  end.

(** method_parser.rs 4-135. *)
Definition parse_method_tr (fuel : nat) : T method :=
  t <<- tget;
  match t with
  | TIdent mname =>
    p <<- tpos;
    let name := plain (mname, p) in
    a <<- tget;
    match a with
    | TKeyword KParameters =>
      b <<- tget;
      match b with
      | TPunct LParen =>
        params <<- parse_args_tr fuel;
        c <<- tget;
        match c with
        | TKeyword KTask =>
          d <<- tget;
          match d with
          | TPunct LParen =>
            e <<- tget;
            match e with
            | TIdent tname =>
              q <<- tpos;
              let tsk := plain (tname, q) in
              terms <<- parse_args_tr fuel;
              la <<- tpeek;
              match la with
              | TKeyword KPrecondition =>
                _ <<- tget;
                pre <<- parse_formula_tr fuel fuel;
                tn <<- parse_htn_tr fuel;
                tret (mkMethod name tsk terms params (Some pre) tn)
              | TKeyword KSubtasks | TKeyword KOrderedSubtasks =>
                tn <<- parse_htn_tr fuel;
                tret (mkMethod name tsk terms params None tn)
              | other =>
                tsyn ("Either preconditions for " ++ mname ++ " or its decomposition") other
              end
            | other => tsyn ("The task that method " ++ mname ++ " decomposes") other
            end
          | other => tsyn "'(' after keyword :task" other
          end
        | other => tsyn "keyword :task" other
        end
      | other => tsyn "'(' after keyword :parameters" other
      end
    | other => tsyn ("The parameters of method " ++ mname ++ " ") other
    end
  | other => tsyn "method name" other
  end.

(** domain_parser/router.rs 4-103. *)
Fixpoint parse_domain_tr (fuel n : nat) (d : domain_ast) : T domain_ast :=
  match n with
  | O => tfuel
  | S n' =>
    t <<- tget;
    match t with
    | TPunct LParen =>
      u <<- tget;
      match u with
      | TKeyword KPredicates =>
        l <<- parse_predicates_tr fuel fuel []; parse_domain_tr fuel n' (add_preds d l)
      | TKeyword KFunctions =>
        l <<- parse_functions_tr fuel fuel []; parse_domain_tr fuel n' (add_funcs d l)
      | TKeyword KTask =>
        tk <<- parse_task_tr fuel;
        c <<- tget;
        match c with
        | TPunct RParen => parse_domain_tr fuel n' (add_task d tk)
        | other => tsyn ("')' after definition of " ++ task_name tk) other
        end
      | TKeyword KMethod =>
        m <<- parse_method_tr fuel; parse_domain_tr fuel n' (add_method d m)
      | TKeyword KAction =>
        a <<- parse_action_tr fuel; parse_domain_tr fuel n' (add_action d a)
      | TKeyword KRequirements =>
        l <<- parse_requirements_tr fuel []; parse_domain_tr fuel n' (add_reqs d l)
      | TKeyword KTypes =>
        l <<- parse_args_tr fuel; parse_domain_tr fuel n' (add_types d l)
      | TKeyword KConstants =>
        l <<- parse_args_tr fuel; parse_domain_tr fuel n' (add_constants d l)
      | other => tsyn "a keyword" other
      end
    | TPunct RParen => tret d
    | other =>
      tsyn ("either ')' to close the definition of " ++ d_name d
           ++ ", or '(' to start defining new components") other
    end
  end.

(** problem_parser/router.rs 4-74.  After a goal formula the closing
    parenthesis of the :goal block is read by the next iteration, which ends
    the problem. *)
Fixpoint parse_problem_tr (fuel n : nat) (p : problem_ast) : T problem_ast :=
  match n with
  | O => tfuel
  | S n' =>
    t <<- tget;
    match t with
    | TPunct LParen =>
      u <<- tget;
      match u with
      | TKeyword KRequirements =>
        l <<- parse_requirements_tr fuel []; parse_problem_tr fuel n' (p_add_reqs p l)
      | TKeyword KObjects =>
        l <<- parse_args_tr fuel;
        match rebuild_objects l with
        | Some l' => parse_problem_tr fuel n' (p_add_objects p l')
        | None => tpanic PanicUnwrap
        end
      | TKeyword KHTN =>
        tn <<- parse_initial_tn_tr fuel; parse_problem_tr fuel n' (p_set_init_tn p tn)
      | TKeyword KGoal =>
        f <<- parse_formula_tr fuel fuel; parse_problem_tr fuel n' (p_set_goal p f)
      | TKeyword KInit =>
        l <<- parse_predicates_tr fuel fuel []; parse_problem_tr fuel n' (p_set_init p l)
      | other => tsyn "a keyword for block definition" other
      end
    | TEOF | TPunct RParen => tret p
    | _ => tpanic PanicProblemToken
    end
  end.

(** parser.rs 104-131. *)
Definition parse_domain_header_tr : T definition_type :=
  t <<- tget;
  match t with
  | TIdent name =>
    c <<- tget;
    match c with
    | TPunct RParen => tret (DefDomain name)
    | other => tsyn "')'" other
    end
  | other => tsyn "domain name" other
  end.

(** parser.rs 133-219. *)
Definition parse_problem_header_tr : T definition_type :=
  t <<- tget;
  match t with
  | TIdent pname =>
    a <<- tget;
    match a with
    | TPunct RParen =>
      b <<- tget;
      match b with
      | TPunct LParen =>
        c <<- tget;
        match c with
        | TKeyword KDomain =>
          d <<- tget;
          match d with
          | TIdent dname =>
            e <<- tget;
            match e with
            | TPunct RParen => tret (DefProblem pname dname)
            | other =>
              tsyn ("the block of the definition of problem '" ++ pname
                   ++ "' is not closed with ')'") other
            end
          | other => tsyn "domain name" other
          end
        | other => tsyn "keyword 'domain'" other
        end
      | other => tsyn "'('" other
      end
    | other => tsyn "')'" other
    end
  | other => tsyn "problem name" other
  end.

(** parser.rs 58-102. *)
Definition parse_document_type_tr : T definition_type :=
  t <<- tget;
  match t with
  | TKeyword KDefine =>
    u <<- tget;
    match u with
    | TPunct LParen =>
      v <<- tget;
      match v with
      | TKeyword KDomain => parse_domain_header_tr
      | TKeyword KProblem => parse_problem_header_tr
      | other => tsyn "either keyword 'domain' or 'problem'" other
      end
    | other => tsyn "'(' after keyword 'define'" other
    end
  | other => tsyn "keyword 'define'" other
  end.

(** parser.rs 13-38. *)
Definition parse_doc_tr (fuel : nat) : T ast :=
  t <<- tget;
  match t with
  | TPunct LParen =>
    dt <<- parse_document_type_tr;
    match dt with
    | DefDomain name => d <<- parse_domain_tr fuel fuel (new_domain name); tret (ADomain d)
    | DefProblem _ _ => p <<- parse_problem_tr fuel fuel new_problem; tret (AProblem p)
    end
  | other => tsyn "start of the file with '('" other
  end.

(** Parser::new(LexicalAnalyzer::new(program)).parse(): the outcome and all
    calls made, also when parsing fails. *)
Definition parse_calls (fuel : nat) (program : string) : outcome ast * list call :=
  match parse_doc_tr fuel (lex_new program) with
  | (POk a _, l) => (Ok a, l)
  | (PErr e, l) => (Err e, l)
  | (PPanic p, l) => (Panic p, l)
  | (PFuel, l) => (OutOfFuel, l)
  end.

End Calls.
