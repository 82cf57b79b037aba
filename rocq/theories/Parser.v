(** The recursive-descent parser: src/syntactic_analyzer.

    Every loop of the Rust code is a structurally recursive function on its
    own fuel counter; [fuel] bounds the iterations of each single loop (and
    the recursion depth of [parse_formula]). *)
From Coq Require Import String Ascii NArith ZArith Bool List.
From Verif Require Import Base Token Lexer Errors Ast.
Import ListNotations.
Open Scope string_scope.
Open Scope list_scope.

(** A parser action: reads the tokenizer state, returns an outcome and the
    state reached (the state after a failure is never observed). *)
Inductive presult (A : Type) :=
| POk (a : A) (st : lstate)
| PErr (e : parsing_error)
| PPanic (p : panic_site)
| PFuel.
Arguments POk {A} a st.
Arguments PErr {A} e.
Arguments PPanic {A} p.
Arguments PFuel {A}.

Definition P (A : Type) := lstate -> presult A.
Definition ret {A} (a : A) : P A := fun st => POk a st.
Definition bind {A B} (m : P A) (k : A -> P B) : P B :=
  fun st => match m st with
            | POk a st' => k a st'
            | PErr e => PErr e
            | PPanic p => PPanic p
            | PFuel => PFuel
            end.
Definition pfuel {A} : P A := fun _ => PFuel.
Definition ppanic {A} (p : panic_site) : P A := fun _ => PPanic p.

Declare Scope parser_scope.
Delimit Scope parser_scope with parser.
Notation "x <- m ; k" := (bind m (fun x => k))
  (at level 61, m at next level, right associativity) : parser_scope.
Open Scope parser_scope.

(** A tokenizer call followed by [?]. *)
Definition of_lex (r : lex_out * lstate) : presult token :=
  match r with
  | (LTok t, st) => POk t st
  | (LErr e, _) => PErr (ELex e)
  | (LPanic p, _) => PPanic p
  | (LFuel, _) => PFuel
  end.

(** self.tokenizer.get_last_token_position() *)
Definition pos : P N := fun st => POk (line st) st.

(** Err(ParsingError::Syntactic(SyntacticError { expected, found, position }))
    with the position of the last token. *)
Definition syn {A} (expected : string) (found : token) : P A :=
  fun st => PErr (ESyn (mkSynErr expected found (line st))).

Section Parser.
Context `{Unicode}.

(** self.tokenizer.get_token()? *)
Definition get : P token := fun st => of_lex (get_token st).
(** self.tokenizer.lookahead()? *)
Definition peek : P token := fun st => of_lex (lookahead st).

(** A symbol without type: Symbol::new(name, pos, None, None). *)
Definition plain (x : string * N) : symbol := mkSym (fst x) (snd x) None None.
(** Symbol::new(name, pos, Some(t), Some(type_pos)). *)
Definition typed (t : string) (tp : N) (x : string * N) : symbol :=
  mkSym (fst x) (snd x) (Some t) (Some tp).

(** list_parser.rs 4-57.  The outer [loop] and the inner [while let] are one
    loop whose argument is the current [token]. *)
Fixpoint args_loop (n : nat) (objects : list (string * N)) (result : list symbol)
         (tok : token) : P (list symbol) :=
  match n with
  | O => pfuel
  | S n' =>
    match tok with
    | TIdent s =>
      p <- pos; t <- get; args_loop n' (objects ++ [(s, p)]) result t
    | TPunct Dash =>
      ty <- get; tp <- pos;
      match ty with
      | TIdent t =>
        next <- get;
        args_loop n' [] (result ++ map (typed t tp) objects) next
      | other => syn "The type of objects" other
      end
    | TPunct RParen => ret (result ++ map plain objects)
    | other => syn "an identifier" other
    end
  end.
Definition parse_args (fuel : nat) : P (list symbol) :=
  t <- get; args_loop fuel [] [] t.

(** parser.rs 221-243. *)
Fixpoint parse_requirements (n : nat) (acc : list requirement) : P (list requirement) :=
  match n with
  | O => pfuel
  | S n' =>
    t <- get;
    match t with
    | TReq r => parse_requirements n' (acc ++ [r])
    | TPunct RParen => ret acc
    | other => syn "either a requirement or a ')'" other
    end
  end.

(** predicate_parser.rs 30-48. *)
Definition parse_predicate_definition (fuel : nat) : P predicate :=
  t <- get;
  match t with
  | TIdent name => p <- pos; vars <- parse_args fuel; ret (mkPred name p vars)
  | other => syn "a predicate name" other
  end.

(** predicate_parser.rs 4-27. *)
Fixpoint parse_predicates (fuel n : nat) (acc : list predicate) : P (list predicate) :=
  match n with
  | O => pfuel
  | S n' =>
    t <- get;
    match t with
    | TPunct LParen =>
      p <- parse_predicate_definition fuel; parse_predicates fuel n' (acc ++ [p])
    | TPunct RParen => ret acc
    | other => syn "predicate definition" other
    end
  end.

(** function_parser.rs 30-46. *)
Definition parse_function_definition (fuel : nat) : P func :=
  t <- get;
  match t with
  | TIdent name => p <- pos; vars <- parse_args fuel; ret (mkFunc name p vars)
  | other => syn "a function name" other
  end.

(** function_parser.rs 4-27. *)
Fixpoint parse_functions (fuel n : nat) (acc : list func) : P (list func) :=
  match n with
  | O => pfuel
  | S n' =>
    t <- get;
    match t with
    | TPunct LParen =>
      f <- parse_function_definition fuel; parse_functions fuel n' (acc ++ [f])
    | TPunct RParen => ret acc
    | other => syn "function definition" other
    end
  end.

(** formula_parser.rs 4-218.  [fuel] is for [parse_args]; [n] bounds the
    recursion depth and the iterations of the connective loops.
    [connective] is the loop of lines 31-38 / 43-50 / 55-62; [branches] is the
    loop of lines 157-185. *)
Fixpoint parse_formula (fuel n : nat) {struct n} : P formula :=
  match n with
  | O => pfuel
  | S n' =>
    t <- get;
    match t with
    | TPunct RParen => ret FEmpty
    | TPunct LParen =>
      u <- get;
      match u with
      | TOp ONot =>
        f <- parse_formula fuel n';
        c <- get;
        match c with
        | TPunct RParen => ret (FNot f)
        | other => syn "closing the not operator with ')'" other
        end
      | TOp OAnd => fs <- connective fuel n' []; ret (FAnd fs)
      | TOp OXor => fs <- connective fuel n' []; ret (FXor fs)
      | TOp OOr => fs <- connective fuel n' []; ret (FOr fs)
      | TOp OEqual =>
        t1 <- get;
        match t1 with
        | TIdent p1 =>
          t2 <- get;
          match t2 with
          | TIdent p2 =>
            c <- get;
            match c with
            | TPunct RParen => ret (FEquals p1 p2)
            | other => syn "equality's closing parenthesis" other
            end
          | other => syn "right hand side of the equality" other
          end
        | other => syn "left hand side of the equality" other
        end
      | TOp OForAll =>
        t1 <- get;
        match t1 with
        | TPunct LParen =>
          params <- parse_args fuel;
          f <- parse_formula fuel n';
          c <- get;
          match c with
          | TPunct RParen => ret (FForAll params f)
          | other => syn "')' to close the forall statement" other
          end
        | other => syn "'(' after forall keyword" other
        end
      | TOp OExists =>
        t1 <- get;
        match t1 with
        | TPunct LParen =>
          params <- parse_args fuel;
          f <- parse_formula fuel n';
          c <- get;
          match c with
          | TPunct RParen => ret (FExists params f)
          | other => syn "')' to close the existential statement" other
          end
        | other => syn "'(' after existential quantification keyword" other
        end
      | TOp OProbabilistic => fs <- branches fuel n' []; ret (FAnd fs)
      | TIdent name =>
        p <- pos; vars <- parse_args fuel; ret (FAtom (mkPred name p vars))
      | TPunct RParen => ret FEmpty
      | other => syn "a boolean formula" other
      end
    | other => syn "a (potentially empty) boolean formula definition" other
    end
  end
with connective (fuel n : nat) (acc : list formula) {struct n} : P (list formula) :=
  match n with
  | O => pfuel
  | S n' =>
    f <- parse_formula fuel n';
    match f with
    | FEmpty => ret acc
    | _ => connective fuel n' (acc ++ [f])
    end
  end
with branches (fuel n : nat) (acc : list formula) {struct n} : P (list formula) :=
  match n with
  | O => pfuel
  | S n' =>
    t <- get;
    match t with
    | TPunct RParen => ret acc
    | TNumber w =>
      f <- parse_formula fuel n';
      match f with
      | FEmpty => syn "a formula following the probability" (TPunct RParen)
      | _ => branches fuel n' (acc ++ [FWeighted w f])
      end
    | other => syn "a probability or ')' to close the probabilistic block" other
    end
  end.

(** compound_task_parser.rs 4-45. *)
Definition parse_task (fuel : nat) : P task :=
  t <- get;
  match t with
  | TIdent name =>
    p <- pos;
    u <- get;
    match u with
    | TKeyword KParameters =>
      v <- get;
      match v with
      | TPunct LParen => params <- parse_args fuel; ret (mkTask name p params)
      | other => syn "'(' after :parameters" other
      end
    | other =>
      syn ("a (potentially empty) list of parameters after defininig " ++ name) other
    end
  | other => syn "a task/action name (identifier)" other
  end.

(** action_parser.rs 4-67.  Line 33 also renders every effect (Display of
    Formula) and drops the string, which has no effect here; see FormulaText.v. *)
Definition parse_action (fuel : nat) : P action :=
  t <- parse_task fuel;
  la <- peek;
  pre <- match la with
         | TKeyword KPrecondition =>
           _ <- get; f <- parse_formula fuel fuel; ret (Some f)
         | TKeyword KEffect | TPunct RParen => ret None
         | other => syn ("(potentially empty) preconditions of " ++ task_name t) other
         end;
  lb <- peek;
  eff <- match lb with
         | TKeyword KEffect =>
           _ <- get; f <- parse_formula fuel fuel; ret (Some f)
         | TPunct RParen => ret None
         | other => syn ("(potentially empty) effects of " ++ task_name t) other
         end;
  c <- get;
  match c with
  | TPunct RParen =>
    ret (mkAction (task_name t) (task_pos t) (task_params t) pre eff)
  | other => syn ("closing the scope of " ++ task_name t ++ " using ')'") other
  end.

(** init_tn_parser.rs 241-259 and 110-137: the task ids following [t1]; the
    two Rust loops differ in the error message only. *)
Fixpoint ordering_ids (msg : string) (t1 : string) (n : nat)
         (acc : list (string * string)) : P (list (string * string)) :=
  match n with
  | O => pfuel
  | S n' =>
    t <- get;
    match t with
    | TIdent t2 => ordering_ids msg t1 n' (acc ++ [(t1, t2)])
    | TPunct RParen => ret acc
    | other => syn msg other
    end
  end.

(** init_tn_parser.rs 237-278. *)
Definition parse_ordering (fuel : nat) : P (list (string * string)) :=
  t <- get;
  match t with
  | TOp OLess =>
    u <- get;
    match u with
    | TIdent t1 => ordering_ids ("the task ids that come after " ++ t1) t1 fuel []
    | other => syn "task identifier" other
    end
  | other => syn "character '<' to start an ordering constraint" other
  end.

(** init_tn_parser.rs 83-107. *)
Fixpoint ordering_conj (fuel n : nat) (acc : list (string * string))
  : P (list (string * string)) :=
  match n with
  | O => pfuel
  | S n' =>
    t <- get;
    match t with
    | TPunct LParen => l <- parse_ordering fuel; ordering_conj fuel n' (acc ++ l)
    | TPunct RParen => ret acc
    | other => syn "'('" other
    end
  end.

(** init_tn_parser.rs 80-171: the part after the keyword :ordering; [acc] is
    [orderings] so far. *)
Definition parse_orderings (fuel : nat) (acc : list (string * string))
  : P (list (string * string)) :=
  t <- get;
  match t with
  | TPunct LParen =>
    u <- get;
    match u with
    | TOp OAnd => ordering_conj fuel fuel acc
    | TOp OLess =>
      v <- get;
      match v with
      | TIdent t1 => ordering_ids ("another task id after " ++ t1) t1 fuel acc
      | other => syn "expected a task identifier" other
      end
    | TPunct RParen => ret acc
    | other => syn "ordering constraints" other
    end
  | other => syn "'('" other
  end.

(** init_tn_parser.rs 359-406: terms of a subtask with an id, including the
    two closing parentheses. *)
Fixpoint id_subtask_terms (id tsk : symbol) (n : nat) (acc : list symbol) : P subtask :=
  match n with
  | O => pfuel
  | S n' =>
    t <- get;
    match t with
    | TIdent s => p <- pos; id_subtask_terms id tsk n' (acc ++ [plain (s, p)])
    | TPunct RParen =>
      c <- get;
      match c with
      | TPunct RParen => ret (mkSub (Some id) tsk acc)
      | other => syn ("')' to close the block of " ++ sym_name tsk) other
      end
    | other => syn "either a ')' or an identifier" other
    end
  end.

(** init_tn_parser.rs 425-452: remaining terms of a subtask without id;
    [last] is the variable [term] of line 418 (the inner [term] of line 427
    shadows it only inside its arm, so the message shows the first term). *)
Fixpoint plain_subtask_terms (tsk : symbol) (first : string) (n : nat)
         (acc : list symbol) : P subtask :=
  match n with
  | O => pfuel
  | S n' =>
    t <- get;
    match t with
    | TIdent s => p <- pos; plain_subtask_terms tsk first n' (acc ++ [plain (s, p)])
    | TPunct RParen => ret (mkSub None tsk acc)
    | other => syn ("either a term for " ++ first ++ ", or ')'") other
    end
  end.

(** init_tn_parser.rs 339-480. *)
Definition parse_subtask (fuel : nat) : P subtask :=
  t <- get;
  match t with
  | TIdent id =>
    p <- pos;
    let id_symbol := plain (id, p) in
    u <- get;
    match u with
    | TPunct LParen =>
      v <- get;
      match v with
      | TIdent tsk =>
        q <- pos; id_subtask_terms id_symbol (plain (tsk, q)) fuel []
      | other => syn ("a subtask name for " ++ id ++ "!=...") other
      end
    | TIdent term =>
      q <- pos; plain_subtask_terms id_symbol term fuel [plain (term, q)]
    | TPunct RParen => ret (mkSub None id_symbol [])
    | other => syn "subtask definition" other
    end
  | other => syn "task id" other
  end.

(** init_tn_parser.rs 288-305. *)
Fixpoint subtasks_loop (fuel n : nat) (acc : list subtask) : P (list subtask) :=
  match n with
  | O => pfuel
  | S n' =>
    t <- get;
    match t with
    | TPunct RParen => ret acc
    | TPunct LParen => s <- parse_subtask fuel; subtasks_loop fuel n' (acc ++ [s])
    | other => syn "subtask declarations" other
    end
  end.

(** init_tn_parser.rs 280-336. *)
Definition parse_subtasks (fuel : nat) : P (list subtask) :=
  t <- get;
  match t with
  | TPunct LParen =>
    la <- peek;
    match la with
    | TOp OAnd => _ <- get; subtasks_loop fuel fuel []
    | TIdent _ => s <- parse_subtask fuel; ret [s]
    | TPunct RParen => _ <- get; ret []
    | other => syn "subtask declarations" other
    end
  | other => syn "'('" other
  end.

(** init_tn_parser.rs 542-665. *)
Definition parse_constraint : P constr :=
  t <- get;
  match t with
  | TOp ONot =>
    a <- get;
    match a with
    | TPunct LParen =>
      b <- get;
      match b with
      | TOp OEqual =>
        c <- get;
        match c with
        | TIdent t1 =>
          d <- get;
          match d with
          | TIdent t2 =>
            e <- get;
            match e with
            | TPunct RParen =>
              f <- get;
              match f with
              | TPunct RParen => ret (CNotEqual t1 t2)
              | other => syn ") to close the inequality constraint" other
              end
            | other => syn ") to close the inequality constraint" other
            end
          | other => syn ("right hand side of " ++ t1 ++ "!=...") other
          end
        | other => syn "task identifier" other
        end
      | other => syn "equality keyword '='" other
      end
    | other => syn "'(' after keyword 'not'" other
    end
  | TOp OEqual =>
    c <- get;
    match c with
    | TIdent t1 =>
      d <- get;
      match d with
      | TIdent t2 =>
        e <- get;
        match e with
        | TPunct RParen => ret (CEqual t1 t2)
        | other => syn ") to close the equality constraint" other
        end
      | other => syn ("right hand side of " ++ t1 ++ "=...") other
      end
    | other => syn "a task identifier" other
    end
  | other => syn "either an equalilty or non-equality constraint" other
  end.

(** init_tn_parser.rs 497-514. *)
Fixpoint constraints_loop (n : nat) (acc : list constr) : P (list constr) :=
  match n with
  | O => pfuel
  | S n' =>
    t <- get;
    match t with
    | TPunct LParen => c <- parse_constraint; constraints_loop n' (acc ++ [c])
    | TPunct RParen => ret acc
    | other => syn "a constraint definition" other
    end
  end.

(** init_tn_parser.rs 482-540. *)
Definition parse_constraints (fuel : nat) : P (list constr) :=
  t <- get;
  match t with
  | TPunct LParen =>
    la <- peek;
    match la with
    | TPunct RParen => _ <- get; ret []
    | TOp OAnd => _ <- get; constraints_loop fuel []
    | TOp ONot | TOp OEqual => c <- parse_constraint; ret [c]
    | other => syn "constraint declerations" other
    end
  | other => syn "'('" other
  end.

(** init_tn_parser.rs 76-193: the loop after :subtasks. *)
Fixpoint htn_loop (fuel n : nat) (subtasks : list subtask) (opos : option N)
         (ords : list (string * string)) (cons : option (list constr)) : P htn :=
  match n with
  | O => pfuel
  | S n' =>
    t <- get;
    match t with
    | TKeyword KOrdering =>
      p <- pos;
      ords' <- parse_orderings fuel ords;
      htn_loop fuel n' subtasks (Some p) ords' cons
    | TKeyword KConstraints =>
      c <- parse_constraints fuel;
      htn_loop fuel n' subtasks opos ords (Some c)
    | TPunct RParen => ret (mkHtn subtasks opos (Partial ords) cons)
    | other =>
      syn "the (potentially empty) ordering constraints of the task network" other
    end
  end.

(** init_tn_parser.rs 56-234.  Note that the empty network (line 63) and
    ordered subtasks with constraints (line 198) do not consume the closing
    parenthesis of the enclosing block. *)
Definition parse_htn (fuel : nat) : P htn :=
  la <- peek;
  match la with
  | TPunct RParen => ret (mkHtn [] None (Partial []) None)
  | _ =>
    t <- get;
    match t with
    | TKeyword KSubtasks =>
      subtasks <- parse_subtasks fuel;
      htn_loop fuel fuel subtasks None [] None
    | TKeyword KOrderedSubtasks =>
      subtasks <- parse_subtasks fuel;
      u <- get;
      match u with
      | TKeyword KConstraints =>
        c <- parse_constraints fuel;
        ret (mkHtn subtasks None Total (Some c))
      | TPunct RParen => ret (mkHtn subtasks None Total None)
      | other => syn "closing ')' after task network definition" other
      end
    | other => syn ":subtasks or :ordered-subtasks keyword" other
    end
  end.

(** init_tn_parser.rs 4-54 (the [loop] never iterates twice). *)
Definition parse_initial_tn (fuel : nat) : P init_tn :=
  la <- peek;
  match la with
  | TKeyword KParameters =>
    _ <- get;
    t <- get;
    match t with
    | TPunct LParen =>
      params <- parse_args fuel;
      tn <- parse_htn fuel;
      ret (mkInit (Some params) tn)
    | other => syn "'(' afer keyword :parameters" other
    end
  | TKeyword KSubtasks | TKeyword KOrderedSubtasks =>
    tn <- parse_htn fuel; ret (mkInit None tn)
  | TPunct RParen => ret (mkInit None (mkHtn [] None (Partial []) None))
  | other => syn "expected the definition of the initial task network" other
  end.

(** method_parser.rs 4-135. *)
Definition parse_method (fuel : nat) : P method :=
  t <- get;
  match t with
  | TIdent mname =>
    p <- pos;
    let name := plain (mname, p) in
    a <- get;
    match a with
    | TKeyword KParameters =>
      b <- get;
      match b with
      | TPunct LParen =>
        params <- parse_args fuel;
        c <- get;
        match c with
        | TKeyword KTask =>
          d <- get;
          match d with
          | TPunct LParen =>
            e <- get;
            match e with
            | TIdent tname =>
              q <- pos;
              let tsk := plain (tname, q) in
              terms <- parse_args fuel;
              la <- peek;
              match la with
              | TKeyword KPrecondition =>
                _ <- get;
                pre <- parse_formula fuel fuel;
                tn <- parse_htn fuel;
                ret (mkMethod name tsk terms params (Some pre) tn)
              | TKeyword KSubtasks | TKeyword KOrderedSubtasks =>
                tn <- parse_htn fuel;
                ret (mkMethod name tsk terms params None tn)
              | other =>
                syn ("Either preconditions for " ++ mname ++ " or its decomposition") other
              end
            | other => syn ("The task that method " ++ mname ++ " decomposes") other
            end
          | other => syn "'(' after keyword :task" other
          end
        | other => syn "keyword :task" other
        end
      | other => syn "'(' after keyword :parameters" other
      end
    | other => syn ("The parameters of method " ++ mname ++ " ") other
    end
  | other => syn "method name" other
  end.

(** domain_parser/router.rs 4-103. *)
Fixpoint parse_domain (fuel n : nat) (d : domain_ast) : P domain_ast :=
  match n with
  | O => pfuel
  | S n' =>
    t <- get;
    match t with
    | TPunct LParen =>
      u <- get;
      match u with
      | TKeyword KPredicates =>
        l <- parse_predicates fuel fuel []; parse_domain fuel n' (add_preds d l)
      | TKeyword KFunctions =>
        l <- parse_functions fuel fuel []; parse_domain fuel n' (add_funcs d l)
      | TKeyword KTask =>
        tk <- parse_task fuel;
        c <- get;
        match c with
        | TPunct RParen => parse_domain fuel n' (add_task d tk)
        | other => syn ("')' after definition of " ++ task_name tk) other
        end
      | TKeyword KMethod =>
        m <- parse_method fuel; parse_domain fuel n' (add_method d m)
      | TKeyword KAction =>
        a <- parse_action fuel; parse_domain fuel n' (add_action d a)
      | TKeyword KRequirements =>
        l <- parse_requirements fuel []; parse_domain fuel n' (add_reqs d l)
      | TKeyword KTypes =>
        l <- parse_args fuel; parse_domain fuel n' (add_types d l)
      | TKeyword KConstants =>
        l <- parse_args fuel; parse_domain fuel n' (add_constants d l)
      | other => syn "a keyword" other
      end
    | TPunct RParen => ret d
    | other =>
      syn ("either ')' to close the definition of " ++ d_name d
           ++ ", or '(' to start defining new components") other
    end
  end.

(** problem_parser/router.rs 21-38: rebuilding a parsed object; unwraps the
    type position of a typed object. *)
Fixpoint rebuild_objects (l : list symbol) : option (list symbol) :=
  match l with
  | [] => Some []
  | o :: l' =>
    match sym_type o, sym_type_pos o, rebuild_objects l' with
    | Some t, Some tp, Some r => Some (mkSym (sym_name o) (sym_pos o) (Some t) (Some tp) :: r)
    | None, _, Some r => Some (mkSym (sym_name o) (sym_pos o) None None :: r)
    | _, _, _ => None
    end
  end.

(** problem_parser/router.rs 4-74.  After a goal formula the closing
    parenthesis of the :goal block is read by the next iteration, which ends
    the problem. *)
Fixpoint parse_problem (fuel n : nat) (p : problem_ast) : P problem_ast :=
  match n with
  | O => pfuel
  | S n' =>
    t <- get;
    match t with
    | TPunct LParen =>
      u <- get;
      match u with
      | TKeyword KRequirements =>
        l <- parse_requirements fuel []; parse_problem fuel n' (p_add_reqs p l)
      | TKeyword KObjects =>
        l <- parse_args fuel;
        match rebuild_objects l with
        | Some l' => parse_problem fuel n' (p_add_objects p l')
        | None => ppanic PanicUnwrap
        end
      | TKeyword KHTN =>
        tn <- parse_initial_tn fuel; parse_problem fuel n' (p_set_init_tn p tn)
      | TKeyword KGoal =>
        f <- parse_formula fuel fuel; parse_problem fuel n' (p_set_goal p f)
      | TKeyword KInit =>
        l <- parse_predicates fuel fuel []; parse_problem fuel n' (p_set_init p l)
      | other => syn "a keyword for block definition" other
      end
    | TEOF | TPunct RParen => ret p
    | _ => ppanic PanicProblemToken
    end
  end.

(** definition_types.rs 2-10. *)
Inductive definition_type :=
| DefDomain (name : string)
| DefProblem (problem_name domain_name : string).

(** parser.rs 104-131. *)
Definition parse_domain_header : P definition_type :=
  t <- get;
  match t with
  | TIdent name =>
    c <- get;
    match c with
    | TPunct RParen => ret (DefDomain name)
    | other => syn "')'" other
    end
  | other => syn "domain name" other
  end.

(** parser.rs 133-219. *)
Definition parse_problem_header : P definition_type :=
  t <- get;
  match t with
  | TIdent pname =>
    a <- get;
    match a with
    | TPunct RParen =>
      b <- get;
      match b with
      | TPunct LParen =>
        c <- get;
        match c with
        | TKeyword KDomain =>
          d <- get;
          match d with
          | TIdent dname =>
            e <- get;
            match e with
            | TPunct RParen => ret (DefProblem pname dname)
            | other =>
              syn ("the block of the definition of problem '" ++ pname
                   ++ "' is not closed with ')'") other
            end
          | other => syn "domain name" other
          end
        | other => syn "keyword 'domain'" other
        end
      | other => syn "'('" other
      end
    | other => syn "')'" other
    end
  | other => syn "problem name" other
  end.

(** parser.rs 58-102. *)
Definition parse_document_type : P definition_type :=
  t <- get;
  match t with
  | TKeyword KDefine =>
    u <- get;
    match u with
    | TPunct LParen =>
      v <- get;
      match v with
      | TKeyword KDomain => parse_domain_header
      | TKeyword KProblem => parse_problem_header
      | other => syn "either keyword 'domain' or 'problem'" other
      end
    | other => syn "'(' after keyword 'define'" other
    end
  | other => syn "keyword 'define'" other
  end.

(** parser.rs 13-38. *)
Definition parse_doc (fuel : nat) : P ast :=
  t <- get;
  match t with
  | TPunct LParen =>
    dt <- parse_document_type;
    match dt with
    | DefDomain name => d <- parse_domain fuel fuel (new_domain name); ret (ADomain d)
    | DefProblem _ _ => p <- parse_problem fuel fuel new_problem; ret (AProblem p)
    end
  | other => syn "start of the file with '('" other
  end.

(** Parser::new(LexicalAnalyzer::new(program)).parse(). *)
Definition parse (fuel : nat) (program : string) : outcome ast :=
  match parse_doc fuel (lex_new program) with
  | POk a _ => Ok a
  | PErr e => Err e
  | PPanic p => Panic p
  | PFuel => OutOfFuel
  end.

(** definition_types.rs 12-16. *)
Inductive file_variant := VDomain | VProblem | VMaybeNotHDDL.

(** parser.rs 40-56; [None] is a panic inside the tokenizer. *)
Definition classify (program : string) : option file_variant :=
  let st0 := lex_new program in
  match get_token st0 with
  | (LTok (TPunct LParen), st1) =>
    match get_token st1 with
    | (LTok (TKeyword KDefine), st2) =>
      match get_token st2 with
      | (LTok (TPunct LParen), st3) =>
        match get_token st3 with
        | (LTok (TKeyword KDomain), _) => Some VDomain
        | (LTok (TKeyword KProblem), _) => Some VProblem
        | (LPanic _, _) => None
        | _ => Some VMaybeNotHDDL
        end
      | (LPanic _, _) => None
      | _ => Some VMaybeNotHDDL
      end
    | (LPanic _, _) => None
    | _ => Some VMaybeNotHDDL
    end
  | (LPanic _, _) => None
  | _ => Some VMaybeNotHDDL
  end.

End Parser.
