(** The recursive functions of the analyzer on a stack of limited size.

    Only five functions of the repository call themselves: the tokenizer's
    [parse] (once per comment, tokenizer.rs 126-133), [parse_formula]
    (formula_parser.rs 4-218), [check_predicate_declarations]
    (undefined_elements.rs 3-54), [get_propositional_predicates] and [fmt]
    (syntax_tree/nodes/formula.rs 30-60, 64-101).  The latter is in
    FormulaText.v.  Here the three before it are modelled
    with a number [d] of frames that may be open at the same time; a call
    without a free frame is [Overflow], which in Rust aborts the process.  For
    the tokenizer this number is the fuel of [lex_fuel] in Lexer.v, and
    [LFuel] is its overflow.

    Not modelled: the size of a frame in bytes, the frames of the functions in
    between (a bounded number for each level), and the recursion of library
    code over the same formulas (dropping a Box, serde's Serialize, Clone). *)
From Coq Require Import String Ascii NArith ZArith Bool List.
From Verif Require Import Base Token Lexer Errors Ast Parser Semantic.
Import ListNotations.
Open Scope string_scope.
Open Scope list_scope.

Inductive stacked (A : Type) :=
| Fits (a : A)
| Overflow.
Arguments Fits {A} a.
Arguments Overflow {A}.

(** A parser action that may run out of stack. *)
Definition SP (A : Type) := lstate -> stacked (presult A).
Definition lift {A} (m : P A) : SP A := fun st => Fits (m st).
Definition sret {A} (a : A) : SP A := lift (ret a).
Definition soverflow {A} : SP A := fun _ => Overflow.
Definition sbind {A B} (m : SP A) (k : A -> SP B) : SP B :=
  fun st => match m st with
            | Fits (POk a st') => k a st'
            | Fits (PErr e) => Fits (PErr e)
            | Fits (PPanic p) => Fits (PPanic p)
            | Fits PFuel => Fits PFuel
            | Overflow => Overflow
            end.

Declare Scope stack_scope.
Delimit Scope stack_scope with stack.
Notation "x <~ m ; k" := (sbind m (fun x => k))
  (at level 61, m at next level, right associativity) : stack_scope.
Open Scope stack_scope.

Section Stack.
Context `{Unicode}.

(** formula_parser.rs 4-218 as in Parser.v; [d] is the number of frames of
    [parse_formula] that can still be opened.  The loops of the connectives
    run in the frame of the formula they belong to. *)
Fixpoint parse_formula_in (d fuel n : nat) {struct n} : SP formula :=
  match n with
  | O => lift pfuel
  | S n' =>
    match d with
    | O => soverflow
    | S d' =>
      t <~ lift get;
      match t with
      | TPunct RParen => sret FEmpty
      | TPunct LParen =>
        u <~ lift get;
        match u with
        | TOp ONot =>
          f <~ parse_formula_in d' fuel n';
          c <~ lift get;
          match c with
          | TPunct RParen => sret (FNot f)
          | other => lift (syn "closing the not operator with ')'" other)
          end
        | TOp OAnd => fs <~ connective_in d' fuel n' []; sret (FAnd fs)
        | TOp OXor => fs <~ connective_in d' fuel n' []; sret (FXor fs)
        | TOp OOr => fs <~ connective_in d' fuel n' []; sret (FOr fs)
        | TOp OEqual =>
          t1 <~ lift get;
          match t1 with
          | TIdent p1 =>
            t2 <~ lift get;
            match t2 with
            | TIdent p2 =>
              c <~ lift get;
              match c with
              | TPunct RParen => sret (FEquals p1 p2)
              | other => lift (syn "equality's closing parenthesis" other)
              end
            | other => lift (syn "right hand side of the equality" other)
            end
          | other => lift (syn "left hand side of the equality" other)
          end
        | TOp OForAll =>
          t1 <~ lift get;
          match t1 with
          | TPunct LParen =>
            params <~ lift (parse_args fuel);
            f <~ parse_formula_in d' fuel n';
            c <~ lift get;
            match c with
            | TPunct RParen => sret (FForAll params f)
            | other => lift (syn "')' to close the forall statement" other)
            end
          | other => lift (syn "'(' after forall keyword" other)
          end
        | TOp OExists =>
          t1 <~ lift get;
          match t1 with
          | TPunct LParen =>
            params <~ lift (parse_args fuel);
            f <~ parse_formula_in d' fuel n';
            c <~ lift get;
            match c with
            | TPunct RParen => sret (FExists params f)
            | other => lift (syn "')' to close the existential statement" other)
            end
          | other => lift (syn "'(' after existential quantification keyword" other)
          end
        | TOp OProbabilistic => fs <~ branches_in d' fuel n' []; sret (FAnd fs)
        | TIdent name =>
          p <~ lift pos; vars <~ lift (parse_args fuel); sret (FAtom (mkPred name p vars))
        | TPunct RParen => sret FEmpty
        | other => lift (syn "a boolean formula" other)
        end
      | other => lift (syn "a (potentially empty) boolean formula definition" other)
      end
    end
  end
with connective_in (d fuel n : nat) (acc : list formula) {struct n} : SP (list formula) :=
  match n with
  | O => lift pfuel
  | S n' =>
    f <~ parse_formula_in d fuel n';
    match f with
    | FEmpty => sret acc
    | _ => connective_in d fuel n' (acc ++ [f])
    end
  end
with branches_in (d fuel n : nat) (acc : list formula) {struct n} : SP (list formula) :=
  match n with
  | O => lift pfuel
  | S n' =>
    t <~ lift get;
    match t with
    | TPunct RParen => sret acc
    | TNumber w =>
      f <~ parse_formula_in d fuel n';
      match f with
      | FEmpty => lift (syn "a formula following the probability" (TPunct RParen))
      | _ => branches_in d fuel n' (acc ++ [FWeighted w f])
      end
    | other => lift (syn "a probability or ')' to close the probabilistic block" other)
    end
  end.

(** action_parser.rs 4-67. *)
Definition parse_action_in (d fuel : nat) : SP action :=
  t <~ lift (parse_task fuel);
  la <~ lift peek;
  pre <~ match la with
         | TKeyword KPrecondition =>
           _ <~ lift get; f <~ parse_formula_in d fuel fuel; sret (Some f)
         | TKeyword KEffect | TPunct RParen => sret None
         | other => lift (syn ("(potentially empty) preconditions of " ++ task_name t) other)
         end;
  lb <~ lift peek;
  eff <~ match lb with
         | TKeyword KEffect =>
           _ <~ lift get; f <~ parse_formula_in d fuel fuel; sret (Some f)
         | TPunct RParen => sret None
         | other => lift (syn ("(potentially empty) effects of " ++ task_name t) other)
         end;
  c <~ lift get;
  match c with
  | TPunct RParen =>
    sret (mkAction (task_name t) (task_pos t) (task_params t) pre eff)
  | other => lift (syn ("closing the scope of " ++ task_name t ++ " using ')'") other)
  end.

(** method_parser.rs 4-135. *)
Definition parse_method_in (d fuel : nat) : SP method :=
  t <~ lift get;
  match t with
  | TIdent mname =>
    p <~ lift pos;
    let name := plain (mname, p) in
    a <~ lift get;
    match a with
    | TKeyword KParameters =>
      b <~ lift get;
      match b with
      | TPunct LParen =>
        params <~ lift (parse_args fuel);
        c <~ lift get;
        match c with
        | TKeyword KTask =>
          e <~ lift get;
          match e with
          | TPunct LParen =>
            g <~ lift get;
            match g with
            | TIdent tname =>
              q <~ lift pos;
              let tsk := plain (tname, q) in
              terms <~ lift (parse_args fuel);
              la <~ lift peek;
              match la with
              | TKeyword KPrecondition =>
                _ <~ lift get;
                pre <~ parse_formula_in d fuel fuel;
                tn <~ lift (parse_htn fuel);
                sret (mkMethod name tsk terms params (Some pre) tn)
              | TKeyword KSubtasks | TKeyword KOrderedSubtasks =>
                tn <~ lift (parse_htn fuel);
                sret (mkMethod name tsk terms params None tn)
              | other =>
                lift (syn ("Either preconditions for " ++ mname ++ " or its decomposition") other)
              end
            | other => lift (syn ("The task that method " ++ mname ++ " decomposes") other)
            end
          | other => lift (syn "'(' after keyword :task" other)
          end
        | other => lift (syn "keyword :task" other)
        end
      | other => lift (syn "'(' after keyword :parameters" other)
      end
    | other => lift (syn ("The parameters of method " ++ mname ++ " ") other)
    end
  | other => lift (syn "method name" other)
  end.

(** domain_parser/router.rs 4-103. *)
Fixpoint parse_domain_in (d fuel n : nat) (a : domain_ast) : SP domain_ast :=
  match n with
  | O => lift pfuel
  | S n' =>
    t <~ lift get;
    match t with
    | TPunct LParen =>
      u <~ lift get;
      match u with
      | TKeyword KPredicates =>
        l <~ lift (parse_predicates fuel fuel []); parse_domain_in d fuel n' (add_preds a l)
      | TKeyword KFunctions =>
        l <~ lift (parse_functions fuel fuel []); parse_domain_in d fuel n' (add_funcs a l)
      | TKeyword KTask =>
        tk <~ lift (parse_task fuel);
        c <~ lift get;
        match c with
        | TPunct RParen => parse_domain_in d fuel n' (add_task a tk)
        | other => lift (syn ("')' after definition of " ++ task_name tk) other)
        end
      | TKeyword KMethod =>
        m <~ parse_method_in d fuel; parse_domain_in d fuel n' (add_method a m)
      | TKeyword KAction =>
        x <~ parse_action_in d fuel; parse_domain_in d fuel n' (add_action a x)
      | TKeyword KRequirements =>
        l <~ lift (parse_requirements fuel []); parse_domain_in d fuel n' (add_reqs a l)
      | TKeyword KTypes =>
        l <~ lift (parse_args fuel); parse_domain_in d fuel n' (add_types a l)
      | TKeyword KConstants =>
        l <~ lift (parse_args fuel); parse_domain_in d fuel n' (add_constants a l)
      | other => lift (syn "a keyword" other)
      end
    | TPunct RParen => sret a
    | other =>
      lift (syn ("either ')' to close the definition of " ++ d_name a
           ++ ", or '(' to start defining new components") other)
    end
  end.

(** problem_parser/router.rs 4-74. *)
Fixpoint parse_problem_in (d fuel n : nat) (p : problem_ast) : SP problem_ast :=
  match n with
  | O => lift pfuel
  | S n' =>
    t <~ lift get;
    match t with
    | TPunct LParen =>
      u <~ lift get;
      match u with
      | TKeyword KRequirements =>
        l <~ lift (parse_requirements fuel []); parse_problem_in d fuel n' (p_add_reqs p l)
      | TKeyword KObjects =>
        l <~ lift (parse_args fuel);
        match rebuild_objects l with
        | Some l' => parse_problem_in d fuel n' (p_add_objects p l')
        | None => lift (ppanic PanicUnwrap)
        end
      | TKeyword KHTN =>
        tn <~ lift (parse_initial_tn fuel); parse_problem_in d fuel n' (p_set_init_tn p tn)
      | TKeyword KGoal =>
        f <~ parse_formula_in d fuel fuel; parse_problem_in d fuel n' (p_set_goal p f)
      | TKeyword KInit =>
        l <~ lift (parse_predicates fuel fuel []); parse_problem_in d fuel n' (p_set_init p l)
      | other => lift (syn "a keyword for block definition" other)
      end
    | TEOF | TPunct RParen => sret p
    | _ => lift (ppanic PanicProblemToken)
    end
  end.

(** parser.rs 13-38. *)
Definition parse_doc_in (d fuel : nat) : SP ast :=
  t <~ lift get;
  match t with
  | TPunct LParen =>
    dt <~ lift parse_document_type;
    match dt with
    | DefDomain name => a <~ parse_domain_in d fuel fuel (new_domain name); sret (ADomain a)
    | DefProblem _ _ => p <~ parse_problem_in d fuel fuel new_problem; sret (AProblem p)
    end
  | other => lift (syn "start of the file with '('" other)
  end.

(** Parser::parse with at most [d] frames of [parse_formula] open at a time. *)
Definition parse_in (d fuel : nat) (program : string) : stacked (outcome ast) :=
  match parse_doc_in d fuel (lex_new program) with
  | Fits (POk a _) => Fits (Ok a)
  | Fits (PErr e) => Fits (Err e)
  | Fits (PPanic p) => Fits (Panic p)
  | Fits PFuel => Fits OutOfFuel
  | Overflow => Overflow
  end.

End Stack.

(** A loop that stops at the first error, on a limited stack. *)
Fixpoint check_each {A} (check : A -> stacked (outcome unit)) (l : list A) : stacked (outcome unit) :=
  match l with
  | [] => Fits (Ok tt)
  | x :: l' => match check x with Fits (Ok _) => check_each check l' | r => r end
  end.

(** undefined_elements.rs 3-54. *)
Fixpoint check_predicates_in (d : nat) (preds : list predicate) (f : formula) : stacked (outcome unit) :=
  match d with
  | O => Overflow
  | S d' =>
    match f with
    | FNot g | FForAll _ g | FWeighted _ g => check_predicates_in d' preds g
    | FAnd fs | FOr fs | FXor fs => check_each (check_predicates_in d' preds) fs
    | FEmpty | FAtom _ | FEquals _ _ | FImply _ _ | FExists _ _ =>
      Fits (check_predicate_declarations preds f)
    end
  end.

(** [Vec::extend] of the results of a loop, on a limited stack. *)
Fixpoint gather {A B} (f : A -> stacked (list B)) (l : list A) : stacked (list B) :=
  match l with
  | [] => Fits []
  | x :: l' => match f x, gather f l' with Fits u, Fits v => Fits (u ++ v) | _, _ => Overflow end
  end.

(** syntax_tree/nodes/formula.rs 30-60. *)
Fixpoint prop_preds_in (d : nat) (f : formula) : stacked (list predicate) :=
  match d with
  | O => Overflow
  | S d' =>
    match f with
    | FNot g | FWeighted _ g => prop_preds_in d' g
    | FAnd fs | FOr fs | FXor fs => gather (prop_preds_in d') fs
    | FImply ps qs =>
      match gather (prop_preds_in d') ps, gather (prop_preds_in d') qs with
      | Fits u, Fits v => Fits (u ++ v)
      | _, _ => Overflow
      end
    | FEmpty | FAtom _ | FEquals _ _ | FForAll _ _ | FExists _ _ => Fits (prop_preds f)
    end
  end.
