(** Errors, warnings and their rendering: src/output. *)
From Coq Require Import String Ascii NArith ZArith Bool List.
From Verif Require Import Base Token Lexer.
Import ListNotations.
Open Scope string_scope.

(** output/errors/syntactic.rs 4-9.  [se_found] is kept as a token; the Rust
    field is its [to_string()] ([show_token]). *)
Record syn_err := mkSynErr {
  se_expected : string;
  se_found : token;
  se_line : N
}.

(** output/errors/semantic.rs 153-158. *)
Record dup_err := mkDup { dup_symbol : string; dup_first : N; dup_second : N }.
(** output/errors/semantic.rs 170-174. *)
Record undef_err := mkUndef { un_symbol : string; un_pos : N }.
(** output/errors/semantic.rs 145-151; the [usize as u32] casts are modelled
    without truncation. *)
Record arity_err := mkArity {
  ar_symbol : string; ar_expected : nat; ar_found : nat; ar_pos : N }.
(** output/errors/semantic.rs 109-115. *)
Record type_err := mkTypeErr {
  ty_expected : option string; ty_found : option string;
  ty_var : string; ty_pos : N }.

(** output/errors/semantic.rs 5-29. *)
Inductive sem_err :=
| DuplicateObject (e : dup_err)
| DuplicateRequirement (r : requirement)
| DuplicatePredicate (e : dup_err)
| DuplicateAction (e : dup_err)
| DuplicateCompoundTask (e : dup_err)
| DuplicateMethod (e : dup_err)
| DuplicateParameter (e : dup_err)
| UndefinedPredicate (e : undef_err)
| UndefinedType (e : undef_err)
| UndefinedSubtask (e : undef_err)
| UndefinedTask (e : undef_err)
| UndefinedParameter (e : undef_err)
| UndefinedObject (e : undef_err)
| InconsistentPredicateArity (e : arity_err)
| InconsistentTaskArity (e : arity_err)
| InconsistentPredicateArgType (e : type_err)
| InconsistentTaskArgType (e : type_err)
| CyclicType
| CyclicOrdering (pos : N).

(** output/errors/generic.rs 3-8. *)
Inductive parsing_error :=
| ELex (e : lex_err)
| ESyn (e : syn_err)
| ESem (e : sem_err).

(** output/warnings.rs 3-19: only [NoPrimitiveRefinement] is ever constructed
    by the code base; its payload is (symbol, line). *)
Inductive warning := NoPrimitiveRefinement (symbol : string) (pos : N).

(** Outcome of a Rust computation returning [Result<_, ParsingError>]. *)
Inductive outcome (A : Type) :=
| Ok (a : A)
| Err (e : parsing_error)
| Panic (p : panic_site)
| OutOfFuel.
Arguments Ok {A} a.
Arguments Err {A} e.
Arguments Panic {A} p.
Arguments OutOfFuel {A}.

(** Sequencing ([?] operator). *)
Definition obind {A B} (x : outcome A) (k : A -> outcome B) : outcome B :=
  match x with
  | Ok a => k a
  | Err e => Err e
  | Panic p => Panic p
  | OutOfFuel => OutOfFuel
  end.

Declare Scope outcome_scope.
Delimit Scope outcome_scope with outcome.
Notation "x <-- m ;; k" := (obind m (fun x => k))
  (at level 61, m at next level, right associativity) : outcome_scope.
Notation "m ;;; k" := (obind m (fun _ => k))
  (at level 61, right associativity) : outcome_scope.

(** [for x in l { body?; }]. *)
Fixpoint for_each {A} (body : A -> outcome unit) (l : list A) : outcome unit :=
  match l with
  | [] => Ok tt
  | x :: l' => obind (body x) (fun _ => for_each body l')
  end.

(** Rendering.  A rendering is an [option string]; [None] is a panic
    (the [unreachable!()] of semantic.rs 139). *)

(** lexical.rs 18-32. *)
Definition show_lex_err (e : lex_err) : string :=
  "line " ++ show_N (le_line e) ++ ": '" ++ le_lexeme e ++
  match le_type e with
  | InvalidIdentifier => "' is an invalid identifier."
  | InvalidKeyword => "' is an invalid keyword."
  | InvalidRealNumber => "' is an invalid real number. Expected digits after '.'"
  end.

(** syntactic.rs 11-15 (writeln: trailing newline). *)
Definition show_syn_err (e : syn_err) : string :=
  "line " ++ show_N (se_line e) ++ ": expected '" ++ se_expected e
  ++ "', but found '" ++ show_token (se_found e) ++ "'" ++ String newline "".

(** semantic.rs 160-168. *)
Definition show_dup (e : dup_err) : string :=
  "'" ++ dup_symbol e ++ "' is first defined in line " ++ show_N (dup_first e)
  ++ ", and then redefined in line " ++ show_N (dup_second e) ++ ".".

(** semantic.rs 117-143. *)
Definition show_type_err (e : type_err) : option string :=
  let head := "line " ++ show_N (ty_pos e) ++ ": Type error for variable "
              ++ ty_var e ++ ". " in
  match ty_expected e, ty_found e with
  | Some ex, Some f => Some (head ++ "Expected object of type '" ++ ex ++ "', but found '" ++ f ++ "'.")
  | Some ex, None => Some (head ++ "Expected object of type '" ++ ex ++ "', but did not find any typing.")
  | None, Some f => Some (head ++ "Expected no type, but found '" ++ f ++ "'.")
  | None, None => None
  end.

(** semantic.rs 57-78. *)
Definition show_undef (kind : string) (e : undef_err) : string :=
  "line " ++ show_N (un_pos e) ++ ": " ++ kind ++ " " ++ un_symbol e ++ " is not defined.".

(** semantic.rs 31-107. *)
Definition show_sem_err (e : sem_err) : option string :=
  match e with
  | DuplicateObject d => Some ("object " ++ show_dup d)
  | DuplicateRequirement r => Some ("requirement " ++ show_requirement r)
  | DuplicatePredicate d => Some ("predicate " ++ show_dup d)
  | DuplicateAction d => Some ("action " ++ show_dup d)
  | DuplicateCompoundTask d => Some ("compound task " ++ show_dup d)
  | DuplicateMethod d => Some ("method " ++ show_dup d)
  | DuplicateParameter d => Some ("parameter " ++ show_dup d)
  | UndefinedPredicate u => Some (show_undef "predicate" u)
  | UndefinedType u => Some (show_undef "type" u)
  | UndefinedSubtask u => Some (show_undef "subtask" u)
  | UndefinedTask u => Some (show_undef "task" u)
  | UndefinedParameter u => Some (show_undef "parameter" u)
  | UndefinedObject u => Some (show_undef "object" u)
  | InconsistentPredicateArity a =>
    Some ("line " ++ show_N (ar_pos a) ++ ": predicate " ++ ar_symbol a ++ " takes "
          ++ show_nat (ar_expected a) ++ " parameters, but "
          ++ show_nat (ar_found a) ++ " are given.")
  | InconsistentTaskArity a =>
    Some ("Task " ++ ar_symbol a ++ " takes " ++ show_nat (ar_expected a)
          ++ " parameters, but " ++ show_nat (ar_found a) ++ " are given.")
  | InconsistentPredicateArgType t => show_type_err t
  | InconsistentTaskArgType t => show_type_err t
  | CyclicType => Some "Type hierarchy is cyclic."
  | CyclicOrdering p => Some ("line " ++ show_N p ++ ": task ordering is cyclic.")
  end.

(** generic.rs 28-36. *)
Definition show_parsing_error (e : parsing_error) : option string :=
  match e with
  | ELex e => Some (show_lex_err e)
  | ESyn e => Some (show_syn_err e)
  | ESem e => show_sem_err e
  end.

(** warnings.rs 27-29. *)
Definition show_warning (w : warning) : string :=
  match w with
  | NoPrimitiveRefinement s p =>
    "line " ++ show_N p ++ ": compound task " ++ s ++ " does not have a primitive refinement"
  end.
