(** Specification of what the parts of a message stand for (C47): the words
    next to a name or a number say which one it is. *)
From Coq Require Import String Ascii NArith List.
From Verif Require Import Base Token Lexer Errors StrFacts SpecLex SpecText.
Import ListNotations.
Open Scope string_scope.

(** The number [n] stands between two texts. *)
Definition counts (m a : string) (n : N) (b : string) : Prop :=
  exists d, numeral d n /\ mentions m (a ++ d ++ b).

Definition says_twice (kind : string) (e : dup_err) (m : string) : Prop :=
  mentions m (kind ++ " '" ++ dup_symbol e ++ "'")
  /\ counts m "first defined in line " (dup_first e) ","
  /\ counts m "then redefined in line " (dup_second e) ".".
Definition says_undefined (kind : string) (e : undef_err) (m : string) : Prop :=
  mentions m (": " ++ kind ++ " " ++ un_symbol e ++ " is not defined").
Definition says_arity (kind : string) (e : arity_err) (m : string) : Prop :=
  mentions m (kind ++ " " ++ ar_symbol e ++ " takes ")
  /\ counts m " takes " (N.of_nat (ar_expected e)) " parameters"
  /\ counts m ", but " (N.of_nat (ar_found e)) " are given".
Definition says_type (e : type_err) (m : string) : Prop :=
  mentions m ("Type error for variable " ++ ty_var e ++ ".")
  /\ match ty_expected e with
     | Some t => mentions m ("Expected object of type '" ++ t ++ "'")
     | None => mentions m "Expected no type"
     end
  /\ match ty_found e with
     | Some t => mentions m ("but found '" ++ t ++ "'")
     | None => mentions m "did not find any typing"
     end.

Definition wording (e : parsing_error) (m : string) : Prop :=
  match e with
  | ELex e =>
    match le_type e with
    | InvalidIdentifier => mentions m ("'" ++ le_lexeme e ++ "' is an invalid identifier")
    | InvalidKeyword => mentions m ("'" ++ le_lexeme e ++ "' is an invalid keyword")
    | InvalidRealNumber => mentions m ("'" ++ le_lexeme e ++ "' is an invalid real number")
    end
  | ESyn e => mentions m (": expected '" ++ se_expected e ++ "', but found '")
  | ESem (DuplicateObject d) => says_twice "object" d m
  | ESem (DuplicateRequirement r) => mentions m "requirement "
  | ESem (DuplicatePredicate d) => says_twice "predicate" d m
  | ESem (DuplicateAction d) => says_twice "action" d m
  | ESem (DuplicateCompoundTask d) => says_twice "compound task" d m
  | ESem (DuplicateMethod d) => says_twice "method" d m
  | ESem (DuplicateParameter d) => says_twice "parameter" d m
  | ESem (UndefinedPredicate u) => says_undefined "predicate" u m
  | ESem (UndefinedType u) => says_undefined "type" u m
  | ESem (UndefinedSubtask u) => says_undefined "subtask" u m
  | ESem (UndefinedTask u) => says_undefined "task" u m
  | ESem (UndefinedParameter u) => says_undefined "parameter" u m
  | ESem (UndefinedObject u) => says_undefined "object" u m
  | ESem (InconsistentPredicateArity a) => says_arity "predicate" a m
  | ESem (InconsistentTaskArity a) => says_arity "Task" a m
  | ESem (InconsistentPredicateArgType t) | ESem (InconsistentTaskArgType t) => says_type t m
  | ESem CyclicType => mentions m "Type hierarchy is cyclic"
  | ESem (CyclicOrdering l) => mentions m "task ordering is cyclic"
  end.
