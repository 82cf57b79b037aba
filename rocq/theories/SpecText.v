(** Specification of what reports say (C46-C48), independent of how the texts
    are put together. *)
From Coq Require Import String Ascii NArith ZArith Bool List.
From Verif Require Import Base Token Lexer Errors Ast Tdg StrFacts SpecLex.
Import ListNotations.
Open Scope list_scope.

(** ** Names in reports *)
Definition type_words (e : type_err) : list string :=
  ty_var e :: match ty_expected e with Some t => [t] | None => [] end
           ++ match ty_found e with Some t => [t] | None => [] end.
Definition sem_words (e : sem_err) : list string :=
  match e with
  | DuplicateObject d | DuplicatePredicate d | DuplicateAction d | DuplicateCompoundTask d | DuplicateMethod d
  | DuplicateParameter d => [dup_symbol d]
  | UndefinedPredicate u | UndefinedType u | UndefinedSubtask u | UndefinedTask u | UndefinedParameter u
  | UndefinedObject u => [un_symbol u]
  | InconsistentPredicateArity a | InconsistentTaskArity a => [ar_symbol a]
  | InconsistentPredicateArgType t | InconsistentTaskArgType t => type_words t
  | DuplicateRequirement _ | CyclicType | CyclicOrdering _ => []
  end.
Definition cycle_of (r : recursion) : list (string * string) :=
  match r with
  | NonRecursive => []
  | Recursive c | EmptyRecursion c | GrowingEmptyPrefix c | GrowAndShrink c => c
  end.
Definition metadata_words (m : metadata) : list string :=
  md_nullables m ++ map fst (cycle_of (md_recursion m)) ++ map snd (cycle_of (md_recursion m)).

(** ** Texts *)
Definition mentions (text s : string) : Prop := exists a b, text = (a ++ s ++ b)%string.
(** [d] is the number [n] in decimal. *)
Definition numeral (d : string) (n : N) : Prop := all_digits d /\ d <> ""%string /\ decimal_value d = Z.of_N n.
(** The text begins with the line. *)
Definition at_line (text : string) (l : N) : Prop :=
  exists d r, text = ("line " ++ d ++ ": " ++ r)%string /\ numeral d l.
(** The text names the line somewhere. *)
Definition names_line (text : string) (l : N) : Prop :=
  exists a d r, text = (a ++ "line " ++ d ++ r)%string /\ numeral d l /\ ~ starts_digit r.
(** The errors a reader of the message cannot tell apart: the kind of a type
    error, and the line of a wrong number of task arguments. *)
Inductive reads_same : sem_err -> sem_err -> Prop :=
| rs_eq e : reads_same e e
| rs_type t : reads_same (InconsistentPredicateArgType t) (InconsistentTaskArgType t)
| rs_type' t : reads_same (InconsistentTaskArgType t) (InconsistentPredicateArgType t)
| rs_arity s x y l l' :
    reads_same (InconsistentTaskArity (mkArity s x y l)) (InconsistentTaskArity (mkArity s x y l')).

(** [s] is one of the lines of the text. *)
Definition has_line (text s : string) : Prop :=
  ~ str_in "010" s
  /\ exists a b, text = (a ++ s ++ String "010" b)%string /\ str_last (fun c => c = "010"%char) a.
(** The drawing of a cycle; the method that closes it is not shown. *)
Inductive draws : string -> list (string * string) -> Prop :=
| dr_last t m : draws ("[" ++ t ++ "]") [(t, m)]
| dr_step t m s c : draws s c -> draws ("[" ++ t ++ "]-(" ++ m ++ ")->" ++ s) ((t, m) :: c).
(** The same cycle up to the method that closes it. *)
Inductive same_drawing : list (string * string) -> list (string * string) -> Prop :=
| sd_last t m m' : same_drawing [(t, m)] [(t, m')]
| sd_step tm c c' : same_drawing c c' -> same_drawing (tm :: c) (tm :: c').
Definition class_phrase (r : recursion) : string :=
  match r with
  | NonRecursive => "Non-recursive"
  | Recursive _ => "Recursive"
  | EmptyRecursion _ => "Empty recursion"
  | GrowingEmptyPrefix _ => "Growing empty prefix recursion"
  | GrowAndShrink _ => "Grow and shrink recursion"
  end.
Definition same_class (r r' : recursion) : Prop :=
  match r, r' with
  | NonRecursive, NonRecursive | Recursive _, Recursive _ | EmptyRecursion _, EmptyRecursion _
  | GrowingEmptyPrefix _, GrowingEmptyPrefix _ | GrowAndShrink _, GrowAndShrink _ => True
  | _, _ => False
  end.
