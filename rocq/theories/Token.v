(** Tokens: src/lexical_analyzer/token_types.rs, token_pos.rs. *)
From Coq Require Import String Ascii NArith ZArith Bool List.
From Verif Require Import Base Double.
Import ListNotations.
Open Scope string_scope.

(** token_types.rs 30-35. *)
Inductive punct := Dash | LParen | RParen.

(** token_types.rs 47-65. *)
Inductive op :=
| OOr | ONot | OAnd | OXor | OForAll | OExists | OImplication
| OProbabilistic
| OEqual | OLess | OGreater | OLessEq | OGreaterEq.

(** token_types.rs 88-98. *)
Inductive requirement :=
| MethodPreconditions | Hierarchy | TypedObjects | NegativePreconditions
| UniversalPreconditions | Equality | STRIPS | ProbabilisticEffects.

(** token_types.rs 116-140. *)
Inductive keyword :=
| KDefine | KDomain | KProblem | KRequirements | KObjects | KTypes | KTask
| KConstants | KPredicates | KFunctions | KInit | KHTN | KAction | KParameters
| KMethod | KPrecondition | KEffect | KSubtasks | KOrderedSubtasks | KOrdering
| KConstraints | KGoal.

(** token_types.rs 173-177.  Simplification: a real number is represented by
    the decimal literal it was read from, not by the rounded [f64]. *)
Inductive number := Real (literal : string) | Integer (z : Z).

(** token_types.rs 5-14. *)
Inductive token :=
| TKeyword (k : keyword)
| TIdent (s : string)
| TNumber (n : number)
| TOp (o : op)
| TPunct (p : punct)
| TReq (r : requirement)
| TEOF.

(** token_types.rs 37-45. *)
Definition show_punct (p : punct) : string :=
  match p with Dash => "-" | LParen => "(" | RParen => ")" end.

(** token_types.rs 68-86 (note "when" for the token spelled "imply"). *)
Definition show_op (o : op) : string :=
  match o with
  | OOr => "or" | ONot => "not" | OAnd => "and" | OXor => "oneof"
  | OForAll => "forall" | OExists => "exists" | OImplication => "when"
  | OProbabilistic => "probabilistic" | OEqual => "=" | OLess => "<"
  | OGreater => ">" | OLessEq => "<=" | OGreaterEq => ">="
  end.

(** token_types.rs 100-114. *)
Definition show_requirement (r : requirement) : string :=
  match r with
  | MethodPreconditions => ":method-preconditions"
  | Hierarchy => ":hierarchy"
  | TypedObjects => ":typing"
  | NegativePreconditions => ":negative-preconditions"
  | UniversalPreconditions => ":universal-preconditions"
  | Equality => ":equality"
  | STRIPS => ":strips"
  | ProbabilisticEffects => ":probabilistic-effects"
  end.

(** token_types.rs 142-170. *)
Definition show_keyword (k : keyword) : string :=
  match k with
  | KDefine => ":define" | KDomain => ":domain" | KProblem => ":problem"
  | KRequirements => ":requirements" | KObjects => ":objects"
  | KTypes => ":types" | KTask => ":task" | KConstants => ":constants"
  | KPredicates => ":predicates" | KFunctions => ":functions"
  | KInit => ":init" | KHTN => ":htn" | KAction => ":action"
  | KParameters => ":parameters" | KMethod => ":method"
  | KPrecondition => ":precondition" | KEffect => ":effect"
  | KSubtasks => ":(sub)tasks" | KOrderedSubtasks => ":ordered-(sub)tasks"
  | KOrdering => ":ordering" | KConstraints => ":constraints" | KGoal => ":goal"
  end.

(** token_types.rs 179-186. *)
Definition show_number (n : number) : string :=
  match n with Integer z => show_Z z | Real l => display64 l end.

(** token_types.rs 16-28. *)
Definition show_token (t : token) : string :=
  match t with
  | TKeyword k => "Keyword " ++ show_keyword k
  | TIdent s => "Identifier " ++ s
  | TNumber n => "Number " ++ show_number n
  | TOp o => show_op o
  | TPunct p => show_punct p
  | TReq r => "Requirement " ++ show_requirement r
  | TEOF => "End of file"
  end.

(** PartialEq on RequirementType (derived). *)
Definition requirement_eqb (a b : requirement) : bool :=
  match a, b with
  | MethodPreconditions, MethodPreconditions | Hierarchy, Hierarchy
  | TypedObjects, TypedObjects | NegativePreconditions, NegativePreconditions
  | UniversalPreconditions, UniversalPreconditions | Equality, Equality
  | STRIPS, STRIPS | ProbabilisticEffects, ProbabilisticEffects => true
  | _, _ => false
  end.
