(** The public entry points: src/lib.rs.  [fuel] bounds every loop of the
    parser and of the graph algorithms; termination theorems say how much is
    enough. *)
From Coq Require Import String NArith Bool List.
From Verif Require Import Base Token Lexer Errors Ast Parser Semantic Tdg.
Import ListNotations.
Open Scope list_scope.
Open Scope outcome_scope.

Section Api.
Context `{Unicode}.
Variable he : hash_env.

(** lib.rs 26-29 and 51-53. *)
Definition parse_as_domain (fuel : nat) (program : string) : outcome domain_ast :=
  a <-- parse fuel program ;;
  match a with
  | ADomain d => Ok d
  | AProblem _ => Panic PanicExpected
  end.
(** lib.rs 34-47. *)
Definition parse_as_problem (fuel : nat) (program : string) : outcome problem_ast :=
  a <-- parse fuel program ;;
  match a with
  | AProblem p => Ok p
  | ADomain _ => Panic PanicExpected
  end.

(** lib.rs 22-54: HDDLAnalyzer::verify. *)
Definition verify (fuel : nat) (domain : string) (problem : option string)
  : outcome (list warning) :=
  d <-- parse_as_domain fuel domain ;;
  tb <-- verify_domain he fuel d ;;
  match problem with
  | None => Ok (st_warnings tb)
  | Some p => past <-- parse_as_problem fuel p ;; verify_problem tb past
  end.

(** lib.rs 56-79: HDDLAnalyzer::get_metadata (the problem is ignored). *)
Definition get_metadata (fuel lfuel : nat) (domain : string) : outcome metadata :=
  d <-- parse_as_domain fuel domain ;; domain_metadata he fuel lfuel d.

End Api.
