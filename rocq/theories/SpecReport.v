(** How much the tools say (C78). *)
From Coq Require Import String Ascii List.
Open Scope string_scope.

(** The number of line breaks in a text. *)
Fixpoint line_breaks (s : string) : nat :=
  match s with
  | "" => 0
  | String c s' => (if Ascii.eqb c "010" then 1 else 0) + line_breaks s'
  end.
