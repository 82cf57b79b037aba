(** Specification for C45: which token a rejected document is rejected for. *)
From Coq Require Import String NArith List.
From Verif Require Import Base Token Lexer Errors Ast Parser LexProofs2.
Import ListNotations.
Open Scope list_scope.

Section Spec.
Context `{Unicode}.
(** Some accepted document begins with these tokens. *)
Definition viable (toks : list token) : Prop :=
  exists program us more st n a,
    Reads (lex_new program) us st /\ map fst us = toks ++ more /\ parse n program = Ok a.

(** After the tokens [ts] of the document comes [o], on line [l]. *)
Definition stands_at (program : string) (ts : list (token * N)) (o : lex_out) (l : N) : Prop :=
  exists st, Reads (lex_new program) ts st /\ fst (get_token st) = o /\ line (snd (get_token st)) = l.
End Spec.
