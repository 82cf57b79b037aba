(** The names in document headers (C36). *)
From Coq Require Import String Ascii NArith Bool List.
From Verif Require Import Base Token Lexer Errors Ast Parser StrFacts SpecLex LexProofs LexProofs2 SpecGrammar ParserPanic.
Import ListNotations.
Open Scope list_scope.

Inductive GDomainHeader : string -> list (token * N) -> Prop :=
| gdh n l1 l2 l3 l4 ln l5 :
    GDomainHeader n [lp l1; kw KDefine l2; lp l3; kw KDomain l4; id n ln; rp l5].

(** The domain with another name and other requirements. *)
Definition with_header (n : string) (rs : list requirement) (d : domain_ast) : domain_ast :=
  mkDomain n (d_types d) (d_constants d) rs (d_preds d) (d_tasks d) (d_methods d) (d_actions d) (d_funcs d).
Definition with_name (n : string) (d : domain_ast) : domain_ast := with_header n (d_reqs d) d.

Section H.
Context `{Unicode}.

Lemma header_problem n program hs st : Reads (lex_new program) hs st -> GProblemHeader hs ->
  parse n program = match parse_problem n n new_problem st with
                    | POk p _ => Ok (AProblem p) | PErr e => Err e | PPanic p => Panic p | PFuel => OutOfFuel end.
Proof.
  intros Hr Hh. destruct Hh.
  repeat match goal with Hr : Reads _ (_ :: _) _ |- _ => inversion Hr; subst; clear Hr end.
  match goal with Hr : Reads _ [] _ |- _ => inversion Hr; subst; clear Hr end.
  unfold parse, parse_doc, parse_document_type, parse_problem_header, bind, get, ret.
  repeat match goal with E : get_token _ = _ |- _ => rewrite E; clear E; cbn [of_lex] end.
  destruct (parse_problem n n new_problem st); auto.
Qed.

Lemma header_domain n program name hs st : Reads (lex_new program) hs st -> GDomainHeader name hs ->
  parse n program = match parse_domain n n (new_domain name) st with
                    | POk p _ => Ok (ADomain p) | PErr e => Err e | PPanic p => Panic p | PFuel => OutOfFuel end.
Proof.
  intros Hr Hh. destruct Hh as [name].
  repeat match goal with Hr : Reads _ (_ :: _) _ |- _ => inversion Hr; subst; clear Hr end.
  match goal with Hr : Reads _ [] _ |- _ => inversion Hr; subst; clear Hr end.
  unfold parse, parse_doc, parse_document_type, parse_domain_header, bind, get, ret.
  repeat match goal with E : get_token _ = _ |- _ => rewrite E; clear E; cbn [of_lex] end.
  destruct (parse_domain n n (new_domain name) st); auto.
Qed.

Lemma domain_name_free fuel w : forall n d0 st d st',
  parse_domain fuel n d0 st = POk d st' -> parse_domain fuel n (with_name w d0) st = POk (with_name w d) st'.
Proof.
  induction n as [|n IH]; intros d0 st d st'; [discriminate|].
  cbn [parse_domain]. unfold bind, ret.
  repeat match goal with
  | |- context [match ?x with _ => _ end] =>
    match x with context [parse_domain] => fail 1 | _ => destruct x; try discriminate end
  end; try (intros E; injection E as <- <-; reflexivity); intros E; apply IH in E; exact E.
Qed.
End H.
