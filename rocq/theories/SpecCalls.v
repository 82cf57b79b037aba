(** Specification: what a series of calls of the tokenizer is, and how much
    text it goes over.  Written for any series, without reference to the
    parser. *)
From Coq Require Import String Ascii NArith Bool List PeanoNat.
From Verif Require Import Base Token Lexer Calls.
Import ListNotations.
Open Scope list_scope.
Open Scope nat_scope.

Section SpecCalls.
Context `{Unicode}.

(** Calls one after the other from state [st] on: each starts where the one
    before it stopped, only the last may fail, and nothing is called once the
    end of the text has been read. *)
Inductive Session : lstate -> list call -> Prop :=
| no_call st : Session st []
| last_call p st : Session st [mkCall p st]
| next_call p st t st' l :
    lex p st = (LTok t, st') -> (p = false -> t <> TEOF) -> Session st' l ->
    Session st (mkCall p st :: l).

(** The calls of [get_token] among them, and the tokens these returned. *)
Definition reading (l : list call) : list call := filter (fun c => negb (c_peek c)) l.
Fixpoint tokens_of (l : list call) : list token :=
  match l with
  | [] => []
  | c :: l' =>
    match fst (lex false (c_at c)) with
    | LTok t => t :: tokens_of l'
    | _ => tokens_of l'
    end
  end.

(** The bytes from the cursor to the end of the next token; the whole rest of
    the text if there is no such token. *)
Definition stretch (st : lstate) : nat :=
  match get_token st with
  | (LTok _, st') => String.length (rest st) - String.length (rest st')
  | _ => String.length (rest st)
  end.
Definition passed (l : list call) : nat := list_sum (map (fun c => stretch (c_at c)) l).

End SpecCalls.
