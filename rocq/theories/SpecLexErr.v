(** Specification for C60: the texts the tokenizer rejects, what it quotes of
    them, and the texts on which it crashes. *)
From Coq Require Import String Ascii NArith ZArith Bool List.
From Verif Require Import Base Token StrFacts SpecLex Lexer.
Import ListNotations.
Open Scope string_scope.

(** [s] is [x] followed by [r]: [x] goes up to the next delimiter or, if there
    is none, up to but not including the last byte of the document. *)
Definition stretch (s x r : string) : Prop :=
  s = x ++ r /\ str_all (fun c => ~ delimiter c) x
  /\ match r with "" => False | String c r' => delimiter c \/ r' = "" end.

(** The first byte begins no other kind of token. *)
Definition other_start (s : string) : Prop :=
  match s with
  | "" => False
  | String c _ => ~ delimiter c /\ is_digit c = false
      /\ ~ In c ["-"; "<"; ">"; "="; "?"; ":"; ";"]%char
  end.

(** [Bad s k x]: [s] begins with an error of kind [k] for which [x] is quoted. *)
Inductive Bad `{Unicode} : string -> lex_err_type -> string -> Prop :=
| bad_integer d r :
    all_digits d -> d <> "" -> ~ starts_digit r -> ~ starts_with "." r ->
    (9223372036854775807 < decimal_value d)%Z -> Bad (d ++ r) InvalidIdentifier d
| bad_variable s x r :
    stretch s x r -> utf8_decode x <> None -> ~ word_at s x r -> Bad (String "?" s) InvalidIdentifier x
| bad_after_colon s x r :
    stretch s x r -> utf8_decode x <> None -> ~ word_at s x r -> Bad (String ":" s) InvalidIdentifier x
| bad_keyword s w r :
    word_at s w r -> utf8_decode w <> None -> (forall t, ~ In w (colon_text t)) -> Bad (String ":" s) InvalidKeyword w
| bad_word s x r :
    other_start s -> stretch s x r -> utf8_decode x <> None -> ~ word_at s x r -> Bad s InvalidIdentifier x
| bad_identifier s w r :
    other_start s -> word_at s w r -> utf8_decode w <> None -> ~ reserved w -> ~ identifier_text w ->
    Bad s InvalidIdentifier w.

(** [Crashes s p]: on [s] the tokenizer panics. *)
Inductive Crashes : string -> panic_site -> Prop :=
| cr_comment s : open_comment s -> Crashes s PanicIndex
| cr_variable : Crashes "?" PanicIndex
| cr_colon : Crashes ":" PanicIndex
| cr_variable_bytes s x r : stretch s x r -> utf8_decode x = None -> Crashes (String "?" s) PanicUtf8
| cr_colon_bytes s x r : stretch s x r -> utf8_decode x = None -> Crashes (String ":" s) PanicUtf8
| cr_word_bytes s x r : other_start s -> stretch s x r -> utf8_decode x = None -> Crashes s PanicUtf8.
