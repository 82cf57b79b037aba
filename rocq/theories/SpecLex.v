(** Specification of the lexical syntax, written independently of the
    tokenizer (only the token type and the character tables are shared). *)
From Coq Require Import String Ascii NArith ZArith Bool List.
From Verif Require Import Base Token StrFacts.
Import ListNotations.
Open Scope string_scope.

(** Whitespace: blank, tab, newline, carriage return. *)
Definition ws (c : ascii) : Prop :=
  c = " "%char \/ c = "009"%char \/ c = "010"%char \/ c = "013"%char.

(** Bytes that end a word. *)
Definition delimiter (c : ascii) : Prop := ws c \/ c = "("%char \/ c = ")"%char.

(** Text between tokens: whitespace and newline-terminated comments. *)
Inductive Gap : string -> Prop :=
| gap_nil : Gap ""
| gap_ws c g : ws c -> Gap g -> Gap (String c g)
| gap_comment text g :
    ~ str_in "010" text -> Gap g -> Gap (String ";" (text ++ String "010" g)).

(** A text that starts with an unterminated comment. *)
Definition open_comment (s : string) : Prop :=
  exists text, s = String ";" text /\ ~ str_in "010" text.

(** The first byte, if any, is neither whitespace nor a comment start. *)
Definition token_start (s : string) : Prop :=
  match s with
  | EmptyString => True
  | String c _ => ~ ws c /\ c <> ";"%char
  end.

(** A byte that may occur in a word. *)
Definition word_byte (c : ascii) : Prop :=
  latin1_alnum c = true \/ c = "_"%char \/ c = "-"%char.

(** What may follow a word: a delimiter, or (the documented truncation) one
    last byte of the document, which is then not part of the word. *)
Definition word_end (r : string) : Prop :=
  match r with
  | EmptyString => False
  | String c r' => delimiter c \/ (word_byte c /\ r' = "")
  end.

(** [s] is the word [w] followed by [r]. *)
Definition word_at (s w r : string) : Prop :=
  s = w ++ r /\ str_all word_byte w /\ word_end r.

(** Spellings of requirements, keywords (after ':') and reserved bare words. *)
Definition req_text (r : requirement) : list string :=
  match r with
  | MethodPreconditions => ["method-preconditions"]
  | Hierarchy => ["hierarchy"]
  | TypedObjects => ["typing"]
  | NegativePreconditions => ["negative-preconditions"]
  | UniversalPreconditions => ["universal-preconditions"]
  | Equality => ["equality"]
  | STRIPS => ["strips"]
  | ProbabilisticEffects => []
  end.

Definition keyword_text (k : keyword) : list string :=
  match k with
  | KDefine => []
  | KDomain => ["domain"]
  | KProblem => ["problem"]
  | KRequirements => ["requirements"]
  | KObjects => ["objects"]
  | KTypes => ["types"]
  | KTask => ["task"]
  | KConstants => ["constants"]
  | KPredicates => ["predicates"]
  | KFunctions => ["functions"]
  | KInit => ["init"]
  | KHTN => ["htn"]
  | KAction => ["action"]
  | KParameters => ["parameters"]
  | KMethod => ["method"]
  | KPrecondition => ["precondition"]
  | KEffect => ["effect"]
  | KSubtasks => ["subtasks"; "tasks"]
  | KOrderedSubtasks => ["ordered-subtasks"; "ordered-tasks"]
  | KOrdering => ["ordering"; "order"]
  | KConstraints => ["constraints"]
  | KGoal => ["goal"]
  end.

(** Tokens written as a bare word. *)
Definition bare_text (t : token) : list string :=
  match t with
  | TKeyword KDefine => ["define"]
  | TKeyword KDomain => ["domain"]
  | TKeyword KProblem => ["problem"]
  | TOp OAnd => ["and"]
  | TOp OOr => ["or"]
  | TOp OXor => ["oneof"]
  | TOp ONot => ["not"]
  | TOp OForAll => ["forall"]
  | TOp OExists => ["exists"]
  | TOp OImplication => ["imply"]
  | TOp OProbabilistic => ["probabilistic"]
  | _ => []
  end.

(** Tokens written as ':' followed by a word. *)
Definition colon_text (t : token) : list string :=
  match t with
  | TReq r => req_text r
  | TKeyword k => keyword_text k
  | _ => []
  end.

(** A word reserved for some bare token. *)
Definition reserved (w : string) : Prop := exists t, In w (bare_text t).

Definition all_digits (s : string) : Prop := str_all (fun c => is_digit c = true) s.

Definition starts_digit (s : string) : Prop :=
  match s with String c _ => is_digit c = true | EmptyString => False end.

(** The bytes of an identifier decode to letters, digits, '_' and '-'. *)
Definition identifier_text `{Unicode} (w : string) : Prop :=
  exists cps, utf8_decode w = Some cps /\
  Forall (fun cp => char_alnum cp = true \/ cp = 95%N \/ cp = 45%N) cps.

(** [s] begins like a bare word: with a word byte that is not a digit or '-'. *)
Definition bare_start (s : string) : Prop :=
  match s with
  | EmptyString => False
  | String c _ => word_byte c /\ is_digit c = false /\ c <> "-"%char
  end.

(** [Spells s t r]: the text [s] begins with a spelling of the token [t] and
    continues with [r] (longest match). *)
Inductive Spells `{Unicode} : string -> token -> string -> Prop :=
| sp_eof : Spells "" TEOF ""
| sp_lparen r : Spells (String "(" r) (TPunct LParen) r
| sp_rparen r : Spells (String ")" r) (TPunct RParen) r
| sp_dash r : Spells (String "-" r) (TPunct Dash) r
| sp_less r : ~ starts_with "=" r -> Spells (String "<" r) (TOp OLess) r
| sp_greater r : ~ starts_with "=" r -> Spells (String ">" r) (TOp OGreater) r
| sp_lesseq r : Spells (String "<" (String "=" r)) (TOp OLessEq) r
| sp_greatereq r : Spells (String ">" (String "=" r)) (TOp OGreaterEq) r
| sp_equal r : Spells (String "=" r) (TOp OEqual) r
| sp_variable s w r :
    word_at s w r -> utf8_decode w <> None -> Spells (String "?" s) (TIdent w) r
| sp_colon s w r t :
    word_at s w r -> In w (colon_text t) -> Spells (String ":" s) t r
| sp_integer d r :
    all_digits d -> d <> "" -> ~ starts_digit r -> ~ starts_with "." r ->
    (decimal_value d <= 9223372036854775807)%Z ->
    Spells (d ++ r) (TNumber (Integer (decimal_value d))) r
| sp_real d e r :
    all_digits d -> d <> "" -> all_digits e -> ~ starts_digit r ->
    Spells (d ++ String "." (e ++ r)) (TNumber (Real (d ++ String "." e))) r
| sp_word s w r t :
    word_at s w r -> bare_start s -> In w (bare_text t) -> Spells s t r
| sp_ident s w r :
    word_at s w r -> bare_start s -> ~ reserved w -> identifier_text w ->
    Spells s (TIdent w) r.

(** [Written t x]: [x] is a way to write the token [t] (to be followed by a
    delimiter). *)
Inductive Written `{Unicode} : token -> string -> Prop :=
| wr_lparen : Written (TPunct LParen) "("
| wr_rparen : Written (TPunct RParen) ")"
| wr_dash : Written (TPunct Dash) "-"
| wr_less : Written (TOp OLess) "<"
| wr_greater : Written (TOp OGreater) ">"
| wr_lesseq : Written (TOp OLessEq) "<="
| wr_greatereq : Written (TOp OGreaterEq) ">="
| wr_equal : Written (TOp OEqual) "="
| wr_variable w :
    str_all word_byte w -> utf8_decode w <> None -> Written (TIdent w) (String "?" w)
| wr_ident w :
    str_all word_byte w -> bare_start w -> ~ reserved w -> identifier_text w ->
    Written (TIdent w) w
| wr_colon t w : In w (colon_text t) -> Written t (String ":" w)
| wr_bare t w : In w (bare_text t) -> Written t w
| wr_integer d :
    all_digits d -> d <> "" -> (decimal_value d <= 9223372036854775807)%Z ->
    Written (TNumber (Integer (decimal_value d))) d
| wr_real d e :
    all_digits d -> d <> "" -> all_digits e ->
    Written (TNumber (Real (d ++ String "." e))) (d ++ String "." e).

(** Tokens that can occur in a document. *)
Definition printable (t : token) : Prop :=
  match t with
  | TEOF => False
  | TReq r => r <> ProbabilisticEffects
  | TIdent w => str_all word_byte w /\ utf8_decode w <> None
  | TNumber (Integer z) => (0 <= z <= 9223372036854775807)%Z
  | TNumber (Real l) =>
    exists d e, l = d ++ String "." e /\ all_digits d /\ d <> "" /\ all_digits e
  | _ => True
  end.

(** Every ';' of [q] has a newline after it: no comment is left open. *)
Definition clean (q : string) : Prop :=
  forall x y, q = x ++ String ";" y -> str_in "010" y.

(** 7-bit ASCII. *)
Definition is_ascii (c : ascii) : Prop := (N_of_ascii c <= 127)%N.
