(** The tokenizer: src/lexical_analyzer/tokenizer.rs.

    State representation: [rest] is the suffix of the program that starts at
    the cursor ([cursor = length program - length rest]); [line] is
    [last_token_pos.line] (modelled without the u32 overflow). *)
From Coq Require Import String Ascii NArith ZArith Bool List.
From Verif Require Import Base Token.
Import ListNotations.
Open Scope string_scope.

(** output/errors/lexical.rs: LexicalErrorType. *)
Inductive lex_err_type := InvalidKeyword | InvalidIdentifier | InvalidRealNumber.

(** output/errors/lexical.rs: LexicalError. *)
Record lex_err := mkLexErr {
  le_type : lex_err_type;
  le_lexeme : string;
  le_line : N
}.

(** Places in the Rust code where evaluation can panic. *)
Inductive panic_site :=
| PanicIndex            (* slice index out of bounds: tokenizer.rs 124, 127, 186 *)
| PanicUtf8             (* from_utf8(..).unwrap(): tokenizer.rs 214, 220 *)
| PanicProblemToken     (* problem_parser/router.rs 70: panic!("unexpected token") *)
| PanicFormula          (* undefined_elements.rs: panic!() on Imply/Exists *)
| PanicUnwrap           (* unwrap() on None *)
| PanicExpected         (* lib.rs: panic! on a document of the wrong kind *)
| PanicUndefined        (* tdg.rs: panic!("... is not defined") *)
| PanicAssert           (* tdg.rs: assert_eq! on orderings *)
| PanicUnreachable      (* semantic.rs Display: unreachable!() *)
| PanicUrl              (* diagnostic_utils.rs: Url::parse("//").unwrap() *)
| PanicUnderflow.       (* unsigned subtraction underflow *)

(** Result of one tokenizer call.  [LFuel] is an artefact of the structural
    fuel used for the self call in the comment branch; it is proved
    unreachable for the fuel passed by [parse]. *)
Inductive lex_out :=
| LTok (t : token)
| LErr (e : lex_err)
| LPanic (p : panic_site)
| LFuel.

(** tokenizer.rs 5-9. *)
Record lstate := mkL { rest : string; line : N }.

(** tokenizer.rs 12-18. *)
Definition lex_new (program : string) : lstate := mkL program 1.

(** tokenizer.rs 327-332. *)
Definition is_whitespace (c : ascii) : bool :=
  Ascii.eqb c " " || Ascii.eqb c tab || Ascii.eqb c newline || Ascii.eqb c creturn.

(** tokenizer.rs 234-246. *)
Fixpoint skip_whitespaces (s : string) (ln : N) : string * N :=
  match s with
  | EmptyString => (EmptyString, ln)
  | String c s' =>
    if negb (is_whitespace c) then (s, ln)
    else skip_whitespaces s' (if Ascii.eqb c newline then ln + 1 else ln)%N
  end.

(** tokenizer.rs 188-201: the two booleans are (is_valid_character c, c makes
    the lexeme invalid). *)
Definition lexeme_char (c : ascii) : bool * bool :=
  if Ascii.eqb c "_" || Ascii.eqb c "-" then (true, false)
  else if Ascii.eqb c ")" || Ascii.eqb c "(" then (false, false)
  else if is_whitespace c then (false, false)
  else (true, negb (latin1_alnum c)).

(** tokenizer.rs 202-209: the scanning loop of peek_lexeme, started on a
    non-empty suffix.  Returns (scanned lexeme, suffix at the new cursor,
    is_invalid).  When the scan reaches the last byte of the program and that
    byte is a lexeme character, the loop breaks without including it. *)
Fixpoint scan_lexeme (s : string) : string * string * bool :=
  match s with
  | EmptyString => (EmptyString, EmptyString, false)
  | String c s' =>
    let '(valid, bad) := lexeme_char c in
    if negb valid then (EmptyString, s, false)
    else match s' with
         | EmptyString => (EmptyString, s, bad)
         | _ => let '(l, r, b) := scan_lexeme s' in (String c l, r, bad || b)
         end
  end.

(** tokenizer.rs 184-224 (error results carry no new cursor). *)
Inductive lexeme_out :=
| XOk (lexeme : string) (after : string)
| XErr (e : lex_err)
| XPanic (p : panic_site).

Definition peek_lexeme (s : string) (ln : N) : lexeme_out :=
  match s with
  | EmptyString => XPanic PanicIndex
  | _ =>
    let '(l, r, bad) := scan_lexeme s in
    if negb (utf8_ok l) then XPanic PanicUtf8
    else if bad then XErr (mkLexErr InvalidIdentifier l ln)
    else XOk l r
  end.

(** tokenizer.rs 251-261: scanning loop of peek_number; returns (lexeme,
    suffix at the new cursor, seen_dot). *)
Fixpoint scan_number (seen : bool) (s : string) : string * string * bool :=
  match s with
  | EmptyString => (EmptyString, EmptyString, seen)
  | String c s' =>
    if is_digit c then
      let '(l, r, sd) := scan_number seen s' in (String c l, r, sd)
    else if Ascii.eqb c "." && negb seen then
      let '(l, r, sd) := scan_number true s' in (String c l, r, sd)
    else (EmptyString, s, seen)
  end.

(** Rust's [str::parse::<f64>] on strings made of digits and at most one dot:
    accepted iff there is at least one digit. *)
Fixpoint f64_parses (s : string) : bool :=
  match s with
  | EmptyString => false
  | String c s' => is_digit c || f64_parses s'
  end.

(** tokenizer.rs 248-282.  The slice consists of ASCII digits and dots, so
    the [from_utf8(..).unwrap()] of line 262 cannot fail and is omitted. *)
Inductive number_out :=
| NOk (n : number) (after : string)
| NErr (e : lex_err).

Definition peek_number (s : string) (ln : N) : number_out :=
  let '(l, r, seen_dot) := scan_number false s in
  if (seen_dot : bool) then
    if f64_parses l then NOk (Real l) r
    else NErr (mkLexErr InvalidRealNumber l ln)
  else
    if (decimal_value l <=? i64_max)%Z then NOk (Integer (decimal_value l)) r
    else NErr (mkLexErr InvalidIdentifier l ln).

(** tokenizer.rs 284-298. *)
Definition operators : list (string * op) :=
  [("and", OAnd); ("or", OOr); ("oneof", OXor); ("not", ONot);
   ("forall", OForAll); ("exists", OExists); ("imply", OImplication);
   ("probabilistic", OProbabilistic)].

(** tokenizer.rs 76-114: the words recognised after ':'. *)
Definition colon_words : list (string * token) :=
  [("negative-preconditions", TReq NegativePreconditions);
   ("strips", TReq STRIPS);
   ("hierarchy", TReq Hierarchy);
   ("equality", TReq Equality);
   ("method-preconditions", TReq MethodPreconditions);
   ("typing", TReq TypedObjects);
   ("universal-preconditions", TReq UniversalPreconditions);
   ("requirements", TKeyword KRequirements);
   ("objects", TKeyword KObjects);
   ("types", TKeyword KTypes);
   ("constants", TKeyword KConstants);
   ("predicates", TKeyword KPredicates);
   ("functions", TKeyword KFunctions);
   ("init", TKeyword KInit);
   ("htn", TKeyword KHTN);
   ("task", TKeyword KTask);
   ("action", TKeyword KAction);
   ("parameters", TKeyword KParameters);
   ("method", TKeyword KMethod);
   ("precondition", TKeyword KPrecondition);
   ("effect", TKeyword KEffect);
   ("subtasks", TKeyword KSubtasks);
   ("tasks", TKeyword KSubtasks);
   ("ordered-subtasks", TKeyword KOrderedSubtasks);
   ("ordered-tasks", TKeyword KOrderedSubtasks);
   ("ordering", TKeyword KOrdering);
   ("order", TKeyword KOrdering);
   ("constraints", TKeyword KConstraints);
   ("goal", TKeyword KGoal);
   ("domain", TKeyword KDomain);
   ("problem", TKeyword KProblem)].

(** tokenizer.rs 149-153. *)
Definition bare_words : list (string * token) :=
  [("define", TKeyword KDefine); ("domain", TKeyword KDomain);
   ("problem", TKeyword KProblem)].

(** tokenizer.rs 160-162: the decoded chars of a lexeme are all alphanumeric,
    '_' or '-'.  (The lexeme is valid UTF-8 at this point.) *)
Definition ident_chars `{Unicode} (l : string) : bool :=
  match utf8_decode l with
  | Some cps => forallb (fun cp => char_alnum cp || (cp =? 95)%N || (cp =? 45)%N) cps
  | None => false
  end.

(** tokenizer.rs 123-130, the comment loop: advance to the next newline; [None]
    when the end of the program is reached (index out of bounds). *)
Fixpoint skip_comment (s : string) : option string :=
  match s with
  | EmptyString => None
  | String c s' => if Ascii.eqb c newline then Some s else skip_comment s'
  end.

(** tokenizer.rs 300-325.  [here] is the suffix at the cursor: after the
    operator character when reading, still at it when peeking.  Returns the
    operator and the suffix at the new cursor. *)
Definition ordering_type (c : ascii) (peek : bool) (here : string) : op * string :=
  let next_is_eq :=
    match here with String d _ => Ascii.eqb d "=" | EmptyString => false end in
  let tail := match here with String _ r => r | EmptyString => EmptyString end in
  if Ascii.eqb c "<" then
    if next_is_eq then (OLessEq, if peek then here else tail) else (OLess, here)
  else if Ascii.eqb c ">" then
    if next_is_eq then (OGreaterEq, if peek then here else tail) else (OGreater, here)
  else (OEqual, here).

(** tokenizer.rs 38-181, with fuel for the self call in the comment branch.
    [at_tok] is the state at the token's first byte; in peek mode the cursor
    stays there.  In debug builds [cursor - 1] (line 133) would additionally
    overflow when peeking at the very first byte of the program; the parser
    never does that, and the model follows the wrapping (release) semantics. *)
Fixpoint lex_fuel `{Unicode} (fuel : nat) (peek : bool) (st : lstate) : lex_out * lstate :=
  match fuel with
  | O => (LFuel, st)
  | S fuel' =>
    let '(s, ln) := skip_whitespaces (rest st) (line st) in
    match s with
    | EmptyString => (LTok TEOF, mkL s ln)
    | String c s' =>
      let here := if peek then s else s' in      (* suffix at the cursor after line 46 *)
      let upd (r : string) := mkL (if peek then s else r) ln in
      if Ascii.eqb c "-" then (LTok (TPunct Dash), mkL here ln)
      else if Ascii.eqb c "(" then (LTok (TPunct LParen), mkL here ln)
      else if Ascii.eqb c ")" then (LTok (TPunct RParen), mkL here ln)
      else if Ascii.eqb c "<" || Ascii.eqb c ">" || Ascii.eqb c "=" then
        let '(o, r) := ordering_type c peek here in (LTok (TOp o), mkL r ln)
      else if Ascii.eqb c "?" then
        match peek_lexeme s' ln with
        | XOk l r => (LTok (TIdent l), upd r)
        | XErr e => (LErr e, mkL here ln)
        | XPanic p => (LPanic p, mkL here ln)
        end
      else if Ascii.eqb c ":" then
        match peek_lexeme s' ln with
        | XOk l r =>
          match str_assoc l colon_words with
          | Some t => (LTok t, upd r)
          | None => (LErr (mkLexErr InvalidKeyword l ln), upd r)
          end
        | XErr e => (LErr e, mkL here ln)
        | XPanic p => (LPanic p, mkL here ln)
        end
      else if Ascii.eqb c ";" then
        match skip_comment here with
        | Some r => lex_fuel fuel' peek (mkL r ln)
        | None => (LPanic PanicIndex, mkL EmptyString ln)
        end
      else if is_digit c then
        match peek_number s ln with
        | NOk n r => (LTok (TNumber n), upd r)
        | NErr e => (LErr e, mkL here ln)
        end
      else
        match peek_lexeme s ln with
        | XOk l r =>
          match str_assoc l bare_words with
          | Some t => (LTok t, upd r)
          | None =>
            match str_assoc l operators with
            | Some o => (LTok (TOp o), upd r)
            | None =>
              if ident_chars l then (LTok (TIdent l), upd r)
              else (LErr (mkLexErr InvalidIdentifier l ln), upd r)
            end
          end
        | XErr e => (LErr e, mkL here ln)
        | XPanic p => (LPanic p, mkL here ln)
        end
    end
  end.

(** Every comment consumes at least its ';', so this fuel is enough. *)
Definition lex `{Unicode} (peek : bool) (st : lstate) : lex_out * lstate :=
  lex_fuel (S (String.length (rest st))) peek st.

(** tokenizer.rs 34-36. *)
Definition get_token `{Unicode} (st : lstate) : lex_out * lstate := lex false st.
(** tokenizer.rs 26-28. *)
Definition lookahead `{Unicode} (st : lstate) : lex_out * lstate := lex true st.
