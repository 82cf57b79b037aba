(** The tokenizer once more, at the level of the Rust code:
    src/lexical_analyzer/tokenizer.rs with its cursor, machine arithmetic,
    array accesses and slices, in a debug and in a release build.  Lexer.v
    instead keeps the rest of the text; PropsCursor.v proves that both agree.

    Simplifications: usize has 64 bits; token texts are copied instead of
    borrowed; the loops and the self call have fuel ([Spent] when it is used
    up, proved unreachable). *)
From Coq Require Import String Ascii NArith ZArith Bool List.
From Verif Require Import Base Token Lexer.
Import ListNotations.
Open Scope string_scope.

(** Whether arithmetic overflow panics or wraps around. *)
Inductive build := Debug | Release.

(** A value, a panic of the code, an overflow panic. *)
Inductive res (A : Type) := Val (a : A) | Crash (p : panic_site) | Overflow | Spent.
Arguments Val {A} a.
Arguments Crash {A} p.
Arguments Overflow {A}.
Arguments Spent {A}.
Definition bindR {A B} (x : res A) (f : A -> res B) : res B :=
  match x with Val a => f a | Crash p => Crash p | Overflow => Overflow | Spent => Spent end.
Notation "x <~ a ;; b" := (bindR a (fun x => b)) (at level 61, a at next level, right associativity).

(** Addition and subtraction of unsigned numbers of [w] bits. *)
Definition plus (b : build) (w x y : N) : res N :=
  if (x + y <? 2 ^ w)%N then Val (x + y)%N
  else match b with Debug => Overflow | Release => Val ((x + y) mod 2 ^ w)%N end.
Definition minus (b : build) (w x y : N) : res N :=
  if (y <=? x)%N then Val (x - y)%N
  else match b with Debug => Overflow | Release => Val (x + 2 ^ w - y)%N end.

(** tokenizer.rs 5-9 (without the program). *)
Record mstate := mkM { cursor : N; mline : N }.

(** tokenizer.rs 12-18. *)
Definition m_new : mstate := mkM 0 1.
(** tokenizer.rs 21-23. *)
Definition reset_cursor (st : mstate) : mstate := mkM 0 (mline st).

Section Machine.
Context `{Unicode}.
Variable b : build.
Variable program : string.

Definition len : N := N.of_nat (String.length program).
Definition loops : nat := S (String.length program).

(** program[i] *)
Definition byte (i : N) : res ascii :=
  match String.get (N.to_nat i) program with Some c => Val c | None => Crash PanicIndex end.
(** program[i..j] *)
Definition slice (i j : N) : res string :=
  if ((i <=? j) && (j <=? len))%N then Val (substring (N.to_nat i) (N.to_nat (j - i)) program)
  else Crash PanicIndex.
(** from_utf8(..).unwrap() *)
Definition utf8 (s : string) : res string := if utf8_ok s then Val s else Crash PanicUtf8.
(** self.cursor.set(self.cursor.get() + 1) *)
Definition advance (st : mstate) : res mstate := c <~ plus b 64 (cursor st) 1 ;; Val (mkM c (mline st)).

(** tokenizer.rs 226-232. *)
Definition peek_next_char (st : mstate) : res (option ascii) :=
  if (len <=? cursor st)%N then Val None else c <~ byte (cursor st) ;; Val (Some c).

(** tokenizer.rs 234-246. *)
Fixpoint skip_ws (fuel : nat) (st : mstate) : res mstate :=
  match fuel with
  | O => Spent
  | S fuel' =>
    if (cursor st =? len)%N then Val st
    else
      c <~ byte (cursor st) ;;
      if negb (is_whitespace c) then Val st
      else
        st' <~ (if Ascii.eqb c newline then l <~ plus b 32 (mline st) 1 ;; Val (mkM (cursor st) l) else Val st) ;;
        st'' <~ advance st' ;;
        skip_ws fuel' st''
  end.

(** tokenizer.rs 202-209. *)
Fixpoint scan_word (fuel : nat) (pos : N) (next : ascii) (invalid : bool) : res (N * bool) :=
  match fuel with
  | O => Spent
  | S fuel' =>
    let '(valid, bad) := lexeme_char next in
    let invalid' := invalid || bad in
    if negb valid then Val (pos, invalid')
    else
      last <~ minus b 64 len 1 ;;
      if (pos <? last)%N then
        pos' <~ plus b 64 pos 1 ;;
        c <~ byte pos' ;;
        scan_word fuel' pos' c invalid'
      else Val (pos, invalid')
  end.

(** tokenizer.rs 184-224. *)
Definition m_peek_lexeme (init : N) (st : mstate) : res (lex_err + string * N) :=
  c <~ byte init ;;
  r <~ scan_word loops init c false ;;
  let '(pos, invalid) := r in
  if (invalid : bool) then
    s <~ slice init pos ;; l <~ utf8 s ;; Val (inl (mkLexErr InvalidIdentifier l (mline st)))
  else
    s <~ slice init pos ;; l <~ utf8 s ;; Val (inr (l, pos)).

(** tokenizer.rs 251-261. *)
Fixpoint scan_digits (fuel : nat) (pos : N) (seen : bool) : res (N * bool) :=
  match fuel with
  | O => Spent
  | S fuel' =>
    if (pos <? len)%N then
      c <~ byte pos ;;
      if is_digit c then p <~ plus b 64 pos 1 ;; scan_digits fuel' p seen
      else if Ascii.eqb c "." && negb seen then p <~ plus b 64 pos 1 ;; scan_digits fuel' p true
      else Val (pos, seen)
    else Val (pos, seen)
  end.

(** tokenizer.rs 248-282. *)
Definition m_peek_number (init : N) (st : mstate) : res (lex_err + number * N) :=
  r <~ scan_digits loops init false ;;
  let '(pos, seen) := r in
  s <~ slice init pos ;;
  l <~ utf8 s ;;
  if (seen : bool) then
    if f64_parses l then Val (inr (Real l, pos))
    else Val (inl (mkLexErr InvalidRealNumber l (mline st)))
  else
    if (decimal_value l <=? i64_max)%Z then Val (inr (Integer (decimal_value l), pos))
    else Val (inl (mkLexErr InvalidIdentifier l (mline st))).

(** tokenizer.rs 300-325. *)
Definition m_ordering_type (c : ascii) (peek : bool) (st : mstate) : res (op * mstate) :=
  if Ascii.eqb c "<" then
    n <~ peek_next_char st ;;
    match n with
    | Some "="%char => st' <~ (if peek then Val st else advance st) ;; Val (OLessEq, st')
    | _ => Val (OLess, st)
    end
  else if Ascii.eqb c ">" then
    n <~ peek_next_char st ;;
    match n with
    | Some "="%char => st' <~ (if peek then Val st else advance st) ;; Val (OGreaterEq, st')
    | _ => Val (OGreater, st)
    end
  else if Ascii.eqb c "=" then Val (OEqual, st)
  else Crash PanicUnreachable.

(** tokenizer.rs 123-128. *)
Fixpoint comment (fuel : nat) (st : mstate) (current : ascii) : res mstate :=
  match fuel with
  | O => Spent
  | S fuel' =>
    if Ascii.eqb current newline then Val st
    else st' <~ advance st ;; c <~ byte (cursor st') ;; comment fuel' st' c
  end.

(** Where the text of a token starts: tokenizer.rs 55-58 and 66-69. *)
Definition after_sign (peek : bool) (st : mstate) : res N :=
  if peek then plus b 64 (cursor st) 1 else Val (cursor st).
(** `if !peek { self.cursor.set(new_cur_pos); }` *)
Definition commit (peek : bool) (pos : N) (st : mstate) : mstate := if peek then st else mkM pos (mline st).

(** tokenizer.rs 38-181.  The result is a token or an error. *)
Fixpoint m_parse (fuel : nat) (peek : bool) (st0 : mstate) : res (lex_out * mstate) :=
  match fuel with
  | O => Spent
  | S fuel' =>
    st1 <~ skip_ws loops st0 ;;
    if (cursor st1 =? len)%N then Val (LTok TEOF, st1)
    else
      n <~ peek_next_char st1 ;;
      match n with
      | None => Val (LTok TEOF, st1)
      | Some c =>
        st <~ (if peek then Val st1 else advance st1) ;;
        if Ascii.eqb c "-" then Val (LTok (TPunct Dash), st)
        else if Ascii.eqb c "(" then Val (LTok (TPunct LParen), st)
        else if Ascii.eqb c ")" then Val (LTok (TPunct RParen), st)
        else if Ascii.eqb c "<" || Ascii.eqb c ">" || Ascii.eqb c "=" then
          r <~ m_ordering_type c peek st ;; let '(o, st') := r in Val (LTok (TOp o), st')
        else if Ascii.eqb c "?" then
          init <~ after_sign peek st ;;
          r <~ m_peek_lexeme init st ;;
          match r with
          | inl e => Val (LErr e, st)
          | inr (l, pos) => Val (LTok (TIdent l), commit peek pos st)
          end
        else if Ascii.eqb c ":" then
          init <~ after_sign peek st ;;
          r <~ m_peek_lexeme init st ;;
          match r with
          | inl e => Val (LErr e, st)
          | inr (l, pos) =>
            let st' := commit peek pos st in
            match str_assoc l colon_words with
            | Some t => Val (LTok t, st')
            | None => Val (LErr (mkLexErr InvalidKeyword l (mline st')), st')
            end
          end
        else if Ascii.eqb c ";" then
          current <~ byte (cursor st) ;;
          st' <~ comment loops st current ;;
          m_parse fuel' peek st'
        else
          before <~ minus b 64 (cursor st) 1 ;;
          init <~ (if peek then plus b 64 before 1 else Val before) ;;
          if is_digit c then
            r <~ m_peek_number init st ;;
            match r with
            | inl e => Val (LErr e, st)
            | inr (v, pos) => Val (LTok (TNumber v), commit peek pos st)
            end
          else
            r <~ m_peek_lexeme init st ;;
            match r with
            | inl e => Val (LErr e, st)
            | inr (l, pos) =>
              let st' := commit peek pos st in
              match str_assoc l bare_words with
              | Some t => Val (LTok t, st')
              | None =>
                match str_assoc l operators with
                | Some o => Val (LTok (TOp o), st')
                | None =>
                  if ident_chars l then Val (LTok (TIdent l), st')
                  else Val (LErr (mkLexErr InvalidIdentifier l (mline st')), st')
                end
              end
            end
      end
  end.

(** tokenizer.rs 26-28 (peek) and 34-36 (read). *)
Definition call (peek : bool) (st : mstate) : res (lex_out * mstate) := m_parse loops peek st.

(** Several calls in a row: the results, up to and including the first panic. *)
Inductive reply := Gave (o : lex_out) | Died (p : panic_site) | Overflowed | Hung.
Fixpoint calls (ps : list bool) (st : mstate) : list reply :=
  match ps with
  | [] => []
  | p :: ps' =>
    match call p st with
    | Val (o, st') => Gave o :: calls ps' st'
    | Crash q => [Died q]
    | Overflow => [Overflowed]
    | Spent => [Hung]
    end
  end.
End Machine.
