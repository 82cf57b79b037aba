(** Property theorems about the tokenizer's cursor and arithmetic (C65):
    Cursor.v, which follows the code line by line, behaves as Lexer.v, on which
    all other theorems are based. *)
From Coq Require Import String Ascii NArith ZArith Bool List Lia PeanoNat.
From Verif Require Import Base Token Lexer Errors Ast Parser StrFacts SpecLex LexProofs LexProofs2 PropsLex Cursor CursorProofs.
Import ListNotations.
Open Scope string_scope.

Section S.
Context `{Unicode}.

(** The replies of Lexer.v to the same calls ([true]: lookahead, [false]: get_token). *)
Fixpoint expected (ps : list bool) (st : lstate) : list reply :=
  match ps with
  | [] => []
  | p :: ps' =>
    match lex p st with
    | (LPanic q, _) => [Died q]
    | (LFuel, _) => [Hung]
    | (o, st') => Gave o :: expected ps' st'
    end
  end.
(** The first call reads, and does not read the empty word. *)
Definition starts_reading (program : string) (ps : list bool) : Prop :=
  match ps with
  | [] => True
  | p :: _ => p = false /\ fst (get_token (lex_new program)) <> LTok (TIdent "")
  end.

Lemma calls_agree b program (Hlen : (len program < 2 ^ 63)%N) ps : forall st p,
  program = p ++ rest st -> (line st + count_nl (rest st) < 2 ^ 32)%N ->
  (b = Release \/ p <> "" \/ rest st = "" \/ match ps with [] => True | q :: _ => q = false /\ fst (get_token st) <> LTok (TIdent "") end) ->
  calls b program ps (mkM (posn p) (line st)) = expected ps st.
Proof.
  induction ps as [|q ps IH]; intros st p E Hl Hs; [reflexivity|]. cbn [calls expected].
  assert (safe b q p (rest st)) as Hsafe by (unfold safe; destruct Hs as [Hs|[Hs|[Hs|[-> Hs]]]]; auto).
  assert (agrees program q p st (lex q st) (call b program q (mkM (posn p) (line st)))) as Ha.
  { unfold lex, call. apply m_parse_pos; auto. eapply fuel_enough; eauto. }
  unfold agrees in Ha. destruct (lex q st) as [o st'] eqn:El. cbn [fst snd] in Ha.
  assert (forall p', program = p' ++ rest st' /\ call b program q (mkM (posn p) (line st)) = Val (o, mkM (posn p') (line st'))
    /\ (posn p <= posn p')%N /\ (line st' + count_nl (rest st') <= line st + count_nl (rest st))%N
    /\ (q = false -> p' <> "" \/ rest st' = "" \/ o = LTok (TIdent "")) ->
    match call b program q (mkM (posn p) (line st)) with
    | Val (o, st') => Gave o :: calls b program ps st' | Crash q => [Died q] | Overflow => [Overflowed] | Spent => [Hung] end
    = Gave o :: expected ps st') as Hgo.
  { intros p' (Ep & Ec & Hp & Hl' & Hne). rewrite Ec. f_equal. apply IH; auto; [lia|].
    destruct Hs as [Hs|[Hs|[Hs|[-> Hs]]]]; auto.
    - right. left. apply (proj1 (posn_ne program Hlen p')). apply (proj2 (posn_ne program Hlen p)) in Hs. lia.
    - right. right. left. rewrite Hs in E. rewrite app_nil_r_s in E. subst p. destruct (rest st') as [|c r] eqn:Er; auto.
      exfalso. assert (posn p' < len program)%N by (eapply posn_lt; eauto). change (posn program) with (len program) in Hp. lia.
    - right. unfold get_token in Hs. rewrite El in Hs. cbn [fst] in Hs. destruct (Hne eq_refl) as [|[|]]; tauto. }
  destruct o; [destruct Ha as (p' & Ha); eauto|destruct Ha as (p' & Ha); eauto|rewrite Ha; reflexivity|destruct Ha].
Qed.

(** In both builds the machine answers every sequence of calls as Lexer.v does. *)
Theorem C65_release : forall program ps, (len program < 2 ^ 63)%N -> (count_nl program + 1 < 2 ^ 32)%N ->
  calls Release program ps m_new = expected ps (lex_new program).
Proof. intros program ps Hlen Hl. apply (calls_agree Release program Hlen ps (lex_new program) ""); cbn [lex_new rest line]; auto; lia. Qed.
Theorem C65_debug : forall program ps, (len program < 2 ^ 63)%N -> (count_nl program + 1 < 2 ^ 32)%N -> starts_reading program ps ->
  calls Debug program ps m_new = expected ps (lex_new program).
Proof.
  intros program ps Hlen Hl Hs. apply (calls_agree Debug program Hlen ps (lex_new program) ""); cbn [lex_new rest line]; auto; lia.
Qed.
(** No addition or subtraction overflows, no loop goes on for ever. *)
Theorem C65_no_overflow : forall b program ps, (len program < 2 ^ 63)%N -> (count_nl program + 1 < 2 ^ 32)%N ->
  b = Release \/ starts_reading program ps ->
  ~ In Overflowed (calls b program ps m_new) /\ ~ In Hung (calls b program ps m_new).
Proof.
  intros b program ps Hlen Hl Hs.
  assert (calls b program ps m_new = expected ps (lex_new program)) as ->.
  { destruct b; [apply C65_debug; auto; destruct Hs; [discriminate|auto]|apply C65_release; auto]. }
  generalize (lex_new program). clear. induction ps as [|p ps IH]; intros st; cbn [expected]; [cbn; tauto|].
  pose proof (lex_no_fuel p st) as Hf. destruct (lex p st) as [o st']. cbn [fst] in Hf.
  destruct (IH st') as [H1 H2]. destruct o; cbn [In]; intuition (discriminate || congruence).
Qed.

(** The parser's first call is a read: nothing of the document matters but its
    result and the state it leaves. *)
Theorem C65_parser_reads_first : forall n p p', get_token (lex_new p) = get_token (lex_new p') -> parse n p = parse n p'.
Proof. intros n p p' E. unfold parse, parse_doc, Parser.bind, Parser.get. rewrite E. reflexivity. Qed.
(** It makes no other call unless that is an opening parenthesis. *)
Theorem C65_parser_goes_on : forall n p p', fst (get_token (lex_new p)) = fst (get_token (lex_new p')) ->
  line (snd (get_token (lex_new p))) = line (snd (get_token (lex_new p'))) ->
  fst (get_token (lex_new p)) <> LTok (TPunct LParen) -> parse n p = parse n p'.
Proof.
  intros n p p' E El Hn. unfold parse, parse_doc, Parser.bind, Parser.get.
  destruct (get_token (lex_new p)) as [o st], (get_token (lex_new p')) as [o' st']. cbn [fst snd] in *. subst o'.
  destruct o as [t| | |]; try reflexivity.
  destruct t as [| | | |[]| |]; try congruence; unfold syn; cbn; rewrite ?El; reflexivity.
Qed.
End S.

(** The limits are needed.  A document of one byte, read and then peeked at:
    [cursor - 1] is below zero. *)
Theorem C65_first_byte_refuted :
  @calls uni0 Debug "x" [false; true] m_new = [Gave (LTok (TIdent "")); Overflowed]
  /\ @calls uni0 Release "x" [false; true] m_new = [Gave (LTok (TIdent "")); Gave (LTok (TIdent ""))]
  /\ @calls uni0 Debug "ab)" [true] m_new = [Overflowed]
  /\ @calls uni0 Release "ab)" [true] m_new = [Gave (LTok (TIdent "ab"))].
Proof. vm_compute. auto. Qed.

(** [k] newlines. *)
Fixpoint nls (k : nat) : string := match k with O => "" | S k => String newline (nls k) end.
Lemma nls_length k : String.length (nls k) = k.
Proof. induction k; cbn [nls String.length]; auto. Qed.
Lemma nls_skip k : forall ln, skip_whitespaces (nls k) ln = ("", (ln + N.of_nat k)%N).
Proof.
  induction k as [|k IH]; intros ln; [cbn; f_equal; lia|]. cbn [nls skip_whitespaces].
  change (negb (is_whitespace newline)) with false. change (Ascii.eqb newline newline) with true. cbn iota. rewrite IH. f_equal. lia.
Qed.
Lemma nls_machine program (Hlen : (len program < 2 ^ 63)%N) k : forall p ln fuel, program = p ++ nls (S k) -> (S k < fuel)%nat ->
  (ln + N.of_nat k + 1 = 2 ^ 32)%N ->
  skip_ws Debug program fuel (mkM (posn p) ln) = Overflow
  /\ skip_ws Release program fuel (mkM (posn p) ln) = Val (mkM (len program) 0).
Proof.
  assert (forall b p ln fuel s, program = p ++ String newline s ->
    skip_ws b program (S fuel) (mkM (posn p) ln) =
    bindR (plus b 32 ln 1) (fun l => skip_ws b program fuel (mkM (posn (p ++ String newline "")) l))) as Hstep.
  { intros b p ln fuel s E. cbn [skip_ws cursor mline]. assert (posn p < len program)%N by (eapply posn_lt; eauto).
    destruct (N.eqb_spec (posn p) (len program)); [lia|]. rewrite (byte_cons program p newline s E). cbn [bindR].
    change (negb (is_whitespace newline)) with false. change (Ascii.eqb newline newline) with true. cbn iota.
    destruct (plus b 32 ln 1) as [l|q| |]; cbn [bindR]; auto. erewrite advance_pos by eauto. reflexivity. }
  induction k as [|k IH]; intros p ln fuel E Hf El; destruct fuel as [|fuel]; try lia; rewrite !(Hstep _ p ln fuel _ E); unfold plus.
  - destruct (N.ltb_spec (ln + 1) (2 ^ 32)) as [Hl|Hl]; [lia|]. cbn [bindR]. split; auto.
    replace (ln + 1)%N with (2 ^ 32)%N by lia. rewrite N.mod_same by discriminate.
    cbn [nls] in E. assert (posn (p ++ String newline "") = len program) as -> by (rewrite E; reflexivity).
    destruct fuel as [|fuel]; [lia|]. cbn [skip_ws cursor]. rewrite N.eqb_refl. reflexivity.
  - destruct (N.ltb_spec (ln + 1) (2 ^ 32)) as [Hl|Hl]; [|lia]. cbn [bindR].
    apply IH; [|lia|lia]. change (nls (S (S k))) with (String newline (nls (S k))) in E. rewrite app_cons_s in E. exact E.
Qed.
(** The line counter has 32 bits: with 2^32 - 1 line breaks a debug build
    panics, a release build goes on with line 0. *)
Theorem C65_line_limit_refuted `{Unicode} : exists program, (len program < 2 ^ 63)%N
  /\ expected [false] (lex_new program) = [Gave (LTok TEOF)]
  /\ calls Debug program [false] m_new = [Overflowed]
  /\ call Release program false m_new = Val (LTok TEOF, mkM (len program) 0).
Proof.
  assert (exists k, N.of_nat k + 2 = 2 ^ 32)%N as (k & Hk).
  { exists (N.to_nat (2 ^ 32 - 2)). rewrite N2Nat.id. reflexivity. }
  exists (nls (S k)). set (program := nls (S k)).
  assert (len program = N.of_nat (S k)) as El by (unfold len, program; rewrite nls_length; reflexivity).
  assert (len program < 2 ^ 63)%N as Hlen.
  { rewrite El. apply N.lt_trans with (2 ^ 32)%N; [lia|reflexivity]. }
  destruct (nls_machine program Hlen k "" 1 (loops program) eq_refl) as [Hd Hr].
  { unfold loops, program. rewrite nls_length. lia. } { lia. }
  split; [exact Hlen|]. split; [|split].
  - cbn [expected]. unfold lex. cbn [lex_fuel lex_new rest line]. unfold program. rewrite nls_skip. reflexivity.
  - cbn [calls]. unfold call. change (loops program) with (S (String.length program)) at 1. cbn [m_parse].
    change m_new with (mkM (posn "") 1). rewrite Hd. reflexivity.
  - unfold call. change (loops program) with (S (String.length program)) at 1. cbn [m_parse].
    change m_new with (mkM (posn "") 1). rewrite Hr. cbn [bindR cursor]. rewrite N.eqb_refl. reflexivity.
Qed.

Definition cursor_theorems := (@C65_release, @C65_debug, @C65_no_overflow, @C65_parser_reads_first, @C65_parser_goes_on,
  @C65_first_byte_refuted, @C65_line_limit_refuted).

(** Non-vacuity: reads and peeks over a document, a crash included. *)
Definition small : string := "(?x <= 12.5 ;c" ++ nl ++ ":action and !y) ;".
Example C65_example :
  @calls uni0 Debug small [false; true; false; true; false; false; true; false; false; false; false; false; false] m_new
  = [Gave (LTok (TPunct LParen)); Gave (LTok (TIdent "x")); Gave (LTok (TIdent "x")); Gave (LTok (TOp OLess)); Gave (LTok (TOp OLessEq));
     Gave (LTok (TNumber (Real "12.5"))); Gave (LTok (TKeyword KAction)); Gave (LTok (TKeyword KAction)); Gave (LTok (TOp OAnd));
     Gave (LErr (mkLexErr InvalidIdentifier "!y" 2)); Gave (LTok (TIdent "y")); Gave (LTok (TPunct RParen)); Died PanicIndex]
  /\ @starts_reading uni0 small [false] /\ (len small < 2 ^ 63)%N /\ (count_nl small + 1 < 2 ^ 32)%N.
Proof. split; [vm_compute; reflexivity|]. split; [split; [reflexivity|vm_compute; discriminate]|]. split; reflexivity. Qed.
