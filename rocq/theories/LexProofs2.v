(** Consequences for histories of reads and peeks. *)
From Coq Require Import String Ascii NArith ZArith Bool List Lia.
From Verif Require Import Base Token Lexer StrFacts SpecLex LexProofs.
Import ListNotations.
Open Scope string_scope.

(** Tokenizer states reachable by any sequence of reads and peeks. *)
Inductive History `{Unicode} (program : string) : lstate -> Prop :=
| h_new : History program (lex_new program)
| h_step st peek out st' :
    History program st -> lex peek st = (out, st') -> (forall p, out <> LPanic p) ->
    History program st'.

(** What a peek shows for a token: `<=` and `>=` are seen as `<` and `>`. *)
Definition peeked (t : token) : token :=
  match t with
  | TOp OLessEq => TOp OLess
  | TOp OGreaterEq => TOp OGreater
  | t => t
  end.

Section LexFacts.
Context `{Unicode}.

Lemma spells_split s t r :
  Spells s t r -> exists x, s = x ++ r /\ ~ str_in "010" x.
Proof.
  assert (forall w, str_all word_byte w -> ~ str_in "010" w) as Hw.
  { intros w Hw Hi. apply (str_all_in _ _ _ Hw) in Hi.
    apply word_byte_not_delimiter in Hi. apply Hi. unfold delimiter, ws; auto. }
  assert (forall d, all_digits d -> ~ str_in "010" d) as Hd.
  { intros d Hd Hi. apply (str_all_in _ _ _ Hd) in Hi. discriminate. }
  assert (forall c, c <> "010"%char -> ~ str_in "010" (String c "")) as H1.
  { intros c Hc [E|[]]; congruence. }
  destruct 1;
    try (match goal with |- exists x, String ?c ?r = x ++ ?r /\ _ =>
           exists (String c ""); split; [reflexivity|apply H1; discriminate] end).
  - exists ""; split; [reflexivity|simpl; tauto].
  - exists "<="; split; auto. simpl. intros [E|[E|[]]]; discriminate.
  - exists ">="; split; auto. simpl. intros [E|[E|[]]]; discriminate.
  - destruct H0 as (-> & Hww & _). exists (String "?" w); split; auto.
    simpl. intros [E|E]; [discriminate|]. eapply Hw; eauto.
  - destruct H0 as (-> & Hww & _). exists (String ":" w); split; auto.
    simpl. intros [E|E]; [discriminate|]. eapply Hw; eauto.
  - exists d; split; auto.
  - exists (d ++ String "." e); split; [rewrite app_assoc_s; reflexivity|].
    rewrite str_in_app. simpl. intros [E|[E|E]]; [apply (Hd d); auto|discriminate|apply (Hd e); auto].
  - destruct H0 as (-> & Hww & _). exists w; split; auto.
  - destruct H0 as (-> & Hww & _). exists w; split; auto.
Qed.

(** Every lexical error carries the line of the token it is about; the state
    after a call that does not panic has not skipped a newline. *)
Lemma peek_lexeme_err s ln e : peek_lexeme s ln = XErr e -> le_line e = ln /\ le_type e = InvalidIdentifier.
Proof.
  unfold peek_lexeme. destruct s; [discriminate|].
  destruct (scan_lexeme _) as [[l r] b]. destruct (negb _); [discriminate|].
  destruct b; [|discriminate]. intros E; injection E as <-. auto.
Qed.

Lemma lex_at_err p s ln e st' :
  lex_at p s ln = (LErr e, st') -> le_line e = ln /\ le_type e <> InvalidRealNumber.
Proof.
  intros E. destruct s as [|c s]; [discriminate|].
  cbn -[str_assoc peek_lexeme peek_number ident_chars Ascii.eqb ordering_type is_digit] in E.
  destruct (Ascii.eqb c "-"); [discriminate|].
  destruct (Ascii.eqb c "("); [discriminate|].
  destruct (Ascii.eqb c ")"); [discriminate|].
  destruct (_ || _ || _).
  { destruct (ordering_type _ _ _); discriminate. }
  destruct (Ascii.eqb c "?").
  { destruct (peek_lexeme s ln) eqn:El; try discriminate.
    injection E as <- <-. apply peek_lexeme_err in El as [-> ->]. split; [auto|discriminate]. }
  destruct (Ascii.eqb c ":").
  { destruct (peek_lexeme s ln) eqn:El; try discriminate.
    - destruct (str_assoc lexeme colon_words); [discriminate|].
      injection E as <- <-. split; [auto|discriminate].
    - injection E as <- <-. apply peek_lexeme_err in El as [-> ->]. split; [auto|discriminate]. }
  destruct (is_digit c) eqn:Hd.
  { destruct (peek_number_start c s ln Hd)
      as [(d & r & Es & H1 & H2 & H3 & H4 & [[H5 H6]|[H5 H6]])|(d & e' & r & Es & H1 & H2 & H3 & H4 & H5)];
      rewrite ?H5, ?H6 in E; try discriminate.
    injection E as <- <-. split; [auto|discriminate]. }
  destruct (peek_lexeme (String c s) ln) eqn:El; try discriminate.
  - destruct (str_assoc lexeme bare_words); [discriminate|].
    destruct (str_assoc lexeme operators); [discriminate|].
    destruct (ident_chars lexeme); [discriminate|].
    injection E as <- <-. split; [auto|discriminate].
  - injection E as <- <-. apply peek_lexeme_err in El as [-> ->]. split; [auto|discriminate].
Qed.

(** A peek reports the token (or error) the read would report and stays at the
    first byte of the token. *)
Definition peeked_out (o : lex_out) : lex_out :=
  match o with LTok t => LTok (peeked t) | o => o end.

Lemma bare_not_op l t : str_assoc l bare_words = Some t -> peeked t = t.
Proof.
  intros E. apply str_assoc_In in E. simpl in E.
  repeat (destruct E as [E|E]; [injection E as <- <-; reflexivity|]). destruct E.
Qed.
Lemma colon_not_op l t : str_assoc l colon_words = Some t -> peeked t = t.
Proof.
  intros E. apply str_assoc_In in E. simpl in E.
  repeat (destruct E as [E|E]; [injection E as <- <-; reflexivity|]). destruct E.
Qed.
Lemma operators_not_cmp l o : str_assoc l operators = Some o -> peeked (TOp o) = TOp o.
Proof.
  intros E. apply str_assoc_In in E. simpl in E.
  repeat (destruct E as [E|E]; [injection E as <- <-; reflexivity|]). destruct E.
Qed.

Lemma lex_at_peek s ln :
  lex_at true s ln = (peeked_out (fst (lex_at false s ln)), mkL s ln).
Proof.
  destruct s as [|c s]; [reflexivity|].
  cbn -[str_assoc peek_lexeme peek_number ident_chars Ascii.eqb ordering_type is_digit peeked_out].
  destruct (Ascii.eqb c "-"); [reflexivity|].
  destruct (Ascii.eqb c "("); [reflexivity|].
  destruct (Ascii.eqb c ")"); [reflexivity|].
  destruct (Ascii.eqb_spec c "<") as [->|].
  { cbn [orb]. unfold ordering_type. simpl.
    destruct s as [|d s]; [reflexivity|]. destruct (Ascii.eqb d "="); reflexivity. }
  destruct (Ascii.eqb_spec c ">") as [->|].
  { cbn [orb]. unfold ordering_type. simpl.
    destruct s as [|d s]; [reflexivity|]. destruct (Ascii.eqb d "="); reflexivity. }
  destruct (Ascii.eqb_spec c "=") as [->|].
  { cbn [orb]. reflexivity. }
  cbn [orb].
  destruct (Ascii.eqb c "?").
  { destruct (peek_lexeme s ln); reflexivity. }
  destruct (Ascii.eqb c ":").
  { destruct (peek_lexeme s ln); try reflexivity.
    destruct (str_assoc lexeme colon_words) eqn:E; [|reflexivity].
    cbn [fst peeked_out]. rewrite (colon_not_op _ _ E). reflexivity. }
  destruct (is_digit c).
  { destruct (peek_number (String c s) ln); reflexivity. }
  destruct (peek_lexeme (String c s) ln); try reflexivity.
  destruct (str_assoc lexeme bare_words) eqn:E.
  { cbn [fst peeked_out]. rewrite (bare_not_op _ _ E). reflexivity. }
  destruct (str_assoc lexeme operators) eqn:E'.
  { cbn [fst]. cbn [peeked_out]. rewrite (operators_not_cmp _ _ E'). reflexivity. }
  destruct (ident_chars lexeme); reflexivity.
Qed.

(** The state reached by a read lies in the text, beyond no further newline. *)
Lemma lex_at_state s ln out st' :
  token_start s -> lex_at false s ln = (out, st') ->
  line st' = ln /\ exists x, s = x ++ rest st' /\ ~ str_in "010" x.
Proof.
  intros Hs E. destruct out as [t|e|p|].
  - apply lex_at_sound in E as (r & -> & Hsp); auto. split; auto.
    apply spells_split in Hsp. auto.
  - destruct s as [|c s]; [discriminate|].
    assert (exists x, String c s = x ++ s /\ ~ str_in "010" x) as Hhere.
    { exists (String c ""); split; auto. intros [->|[]]. destruct Hs as [Hs _].
      apply Hs. unfold ws; auto. }
    assert (forall x l r, peek_lexeme x ln = XOk l r -> x = l ++ r /\ ~ str_in "010" l) as Hlex.
    { intros x l r El. apply peek_lexeme_spec in El as [(-> & Hw & _) _]. split; auto.
      intros Hi. apply (str_all_in _ _ _ Hw) in Hi.
      apply word_byte_not_delimiter in Hi. apply Hi. unfold delimiter, ws; auto. }
    cbn -[str_assoc peek_lexeme peek_number ident_chars Ascii.eqb ordering_type is_digit] in E.
    destruct (Ascii.eqb c "-"); [discriminate|].
    destruct (Ascii.eqb c "("); [discriminate|].
    destruct (Ascii.eqb c ")"); [discriminate|].
    destruct (_ || _ || _).
    { destruct (ordering_type _ _ _); discriminate. }
    destruct (Ascii.eqb_spec c "?").
    { destruct (peek_lexeme s ln) eqn:El; try discriminate.
      injection E as <- <-. auto. }
    destruct (Ascii.eqb_spec c ":") as [->|].
    { destruct (peek_lexeme s ln) as [l r| |] eqn:El; try discriminate.
      - destruct (str_assoc l colon_words); [discriminate|].
        injection E as <- <-. split; auto. apply Hlex in El as [-> Hl].
        exists (String ":" l). split; auto. intros [E|E]; [discriminate|auto].
      - injection E as <- <-. auto. }
    destruct (is_digit c).
    { destruct (peek_number (String c s) ln); [discriminate|]. injection E as <- <-. auto. }
    destruct (peek_lexeme (String c s) ln) as [l r| |] eqn:El; try discriminate.
    + destruct (str_assoc l bare_words); [discriminate|].
      destruct (str_assoc l operators); [discriminate|].
      destruct (ident_chars l); [discriminate|].
      injection E as <- <-. split; auto. apply Hlex in El as [El Hl]. exists l; auto.
    + injection E as <- <-. auto.
  - destruct s as [|c s]; [discriminate|].
    assert (exists x, String c s = x ++ s /\ ~ str_in "010" x) as Hhere.
    { exists (String c ""); split; auto. intros [->|[]]. destruct Hs as [Hs _].
      apply Hs. unfold ws; auto. }
    cbn -[str_assoc peek_lexeme peek_number ident_chars Ascii.eqb ordering_type is_digit] in E.
    destruct (Ascii.eqb c "-"); [discriminate|].
    destruct (Ascii.eqb c "("); [discriminate|].
    destruct (Ascii.eqb c ")"); [discriminate|].
    destruct (_ || _ || _).
    { destruct (ordering_type _ _ _); discriminate. }
    destruct (Ascii.eqb c "?").
    { destruct (peek_lexeme s ln); try discriminate. injection E as <- <-. auto. }
    destruct (Ascii.eqb c ":").
    { destruct (peek_lexeme s ln); try discriminate.
      - destruct (str_assoc lexeme colon_words); discriminate.
      - injection E as <- <-. auto. }
    destruct (is_digit c).
    { destruct (peek_number (String c s) ln); discriminate. }
    destruct (peek_lexeme (String c s) ln); try discriminate.
    + destruct (str_assoc lexeme bare_words); [discriminate|].
      destruct (str_assoc lexeme operators); [discriminate|].
      destruct (ident_chars lexeme); discriminate.
    + injection E as <- <-. auto.
  - destruct s as [|c s]; [discriminate|].
    cbn -[str_assoc peek_lexeme peek_number ident_chars Ascii.eqb ordering_type is_digit] in E.
    destruct (Ascii.eqb c "-"); [discriminate|].
    destruct (Ascii.eqb c "("); [discriminate|].
    destruct (Ascii.eqb c ")"); [discriminate|].
    destruct (_ || _ || _).
    { destruct (ordering_type _ _ _); discriminate. }
    destruct (Ascii.eqb c "?").
    { destruct (peek_lexeme s ln); discriminate. }
    destruct (Ascii.eqb c ":").
    { destruct (peek_lexeme s ln); try discriminate.
      destruct (str_assoc lexeme colon_words); discriminate. }
    destruct (is_digit c).
    { destruct (peek_number (String c s) ln); discriminate. }
    destruct (peek_lexeme (String c s) ln); try discriminate.
    destruct (str_assoc lexeme bare_words); [discriminate|].
    destruct (str_assoc lexeme operators); [discriminate|].
    destruct (ident_chars lexeme); discriminate.
Qed.

Lemma lex_no_fuel p st : fst (lex p st) <> LFuel.
Proof.
  destruct (lex_view_ok p st) as [g s _ _ Hs ->|g s _ _ _ ->]; [|discriminate].
  destruct p.
  - rewrite lex_at_peek. simpl.
    destruct (lex_at false s (line st + count_nl g)) as [out st'] eqn:E.
    destruct out; try discriminate.
    destruct s as [|c s]; [discriminate|].
    cbn -[str_assoc peek_lexeme peek_number ident_chars Ascii.eqb ordering_type is_digit] in E.
    destruct (Ascii.eqb c "-"); [discriminate|].
    destruct (Ascii.eqb c "("); [discriminate|].
    destruct (Ascii.eqb c ")"); [discriminate|].
    destruct (_ || _ || _).
    { destruct (ordering_type _ _ _); discriminate. }
    destruct (Ascii.eqb c "?").
    { destruct (peek_lexeme s _); discriminate. }
    destruct (Ascii.eqb c ":").
    { destruct (peek_lexeme s _); try discriminate.
      destruct (str_assoc lexeme colon_words); discriminate. }
    destruct (is_digit c).
    { destruct (peek_number (String c s) _); discriminate. }
    destruct (peek_lexeme (String c s) _); try discriminate.
    destruct (str_assoc lexeme bare_words); [discriminate|].
    destruct (str_assoc lexeme operators); [discriminate|].
    destruct (ident_chars lexeme); discriminate.
  - destruct (lex_at false s (line st + count_nl g)) as [out st'] eqn:E.
    destruct out; try discriminate.
    destruct s as [|c s]; [discriminate|].
    cbn -[str_assoc peek_lexeme peek_number ident_chars Ascii.eqb ordering_type is_digit] in E.
    destruct (Ascii.eqb c "-"); [discriminate|].
    destruct (Ascii.eqb c "("); [discriminate|].
    destruct (Ascii.eqb c ")"); [discriminate|].
    destruct (_ || _ || _).
    { destruct (ordering_type _ _ _); discriminate. }
    destruct (Ascii.eqb c "?").
    { destruct (peek_lexeme s _); discriminate. }
    destruct (Ascii.eqb c ":").
    { destruct (peek_lexeme s _); try discriminate.
      destruct (str_assoc lexeme colon_words); discriminate. }
    destruct (is_digit c).
    { destruct (peek_number (String c s) _); discriminate. }
    destruct (peek_lexeme (String c s) _); try discriminate.
    destruct (str_assoc lexeme bare_words); [discriminate|].
    destruct (str_assoc lexeme operators); [discriminate|].
    destruct (ident_chars lexeme); discriminate.
Qed.

(** A call that does not panic: the gap, the token start, and the new state. *)
Lemma lex_step p st out st' :
  lex p st = (out, st') -> (forall q, out <> LPanic q) ->
  exists g s, rest st = g ++ s /\ Gap g /\ token_start s
    /\ lex_at p s (line st + count_nl g) = (out, st')
    /\ line st' = (line st + count_nl g)%N
    /\ exists x, s = x ++ rest st' /\ ~ str_in "010" x.
Proof.
  intros E Hp.
  destruct (lex_view_ok p st) as [g s E1 Hg Hs E2|g s E1 Hg Hs E2]; rewrite E in E2;
    [|injection E2 as -> _; exfalso; eapply Hp; reflexivity].
  exists g, s. split; [auto|]. split; [auto|]. split; [auto|]. split; [auto|].
  destruct p.
  - rewrite lex_at_peek in E2. injection E2 as _ ->. simpl. split; auto.
    exists ""; split; [reflexivity|simpl; tauto].
  - symmetry in E2. apply lex_at_state in E2; auto.
Qed.

Lemma history_line program st :
  History program st ->
  exists before, program = before ++ rest st /\ line st = (1 + count_nl before)%N.
Proof.
  induction 1 as [|st p out st' Hh (b & E1 & E2) E Hp].
  - exists ""; split; [reflexivity|simpl; tauto].
  - apply lex_step in E as (g & s & Er & Hg & Hs & _ & El & x & Ex & Hx); auto.
    exists (b ++ g ++ x). split.
    + rewrite E1, Er, Ex, !app_assoc_s. reflexivity.
    + rewrite El, E2, !count_nl_app, (count_nl_none x Hx). lia.
Qed.

(** C01, general form. *)
Lemma line_of_token program st p out st' :
  History program st -> lex p st = (out, st') -> (forall q, out <> LPanic q) ->
  exists before g s,
    program = before ++ g ++ s /\ rest st = g ++ s /\ Gap g /\ token_start s
    /\ line st' = (1 + count_nl (before ++ g))%N
    /\ match out with
       | LTok t => exists t0 r, Spells s t0 r
                   /\ (if p then t = peeked t0 /\ rest st' = s else t = t0 /\ rest st' = r)
       | LErr e => le_line e = (1 + count_nl (before ++ g))%N
       | _ => False
       end.
Proof.
  intros Hh E Hp. destruct (history_line _ _ Hh) as (b & E1 & E2).
  assert (Hf := lex_no_fuel p st). rewrite E in Hf. simpl in Hf.
  destruct (lex_step _ _ _ _ E Hp) as (g & s & Er & Hg & Hs & Ea & El & _).
  exists b, g, s. split; [congruence|]. split; [auto|]. split; [auto|]. split; [auto|].
  split; [rewrite El, E2, count_nl_app; lia|].
  destruct out as [t|e|q|].
  - destruct p.
    + rewrite lex_at_peek in Ea. injection Ea as Ea <-. simpl.
      destruct (lex_at false s (line st + count_nl g)) as [o' st''] eqn:E'. simpl in Ea.
      destruct o'; try discriminate. simpl in Ea. injection Ea as <-.
      apply lex_at_sound in E' as (r & _ & Hsp); auto. exists t0, r; auto.
    + apply lex_at_sound in Ea as (r & -> & Hsp); auto. exists t, r; auto.
  - apply lex_at_err in Ea as [-> _]. rewrite E2, count_nl_app; lia.
  - eapply Hp; eauto.
  - congruence.
Qed.

(** C02 *)
Lemma peek_then st out st1 :
  lookahead st = (out, st1) -> (forall q, out <> LPanic q) ->
  forall p, lex p st1 = lex p st.
Proof.
  unfold lookahead. intros E0 Hp p.
  destruct (lex_step _ _ _ _ E0 Hp) as (g & s & Er & Hg & Hs & Ea & _).
  rewrite lex_at_peek in Ea. injection Ea as _ <-.
  destruct st as [rs ln]; simpl in *; subst rs.
  rewrite lex_at_gap by auto.
  assert (E := lex_at_gap p "" s (ln + count_nl g) gap_nil Hs).
  simpl in E. rewrite N.add_0_r in E. exact E.
Qed.

Lemma peek_is_next st :
  fst (lookahead st) = peeked_out (fst (get_token st)).
Proof.
  unfold lookahead, get_token.
  destruct (lex_view_ok true st) as [g s E1 Hg Hs ->|g s E1 Hg Hs ->];
    destruct st as [rs ln]; simpl in *; subst rs.
  - rewrite lex_at_gap by auto. rewrite lex_at_peek. reflexivity.
  - rewrite lex_open by auto. reflexivity.
Qed.

(** C03: shifting the line number changes line numbers only. *)
Definition shift_out (k : N) (o : lex_out) : lex_out :=
  match o with
  | LErr e => LErr (mkLexErr (le_type e) (le_lexeme e) (le_line e + k))
  | o => o
  end.
Definition shift_st (k : N) (st : lstate) : lstate := mkL (rest st) (line st + k).

Lemma peek_lexeme_shift s ln k :
  peek_lexeme s (ln + k) =
  match peek_lexeme s ln with
  | XErr e => XErr (mkLexErr (le_type e) (le_lexeme e) (le_line e + k))
  | o => o
  end.
Proof.
  unfold peek_lexeme. destruct s; [reflexivity|].
  destruct (scan_lexeme _) as [[l r] b]. destruct (negb _); [reflexivity|].
  destruct b; reflexivity.
Qed.

Lemma peek_number_shift s ln k :
  peek_number s (ln + k) =
  match peek_number s ln with
  | NErr e => NErr (mkLexErr (le_type e) (le_lexeme e) (le_line e + k))
  | o => o
  end.
Proof.
  unfold peek_number. destruct (scan_number false s) as [[l r] b].
  destruct b; [destruct (f64_parses l)|destruct (_ <=? _)%Z]; reflexivity.
Qed.

Lemma lex_at_shift p s ln k :
  lex_at p s (ln + k) =
  (shift_out k (fst (lex_at p s ln)), shift_st k (snd (lex_at p s ln))).
Proof.
  destruct s as [|c s]; [reflexivity|].
  cbn -[str_assoc peek_lexeme peek_number ident_chars Ascii.eqb ordering_type is_digit shift_out].
  rewrite !peek_lexeme_shift, peek_number_shift.
  destruct (Ascii.eqb c "-"); [reflexivity|].
  destruct (Ascii.eqb c "("); [reflexivity|].
  destruct (Ascii.eqb c ")"); [reflexivity|].
  destruct (_ || _ || _).
  { destruct (ordering_type _ _ _); reflexivity. }
  destruct (Ascii.eqb c "?").
  { destruct (peek_lexeme s ln); reflexivity. }
  destruct (Ascii.eqb c ":").
  { destruct (peek_lexeme s ln); try reflexivity.
    destruct (str_assoc lexeme colon_words); reflexivity. }
  destruct (is_digit c).
  { destruct (peek_number (String c s) ln); reflexivity. }
  destruct (peek_lexeme (String c s) ln); try reflexivity.
  destruct (str_assoc lexeme bare_words); [reflexivity|].
  destruct (str_assoc lexeme operators); [reflexivity|].
  destruct (ident_chars lexeme); reflexivity.
Qed.

Lemma lex_shift p s ln k :
  lex p (mkL s (ln + k)) =
  (shift_out k (fst (lex p (mkL s ln))), shift_st k (snd (lex p (mkL s ln)))).
Proof.
  destruct (lex_view_ok p (mkL s ln)) as [g s' E1 Hg Hs ->|g s' E1 Hg Hs ->]; simpl in *; subst s.
  - rewrite lex_at_gap by auto. replace (ln + k + count_nl g)%N with (ln + count_nl g + k)%N by lia.
    apply lex_at_shift.
  - rewrite lex_open by auto. simpl. unfold shift_st; simpl. do 2 f_equal. lia.
Qed.

(** ** Progress (C04) *)

Lemma spells_progress s t r :
  Spells s t r -> t <> TEOF -> str_last delimiter s ->
  (String.length r < String.length s)%nat.
Proof.
  intros Hsp Ht Hl. destruct Hsp; simpl; try lia; try congruence.
  - destruct H0 as (-> & _ & _). rewrite app_length_s. lia.
  - destruct H0 as (-> & _ & _). rewrite app_length_s. lia.
  - destruct d; [congruence|]. simpl. rewrite app_length_s. lia.
  - rewrite app_length_s. simpl. rewrite app_length_s. lia.
  - destruct H0 as (-> & _ & _). rewrite app_length_s.
    destruct w; [|simpl; lia]. apply bare_lookup_spec in H2. discriminate.
  - destruct H0 as (-> & _ & Hr). rewrite app_length_s.
    destruct w; [|simpl; lia]. exfalso. simpl in *.
    destruct r as [|c r]; [destruct H1|]. simpl in Hr, H1.
    destruct Hr as [Hr|[Hr ->]].
    + eapply word_byte_not_delimiter; [|exact Hr]. tauto.
    + simpl in Hl. eapply word_byte_not_delimiter; eauto.
Qed.

Lemma get_progress st t st' :
  get_token st = (LTok t, st') -> t <> TEOF -> str_last delimiter (rest st) ->
  (String.length (rest st') < String.length (rest st))%nat.
Proof.
  intros E Ht Hl. apply get_token_spec in E as (g & s & Er & _ & Hsp & _).
  rewrite Er in *. apply spells_progress in Hsp; auto.
  - rewrite app_length_s. lia.
  - eapply str_last_suffix; eauto.
Qed.

Lemma lex_suffix p st out st' :
  lex p st = (out, st') -> (forall q, out <> LPanic q) ->
  exists x, rest st = x ++ rest st'.
Proof.
  intros E Hp. apply lex_step in E as (g & s & -> & _ & _ & _ & _ & x & -> & _); auto.
  exists (g ++ x). rewrite app_assoc_s. reflexivity.
Qed.

(** A finite sequence of reads delivering the given tokens with their lines. *)
Inductive Reads : lstate -> list (token * N) -> lstate -> Prop :=
| rd_nil st : Reads st [] st
| rd_cons st t st1 ts st2 :
    get_token st = (LTok t, st1) -> Reads st1 ts st2 ->
    Reads st ((t, line st1) :: ts) st2.

Lemma reads_app st ts st1 us st2 :
  Reads st ts st1 -> Reads st1 us st2 -> Reads st (ts ++ us) st2.
Proof. induction 1; simpl; intros; auto. econstructor; eauto. Qed.

Lemma reads_history program st ts st' :
  History program st -> Reads st ts st' -> History program st'.
Proof.
  intros Hh Hr. induction Hr; auto. apply IHHr.
  eapply h_step; eauto. discriminate.
Qed.

Lemma token_eq_eof (t : token) : {t = TEOF} + {t <> TEOF}.
Proof. destruct t; auto; right; discriminate. Qed.

Lemma token_stream_finite : forall n st,
  (String.length (rest st) < n)%nat -> str_last delimiter (rest st) ->
  exists ts st', Reads st ts st' /\ (length ts <= String.length (rest st))%nat
    /\ forall t st'', get_token st' = (LTok t, st'') -> t = TEOF.
Proof.
  induction n as [|n IH]; intros st Hn Hl; [lia|].
  destruct (get_token st) as [o st1] eqn:E.
  destruct o as [t| | |].
  2,3,4: exists [], st; repeat split; [constructor|simpl; lia|congruence].
  destruct (token_eq_eof t) as [->|Ht].
  - exists [], st; repeat split; [constructor|simpl; lia|congruence].
  - assert (Hlt := get_progress _ _ _ E Ht Hl).
    destruct (lex_suffix _ _ _ _ E) as (x & Ex); [discriminate|].
    destruct (IH st1) as (ts & st' & Hr & Hlen & Hend).
    + lia.
    + rewrite Ex in Hl. eapply str_last_suffix; eauto.
    + exists ((t, line st1) :: ts), st'. repeat split; auto.
      * econstructor; eauto.
      * simpl. lia.
Qed.

End LexFacts.
