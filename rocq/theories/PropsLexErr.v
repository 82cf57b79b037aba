(** Property theorems about lexical errors and crashes of the tokenizer (C60).
    Specification: SpecLexErr.v. *)
From Coq Require Import String Ascii NArith ZArith Bool List Lia.
From Verif Require Import Base Token Lexer StrFacts SpecLex LexProofs LexProofs2 SpecLexErr Errors Ast Parser SpecBlame ParserBlame PropsBlame PropsLex.
Import ListNotations.
Open Scope string_scope.

Section S.
Context `{Unicode}.

Lemma scan_stretch s : forall l r b, s <> "" -> scan_lexeme s = (l, r, b) -> stretch s l r.
Proof.
  induction s as [|c s IH]; intros l r b Hs E; [congruence|]. simpl in E.
  destruct (delimiter_dec c) as [Hd|Hd].
  - rewrite (lexeme_char_delimiter c Hd) in E. simpl in E. injection E as <- <- <-. repeat split; simpl; auto.
  - assert (exists bad, lexeme_char c = (true, bad)) as (bad & Ec).
    { destruct (word_byte_dec c) as [Hw|Hw]; [rewrite (lexeme_char_word c Hw); eauto|].
      unfold lexeme_char, delimiter, ws in *. destruct (_ || _); [eauto|].
      destruct (Ascii.eqb_spec c ")"); [exfalso; apply Hd; auto|]. destruct (Ascii.eqb_spec c "("); [exfalso; apply Hd; auto|].
      destruct (is_whitespace c) eqn:Ew; [|cbn; eauto]. exfalso. apply Hd. left. apply is_whitespace_ws. auto. }
    rewrite Ec in E. simpl in E. destruct s as [|d s].
    + injection E as <- <- <-. repeat split; simpl; auto.
    + destruct (scan_lexeme (String d s)) as [[l' r'] b'] eqn:E'. injection E as <- <- <-.
      destruct (IH l' r' b' ltac:(discriminate) eq_refl) as (-> & Ha & Hr). repeat split; simpl; auto.
Qed.
Lemma stretch_nonempty s x r : stretch s x r -> s <> "".
Proof. intros (-> & _ & Hr) E. destruct x; [|discriminate]. simpl in E. subst. exact Hr. Qed.
Lemma stretch_unique s x r x' r' : stretch s x r -> stretch s x' r' -> x = x' /\ r = r'.
Proof.
  intros (-> & Ha & Hr) (E & Ha' & Hr'). revert x' E Ha'. induction x as [|c x IH]; intros [|c' x'] E Ha'; simpl in *.
  - auto.
  - subst r. destruct Hr as [Hr|Hr]; [tauto|]. destruct x'; [|discriminate]. simpl in Hr. subst. destruct Hr'.
  - subst r'. destruct Hr' as [Hr'|Hr']; [tauto|]. destruct x; [|discriminate]. simpl in Hr'. subst. destruct Hr.
  - injection E as <- E. destruct (IH ltac:(tauto) _ E ltac:(tauto)) as [-> ->]. auto.
Qed.
Lemma word_stretch s w r : word_at s w r -> stretch s w r.
Proof.
  intros (-> & Hw & Hr). split; auto. split.
  - clear Hr. induction w as [|c w IH]; simpl in *; auto. split; [apply word_byte_not_delimiter|]; tauto.
  - destruct r; simpl in *; auto. tauto.
Qed.
Lemma peek_lexeme_bad s ln e : peek_lexeme s ln = XErr e <->
  exists x r, stretch s x r /\ utf8_decode x <> None /\ ~ word_at s x r /\ e = mkLexErr InvalidIdentifier x ln.
Proof.
  destruct s as [|c s].
  { split; [discriminate|]. intros (x & r & Hs & _). exfalso. apply stretch_nonempty in Hs. congruence. }
  destruct (scan_lexeme (String c s)) as [[l r] b] eqn:E. assert (Hl := scan_stretch (String c s) l r b ltac:(discriminate) E).
  assert (b = false <-> word_at (String c s) l r) as Hb.
  { split; [intros ->; apply scan_lexeme_sound; [discriminate|auto]|].
    intros (Ew & Hw & Hr). assert (E' := scan_lexeme_complete l r Hw Hr). rewrite <- Ew in E'. congruence. }
  unfold peek_lexeme. rewrite E. split.
  - destruct (utf8_ok l) eqn:Eu; [|discriminate]. cbn [negb]. destruct b; [|discriminate]. intros E1. injection E1 as <-.
    exists l, r. split; auto. split; [apply utf8_ok_true; auto|]. split; auto. intros Hw. apply Hb in Hw. discriminate.
  - intros (x & r' & Hs & Hu & Hw & ->). destruct (stretch_unique _ _ _ _ _ Hl Hs) as [-> ->].
    apply utf8_ok_true in Hu. rewrite Hu. destruct b; [reflexivity|]. exfalso. apply Hw. apply Hb. auto.
Qed.
Lemma peek_lexeme_panic s ln p : peek_lexeme s ln = XPanic p <->
  (s = "" /\ p = PanicIndex) \/ exists x r, stretch s x r /\ utf8_decode x = None /\ p = PanicUtf8.
Proof.
  destruct s as [|c s].
  { split; [intros E; injection E as <-; auto|]. intros [[_ ->]|(x & r & Hs & _)]; [reflexivity|]. exfalso. apply stretch_nonempty in Hs. congruence. }
  destruct (scan_lexeme (String c s)) as [[l r] b] eqn:E. assert (Hl := scan_stretch (String c s) l r b ltac:(discriminate) E).
  unfold peek_lexeme. rewrite E. split.
  - unfold utf8_ok. destruct (utf8_decode l) eqn:Eu; cbn [negb]; [destruct b; discriminate|]. intros E1. injection E1 as <-. right. eauto.
  - intros [[? _]|(x & r' & Hs & Hu & ->)]; [discriminate|]. destruct (stretch_unique _ _ _ _ _ Hl Hs) as [-> ->].
    unfold utf8_ok. rewrite Hu. reflexivity.
Qed.

Lemma other_head c s : other_start (String c s) ->
  Ascii.eqb c "-" = false /\ Ascii.eqb c "(" = false /\ Ascii.eqb c ")" = false
  /\ Ascii.eqb c "<" = false /\ Ascii.eqb c ">" = false /\ Ascii.eqb c "=" = false
  /\ Ascii.eqb c "?" = false /\ Ascii.eqb c ":" = false /\ is_digit c = false.
Proof.
  simpl. unfold delimiter. intros (Hd & Hg & Hn). repeat split; auto; apply eqb_neq; intros ->; tauto.
Qed.
Lemma other_token_start s : other_start s -> token_start s.
Proof. destruct s as [|c s]; simpl; auto. unfold delimiter. intros (Hd & _ & Hn). split; [tauto|]. intros ->. tauto. Qed.
Lemma lex_at_other s ln : other_start s -> lex_at false s ln =
  match peek_lexeme s ln with
  | XOk l r => match bare_lookup l with
    | Some t => (LTok t, mkL r ln)
    | None => if ident_chars l then (LTok (TIdent l), mkL r ln) else (LErr (mkLexErr InvalidIdentifier l ln), mkL r ln)
    end
  | XErr e => (LErr e, mkL (match s with String _ s' => s' | "" => "" end) ln)
  | XPanic p => (LPanic p, mkL (match s with String _ s' => s' | "" => "" end) ln)
  end.
Proof.
  destruct s as [|c s]; [intros []|]. intros Ho. apply other_head in Ho as (E1 & E2 & E3 & E4 & E5 & E6 & E7 & E8 & E9).
  unfold lex_at. rewrite E1, E2, E3, E4, E5, E6, E7, E8, E9. cbn [orb].
  destruct (peek_lexeme (String c s) ln) as [l r|e|p]; auto. unfold bare_lookup. destruct (str_assoc l bare_words); [reflexivity|].
  destruct (str_assoc l operators); reflexivity.
Qed.
(** The five ways a token can begin. *)
Lemma starts s : token_start s ->
  s = "" \/ (exists c s', s = String c s' /\ In c ["-"; "("; ")"; "<"; ">"; "="]%char) \/ (exists c s', s = String c s' /\ is_digit c = true)
  \/ (exists s', s = String "?" s') \/ (exists s', s = String ":" s') \/ other_start s.
Proof.
  destruct s as [|c s]; auto. intros [Hw Hs]. right.
  destruct (in_dec ascii_dec c ["-"; "("; ")"; "<"; ">"; "="]%char); [eauto|].
  destruct (is_digit c) eqn:Hd; [right; left; eauto|].
  destruct (ascii_dec c "?") as [->|]; [eauto 6|]. destruct (ascii_dec c ":") as [->|]; [eauto 6|].
  right. right. right. right. simpl in *. unfold delimiter. split; [intros [?|[?|?]]; subst; tauto|]. split; auto.
  intros Hi. repeat (destruct Hi as [<-|Hi]; [tauto|]). auto.
Qed.
Lemma lex_at_simple c s ln : In c ["-"; "("; ")"; "<"; ">"; "="]%char -> exists t st, lex_at false (String c s) ln = (LTok t, st).
Proof.
  simpl. intros Hi. repeat (destruct Hi as [<-|Hi]; [cbn; unfold ordering_type; cbn; try destruct (match s with "" => false | String d _ => _ end); eauto|]).
  destruct Hi.
Qed.
Definition at_variable s ln : lex_out * lstate :=
  match peek_lexeme s ln with
  | XOk l r => (LTok (TIdent l), mkL r ln) | XErr e => (LErr e, mkL s ln) | XPanic p => (LPanic p, mkL s ln) end.
Definition at_colon s ln : lex_out * lstate :=
  match peek_lexeme s ln with
  | XOk l r => match str_assoc l colon_words with Some t => (LTok t, mkL r ln) | None => (LErr (mkLexErr InvalidKeyword l ln), mkL r ln) end
  | XErr e => (LErr e, mkL s ln) | XPanic p => (LPanic p, mkL s ln) end.
Lemma lex_at_variable s ln : lex_at false (String "?" s) ln = at_variable s ln.
Proof. reflexivity. Qed.
Lemma lex_at_colon s ln : lex_at false (String ":" s) ln = at_colon s ln.
Proof. reflexivity. Qed.

Lemma lex_at_error s ln e : token_start s ->
  fst (lex_at false s ln) = LErr e <-> Bad s (le_type e) (le_lexeme e) /\ le_line e = ln.
Proof.
  intros Hs. split.
  - intros E. destruct (starts s Hs) as [->|[(c & s' & -> & Hi)|[(c & s' & -> & Hd)|[(s' & ->)|[(s' & ->)|Ho]]]]].
    + discriminate.
    + destruct (lex_at_simple c s' ln Hi) as (t & st & E'). rewrite E' in E. discriminate.
    + rewrite lex_at_digit in E by auto. destruct (peek_number_start c s' ln Hd)
        as [(d & r & Es & H1 & H2 & H3 & H4 & [[H5 H6]|[H5 H6]])|(d & e' & r & Es & H1 & H2 & H3 & H4 & H5)];
      rewrite ?H5, ?H6 in E; try discriminate. injection E as <-. split; auto. cbn [le_type le_lexeme]. rewrite Es.
      apply bad_integer; auto. unfold i64_max in H5. lia.
    + rewrite lex_at_variable in E. unfold at_variable in E. destruct (peek_lexeme s' ln) eqn:El; try discriminate. cbn in E. injection E as ->.
      apply peek_lexeme_bad in El as (x & r & H1 & H2 & H3 & ->). split; auto. eapply bad_variable; eauto.
    + rewrite lex_at_colon in E. unfold at_colon in E. destruct (peek_lexeme s' ln) eqn:El; try discriminate.
      * destruct (str_assoc lexeme colon_words) eqn:Ec; [discriminate|]. cbn in E. injection E as <-. split; auto.
        apply peek_lexeme_spec in El as [H1 H2]. eapply bad_keyword; eauto. intros t Ht. apply colon_words_spec in Ht. cbn [le_lexeme] in Ht. congruence.
      * cbn in E. injection E as ->. apply peek_lexeme_bad in El as (x & r & H1 & H2 & H3 & ->). split; auto. eapply bad_after_colon; eauto.
    + rewrite lex_at_other in E by auto. destruct (peek_lexeme s ln) eqn:El; try discriminate.
      * destruct (bare_lookup lexeme) eqn:Eb; [discriminate|]. destruct (ident_chars lexeme) eqn:Ei; [discriminate|].
        cbn in E. injection E as <-. split; auto. apply peek_lexeme_spec in El as [H1 H2]. eapply bad_identifier; eauto.
        -- apply bare_lookup_none. auto.
        -- intros Ht. apply ident_chars_spec in Ht. cbn [le_lexeme] in Ht. congruence.
      * cbn in E. injection E as ->. apply peek_lexeme_bad in El as (x & r & H1 & H2 & H3 & ->). split; auto. eapply bad_word; eauto.
  - destruct e as [k x l]. cbn [le_type le_lexeme le_line]. intros [Hb ->].
    inversion Hb; subst.
    + destruct x as [|c x]; [congruence|]. cbn [append]. assert (is_digit c = true) as Hd by (match goal with Hx : all_digits _ |- _ => destruct Hx; auto end).
      rewrite lex_at_digit by exact Hd. unfold peek_number. change (String c (x ++ r)) with (String c x ++ r).
      rewrite scan_number_int by auto. unfold i64_max. rewrite (proj2 (Z.leb_gt _ _)) by assumption. reflexivity.
    + rewrite lex_at_variable. unfold at_variable. rewrite (proj2 (peek_lexeme_bad s0 ln (mkLexErr InvalidIdentifier x ln))); eauto 8.
    + rewrite lex_at_colon. unfold at_colon. rewrite (proj2 (peek_lexeme_bad s0 ln (mkLexErr InvalidIdentifier x ln))); eauto 8.
    + rewrite lex_at_colon. unfold at_colon. rewrite (proj2 (peek_lexeme_spec s0 ln x r)); auto.
      destruct (str_assoc x colon_words) as [t|] eqn:Ec; [|reflexivity]. apply colon_words_spec in Ec. exfalso. match goal with Hx : forall t, ~ In _ _ |- _ => eapply Hx; eauto end.
    + rewrite lex_at_other by auto. rewrite (proj2 (peek_lexeme_bad s ln (mkLexErr InvalidIdentifier x ln))); eauto 8.
    + rewrite lex_at_other by auto. rewrite (proj2 (peek_lexeme_spec s ln x r)); auto.
      rewrite (proj2 (bare_lookup_none x)) by auto. destruct (ident_chars x) eqn:Ei; [|reflexivity]. apply ident_chars_spec in Ei. contradiction.
Qed.
Lemma lex_at_crash s ln q : token_start s -> fst (lex_at false s ln) = LPanic q <-> Crashes s q.
Proof.
  intros Hs. split.
  - intros E. destruct (starts s Hs) as [->|[(c & s' & -> & Hi)|[(c & s' & -> & Hd)|[(s' & ->)|[(s' & ->)|Ho]]]]].
    + discriminate.
    + destruct (lex_at_simple c s' ln Hi) as (t & st & E'). rewrite E' in E. discriminate.
    + rewrite lex_at_digit in E by auto. destruct (peek_number (String c s') ln); discriminate.
    + rewrite lex_at_variable in E. unfold at_variable in E. destruct (peek_lexeme s' ln) eqn:El; try discriminate. cbn in E. injection E as ->.
      apply peek_lexeme_panic in El as [[-> ->]|(x & r & H1 & H2 & ->)]; [apply cr_variable|]. eapply cr_variable_bytes; eauto.
    + rewrite lex_at_colon in E. unfold at_colon in E. destruct (peek_lexeme s' ln) eqn:El; try discriminate.
      * destruct (str_assoc lexeme colon_words); discriminate.
      * cbn in E. injection E as ->. apply peek_lexeme_panic in El as [[-> ->]|(x & r & H1 & H2 & ->)]; [apply cr_colon|]. eapply cr_colon_bytes; eauto.
    + rewrite lex_at_other in E by auto. destruct (peek_lexeme s ln) eqn:El; try discriminate.
      * destruct (bare_lookup lexeme); [discriminate|]. destruct (ident_chars lexeme); discriminate.
      * cbn in E. injection E as ->. apply peek_lexeme_panic in El as [[-> ->]|(x & r & H1 & H2 & ->)]; [destruct Ho|]. eapply cr_word_bytes; eauto.
  - intros Hc. inversion Hc; subst.
    + match goal with Hx : open_comment _ |- _ => destruct Hx as (t & -> & _) end. simpl in Hs. tauto.
    + reflexivity.
    + reflexivity.
    + rewrite lex_at_variable. unfold at_variable. rewrite (proj2 (peek_lexeme_panic s0 ln PanicUtf8)); eauto 8.
    + rewrite lex_at_colon. unfold at_colon. rewrite (proj2 (peek_lexeme_panic s0 ln PanicUtf8)); eauto 8.
    + rewrite lex_at_other by auto. rewrite (proj2 (peek_lexeme_panic s ln PanicUtf8)); eauto 8.
Qed.
Lemma lex_at_any p s ln : (forall e, fst (lex_at p s ln) = LErr e <-> fst (lex_at false s ln) = LErr e)
  /\ (forall q, fst (lex_at p s ln) = LPanic q <-> fst (lex_at false s ln) = LPanic q).
Proof.
  destruct p; [|tauto]. rewrite lex_at_peek. cbn [fst]. destruct (fst (lex_at false s ln)); cbn [peeked_out]; split; intros; split; intros E; first [discriminate E|exact E].
Qed.
Lemma bad_start s k x : Bad s k x -> token_start s.
Proof.
  intros Hb. inversion Hb; subst; try (apply other_token_start; assumption).
  - destruct x as [|c x]; [congruence|]. match goal with Hx : all_digits _ |- _ => destruct Hx as [Hc _] end. simpl.
    split; [|apply digit_not; auto]. intros Hw. eapply word_byte_not_delimiter; [apply digit_word; eauto|]. left; auto.
  - simpl. unfold ws. split; intuition discriminate.
  - simpl. unfold ws. split; intuition discriminate.
  - simpl. unfold ws. split; intuition discriminate.
Qed.
Lemma crash_start s q : Crashes s q -> (open_comment s /\ q = PanicIndex) \/ token_start s.
Proof.
  intros Hc. inversion Hc; subst; auto; right; try (apply other_token_start; assumption);
    simpl; unfold ws; split; intuition discriminate.
Qed.

(** ** C60 *)
(** The tokenizer, asked for the next token or asked to look at it, reports an
    error exactly if an ill-formed word comes next; it quotes that word, with
    its line. *)
Theorem C60_error_iff : forall p st e, fst (lex p st) = LErr e <->
  exists g s, rest st = g ++ s /\ Gap g /\ Bad s (le_type e) (le_lexeme e) /\ le_line e = (line st + count_nl g)%N.
Proof.
  intros p st e. split.
  - intros E. destruct (lex_view_ok p st) as [g s E1 Hg Hs E2|g s E1 Hg Hs E2]; rewrite E2 in E; [|discriminate].
    apply lex_at_any, lex_at_error in E as [H1 H2]; auto. exists g, s. auto.
  - intros (g & s & E1 & Hg & Hb & El). destruct st as [rs ln]. simpl in *. subst rs.
    assert (Hs := bad_start _ _ _ Hb). rewrite lex_at_gap by auto. apply lex_at_any, lex_at_error; auto.
Qed.
(** It crashes exactly on a comment or sigil at the end of the document and on
    words that are not UTF-8. *)
Theorem C60_crash_iff : forall p st q, fst (lex p st) = LPanic q <->
  exists g s, rest st = g ++ s /\ Gap g /\ Crashes s q.
Proof.
  intros p st q. split.
  - intros E. destruct (lex_view_ok p st) as [g s E1 Hg Hs E2|g s E1 Hg Hs E2]; rewrite E2 in E.
    + apply lex_at_any, lex_at_crash in E; auto. exists g, s. auto.
    + cbn in E. injection E as <-. exists g, s. split; auto. split; auto. apply cr_comment. auto.
  - intros (g & s & E1 & Hg & Hc). destruct st as [rs ln]. simpl in *. subst rs.
    destruct (crash_start _ _ Hc) as [[Ho ->]|Hs]; [rewrite lex_open; auto|]. rewrite lex_at_gap by auto. apply lex_at_any, lex_at_crash; auto.
Qed.
(** In all other cases a token is delivered. *)
Theorem C60_exhaustive : forall st, exists g s, rest st = g ++ s /\ Gap g
  /\ ((exists t r, Spells s t r) \/ (exists k x, Bad s k x) \/ (exists q, Crashes s q)).
Proof.
  intros st. destruct (get_token st) as [o st'] eqn:E. destruct o as [t|e|q|].
  - apply get_token_spec in E as (g & s & E1 & Hg & Hs & _). exists g, s. eauto 7.
  - destruct (proj1 (C60_error_iff false st e)) as (g & s & E1 & Hg & Hb & _); [unfold get_token in E; rewrite E; reflexivity|].
    exists g, s. eauto 8.
  - destruct (proj1 (C60_crash_iff false st q)) as (g & s & E1 & Hg & Hb); [unfold get_token in E; rewrite E; reflexivity|].
    exists g, s. eauto 8.
  - exfalso. apply (lex_no_fuel false st). unfold get_token in E. rewrite E. reflexivity.
Qed.
(** The three cases exclude each other, and kind and quotation are determined. *)
Theorem C60_exclusive : forall s,
  (forall t r k x, Spells s t r -> ~ Bad s k x) /\ (forall t r q, Spells s t r -> ~ Crashes s q)
  /\ (forall k x q, Bad s k x -> ~ Crashes s q)
  /\ (forall k x k' x', Bad s k x -> Bad s k' x' -> k = k' /\ x = x').
Proof.
  assert (forall s t r, Spells s t r -> fst (lex false (mkL s 0)) = LTok t) as HS.
  { intros s t r Hs. change (lex false (mkL s 0)) with (get_token (mkL s 0)).
    rewrite (proj2 (get_token_spec (mkL s 0) t (mkL r 0))); [reflexivity|]. exists "", s. repeat split; auto. constructor. }
  assert (forall s k x, Bad s k x -> fst (lex false (mkL s 0)) = LErr (mkLexErr k x 0)) as HB.
  { intros s k x Hb. apply C60_error_iff. exists "", s. cbn. repeat split; auto. constructor. }
  assert (forall s q, Crashes s q -> fst (lex false (mkL s 0)) = LPanic q) as HC.
  { intros s q Hc. apply C60_crash_iff. exists "", s. cbn. repeat split; auto. constructor. }
  intros s. split; [|split; [|split]].
  - intros t r k x H1 H2. apply HS in H1. apply HB in H2. congruence.
  - intros t r q H1 H2. apply HS in H1. apply HC in H2. congruence.
  - intros k x q H1 H2. apply HB in H1. apply HC in H2. congruence.
  - intros k x k' x' H1 H2. apply HB in H1. apply HB in H2. rewrite H1 in H2. injection H2 as -> ->. auto.
Qed.
Lemma bad_quote s k x : Bad s k x -> exists sigil r, In sigil [""; "?"; ":"] /\ s = sigil ++ x ++ r.
Proof.
  intros Hb. destruct Hb as [d r|s x r Hs|s x r Hs|s w r Hs|s x r _ Hs|s w r _ Hs];
    try (destruct Hs as (-> & _)); [exists "", r|exists "?", r|exists ":", r|exists ":", r|exists "", r|exists "", r]; cbn; auto.
Qed.
(** A rejected document contains the quoted text on the reported line, directly
    or behind its sigil; everything in front of it was read without error. *)
Theorem C60_document : forall n program e, parse n program = Err (ELex e) ->
  exists before sigil r ts,
    program = before ++ sigil ++ le_lexeme e ++ r /\ In sigil [""; "?"; ":"]
    /\ Bad (sigil ++ le_lexeme e ++ r) (le_type e) (le_lexeme e)
    /\ le_line e = (1 + count_nl before)%N
    /\ stands_at program ts (LErr e) (le_line e).
Proof.
  intros n program e E. destruct (C45_lexical_error n program e E) as (ts & l & (st & Hr & Hg & Hl) & _).
  assert (History program st) as Hh by (eapply reads_history; [constructor|eauto]).
  destruct (get_token st) as [o st'] eqn:Eg. cbn [fst snd] in *. subst o.
  destruct (line_of_token program st false (LErr e) st' Hh Eg ltac:(discriminate)) as (b & g & s & Ep & Er & Hgap & Hs & Hline & He).
  destruct (proj1 (C60_error_iff false st e)) as (g' & s' & Er' & Hg' & Hb & Hl').
  { unfold get_token in Eg. rewrite Eg. reflexivity. }
  assert (s = s') as <-.
  { destruct (gap_unique g s g' s') as [_ E1]; unfold gap_stop; auto; [left; eapply bad_start; eauto|congruence]. }
  destruct (bad_quote _ _ _ Hb) as (sg & r & Hi & Es). exists (b ++ g), sg, r, ts. rewrite <- Es.
  split; [rewrite Ep, app_assoc_s; auto|]. split; auto. split; auto. split; auto.
  exists st. rewrite Eg. split; auto. split; auto. cbn. rewrite Hline. auto.
Qed.
End S.

Definition lexical_error_theorems := (
  @C60_error_iff, @C60_crash_iff, @C60_exhaustive, @C60_exclusive, @C60_document).

(** ** Concrete cases *)
(** A misspelt keyword on line 2 and an ill-formed word: what is quoted, and the
    kind, as printed to the user. *)
Definition bad_kw : string := "(define (domain d)" ++ nl ++ " (:predicate (p)))" ++ nl.
Example C60_example : @parse uni0 300 bad_kw = Err (ELex (mkLexErr InvalidKeyword "predicate" 2)).
Proof. vm_compute. reflexivity. Qed.
Definition bad_var : string := "(define (domain d)" ++ nl ++ " (:predicates (p ?x!)))" ++ nl.
Example C60_example_variable : @parse uni0 300 bad_var = Err (ELex (mkLexErr InvalidIdentifier "x!" 2)).
Proof. vm_compute. reflexivity. Qed.
(** An ill-formed word after a colon is reported as an identifier, not as a
    keyword. *)
Example C60_example_colon : Bad (H := uni0) ":type! )" InvalidIdentifier "type!".
Proof.
  apply (bad_after_colon (H := uni0) "type! )" "type!" " )").
  - split; [reflexivity|]. unfold delimiter, ws. split; [cbn; repeat split; intuition discriminate|]. left. left. auto.
  - vm_compute. discriminate.
  - intros (_ & Hw & _). unfold word_byte in Hw. cbn in Hw. vm_compute in Hw. intuition discriminate.
Qed.
(** An integer that does not fit is quoted completely. *)
Example C60_example_integer : Bad (H := uni0) "9223372036854775808)" InvalidIdentifier "9223372036854775808".
Proof.
  apply (bad_integer (H := uni0) "9223372036854775808" ")"); try discriminate; try (vm_compute; intuition discriminate).
Qed.
