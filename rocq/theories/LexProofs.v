(** Proofs about the tokenizer. *)
From Coq Require Import String Ascii NArith ZArith Bool List Lia.
From Verif Require Import Base Token Lexer StrFacts SpecLex.
Import ListNotations.
Open Scope string_scope.

(** ** Character classes *)

Lemma is_whitespace_ws c : is_whitespace c = true <-> ws c.
Proof.
  unfold is_whitespace, ws, tab, newline, creturn.
  rewrite !orb_true_iff, !Ascii.eqb_eq. tauto.
Qed.

Lemma is_whitespace_false c : is_whitespace c = false <-> ~ ws c.
Proof. rewrite <- is_whitespace_ws. destruct (is_whitespace c); split; congruence. Qed.

Lemma ws_dec c : {ws c} + {~ ws c}.
Proof.
  destruct (is_whitespace c) eqn:E;
    [left; apply is_whitespace_ws|right; apply is_whitespace_false]; auto.
Qed.

(** ** Whitespace skipping *)

Fixpoint drop_ws (s : string) : string :=
  match s with
  | EmptyString => EmptyString
  | String c s' => if is_whitespace c then drop_ws s' else s
  end.

Lemma skip_ws_split s ln :
  exists g, str_all ws g /\ s = g ++ fst (skip_whitespaces s ln)
            /\ snd (skip_whitespaces s ln) = (ln + count_nl g)%N
            /\ match fst (skip_whitespaces s ln) with
               | EmptyString => True | String c _ => ~ ws c end.
Proof.
  revert ln; induction s as [|c s IH]; intros ln; simpl.
  - exists ""; simpl; repeat split; auto. lia.
  - destruct (is_whitespace c) eqn:E; simpl.
    + destruct (IH (if Ascii.eqb c newline then ln + 1 else ln)%N) as (g & H1 & H2 & H3 & H4).
      exists (String c g). simpl. repeat split; auto.
      * apply is_whitespace_ws; auto.
      * congruence.
      * rewrite H3. unfold newline. destruct (Ascii.eqb c "010"); lia.
    + exists ""; simpl; repeat split; auto; try lia. apply is_whitespace_false; auto.
Qed.

Lemma skip_ws_app g s ln :
  str_all ws g ->
  skip_whitespaces (g ++ s) ln = skip_whitespaces s (ln + count_nl g).
Proof.
  revert ln; induction g as [|c g IH]; simpl; intros ln H.
  - f_equal; lia.
  - destruct H as [H1 H2]. apply is_whitespace_ws in H1. rewrite H1; simpl.
    rewrite IH by auto. f_equal. unfold newline.
    destruct (Ascii.eqb c "010"); lia.
Qed.

Lemma skip_ws_stop s ln :
  match s with EmptyString => True | String c _ => ~ ws c end ->
  skip_whitespaces s ln = (s, ln).
Proof.
  destruct s as [|c s]; simpl; auto. intros H.
  apply is_whitespace_false in H. rewrite H. reflexivity.
Qed.

Lemma gap_all_ws g : str_all ws g -> Gap g.
Proof. induction g; simpl; constructor; tauto. Qed.

Lemma gap_app g h : Gap g -> Gap h -> Gap (g ++ h).
Proof.
  induction 1; simpl; intros; auto.
  - constructor; auto.
  - rewrite app_assoc_s. simpl. apply gap_comment; auto.
Qed.

(** ** Comments *)

Lemma skip_comment_some s r :
  skip_comment s = Some r ->
  exists text r', r = String "010" r' /\ s = text ++ r /\ ~ str_in "010" text.
Proof.
  revert r; induction s as [|c s IH]; simpl; intros r E; [discriminate|].
  unfold newline in *. destruct (Ascii.eqb_spec c "010") as [->|Hc].
  - injection E as <-. exists "", s; simpl; auto.
  - destruct (IH _ E) as (t & r' & -> & -> & Ht). exists (String c t), r'; simpl.
    repeat split; auto. intros [->|H]; auto.
Qed.

Lemma skip_comment_none s : skip_comment s = None <-> ~ str_in "010" s.
Proof.
  induction s as [|c s IH]; simpl; [tauto|]. unfold newline in *.
  destruct (Ascii.eqb_spec c "010") as [->|Hc]; [split; [discriminate|tauto]|].
  rewrite IH. tauto.
Qed.

Lemma skip_comment_app text r :
  ~ str_in "010" text -> skip_comment (text ++ String "010" r) = Some (String "010" r).
Proof.
  induction text as [|c t IH]; simpl; auto. intros H. unfold newline in *.
  destruct (Ascii.eqb_spec c "010") as [->|Hc]; [tauto|]. auto.
Qed.

(** ** The tokenizer at the first byte of a token *)

Section Lex.
Context `{Unicode}.

(** The body of [lex_fuel] once whitespace and comments have been skipped. *)
Definition lex_at (peek : bool) (s : string) (ln : N) : lex_out * lstate :=
  match s with
  | EmptyString => (LTok TEOF, mkL s ln)
  | String c s' =>
    let here := if peek then s else s' in
    let upd (r : string) := mkL (if peek then s else r) ln in
    if Ascii.eqb c "-" then (LTok (TPunct Dash), mkL here ln)
    else if Ascii.eqb c "(" then (LTok (TPunct LParen), mkL here ln)
    else if Ascii.eqb c ")" then (LTok (TPunct RParen), mkL here ln)
    else if Ascii.eqb c "<" || Ascii.eqb c ">" || Ascii.eqb c "=" then
      let '(o, r) := ordering_type c peek here in (LTok (TOp o), mkL r ln)
    else if Ascii.eqb c "?" then
      match peek_lexeme s' ln with
      | XOk l r => (LTok (TIdent l), upd r)
      | XErr e => (LErr e, mkL here ln)
      | XPanic p => (LPanic p, mkL here ln)
      end
    else if Ascii.eqb c ":" then
      match peek_lexeme s' ln with
      | XOk l r =>
        match str_assoc l colon_words with
        | Some t => (LTok t, upd r)
        | None => (LErr (mkLexErr InvalidKeyword l ln), upd r)
        end
      | XErr e => (LErr e, mkL here ln)
      | XPanic p => (LPanic p, mkL here ln)
      end
    else if is_digit c then
      match peek_number s ln with
      | NOk n r => (LTok (TNumber n), upd r)
      | NErr e => (LErr e, mkL here ln)
      end
    else
      match peek_lexeme s ln with
      | XOk l r =>
        match str_assoc l bare_words with
        | Some t => (LTok t, upd r)
        | None =>
          match str_assoc l operators with
          | Some o => (LTok (TOp o), upd r)
          | None =>
            if ident_chars l then (LTok (TIdent l), upd r)
            else (LErr (mkLexErr InvalidIdentifier l ln), upd r)
          end
        end
      | XErr e => (LErr e, mkL here ln)
      | XPanic p => (LPanic p, mkL here ln)
      end
  end.

Lemma lex_fuel_S n peek st :
  lex_fuel (S n) peek st =
  let '(s, ln) := skip_whitespaces (rest st) (line st) in
  match s with
  | String c s' =>
    if Ascii.eqb c ";" then
      match skip_comment (if peek then s else s') with
      | Some r => lex_fuel n peek (mkL r ln)
      | None => (LPanic PanicIndex, mkL EmptyString ln)
      end
    else lex_at peek s ln
  | EmptyString => lex_at peek s ln
  end.
Proof.
  simpl. destruct (skip_whitespaces (rest st) (line st)) as [s ln].
  destruct s as [|c s']; [reflexivity|].
  destruct (Ascii.eqb_spec c ";") as [->|Hc]; [reflexivity|].
  unfold lex_at. reflexivity.
Qed.

(** Where the next token starts: the gap in front of it is skipped, and either
    a token starts there or a comment that is never terminated. *)
Inductive lex_view (peek : bool) (st : lstate) (out : lex_out * lstate) : Prop :=
| lv_token g s : rest st = g ++ s -> Gap g -> token_start s ->
    out = lex_at peek s (line st + count_nl g) -> lex_view peek st out
| lv_open g s : rest st = g ++ s -> Gap g -> open_comment s ->
    out = (LPanic PanicIndex, mkL "" (line st + count_nl g)) -> lex_view peek st out.

Lemma lex_fuel_view : forall n peek st,
  (String.length (rest st) < n)%nat -> lex_view peek st (lex_fuel n peek st).
Proof.
  induction n as [|n IH]; intros peek st Hn; [lia|].
  rewrite lex_fuel_S.
  destruct (skip_ws_split (rest st) (line st)) as (g & Hg & Es & El & Hs).
  destruct (skip_whitespaces (rest st) (line st)) as [s ln]. simpl in Es, El, Hs.
  subst ln. destruct s as [|c s'].
  - apply (lv_token peek st _ g ""); simpl; auto using gap_all_ws.
  - destruct (Ascii.eqb_spec c ";") as [->|Hc].
    + assert (skip_comment (if peek then String ";" s' else s') = skip_comment s') as ->
        by (destruct peek; reflexivity).
      destruct (skip_comment s') as [r|] eqn:Ec.
      * apply skip_comment_some in Ec as (text & r' & -> & -> & Ht).
        assert (String.length (String "010" r') < n)%nat as Hl.
        { rewrite Es, !app_length_s in Hn. simpl in Hn. rewrite app_length_s in Hn.
          simpl in *. lia. }
        assert (count_nl (String ";" text) = 0)%N as Hct.
        { apply count_nl_none. simpl. intros [E|E]; [discriminate|auto]. }
        destruct (IH peek (mkL (String "010" r') (line st + count_nl g)) Hl)
          as [g' s H1 H2 H3 H4|g' s H1 H2 H3 H4]; simpl in H1, H4; rewrite H4.
        -- apply (lv_token peek st _ (g ++ String ";" text ++ g') s); auto.
           ++ rewrite Es, !app_assoc_s. simpl. rewrite H1. reflexivity.
           ++ destruct g' as [|d g'].
              { simpl in H1. subst s. destruct H3 as [H3 _]. exfalso. apply H3. unfold ws; auto. }
              injection H1 as <- H1.
              apply gap_app; [apply gap_all_ws; auto|].
              change (Gap (String ";" (text ++ String "010" g'))).
              apply gap_comment; auto.
              inversion H2; subst; auto.
           ++ f_equal. rewrite !count_nl_app, Hct. lia.
        -- apply (lv_open peek st _ (g ++ String ";" text ++ g') s); auto.
           ++ rewrite Es, !app_assoc_s. simpl. rewrite H1. reflexivity.
           ++ destruct g' as [|d g'].
              { simpl in H1. subst s. destruct H3 as (? & E & _). discriminate. }
              injection H1 as <- H1.
              apply gap_app; [apply gap_all_ws; auto|].
              change (Gap (String ";" (text ++ String "010" g'))).
              apply gap_comment; auto.
              inversion H2; subst; auto.
           ++ f_equal. f_equal. rewrite !count_nl_app, Hct. lia.
      * apply skip_comment_none in Ec.
        apply (lv_open peek st _ g (String ";" s')); auto using gap_all_ws.
        exists s'; auto.
    + apply (lv_token peek st _ g (String c s')); simpl; auto using gap_all_ws.
Qed.

Lemma lex_view_ok peek st : lex_view peek st (lex peek st).
Proof. apply lex_fuel_view. lia. Qed.

(** The position of the next token is determined by the text. *)
Lemma gap_first c s : Gap (String c s) -> ws c \/ c = ";"%char.
Proof. inversion 1; auto. Qed.

Definition gap_stop (s : string) : Prop := token_start s \/ open_comment s.

Lemma ws_not_semicolon c : ws c -> c <> ";"%char.
Proof. unfold ws. intros Hw ->. destruct Hw as [E|[E|[E|E]]]; discriminate. Qed.

Lemma first_newline a : forall b x y,
  ~ str_in "010" a -> ~ str_in "010" b ->
  a ++ String "010" x = b ++ String "010" y -> a = b /\ x = y.
Proof.
  induction a as [|c a IH]; intros [|d b] x y Ha Hb E; simpl in *.
  - injection E; auto.
  - injection E as <- E. exfalso. tauto.
  - injection E as -> E. exfalso. tauto.
  - injection E as -> E. destruct (IH b x y) as [-> ?]; auto.
Qed.

Lemma gap_unique g : forall s g' s',
  Gap g -> Gap g' -> gap_stop s -> gap_stop s' -> g ++ s = g' ++ s' -> g = g' /\ s = s'.
Proof.
  intros s g' s' Hg. revert g' s' s.
  induction Hg as [|c g Hc Hg IH|text g Ht Hg IH]; intros g' s' s Hg' Hs Hs' E.
  - simpl in E. subst s. destruct g' as [|c g']; auto. exfalso.
    destruct Hs as [Hs|(t & Et & Hn)].
    + simpl in Hs. apply gap_first in Hg'. tauto.
    + simpl in Et. injection Et as -> Et. inversion Hg'; subst.
      * eapply ws_not_semicolon; eauto.
      * apply Hn. rewrite !str_in_app. left. right. simpl. auto.
  - inversion Hg'; subst; simpl in E.
    + subst s'. exfalso. destruct Hs' as [Hs'|(t & Et & Hn)].
      * simpl in Hs'. tauto.
      * injection Et as -> _. eapply ws_not_semicolon; eauto.
    + injection E as -> E. destruct (IH g0 s' s) as [-> ->]; auto.
    + injection E as -> E. exfalso; eapply ws_not_semicolon; eauto.
  - inversion Hg'; subst; simpl in E.
    + subst s'. exfalso. destruct Hs' as [Hs'|(t & Et & Hn)].
      * simpl in Hs'. tauto.
      * injection Et as <-. apply Hn. rewrite !str_in_app. left. right. simpl. auto.
    + injection E as <- E. exfalso; eapply ws_not_semicolon; eauto.
    + injection E as E. rewrite !app_assoc_s in E. simpl in E.
      destruct (first_newline text text0 (g ++ s) (g0 ++ s')) as [-> E']; auto.
      destruct (IH g0 s' s) as [-> ->]; auto.
Qed.

Lemma lex_at_gap peek g s ln :
  Gap g -> token_start s ->
  lex peek (mkL (g ++ s) ln) = lex_at peek s (ln + count_nl g).
Proof.
  intros Hg Hs. destruct (lex_view_ok peek (mkL (g ++ s) ln)) as [g' s' E Hg' Hs' ->|g' s' E Hg' Hs' ->];
    simpl in *.
  - destruct (gap_unique g s g' s') as [-> ->]; unfold gap_stop; auto.
  - exfalso. destruct (gap_unique g s g' s') as [-> ->]; unfold gap_stop; auto.
    destruct Hs' as (t & -> & _). simpl in Hs. tauto.
Qed.

Lemma lex_open peek g s ln :
  Gap g -> open_comment s ->
  lex peek (mkL (g ++ s) ln) = (LPanic PanicIndex, mkL "" (ln + count_nl g)).
Proof.
  intros Hg Hs. destruct (lex_view_ok peek (mkL (g ++ s) ln)) as [g' s' E Hg' Hs' ->|g' s' E Hg' Hs' ->];
    simpl in *.
  - exfalso. destruct (gap_unique g s g' s') as [-> ->]; unfold gap_stop; auto.
    destruct Hs as (t & -> & _). simpl in Hs'. tauto.
  - destruct (gap_unique g s g' s') as [-> ->]; unfold gap_stop; auto.
Qed.

(** Skipping a gap in front does not change anything but the line. *)
Lemma lex_gap peek g s ln :
  Gap g -> lex peek (mkL (g ++ s) ln) = lex peek (mkL s (ln + count_nl g)).
Proof.
  intros Hg. destruct (lex_view_ok peek (mkL s (ln + count_nl g)))
    as [g' s' E Hg' Hs' ->|g' s' E Hg' Hs' ->]; simpl in *; subst s; rewrite <- app_assoc_s.
  - rewrite lex_at_gap by auto using gap_app. rewrite count_nl_app. f_equal; lia.
  - rewrite lex_open by auto using gap_app. rewrite count_nl_app. do 2 f_equal; lia.
Qed.

(** ** Words *)

Lemma word_byte_not_delimiter c : word_byte c -> ~ delimiter c.
Proof.
  unfold word_byte, delimiter, ws. intros Hw Hd.
  destruct Hd as [[->|[->|[->| ->]]]|[->| ->]];
    destruct Hw as [E|[E|E]]; discriminate.
Qed.

Lemma delimiter_dec c : {delimiter c} + {~ delimiter c}.
Proof.
  unfold delimiter. destruct (ws_dec c); [left; auto|].
  destruct (ascii_dec c "("); [left; auto|].
  destruct (ascii_dec c ")"); [left; auto|right; tauto].
Qed.

Lemma word_byte_dec c : {word_byte c} + {~ word_byte c}.
Proof.
  unfold word_byte. destruct (latin1_alnum c); [left; auto|].
  destruct (ascii_dec c "_"); [left; auto|].
  destruct (ascii_dec c "-"); [left; auto|right; intuition congruence].
Qed.

Lemma lexeme_char_delimiter c : delimiter c -> lexeme_char c = (false, false).
Proof.
  unfold delimiter, ws. intros [[->|[->|[->| ->]]]|[->| ->]]; reflexivity.
Qed.

Lemma lexeme_char_word c : word_byte c -> lexeme_char c = (true, false).
Proof.
  intros Hw. assert (Hd := word_byte_not_delimiter c Hw). unfold lexeme_char.
  destruct (Ascii.eqb_spec c "_"); [reflexivity|].
  destruct (Ascii.eqb_spec c "-"); [reflexivity|]. simpl.
  destruct (Ascii.eqb_spec c ")"); [exfalso; apply Hd; unfold delimiter; auto|].
  destruct (Ascii.eqb_spec c "("); [exfalso; apply Hd; unfold delimiter; auto|]. simpl.
  destruct (is_whitespace c) eqn:E.
  - apply is_whitespace_ws in E. exfalso; apply Hd; unfold delimiter; auto.
  - destruct Hw as [->|[?|?]]; [reflexivity|congruence|congruence].
Qed.

Lemma lexeme_char_other c :
  ~ delimiter c -> ~ word_byte c -> lexeme_char c = (true, true).
Proof.
  intros Hd Hw. unfold lexeme_char.
  destruct (Ascii.eqb_spec c "_"); [exfalso; apply Hw; unfold word_byte; auto|].
  destruct (Ascii.eqb_spec c "-"); [exfalso; apply Hw; unfold word_byte; auto|]. simpl.
  destruct (Ascii.eqb_spec c ")"); [exfalso; apply Hd; unfold delimiter; auto|].
  destruct (Ascii.eqb_spec c "("); [exfalso; apply Hd; unfold delimiter; auto|]. simpl.
  destruct (is_whitespace c) eqn:E.
  - apply is_whitespace_ws in E. exfalso; apply Hd; unfold delimiter; auto.
  - destruct (latin1_alnum c) eqn:E'; [|reflexivity].
    exfalso; apply Hw; unfold word_byte; auto.
Qed.

Lemma scan_lexeme_split s : forall l r b, scan_lexeme s = (l, r, b) -> s = l ++ r.
Proof.
  induction s as [|c s IH]; intros l r b E; simpl in E; [injection E as <- <- <-; reflexivity|].
  destruct (lexeme_char c) as [v bd]. destruct v; simpl in E.
  - destruct s as [|d s].
    + injection E as <- <- <-; reflexivity.
    + destruct (scan_lexeme (String d s)) as [[l' r'] b'].
      injection E as <- <- <-. simpl. f_equal. eapply IH; reflexivity.
  - injection E as <- <- <-; reflexivity.
Qed.

Lemma scan_lexeme_sound s : forall l r,
  s <> "" -> scan_lexeme s = (l, r, false) -> word_at s l r.
Proof.
  induction s as [|c s IH]; intros l r Hs E; [congruence|].
  simpl in E.
  destruct (delimiter_dec c) as [Hd|Hd].
  - rewrite (lexeme_char_delimiter c Hd) in E. simpl in E. injection E as <- <-.
    repeat split; simpl; auto.
  - destruct (word_byte_dec c) as [Hw|Hw].
    + rewrite (lexeme_char_word c Hw) in E. simpl in E.
      destruct s as [|d s].
      * injection E as <- <-. repeat split; simpl; auto.
      * destruct (scan_lexeme (String d s)) as [[l' r'] b'].
        injection E as <- <- ->.
        destruct (IH l' r') as (E1 & E2 & E3); [discriminate|reflexivity|].
        repeat split; simpl; auto. f_equal; exact E1.
    + rewrite (lexeme_char_other c Hd Hw) in E. simpl in E.
      destruct s as [|d s]; [discriminate|].
      destruct (scan_lexeme (String d s)) as [[l' r'] b']. discriminate.
Qed.

Lemma scan_lexeme_complete w : forall r,
  str_all word_byte w -> word_end r -> scan_lexeme (w ++ r) = (w, r, false).
Proof.
  induction w as [|c w IH]; intros r Hw Hr.
  - destruct r as [|c r]; [destruct Hr|]. simpl. destruct Hr as [Hd|[Hw' ->]].
    + rewrite (lexeme_char_delimiter c Hd). reflexivity.
    + rewrite (lexeme_char_word c Hw'). reflexivity.
  - destruct Hw as [Hc Hw]. simpl. rewrite (lexeme_char_word c Hc). simpl.
    rewrite (IH r Hw Hr). destruct (w ++ r) eqn:E; [|reflexivity].
    destruct w; simpl in E; [subst r; destruct Hr|discriminate].
Qed.

Lemma word_at_nonempty s w r : word_at s w r -> s <> "".
Proof.
  intros (-> & _ & Hr). destruct r; [destruct Hr|].
  apply str_nonempty_app_r. discriminate.
Qed.

Lemma word_at_unique s w r w' r' : word_at s w r -> word_at s w' r' -> w = w' /\ r = r'.
Proof.
  intros (-> & Hw & Hr) (E & Hw' & Hr').
  assert (H1 := scan_lexeme_complete w r Hw Hr).
  assert (H2 := scan_lexeme_complete w' r' Hw' Hr').
  rewrite E in H1. rewrite H1 in H2. injection H2; auto.
Qed.

Lemma utf8_ok_true s : utf8_ok s = true <-> utf8_decode s <> None.
Proof. unfold utf8_ok. destruct (utf8_decode s); split; congruence. Qed.

Lemma peek_lexeme_spec s ln l r :
  peek_lexeme s ln = XOk l r <-> word_at s l r /\ utf8_decode l <> None.
Proof.
  unfold peek_lexeme. split.
  - destruct s as [|c s]; [discriminate|].
    destruct (scan_lexeme (String c s)) as [[l' r'] b] eqn:E.
    destruct (utf8_ok l') eqn:Eu; [|discriminate]. simpl.
    destruct b; [discriminate|]. intros E'; injection E' as -> ->.
    split; [apply scan_lexeme_sound; [discriminate|auto]|apply utf8_ok_true; auto].
  - intros [Hw Hu]. assert (Hn := word_at_nonempty _ _ _ Hw).
    destruct s as [|c s]; [congruence|]. destruct Hw as (-> & Hw & Hr).
    rewrite (scan_lexeme_complete l r Hw Hr).
    apply utf8_ok_true in Hu. rewrite Hu. reflexivity.
Qed.

(** ** Tables *)

Lemma str_assoc_In {A} k (l : list (string * A)) v : str_assoc k l = Some v -> In (k, v) l.
Proof.
  induction l as [|[k' v'] l IH]; simpl; [discriminate|].
  destruct (String.eqb_spec k k') as [->|]; [|auto].
  intros E; injection E as ->; auto.
Qed.

Lemma str_assoc_None {A} k (l : list (string * A)) :
  str_assoc k l = None -> forall v, ~ In (k, v) l.
Proof.
  induction l as [|[k' v'] l IH]; simpl; [tauto|].
  destruct (String.eqb_spec k k') as [->|]; [discriminate|].
  intros E v [E'|E']; [congruence|eapply IH; eauto].
Qed.

Lemma colon_words_spec w t : str_assoc w colon_words = Some t <-> In w (colon_text t).
Proof.
  split.
  - intros E. apply str_assoc_In in E. simpl in E.
    repeat (destruct E as [E|E]; [injection E as <- <-; simpl; auto|]); destruct E.
  - destruct t as [k| | | | |r|]; simpl; try tauto;
      [destruct k|destruct r]; simpl; intros Hi;
      repeat (destruct Hi as [<-|Hi]; [reflexivity|]); destruct Hi.
Qed.

(** Lookup of a bare word in both tables of the tokenizer. *)
Definition bare_lookup (w : string) : option token :=
  match str_assoc w bare_words with
  | Some t => Some t
  | None => option_map TOp (str_assoc w operators)
  end.

Lemma bare_lookup_spec w t : bare_lookup w = Some t <-> In w (bare_text t).
Proof.
  unfold bare_lookup. split.
  - destruct (str_assoc w bare_words) as [t'|] eqn:E1.
    + intros E; injection E as ->. apply str_assoc_In in E1. simpl in E1.
      repeat (destruct E1 as [E|E1]; [injection E as <- <-; simpl; auto|]); destruct E1.
    + destruct (str_assoc w operators) as [o|] eqn:E2; [|discriminate].
      intros E; injection E as <-. apply str_assoc_In in E2. simpl in E2.
      repeat (destruct E2 as [E|E2]; [injection E as <- <-; simpl; auto|]); destruct E2.
  - destruct t as [k| | |o| | |]; simpl; try tauto;
      [destruct k|destruct o]; simpl; intros Hi;
      repeat (destruct Hi as [<-|Hi]; [reflexivity|]); destruct Hi.
Qed.

Lemma bare_lookup_none w : bare_lookup w = None <-> ~ reserved w.
Proof.
  unfold reserved. split.
  - intros E (t & Ht). apply bare_lookup_spec in Ht. congruence.
  - intros Hn. destruct (bare_lookup w) as [t|] eqn:E; auto.
    exfalso; apply Hn. exists t. apply bare_lookup_spec; auto.
Qed.

Lemma ident_chars_spec w : ident_chars w = true <-> identifier_text w.
Proof.
  unfold ident_chars, identifier_text. split.
  - destruct (utf8_decode w) as [cps|]; [|discriminate].
    intros E. exists cps. split; auto. apply Forall_forall. intros cp Hcp.
    rewrite forallb_forall in E. specialize (E _ Hcp).
    rewrite !orb_true_iff, !N.eqb_eq in E. tauto.
  - intros (cps & -> & F). apply forallb_forall. intros cp Hcp.
    rewrite Forall_forall in F. specialize (F _ Hcp).
    rewrite !orb_true_iff, !N.eqb_eq. tauto.
Qed.

(** ** Numbers *)

Lemma scan_number_seen s : forall l r b,
  scan_number true s = (l, r, b) ->
  b = true /\ s = l ++ r /\ all_digits l /\ ~ starts_digit r.
Proof.
  induction s as [|c s IH]; intros l r b E; simpl in E.
  - injection E as <- <- <-. unfold all_digits; simpl; auto.
  - destruct (is_digit c) eqn:Ed.
    + destruct (scan_number true s) as [[l' r'] b']. injection E as <- <- <-.
      destruct (IH _ _ _ eq_refl) as (H1 & H2 & H3 & H4). unfold all_digits in *; simpl.
      repeat split; auto. congruence.
    + rewrite andb_false_r in E. injection E as <- <- <-.
      unfold all_digits; simpl. rewrite Ed. repeat split; auto.
Qed.

Lemma scan_number_seen_complete d : forall r,
  all_digits d -> ~ starts_digit r -> scan_number true (d ++ r) = (d, r, true).
Proof.
  induction d as [|c d IH]; intros r Hd Hr; simpl in *.
  - destruct r as [|c r]; simpl in *; [reflexivity|].
    destruct (is_digit c); [congruence|]. rewrite andb_false_r. reflexivity.
  - destruct Hd as [Hc Hd]. rewrite Hc, (IH r Hd Hr). reflexivity.
Qed.

Lemma scan_number_sound s : forall l r b,
  scan_number false s = (l, r, b) ->
  s = l ++ r /\
  ((b = false /\ all_digits l /\ ~ starts_digit r /\ ~ starts_with "." r)
   \/ (b = true /\ exists d e, l = d ++ String "." e /\ all_digits d /\ all_digits e
                             /\ ~ starts_digit r)).
Proof.
  induction s as [|c s IH]; intros l r b E; simpl in E.
  - injection E as <- <- <-. split; auto. left. unfold all_digits; simpl; auto.
  - destruct (is_digit c) eqn:Ed.
    + destruct (scan_number false s) as [[l' r'] b']. injection E as <- <- <-.
      destruct (IH _ _ _ eq_refl) as (H1 & [(H2 & H3 & H4 & H5)|(H2 & d & e & H3 & H4 & H5 & H6)]).
      * split; [simpl; congruence|]. left. unfold all_digits in *; simpl; auto.
      * split; [simpl; congruence|]. right. split; auto.
        exists (String c d), e. unfold all_digits in *; simpl; rewrite H3. auto.
    + destruct (Ascii.eqb_spec c ".") as [->|Hc]; simpl in E.
      * destruct (scan_number true s) as [[l' r'] b'] eqn:E'. injection E as <- <- <-.
        apply scan_number_seen in E' as (-> & -> & H3 & H4).
        split; auto. right. split; auto. exists "", l'. unfold all_digits; simpl; auto.
      * injection E as <- <- <-. split; auto. left. unfold all_digits; simpl.
        rewrite Ed. repeat split; auto.
Qed.

Lemma scan_number_int d : forall r,
  all_digits d -> ~ starts_digit r -> ~ starts_with "." r ->
  scan_number false (d ++ r) = (d, r, false).
Proof.
  induction d as [|c d IH]; intros r Hd Hr Hp; simpl in *.
  - destruct r as [|c r]; simpl in *; [reflexivity|].
    destruct (is_digit c); [congruence|].
    destruct (Ascii.eqb_spec c "."); [congruence|reflexivity].
  - destruct Hd as [Hc Hd]. rewrite Hc, (IH r Hd Hr Hp). reflexivity.
Qed.

Lemma scan_number_real d : forall e r,
  all_digits d -> all_digits e -> ~ starts_digit r ->
  scan_number false (d ++ String "." (e ++ r)) = (d ++ String "." e, r, true).
Proof.
  induction d as [|c d IH]; intros e r Hd He Hr; simpl in *.
  - rewrite (scan_number_seen_complete e r He Hr). reflexivity.
  - destruct Hd as [Hc Hd]. rewrite Hc, (IH e r Hd He Hr). reflexivity.
Qed.

Lemma f64_parses_digit d e : d <> "" -> all_digits d -> f64_parses (d ++ e) = true.
Proof.
  destruct d as [|c d]; [congruence|]. intros _ [Hc _]. simpl. rewrite Hc. reflexivity.
Qed.

(** ** The tokenizer at a token start agrees with the specification *)

Lemma eqb_neq c d : c <> d -> Ascii.eqb c d = false.
Proof. intros Hn. destruct (Ascii.eqb_spec c d); congruence. Qed.

Lemma peek_number_start c s ln :
  is_digit c = true ->
  (exists d r, String c s = d ++ r /\ all_digits d /\ d <> "" /\ ~ starts_digit r
     /\ ~ starts_with "." r
     /\ (((decimal_value d <= i64_max)%Z
          /\ peek_number (String c s) ln = NOk (Integer (decimal_value d)) r)
         \/ ((decimal_value d > i64_max)%Z
            /\ peek_number (String c s) ln = NErr (mkLexErr InvalidIdentifier d ln))))
  \/ (exists d e r, String c s = d ++ String "." (e ++ r) /\ all_digits d /\ d <> ""
       /\ all_digits e /\ ~ starts_digit r
       /\ peek_number (String c s) ln = NOk (Real (d ++ String "." e)) r).
Proof.
  intros Hc. unfold peek_number.
  destruct (scan_number false (String c s)) as [[l r] b] eqn:E.
  destruct (scan_number_sound _ _ _ _ E) as (Es & [(-> & H1 & H2 & H3)|(-> & d & e & -> & H1 & H2 & H3)]).
  - assert (l <> "") as Hl.
    { intros ->. simpl in E. rewrite Hc in E.
      destruct (scan_number false s) as [[? ?] ?]; discriminate. }
    left. exists l, r. repeat split; auto.
    destruct (Z.leb_spec (decimal_value l) i64_max); [left|right]; auto. split; auto. lia.
  - assert (d <> "") as Hd.
    { intros ->. simpl in Es. injection Es as -> _. discriminate. }
    right. exists d, e, r. rewrite f64_parses_digit by auto. repeat split; auto.
    rewrite Es, app_assoc_s. reflexivity.
Qed.

Lemma digit_word c : is_digit c = true -> word_byte c.
Proof.
  unfold is_digit, in_range, word_byte, latin1_alnum, latin1_alnum_code.
  intros E. left. rewrite E. reflexivity.
Qed.

Lemma digit_not (c d : ascii) : is_digit c = true -> is_digit d = false -> c <> d.
Proof. intros H1 H2 ->. congruence. Qed.

Lemma str_head_app (d r : string) c s :
  String c s = d ++ r -> d <> "" -> exists d', d = String c d'.
Proof. destruct d as [|x d]; [congruence|]. simpl. intros E _. injection E as -> _. eauto. Qed.

Lemma lex_at_sound s ln t st' :
  token_start s -> lex_at false s ln = (LTok t, st') ->
  exists r, st' = mkL r ln /\ Spells s t r.
Proof.
  intros Hs E. destruct s as [|c s]; cbn -[str_assoc peek_lexeme peek_number ident_chars Ascii.eqb ordering_type is_digit] in E.
  { injection E as <- <-. exists ""; split; auto. constructor. }
  destruct (Ascii.eqb_spec c "-") as [->|N1].
  { injection E as <- <-. exists s; split; auto. constructor. }
  destruct (Ascii.eqb_spec c "(") as [->|N2].
  { injection E as <- <-. exists s; split; auto. constructor. }
  destruct (Ascii.eqb_spec c ")") as [->|N3].
  { injection E as <- <-. exists s; split; auto. constructor. }
  destruct (Ascii.eqb_spec c "<") as [->|N4].
  { cbn [orb] in E. unfold ordering_type in E. simpl in E.
    destruct s as [|d s]; [injection E as <- <-; exists ""; split; auto; constructor; simpl; auto|].
    destruct (Ascii.eqb_spec d "=") as [->|Nd]; injection E as <- <-.
    - exists s; split; auto; constructor.
    - exists (String d s); split; auto; constructor; simpl; auto. }
  destruct (Ascii.eqb_spec c ">") as [->|N5].
  { cbn [orb] in E. unfold ordering_type in E. simpl in E.
    destruct s as [|d s]; [injection E as <- <-; exists ""; split; auto; constructor; simpl; auto|].
    destruct (Ascii.eqb_spec d "=") as [->|Nd]; injection E as <- <-.
    - exists s; split; auto; constructor.
    - exists (String d s); split; auto; constructor; simpl; auto. }
  destruct (Ascii.eqb_spec c "=") as [->|N6].
  { cbn [orb] in E. unfold ordering_type in E. simpl in E.
    injection E as <- <-. exists s; split; auto; constructor. }
  cbn [orb] in E.
  destruct (Ascii.eqb_spec c "?") as [->|N7].
  { destruct (peek_lexeme s ln) as [l r| |] eqn:El; try discriminate.
    apply peek_lexeme_spec in El as [Hw Hu]. injection E as <- <-.
    exists r; split; auto. apply sp_variable; auto. }
  destruct (Ascii.eqb_spec c ":") as [->|N8].
  { destruct (peek_lexeme s ln) as [l r| |] eqn:El; try discriminate.
    apply peek_lexeme_spec in El as [Hw Hu].
    destruct (str_assoc l colon_words) as [t'|] eqn:Et; [|discriminate].
    injection E as <- <-. exists r; split; auto.
    eapply sp_colon; eauto. apply colon_words_spec; auto. }
  destruct (is_digit c) eqn:Hd.
  { destruct (peek_number_start c s ln Hd)
      as [(d & r & Es & H1 & H2 & H3 & H4 & [[H5 H6]|[H5 H6]])|(d & e & r & Es & H1 & H2 & H3 & H4 & H5)].
    - rewrite H6 in E. injection E as <- <-. exists r; split; auto.
      rewrite Es. constructor; auto.
    - rewrite H6 in E. discriminate.
    - rewrite H5 in E. injection E as <- <-. exists r; split; auto.
      rewrite Es. constructor; auto. }
  change (String c s) with (String c s) in E.
  destruct (peek_lexeme (String c s) ln) as [l r| |] eqn:El; try discriminate.
  apply peek_lexeme_spec in El as [Hw Hu].
  assert (bare_start (String c s)) as Hb.
  { simpl. split; [|auto]. destruct Hw as (Ew & Hw & Hr).
    destruct l as [|x l]; simpl in Ew.
    - subst r. simpl in Hr. destruct Hr as [Hr|[Hr _]]; auto.
      exfalso. destruct Hr as [Hr|[Hr|Hr]]; try congruence. simpl in Hs. tauto.
    - injection Ew as <- _. simpl in Hw. tauto. }
  assert (bare_lookup l = match str_assoc l bare_words with
                          | Some t => Some t
                          | None => option_map TOp (str_assoc l operators) end) as Eb by reflexivity.
  destruct (str_assoc l bare_words) as [t'|] eqn:Et.
  { injection E as <- <-. exists r; split; auto. eapply sp_word; eauto.
    apply bare_lookup_spec; auto. }
  destruct (str_assoc l operators) as [o|] eqn:Eo.
  { injection E as <- <-. exists r; split; auto. eapply sp_word; eauto.
    apply bare_lookup_spec; auto. }
  destruct (ident_chars l) eqn:Ei; [|discriminate].
  injection E as <- <-. exists r; split; auto. apply sp_ident; auto.
  - apply bare_lookup_none; auto.
  - apply ident_chars_spec; auto.
Qed.

Lemma bare_start_head c s :
  bare_start (String c s) ->
  Ascii.eqb c "-" = false /\ Ascii.eqb c "(" = false /\ Ascii.eqb c ")" = false
  /\ Ascii.eqb c "<" = false /\ Ascii.eqb c ">" = false /\ Ascii.eqb c "=" = false
  /\ Ascii.eqb c "?" = false /\ Ascii.eqb c ":" = false /\ is_digit c = false.
Proof.
  simpl. intros (Hw & Hd & Hm).
  assert (forall d, latin1_alnum d = false -> d <> "_"%char -> d <> "-"%char -> Ascii.eqb c d = false) as Hn.
  { intros d H1 H2 H3. apply eqb_neq. intros ->. destruct Hw as [E|[E|E]]; congruence. }
  repeat split; auto; try (apply Hn; [reflexivity|discriminate|discriminate]).
  apply eqb_neq; auto.
Qed.

Lemma lex_at_word s ln l r :
  bare_start s -> peek_lexeme s ln = XOk l r ->
  lex_at false s ln =
  match bare_lookup l with
  | Some t => (LTok t, mkL r ln)
  | None => if ident_chars l then (LTok (TIdent l), mkL r ln)
            else (LErr (mkLexErr InvalidIdentifier l ln), mkL r ln)
  end.
Proof.
  destruct s as [|c s]; [intros []|]. intros Hb El.
  apply bare_start_head in Hb as (E1 & E2 & E3 & E4 & E5 & E6 & E7 & E8 & E9).
  unfold lex_at. rewrite E1, E2, E3, E4, E5, E6, E7, E8, E9, El. cbn [orb].
  unfold bare_lookup. destruct (str_assoc l bare_words); [reflexivity|].
  destruct (str_assoc l operators); reflexivity.
Qed.

Lemma lex_at_digit c s ln :
  is_digit c = true ->
  lex_at false (String c s) ln =
  match peek_number (String c s) ln with
  | NOk n r => (LTok (TNumber n), mkL r ln)
  | NErr e => (LErr e, mkL s ln)
  end.
Proof.
  intros Hd. unfold lex_at. rewrite Hd.
  rewrite !(eqb_neq c) by (apply digit_not; [exact Hd|reflexivity]).
  reflexivity.
Qed.

Lemma colon_text_utf8 t w : In w (colon_text t) -> utf8_decode w <> None.
Proof.
  destruct t as [k| | | | |r|]; simpl; try tauto;
    [destruct k|destruct r]; simpl; intros Hi;
    repeat (destruct Hi as [<-|Hi]; [vm_compute; discriminate|]); destruct Hi.
Qed.

Lemma bare_text_utf8 t w : In w (bare_text t) -> utf8_decode w <> None.
Proof.
  destruct t as [k| | |o| | |]; simpl; try tauto;
    [destruct k|destruct o]; simpl; intros Hi;
    repeat (destruct Hi as [<-|Hi]; [vm_compute; discriminate|]); destruct Hi.
Qed.

Lemma lex_at_complete s ln t r :
  Spells s t r -> lex_at false s ln = (LTok t, mkL r ln).
Proof.
  intros Hs.
  inversion Hs as [ |r'|r'|r'|r' Hn|r' Hn|r'|r'|r'|s' w r' Hw Hu|s' w r' t' Hw Hi
                  |d r' H1 H2 H3 H4 H5|d e r' H1 H2 H3 H4|s' w r' t' Hw Hb Hi|s' w r' Hw Hb Hr Hi]; subst.
  - reflexivity.
  - reflexivity.
  - reflexivity.
  - reflexivity.
  - simpl. unfold ordering_type; simpl. destruct r as [|d r]; [reflexivity|].
    simpl in Hn. rewrite (eqb_neq d "="); auto.
  - simpl. unfold ordering_type; simpl. destruct r as [|d r]; [reflexivity|].
    simpl in Hn. rewrite (eqb_neq d "="); auto.
  - reflexivity.
  - reflexivity.
  - reflexivity.
  - simpl. rewrite (proj2 (peek_lexeme_spec s' ln w r)); auto.
  - cbn -[str_assoc peek_lexeme].
    rewrite (proj2 (peek_lexeme_spec s' ln w r)); eauto using colon_text_utf8.
    apply colon_words_spec in Hi. rewrite Hi. reflexivity.
  - destruct d as [|c d]; [congruence|]. cbn [append].
    rewrite lex_at_digit by (destruct H1; auto).
    unfold peek_number. change (String c (d ++ r)) with (String c d ++ r).
    rewrite (scan_number_int (String c d) r); auto.
    apply Z.leb_le in H5. unfold i64_max. rewrite H5. reflexivity.
  - destruct d as [|c d]; [congruence|]. cbn [append].
    rewrite lex_at_digit by (destruct H1; auto).
    unfold peek_number.
    change (String c (d ++ String "." (e ++ r))) with (String c d ++ String "." (e ++ r)).
    rewrite (scan_number_real (String c d) e r); auto.
    rewrite f64_parses_digit by auto. reflexivity.
  - rewrite (lex_at_word s ln w r); auto.
    + apply bare_lookup_spec in Hi. rewrite Hi. reflexivity.
    + apply peek_lexeme_spec. split; auto. eapply bare_text_utf8; eauto.
  - rewrite (lex_at_word s ln w r); auto.
    + apply bare_lookup_none in Hr. rewrite Hr. apply ident_chars_spec in Hi. rewrite Hi. reflexivity.
    + apply peek_lexeme_spec. split; auto. destruct Hi as (? & -> & _). discriminate.
Qed.

Lemma spells_start s t r : Spells s t r -> token_start s.
Proof.
  assert (forall c, is_digit c = true -> ~ ws c /\ c <> ";"%char) as Hdig.
  { intros c Hd. split; [|apply digit_not; auto].
    intros Hw. eapply word_byte_not_delimiter; [eapply digit_word; eauto|]. left; auto. }
  assert (forall s, bare_start s -> token_start s) as Hbare.
  { intros [|c s0]; simpl; [tauto|]. intros (Hw & _ & _). split.
    - intros Hws. eapply word_byte_not_delimiter; eauto. left; auto.
    - intros ->. destruct Hw as [E|[E|E]]; discriminate. }
  assert (forall c : ascii, is_whitespace c = false -> c <> ";"%char -> ~ ws c /\ c <> ";"%char) as Hc.
  { intros c Hc. rewrite <- is_whitespace_false. auto. }
  destruct 1; simpl; auto; try (apply Hc; [reflexivity|discriminate]).
  - destruct d as [|c d]; [congruence|]. destruct H0. simpl. auto.
  - destruct d as [|c d]; [congruence|]. destruct H0. simpl. auto.
Qed.

(** One read, completely characterised. *)
Lemma get_token_spec st t st' :
  get_token st = (LTok t, st') <->
  exists g s, rest st = g ++ s /\ Gap g /\ Spells s t (rest st')
              /\ line st' = (line st + count_nl g)%N.
Proof.
  unfold get_token. split.
  - intros E. destruct (lex_view_ok false st) as [g s E1 Hg Hs E2|g s E1 Hg Hs E2];
      rewrite E in E2; [|discriminate].
    symmetry in E2. apply lex_at_sound in E2 as (r & -> & Hsp); auto.
    exists g, s; auto.
  - intros (g & s & E1 & Hg & Hsp & El).
    destruct st as [rs ln], st' as [r ln']; simpl in *. subst.
    rewrite lex_at_gap; eauto using spells_start.
    apply lex_at_complete; auto.
Qed.

End Lex.
