(** Proofs about Cursor.v: every step agrees with Lexer.v. *)
From Coq Require Import String Ascii NArith ZArith Bool List Lia PeanoNat.
From Verif Require Import Base Token Lexer StrFacts SpecLex LexProofs LexProofs2 LexProofs3 Cursor.
Import ListNotations.
Open Scope string_scope.

Lemma get_app p s : String.get (String.length p) (p ++ s) = String.get 0 s.
Proof. induction p; cbn; auto. Qed.
Lemma substring_app p l r : substring (String.length p) (String.length l) (p ++ l ++ r) = l.
Proof.
  induction p as [|c p IH]; cbn; auto.
  induction l as [|c l IH]; cbn; [destruct r; reflexivity|]. f_equal. exact IH.
Qed.
Lemma app_cons_s p c s : p ++ String c s = (p ++ String c "") ++ s.
Proof. rewrite app_assoc_s. reflexivity. Qed.
Lemma len_app p s : len (p ++ s) = (N.of_nat (String.length p) + N.of_nat (String.length s))%N.
Proof. unfold len. rewrite app_length_s. lia. Qed.

Section P.
Context `{Unicode}.
Variable b : build.
Variable program : string.
Hypothesis Hlen : (len program < 2 ^ 63)%N.

Definition posn (p : string) : N := N.of_nat (String.length p).

Lemma posn_snoc p c : posn (p ++ String c "") = (posn p + 1)%N.
Proof. unfold posn. rewrite app_length_s. cbn. lia. Qed.
Lemma posn_app p q : posn (p ++ q) = (posn p + posn q)%N.
Proof. unfold posn. rewrite app_length_s. lia. Qed.
Lemma byte_cons p c s : program = p ++ String c s -> byte program (posn p) = Val c.
Proof. intros E. unfold byte, posn. rewrite Nat2N.id, E, get_app. reflexivity. Qed.
Lemma byte_nil p : program = p -> byte program (posn p) = Crash PanicIndex.
Proof. intros E. unfold byte, posn. rewrite Nat2N.id, E. rewrite <- (app_nil_r_s p) at 2. rewrite get_app. reflexivity. Qed.
Lemma posn_lt p c s : program = p ++ String c s -> (posn p < len program)%N.
Proof. intros ->. rewrite len_app. cbn [String.length]. unfold posn. lia. Qed.
Lemma posn_le p s : program = p ++ s -> (posn p <= len program)%N.
Proof. intros ->. rewrite len_app. unfold posn. lia. Qed.
Lemma posn_end p : program = p -> posn p = len program.
Proof. intros ->. reflexivity. Qed.
Lemma pow63 : (2 ^ 63 < 2 ^ 64)%N.
Proof. reflexivity. Qed.
Lemma plus_pos p c s : program = p ++ String c s -> plus b 64 (posn p) 1 = Val (posn (p ++ String c "")).
Proof.
  intros E. pose proof (posn_lt _ _ _ E). pose proof pow63. unfold plus. rewrite posn_snoc.
  destruct (N.ltb_spec (posn p + 1) (2 ^ 64)); [reflexivity|lia].
Qed.
Lemma advance_pos p c s ln : program = p ++ String c s ->
  advance b (mkM (posn p) ln) = Val (mkM (posn (p ++ String c "")) ln).
Proof. intros E. unfold advance. cbn [cursor mline]. rewrite (plus_pos p c s E). reflexivity. Qed.
Lemma slice_pos p l r : program = p ++ l ++ r -> slice program (posn p) (posn (p ++ l)) = Val l.
Proof.
  intros E. unfold slice. rewrite posn_app.
  assert (posn p + posn l <= len program)%N as Hle. { rewrite <- posn_app. apply (posn_le _ r). rewrite app_assoc_s. exact E. }
  destruct (N.leb_spec (posn p) (posn p + posn l)); [|lia]. destruct (N.leb_spec (posn p + posn l) (len program)); [|lia].
  cbn [andb]. f_equal. replace (posn p + posn l - posn p)%N with (posn l) by lia. unfold posn. rewrite !Nat2N.id, E.
  apply substring_app.
Qed.

(** ** Loops *)
Lemma skip_ws_pos s : forall p ln fuel, program = p ++ s -> (String.length s < fuel)%nat ->
  (ln + count_nl s < 2 ^ 32)%N ->
  exists p', program = p' ++ fst (skip_whitespaces s ln) /\ (posn p <= posn p')%N
    /\ skip_ws b program fuel (mkM (posn p) ln) = Val (mkM (posn p') (snd (skip_whitespaces s ln)))
    /\ (snd (skip_whitespaces s ln) + count_nl (fst (skip_whitespaces s ln)) = ln + count_nl s)%N
    /\ (String.length (fst (skip_whitespaces s ln)) <= String.length s)%nat.
Proof.
  induction s as [|c s IH]; intros p ln [|fuel] E Hf Hl; cbn [String.length] in Hf; try lia; cbn [skip_ws skip_whitespaces cursor mline].
  - exists p. cbn [fst snd]. rewrite app_nil_r_s in E. rewrite (posn_end p E), N.eqb_refl. rewrite app_nil_r_s. repeat split; auto. lia.
  - pose proof (posn_lt _ _ _ E). destruct (N.eqb_spec (posn p) (len program)); [lia|].
    rewrite (byte_cons _ _ _ E). cbn [bindR]. destruct (negb (is_whitespace c)) eqn:Ew.
    + exists p. cbn [fst snd]. repeat split; auto; lia.
    + rewrite app_cons_s in E. cbn [count_nl] in Hl. 
      set (ln' := if Ascii.eqb c newline then (ln + 1)%N else ln).
      assert (ln' + count_nl s = ln + count_nl (String c s))%N as Hl'.
      { subst ln'. cbn [count_nl]. unfold newline. destruct (Ascii.eqb c "010"); lia. }
      assert ((if Ascii.eqb c newline then l <~ plus b 32 ln 1;; Val (mkM (posn p) l) else Val (mkM (posn p) ln)) = Val (mkM (posn p) ln')) as ->.
      { subst ln'. unfold newline in *. destruct (Ascii.eqb c "010"); auto. unfold plus. destruct (N.ltb_spec (ln + 1) (2 ^ 32)); [reflexivity|lia]. }
      cbn [bindR]. rewrite (advance_pos p c s); [|rewrite <- app_cons_s in E; exact E]. cbn [bindR].
      destruct (IH (p ++ String c "") ln' fuel E) as (p' & Ep & Hp & Es & Hc & Hs); [lia|cbn [count_nl] in Hl'; lia|].
      exists p'. fold ln'. rewrite posn_snoc in Hp. rewrite Hc, Hl'. cbn [String.length]. repeat split; auto; lia.
Qed.

Lemma scan_word_pos s : forall c p fuel bad l r b', program = p ++ String c s -> (String.length s < fuel)%nat ->
  scan_lexeme (String c s) = (l, r, b') ->
  scan_word b program fuel (posn p) c bad = Val (posn (p ++ l), bad || b').
Proof.
  induction s as [|d s IH]; intros c p [|fuel] bad l r b' E Hf Es; cbn [String.length] in Hf; try lia;
    rewrite scan_lexeme_cons in Es; cbn [scan_word]; destruct (lexeme_char c) as [valid bd] eqn:Ec;
    destruct valid; cbn [negb] in *.
  - injection Es as <- <- <-. pose proof (posn_lt _ _ _ E) as Hp.
    assert (len program = posn p + 1)%N as El by (rewrite E, len_app; cbn; unfold posn; lia).
    unfold minus. destruct (N.leb_spec 1 (len program)); [|lia]. cbn [bindR].
    destruct (N.ltb_spec (posn p) (len program - 1)); [lia|]. rewrite app_nil_r_s. reflexivity.
  - injection Es as <- <- <-. rewrite app_nil_r_s.
    assert (bd = false) as ->. { unfold lexeme_char in Ec. destruct (_ || _); [congruence|]. destruct (_ || _); [congruence|]. destruct (is_whitespace c); congruence. }
    reflexivity.
  - destruct (scan_lexeme (String d s)) as [[l' r'] b''] eqn:Es'. injection Es as <- <- <-.
    assert (len program = posn p + 2 + N.of_nat (String.length s))%N as El by (rewrite E, len_app; cbn [String.length]; unfold posn; lia).
    unfold minus. destruct (N.leb_spec 1 (len program)); [|lia]. cbn [bindR].
    destruct (N.ltb_spec (posn p) (len program - 1)); [|lia].
    rewrite (plus_pos p c (String d s) E). cbn [bindR]. rewrite app_cons_s in E. rewrite (byte_cons _ _ _ E). cbn [bindR].
    rewrite (IH d (p ++ String c "") fuel (bad || bd) l' r' b'' E) by (auto; lia).
    rewrite app_assoc_s. cbn [String.append]. rewrite orb_assoc. reflexivity.
  - injection Es as <- <- <-. rewrite app_nil_r_s.
    assert (bd = false) as ->. { unfold lexeme_char in Ec. destruct (_ || _); [congruence|]. destruct (_ || _); [congruence|]. destruct (is_whitespace c); congruence. }
    reflexivity.
Qed.
Lemma scan_digits_pos s : forall p fuel seen l r sd, program = p ++ s -> (String.length s < fuel)%nat ->
  scan_number seen s = (l, r, sd) -> scan_digits b program fuel (posn p) seen = Val (posn (p ++ l), sd).
Proof.
  induction s as [|c s IH]; intros p [|fuel] seen l r sd E Hf Es; cbn [String.length] in Hf; try lia; cbn [scan_digits scan_number] in *.
  - injection Es as <- <- <-. rewrite app_nil_r_s in *. rewrite (posn_end p E), N.ltb_irrefl. reflexivity.
  - pose proof (posn_lt _ _ _ E). destruct (N.ltb_spec (posn p) (len program)); [|lia]. rewrite (byte_cons _ _ _ E). cbn [bindR].
    destruct (is_digit c) eqn:Ed; [|destruct (Ascii.eqb c "." && negb seen) eqn:Edot].
    + destruct (scan_number seen s) as [[l' r'] sd'] eqn:Es'. injection Es as <- <- <-.
      rewrite (plus_pos p c s E). cbn [bindR]. rewrite app_cons_s in E. rewrite (IH _ fuel seen l' r' sd' E) by (auto; lia).
      rewrite app_assoc_s. reflexivity.
    + destruct (scan_number true s) as [[l' r'] sd'] eqn:Es'. injection Es as <- <- <-.
      rewrite (plus_pos p c s E). cbn [bindR]. rewrite app_cons_s in E. rewrite (IH _ fuel true l' r' sd' E) by (auto; lia).
      rewrite app_assoc_s. reflexivity.
    + injection Es as <- <- <-. rewrite app_nil_r_s. reflexivity.
Qed.
(** The comment loop, on the byte [c] at the cursor. *)
Lemma comment_pos s : forall c p fuel ln, program = p ++ String c s -> (String.length s < fuel)%nat ->
  match skip_comment (String c s) with
  | Some r => exists p', program = p' ++ r /\ (posn p <= posn p')%N /\ comment b program fuel (mkM (posn p) ln) c = Val (mkM (posn p') ln)
  | None => comment b program fuel (mkM (posn p) ln) c = Crash PanicIndex
  end.
Proof.
  induction s as [|d s IH]; intros c p [|fuel] ln E Hf; cbn [String.length] in Hf; try lia;
    cbn [skip_comment comment]; destruct (Ascii.eqb c newline) eqn:Ec.
  - exists p. repeat split; auto. lia.
  - rewrite (advance_pos p c "" ln E). cbn [bindR cursor]. rewrite byte_nil by exact E. reflexivity.
  - exists p. repeat split; auto. lia.
  - rewrite (advance_pos p c _ ln E). cbn [bindR cursor]. rewrite app_cons_s in E. rewrite (byte_cons _ _ _ E). cbn [bindR].
    specialize (IH d (p ++ String c "") fuel ln E ltac:(lia)). change (if Ascii.eqb d newline then Some (String d s) else skip_comment s) with (skip_comment (String d s)).
    destruct (skip_comment (String d s)) as [r|]; auto. destruct IH as (p' & Ep & Hp & Ecm). exists p'. rewrite posn_snoc in Hp. repeat split; auto. lia.
Qed.

(** ** Words and numbers *)
Lemma fuel_enough p s : program = p ++ s -> (String.length s < loops program)%nat.
Proof. intros ->. unfold loops. rewrite app_length_s. lia. Qed.
Lemma peek_lexeme_pos p s m : program = p ++ s ->
  m_peek_lexeme b program (posn p) m =
  match peek_lexeme s (mline m) with
  | XOk l r => Val (inr (l, posn (p ++ l)))
  | XErr e => Val (inl e)
  | XPanic q => Crash q
  end.
Proof.
  intros E. unfold m_peek_lexeme, peek_lexeme. destruct s as [|c s].
  - rewrite app_nil_r_s in E. rewrite byte_nil by exact E. reflexivity.
  - rewrite (byte_cons _ _ _ E). cbn [bindR]. destruct (scan_lexeme (String c s)) as [[l r] bad] eqn:Es.
    assert (String.length s < loops program)%nat as Hf by (pose proof (fuel_enough _ _ E) as Hf; cbn [String.length] in Hf; lia).
    rewrite (scan_word_pos s c p _ false l r bad E Hf Es). cbn [bindR orb].
    rewrite (scan_lexeme_split _ _ _ _ Es) in E. rewrite (slice_pos p l r E). cbn [bindR].
    unfold utf8. destruct bad; destruct (utf8_ok l); reflexivity.
Qed.
Lemma digits_utf8 s : forall sn l r sd, scan_number sn s = (l, r, sd) -> utf8_ok l = true.
Proof.
  intros sn l r sd Es. assert (str_all is_ascii l) as Ha.
  { revert sn l r sd Es. induction s as [|c s IH]; intros sn l r sd Es; cbn [scan_number] in Es.
    - injection Es as <- <- <-. exact I.
    - destruct (is_digit c) eqn:Ed; [|destruct (Ascii.eqb_spec c "."%char) as [->|]; [destruct (negb sn)|]]; cbn [andb] in Es;
        try (injection Es as <- <- <-; exact I).
      + destruct (scan_number sn s) as [[l' r'] sd'] eqn:Es'. injection Es as <- <- <-. cbn. split; [|eapply IH; eauto].
        unfold is_ascii. revert Ed. clear. destruct c as [[] [] [] [] [] [] [] []]; vm_compute; congruence.
      + destruct (scan_number true s) as [[l' r'] sd'] eqn:Es'. injection Es as <- <- <-. cbn. split; [|eapply IH; eauto].
        vm_compute. congruence. }
  apply utf8_ok_true, ascii_utf8. exact Ha.
Qed.
Lemma peek_number_pos p s m : program = p ++ s ->
  m_peek_number b program (posn p) m =
  match peek_number s (mline m) with
  | NOk v r => Val (inr (v, posn (p ++ fst (fst (scan_number false s)))))
  | NErr e => Val (inl e)
  end.
Proof.
  intros E. unfold m_peek_number, peek_number. destruct (scan_number false s) as [[l r] sd] eqn:Es.
  rewrite (scan_digits_pos s p _ false l r sd E (fuel_enough _ _ E) Es). cbn [bindR].
  destruct (scan_number_sound s l r sd Es) as (Esp & _). rewrite Esp in E. rewrite (slice_pos p l r E). cbn [bindR].
  unfold utf8. rewrite (digits_utf8 s false l r sd Es). cbn [bindR fst].
  destruct sd; [destruct (f64_parses l)|destruct (decimal_value l <=? i64_max)%Z]; reflexivity.
Qed.

(** ** One call *)
(** The cursor is not at the first byte (or there is none): [cursor - 1] is a number. *)
Definition safe (peek : bool) (p : string) (s : string) : Prop := b = Release \/ peek = false \/ p <> "" \/ s = "".
(** A call from [p] with result [out] of Lexer.v: the machine gives the same. *)
Definition agrees (peek : bool) (p : string) (st : lstate) (out : lex_out * lstate) (r : res (lex_out * mstate)) : Prop :=
  match fst out with
  | LTok _ | LErr _ =>
    exists p', program = p' ++ rest (snd out) /\ r = Val (fst out, mkM (posn p') (line (snd out)))
      /\ (posn p <= posn p')%N /\ (line (snd out) + count_nl (rest (snd out)) <= line st + count_nl (rest st))%N
      /\ (peek = false -> p' <> "" \/ rest (snd out) = "" \/ fst out = LTok (TIdent ""))
  | LPanic q => r = Crash q
  | LFuel => False
  end.
Lemma posn_ne p : (0 < posn p)%N <-> p <> "".
Proof. unfold posn. destruct p; cbn; split; intros; try lia; try congruence. Qed.
Lemma count_le a c : (count_nl c <= count_nl (a ++ c))%N.
Proof. rewrite count_nl_app. lia. Qed.

Lemma peek_lexeme_split s ln l r : peek_lexeme s ln = XOk l r -> s = l ++ r.
Proof.
  unfold peek_lexeme. destruct s as [|c s]; [discriminate|]. destruct (scan_lexeme (String c s)) as [[l' r'] bad] eqn:Es.
  destruct (negb (utf8_ok l')); [discriminate|]. destruct bad; [discriminate|]. intros E. injection E as <- <-. eapply scan_lexeme_split; eauto.
Qed.
Lemma peek_number_split s ln v r : peek_number s ln = NOk v r -> s = fst (fst (scan_number false s)) ++ r.
Proof.
  unfold peek_number. destruct (scan_number false s) as [[l r'] sd] eqn:Es. cbn [fst].
  destruct (scan_number_sound s l r' sd Es) as (Esp & _).
  destruct sd; [destruct (f64_parses l)|destruct (decimal_value l <=? i64_max)%Z]; intros E; try discriminate; injection E as <- <-; exact Esp.
Qed.
Lemma suffix_of a : forall x p r, a ++ x = p ++ r -> (String.length a <= String.length p)%nat -> exists y, x = y ++ r.
Proof.
  induction a as [|c a IH]; intros x p r E Hle; cbn in *; [eauto|].
  destruct p as [|d p]; cbn in *; [lia|]. injection E as _ E. apply (IH x p r E). lia.
Qed.
Lemma init_pos peek p c s : program = p ++ String c s -> safe peek p (String c s) ->
  (before <~ minus b 64 (if peek then posn p else posn (p ++ String c "")) 1 ;;
   (if peek then plus b 64 before 1 else Val before)) = Val (posn p).
Proof.
  intros E Hs. pose proof (posn_lt _ _ _ E). pose proof pow63. unfold minus. destruct peek.
  - destruct (N.leb_spec 1 (posn p)).
    + cbn [bindR]. unfold plus. destruct (N.ltb_spec (posn p - 1 + 1) (2 ^ 64)); [f_equal; lia|lia].
    + destruct Hs as [Hb|[Hb|[Hb|Hb]]]; try discriminate; [|apply posn_ne in Hb; lia].
      rewrite Hb. cbn [bindR]. assert (posn p = 0)%N as -> by lia. reflexivity.
  - rewrite posn_snoc. destruct (N.leb_spec 1 (posn p + 1)); [|lia]. cbn [bindR]. f_equal. lia.
Qed.

Lemma m_parse_pos n : forall k peek st p, program = p ++ rest st -> (String.length (rest st) < n)%nat ->
  (String.length (rest st) < k)%nat -> (line st + count_nl (rest st) < 2 ^ 32)%N -> safe peek p (rest st) ->
  agrees peek p st (lex_fuel n peek st) (m_parse b program k peek (mkM (posn p) (line st))).
Proof.
  induction n as [|n IH]; intros [|k] peek st p E Hn Hk Hl Hs; try lia.
  cbn [lex_fuel m_parse].
  destruct (skip_ws_pos (rest st) p (line st) (loops program) E (fuel_enough _ _ E) Hl) as (p1 & E1 & Hp1 & Ew & Hc & Hle).
  rewrite Ew. cbn [bindR cursor mline]. destruct (skip_whitespaces (rest st) (line st)) as [s ln]. cbn [fst snd] in *.
  destruct s as [|c s].
  { rewrite app_nil_r_s in E1. rewrite (posn_end p1 E1), N.eqb_refl. unfold agrees. cbn [fst snd rest line].
    exists p1. rewrite app_nil_r_s. rewrite (posn_end p1 E1). rewrite (posn_end p1 E1) in Hp1. repeat split; auto; cbn in *; lia. }
  pose proof (posn_lt _ _ _ E1) as Hlt. destruct (N.eqb_spec (posn p1) (len program)); [lia|].
  assert (safe peek p1 (String c s)) as Hs1.
  { destruct Hs as [Hb|[Hb|[Hb|Hb]]]; unfold safe; auto; right; right; left.
    - apply posn_ne. apply posn_ne in Hb. lia.
    - rewrite Hb in Hle. cbn in Hle. lia. }
  unfold peek_next_char. cbn [cursor]. destruct (N.leb_spec (len program) (posn p1)); [lia|].
  rewrite (byte_cons _ _ _ E1). cbn [bindR].
  set (p2 := p1 ++ String c "").
  assert (program = p2 ++ s) as E2 by (unfold p2; rewrite <- app_cons_s; exact E1).
  assert (posn p2 = posn p1 + 1)%N as Hp2 by apply posn_snoc.
  assert ((if peek then Val (mkM (posn p1) ln) else advance b (mkM (posn p1) ln)) = Val (mkM (if peek then posn p1 else posn p2) ln)) as ->.
  { destruct peek; auto. apply (advance_pos p1 c s ln E1). }
  cbn [bindR].
  (* results *)
  assert (forall o, (forall q, o <> LPanic q) -> o <> LFuel ->
    agrees peek p st (o, mkL (if peek then String c s else s) ln) (Val (o, mkM (if peek then posn p1 else posn p2) ln))) as Hhere.
  { intros o Ho1 Ho2. unfold agrees. cbn [fst snd rest line].
    assert (exists p', program = p' ++ (if peek then String c s else s)
      /\ Val (o, mkM (if peek then posn p1 else posn p2) ln) = Val (o, mkM (posn p') ln) /\ (posn p <= posn p')%N
      /\ (ln + count_nl (if peek then String c s else s) <= line st + count_nl (rest st))%N
      /\ (peek = false -> p' <> "" \/ (if peek then String c s else s) = "" \/ o = LTok (TIdent ""))) as Hx.
    { destruct peek; [exists p1|exists p2]; repeat split; auto; try congruence; try (rewrite <- Hc); cbn [count_nl]; try lia.
      intros _. left. apply posn_ne. lia. }
    destruct o; auto; congruence. }
  assert (forall o r pos, (forall q, o <> LPanic q) -> o <> LFuel ->
    (exists p', program = p' ++ r /\ pos = posn p' /\ (posn p1 <= posn p')%N /\ (p' <> "" \/ r = "" \/ o = LTok (TIdent ""))) ->
    agrees peek p st (o, mkL (if peek then String c s else r) ln) (Val (o, commit peek pos (mkM (if peek then posn p1 else posn p2) ln)))) as Hupd.
  { intros o r pos Ho1 Ho2 (p' & Ep' & -> & Hp' & Hne). unfold agrees, commit. cbn [fst snd rest line mline].
    assert (exists p'', program = p'' ++ (if peek then String c s else r)
      /\ Val (o, (if peek then mkM (if peek then posn p1 else posn p2) ln else mkM (posn p') ln)) = Val (o, mkM (posn p'') ln) /\ (posn p <= posn p'')%N
      /\ (ln + count_nl (if peek then String c s else r) <= line st + count_nl (rest st))%N
      /\ (peek = false -> p'' <> "" \/ (if peek then String c s else r) = "" \/ o = LTok (TIdent ""))) as Hx.
    { destruct peek; [exists p1|exists p']; repeat split; auto; try congruence; try (rewrite <- Hc); try lia.
      destruct (suffix_of p1 (String c s) p' r) as (x & Ex); [congruence|unfold posn in *; lia|]. rewrite Ex. pose proof (count_le x r). lia. }
    destruct o; auto; congruence. }
  destruct (Ascii.eqb c "-"); [apply Hhere; discriminate|].
  destruct (Ascii.eqb c "("); [apply Hhere; discriminate|].
  destruct (Ascii.eqb c ")"); [apply Hhere; discriminate|].
  destruct (Ascii.eqb c "<" || Ascii.eqb c ">" || Ascii.eqb c "=") eqn:Eo.
  { unfold m_ordering_type, ordering_type. unfold peek_next_char. cbn [cursor].
    destruct peek.
    - pose proof (posn_lt _ _ _ E1). destruct (N.leb_spec (len program) (posn p1)); [lia|]. rewrite (byte_cons _ _ _ E1). cbn [bindR].
      destruct (Ascii.eqb_spec c "<"%char) as [->|Q1]; [apply (Hhere (LTok (TOp OLess))); discriminate|].
      destruct (Ascii.eqb_spec c ">"%char) as [->|Q2]; [apply (Hhere (LTok (TOp OGreater))); discriminate|].
      destruct (Ascii.eqb_spec c "="%char) as [->|Q3]; [apply (Hhere (LTok (TOp OEqual))); discriminate|discriminate].
    - assert (forall o1 o2,
        agrees false p st (let '(o, r) := if match s with String d _ => Ascii.eqb d "=" | "" => false end then (o1, match s with String _ r => r | "" => "" end) else (o2, s) in (LTok (TOp o), mkL r ln))
        (r <~ (n <~ (if (len program <=? posn p2)%N then Val None else c0 <~ byte program (posn p2) ;; Val (Some c0)) ;;
           match n with Some "="%char => st' <~ advance b (mkM (posn p2) ln) ;; Val (o1, st') | _ => Val (o2, mkM (posn p2) ln) end) ;;
         let '(o, st') := r in Val (LTok (TOp o), st'))) as Hcmp.
      { intros o1 o2. destruct s as [|d s].
        - rewrite app_nil_r_s in E2. rewrite (posn_end p2 E2), N.leb_refl. cbn [bindR]. rewrite <- (posn_end p2 E2). apply Hhere; discriminate.
        - pose proof (posn_lt _ _ _ E2). destruct (N.leb_spec (len program) (posn p2)); [lia|]. rewrite (byte_cons _ _ _ E2). cbn [bindR].
          destruct (Ascii.eqb_spec d "="%char) as [->|Hd].
          + rewrite (advance_pos p2 _ _ ln E2). cbn [bindR].
            apply (Hupd (LTok (TOp o1)) s (posn (p2 ++ "="))); try discriminate. exists (p2 ++ "="). rewrite posn_snoc.
            repeat split; try lia; [rewrite <- app_cons_s; exact E2|left; apply posn_ne; rewrite posn_snoc; lia].
          + assert (match d with "="%char => st' <~ advance b (mkM (posn p2) ln) ;; Val (o1, st') | _ => Val (o2, mkM (posn p2) ln) end = Val (o2, mkM (posn p2) ln)) as ->.
            { destruct d as [[] [] [] [] [] [] [] []]; try reflexivity. congruence. }
            cbn [bindR]. apply (Hhere (LTok (TOp o2))); discriminate. }
      destruct (Ascii.eqb c "<"); [apply Hcmp|]. destruct (Ascii.eqb c ">"); [apply Hcmp|].
      destruct (Ascii.eqb c "="); [apply (Hhere (LTok (TOp OEqual))); discriminate|discriminate]. }
  destruct (Ascii.eqb c "?").
  { unfold after_sign. cbn [cursor].
    assert ((if peek then plus b 64 (if peek then posn p1 else posn p2) 1 else Val (if peek then posn p1 else posn p2)) = Val (posn p2)) as ->
      by (destruct peek; auto; apply (plus_pos _ _ _ E1)).
    cbn [bindR]. rewrite (peek_lexeme_pos p2 s _ E2). cbn [mline].
    destruct (peek_lexeme s ln) as [l r|e|q] eqn:El; cbn [bindR]; [|apply Hhere; discriminate|reflexivity].
    apply Hupd; try discriminate. exists (p2 ++ l). rewrite posn_app. repeat split; try lia.
    - rewrite app_assoc_s. rewrite <- (peek_lexeme_split _ _ _ _ El). exact E2.
    - left. apply posn_ne. rewrite posn_app. lia. }
  destruct (Ascii.eqb c ":").
  { unfold after_sign. cbn [cursor].
    assert ((if peek then plus b 64 (if peek then posn p1 else posn p2) 1 else Val (if peek then posn p1 else posn p2)) = Val (posn p2)) as ->
      by (destruct peek; auto; apply (plus_pos _ _ _ E1)).
    cbn [bindR]. rewrite (peek_lexeme_pos p2 s _ E2). cbn [mline].
    destruct (peek_lexeme s ln) as [l r|e|q] eqn:El; cbn [bindR]; [|apply Hhere; discriminate|reflexivity].
    assert (exists p', program = p' ++ r /\ posn (p2 ++ l) = posn p' /\ (posn p1 <= posn p')%N /\ p' <> "") as Hx.
    { exists (p2 ++ l). rewrite posn_app. repeat split; try lia.
      - rewrite app_assoc_s. rewrite <- (peek_lexeme_split _ _ _ _ El). exact E2.
      - apply posn_ne. rewrite posn_app. lia. }
    destruct Hx as (p' & Ep' & Epos & Hle' & Hne).
    assert (forall pos m, mline (commit peek pos m) = mline m) as Hml by (intros; unfold commit; destruct peek; reflexivity).
    cbv zeta. rewrite Hml. cbn [mline].
    destruct (str_assoc l colon_words) as [t|]; apply Hupd; try discriminate; exists p'; auto 6. }
  destruct (Ascii.eqb_spec c ";") as [->|Hcc].
  { cbn [cursor].
    assert (skip_comment (if peek then String ";" s else s) = skip_comment s) as Esk by (destruct peek; reflexivity).
    rewrite Esk.
    assert (s = "" \/ exists q cur x, program = q ++ String cur x /\ (if peek then posn p1 else posn p2) = posn q
      /\ skip_comment s = skip_comment (String cur x) /\ (posn p1 <= posn q)%N) as [->|(q & cur & x & Eq & Epos & Ex & Hq)].
    { destruct s as [|d s]; auto. right. destruct peek.
      - exists p1, ";"%char, (String d s). repeat split; auto. lia.
      - exists p2, d, s. repeat split; auto. lia. }
    - cbn [skip_comment]. unfold agrees. cbn [fst]. destruct peek.
      + rewrite (byte_cons _ _ _ E1). cbn [bindR].
        pose proof (comment_pos "" ";"%char p1 (loops program) ln E1 ltac:(cbn; unfold loops; lia)) as Hcm. cbn [skip_comment] in Hcm.
        change (Ascii.eqb ";" newline) with false in Hcm. cbn iota in Hcm. rewrite Hcm. reflexivity.
      + rewrite app_nil_r_s in E2. rewrite byte_nil by exact E2. reflexivity.
    - rewrite Epos. rewrite (byte_cons _ _ _ Eq). cbn [bindR]. rewrite Ex.
      pose proof (fuel_enough _ _ Eq) as Hfx. cbn [String.length] in Hfx.
      pose proof (comment_pos x cur q (loops program) ln Eq ltac:(lia)) as Hcm.
      destruct (skip_comment (String cur x)) as [r|] eqn:Er.
      + destruct Hcm as (p' & Ep' & Hp' & Ecm). rewrite Ecm. cbn [bindR].
        apply skip_comment_some in Ex as (text & r' & Er' & Es & _).
        assert (String.length r <= String.length s)%nat as Hr by (rewrite Es, app_length_s; lia).
        cbn [String.length] in Hle.
        assert (agrees peek p' (mkL r ln) (lex_fuel n peek (mkL r ln)) (m_parse b program k peek (mkM (posn p') (line (mkL r ln))))) as Hrec.
        { apply IH; cbn [rest line]; auto; try lia.
          - pose proof (count_le text r) as Hcr. rewrite <- Es in Hcr. cbn [count_nl] in Hc.  lia.
          - destruct Hs1 as [Hb|[Hb|[Hb|Hb]]]; unfold safe; auto; [|discriminate]. right. right. left. apply posn_ne. apply posn_ne in Hb. lia. }
        cbn [line] in Hrec. revert Hrec. unfold agrees. destruct (fst (lex_fuel n peek (mkL r ln))); auto;
          intros (p'' & H1 & H2 & H3 & H4 & H5); exists p''; cbn [rest line] in H4; repeat split; auto; try lia;
          pose proof (count_le text r) as Hcr; rewrite <- Es in Hcr; cbn [count_nl] in Hc; lia.
      + rewrite Hcm. reflexivity. }
  pose proof (init_pos peek p1 c s E1 Hs1) as Hinit. fold p2 in Hinit. cbn [cursor].
  destruct (minus b 64 (if peek then posn p1 else posn p2) 1) as [before|?| |]; try discriminate. cbn [bindR] in Hinit |- *.
  rewrite Hinit. cbn [bindR].
  destruct (is_digit c) eqn:Ed.
  { rewrite (peek_number_pos p1 _ _ E1). cbn [mline].
    destruct (peek_number (String c s) ln) as [v r|e] eqn:En; cbn [bindR]; [|apply Hhere; discriminate].
    apply Hupd; try discriminate. exists (p1 ++ fst (fst (scan_number false (String c s)))). rewrite posn_app. repeat split; try lia.
    - rewrite app_assoc_s. rewrite <- (peek_number_split _ _ _ _ En). exact E1.
    - left. cbn [scan_number]. rewrite Ed. destruct (scan_number false s) as [[l' r'] sd']. cbn [fst].
      apply posn_ne. rewrite posn_app. unfold posn. cbn [String.length]. lia. }
  rewrite (peek_lexeme_pos p1 _ _ E1). cbn [mline].
  destruct (peek_lexeme (String c s) ln) as [l r|e|q] eqn:El; cbn [bindR]; [|apply Hhere; discriminate|reflexivity].
  assert (forall pos m, mline (commit peek pos m) = mline m) as Hml by (intros; unfold commit; destruct peek; reflexivity).
  cbv zeta. rewrite Hml. cbn [mline].
  assert (forall o, (forall q, o <> LPanic q) -> o <> LFuel -> (l = "" -> o = LTok (TIdent "")) ->
    agrees peek p st (o, mkL (if peek then String c s else r) ln)
      (Val (o, commit peek (posn (p1 ++ l)) (mkM (if peek then posn p1 else posn p2) ln)))) as Hword.
  { intros o Ho1 Ho2 Ho3. apply Hupd; auto. exists (p1 ++ l). rewrite posn_app. repeat split; try lia.
    - rewrite app_assoc_s. rewrite <- (peek_lexeme_split _ _ _ _ El). exact E1.
    - destruct l as [|d l]; auto. left. apply posn_ne. rewrite posn_app. unfold posn. cbn [String.length]. lia. }
  destruct (str_assoc l bare_words) as [t|] eqn:Eb.
  { apply Hword; intros; subst; discriminate. }
  destruct (str_assoc l operators) as [o|] eqn:Eop.
  { apply Hword; try discriminate. intros ->. discriminate. }
  destruct (ident_chars l) eqn:Ei.
  { apply Hword; try discriminate. intros ->. reflexivity. }
  apply Hword; try discriminate. intros ->. discriminate.
Qed.
End P.
