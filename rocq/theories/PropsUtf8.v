(** C75: documents in other alphabets.  Specification: SpecUtf8.v. *)
From Coq Require Import String Ascii NArith ZArith Bool List Lia PeanoNat.
From Verif Require Import Base Token Lexer Errors Ast Parser AstRel ParserRel ParserProofs StrFacts SpecLex LexProofs LexProofs2 LexProofs3
  SpecGrammar GrammarSound GrammarComplete GrammarTop ParserPanic SpecLexErr SpecUtf8 PropsLex PropsParse PropsLexErr.
Import ListNotations.
Open Scope string_scope.
Open Scope N_scope.

Lemma byte_code n : n < 256 -> code (ascii_of_N n) = n.
Proof. apply N_ascii_embedding. Qed.
Lemma byte_back c : byte (code c) = String c "".
Proof. unfold byte, code. rewrite ascii_N_embedding. auto. Qed.
Lemma code_bound c : code c < 256.
Proof. apply N_ascii_bounded. Qed.
Ltac dm := zify; Z.to_euclidean_division_equations; lia.

Ltac al :=
  repeat match goal with Hx : context [?a mod ?b] |- _ => let q := fresh "q" in set (q := a mod b) in *; clearbody q end;
  repeat match goal with Hx : context [?a / ?b] |- _ => let q := fresh "q" in set (q := a / b) in *; clearbody q end; lia.

(** ** The decoder is the inverse of the encoding *)
Lemma range_iff lo hi c : in_range lo hi c = true <-> lo <= code c <= hi.
Proof. unfold in_range. rewrite andb_true_iff, !N.leb_le. tauto. Qed.
Lemma range_not lo hi c : in_range lo hi c = false <-> ~ (lo <= code c <= hi).
Proof. rewrite <- range_iff. destruct (in_range lo hi c); split; congruence. Qed.

Lemma decode_encode cp s : scalar cp -> utf8_decode (encode cp ++ s) = option_map (cons cp) (utf8_decode s).
Proof.
  intros Hs. unfold encode. destruct (N.ltb_spec cp 128) as [H1|H1]; [|destruct (N.ltb_spec cp 2048) as [H2|H2]; [|destruct (N.ltb_spec cp 65536) as [H3|H3]]].
  - cbn [byte append utf8_decode]. rewrite byte_code by lia. destruct (N.leb_spec cp 127); [auto|lia].
  - assert (cp / 64 < 32 /\ 2 <= cp / 64 /\ cp mod 64 < 64 /\ (cp / 64) * 64 + cp mod 64 = cp) as (A1 & A2 & A3 & A4) by dm.
    cbn [byte append utf8_decode]. unfold cont, in_range. rewrite !byte_code by al.
    destruct (N.leb_spec (192 + cp / 64) 127); [al|].
    assert ((194 <=? 192 + cp / 64) && (192 + cp / 64 <=? 223) && ((128 <=? 128 + cp mod 64) && (128 + cp mod 64 <=? 191)) = true) as ->.
    { rewrite !andb_true_iff, !N.leb_le. al. }
    replace ((192 + cp / 64 - 192) * 64 + (128 + cp mod 64 - 128)) with cp by al. auto.
  - assert (cp / 4096 < 16 /\ cp / 64 mod 64 < 64 /\ cp mod 64 < 64 /\ (cp / 4096) * 4096 + (cp / 64 mod 64) * 64 + cp mod 64 = cp) as (A1 & A2 & A3 & A4) by dm.
    cbn [byte append utf8_decode]. unfold cont, in_range. rewrite !byte_code by al.
    destruct (N.leb_spec (224 + cp / 4096) 127); [al|].
    assert ((194 <=? 224 + cp / 4096) && (224 + cp / 4096 <=? 223) && ((128 <=? 128 + cp / 64 mod 64) && (128 + cp / 64 mod 64 <=? 191)) = false) as ->.
    { apply not_true_iff_false. rewrite !andb_true_iff, !N.leb_le. al. }
    match goal with |- (if ?b then _ else _) = _ => assert (b = true) as -> end.
    { rewrite !andb_true_iff, !orb_true_iff, !andb_true_iff, !N.leb_le, !N.eqb_eq. unfold scalar in Hs.
      split; [|al]. destruct (N.eq_dec (cp / 4096) 0) as [E|E]; [left; left; left; al|].
      destruct (N.eq_dec (cp / 4096) 13) as [E1|E1]; [left; right; split; [al|]; split; [al|]; clear -Hs E1 H3 A1; dm|].
      destruct (N.ltb_spec (cp / 4096) 13); [left; left; right; al|right; al]. }
    match goal with |- option_map (cons ?x) _ = _ => replace x with cp by al end. auto.
  - assert (cp / 262144 < 5 /\ cp / 4096 mod 64 < 64 /\ cp / 64 mod 64 < 64 /\ cp mod 64 < 64
      /\ (cp / 262144) * 262144 + (cp / 4096 mod 64) * 4096 + (cp / 64 mod 64) * 64 + cp mod 64 = cp) as (A1 & A2 & A3 & A4 & A5).
    { unfold scalar in Hs. assert (cp < 1114112) by lia. clear Hs. dm. }
    cbn [byte append utf8_decode]. unfold cont, in_range. rewrite !byte_code by al.
    destruct (N.leb_spec (240 + cp / 262144) 127); [al|].
    assert ((194 <=? 240 + cp / 262144) && (240 + cp / 262144 <=? 223) && ((128 <=? 128 + cp / 4096 mod 64) && (128 + cp / 4096 mod 64 <=? 191)) = false) as ->.
    { apply not_true_iff_false. rewrite !andb_true_iff, !N.leb_le. al. }
    match goal with |- (if ?b then _ else _) = _ => assert (b = false) as -> end.
    { apply not_true_iff_false. rewrite !andb_true_iff, !orb_true_iff, !andb_true_iff, !N.leb_le, !N.eqb_eq. al. }
    match goal with |- (if ?b then _ else _) = _ => assert (b = true) as -> end.
    { rewrite !andb_true_iff, !orb_true_iff, !andb_true_iff, !N.leb_le, !N.eqb_eq. unfold scalar in Hs.
      split; [|al]. split; [|al]. destruct (N.eq_dec (cp / 262144) 0) as [E|E]; [left; left; al|].
      destruct (N.eq_dec (cp / 262144) 4) as [E1|E1]; [right; al|left; right; al]. }
    match goal with |- option_map (cons ?x) _ = _ => replace x with cp by al end. auto.
Qed.
Lemma decode_all cps s : Forall scalar cps -> utf8_decode (encode_all cps ++ s) = option_map (app cps) (utf8_decode s).
Proof.
  induction 1 as [|cp cps Hc _ IH]; cbn [encode_all append]; [destruct (utf8_decode s); auto|].
  rewrite app_assoc_s, decode_encode, IH; auto. destruct (utf8_decode s); auto.
Qed.
Lemma encode_decode : forall n s cps, (String.length s <= n)%nat -> utf8_decode s = Some cps -> Forall scalar cps /\ s = encode_all cps.
Proof.
  induction n as [|n IH]; intros s cps Hn E.
  { destruct s; [|simpl in Hn; lia]. injection E as <-. split; [constructor|auto]. }
  destruct s as [|a s1]; [injection E as <-; split; [constructor|auto]|]. cbn [utf8_decode] in E. simpl in Hn.
  assert (forall cp s', (String.length s' <= n)%nat -> scalar cp -> option_map (cons cp) (utf8_decode s') = Some cps ->
    Forall scalar cps /\ encode cp ++ s' = encode_all cps) as Hx.
  { intros cp s' Hl Hc E'. destruct (utf8_decode s') as [l|] eqn:El; [|discriminate]. injection E' as <-. destruct (IH s' l Hl El) as [H1 ->]. split; [constructor; auto|auto]. }
  pose proof (code_bound a) as Ba.
  destruct (N.leb_spec (code a) 127) as [H1|H1].
  { destruct (Hx (code a) s1) as [H2 H3]; auto; [lia|unfold scalar; lia|]. split; auto. rewrite <- H3. unfold encode. destruct (N.ltb_spec (code a) 128); [|lia]. rewrite byte_back. auto. }
  destruct s1 as [|b s2]; [discriminate|]. simpl in Hn. pose proof (code_bound b) as Bb.
  destruct (in_range 194 223 a && cont b) eqn:E2.
  { apply andb_true_iff in E2 as [Ra Rb]. apply range_iff in Ra. apply range_iff in Rb.
    set (cp := (code a - 192) * 64 + (code b - 128)) in *.
    assert (128 <= cp < 2048 /\ 192 + cp / 64 = code a /\ 128 + cp mod 64 = code b) as (C1 & C2 & C3) by (subst cp; dm).
    destruct (Hx cp s2) as [H2 H3]; auto; [lia|unfold scalar; lia|]. split; auto. rewrite <- H3. unfold encode.
    destruct (N.ltb_spec cp 128); [lia|]. destruct (N.ltb_spec cp 2048); [|lia]. rewrite C2, C3, !byte_back. auto. }
  destruct s2 as [|c s3]; [discriminate|]. simpl in Hn. pose proof (code_bound c) as Bc.
  match type of E with (if ?g then _ else _) = _ => destruct g eqn:E3 end.
  { rewrite !andb_true_iff, !orb_true_iff, !andb_true_iff, N.eqb_eq, N.eqb_eq in E3. unfold cont in E3. rewrite !range_iff in E3. destruct E3 as [E3 Rc].
    set (cp := (code a - 224) * 4096 + (code b - 128) * 64 + (code c - 128)) in *.
    assert (2048 <= cp < 65536 /\ scalar cp /\ 224 + cp / 4096 = code a /\ 128 + cp / 64 mod 64 = code b /\ 128 + cp mod 64 = code c) as (C1 & Hs & C2 & C3 & C4).
    { assert (2048 <= cp < 65536 /\ scalar cp) as [D1 D2] by (subst cp; unfold scalar; lia). split; auto. split; auto.
      assert (224 <= code a <= 239 /\ 128 <= code b <= 191) as [D3 D4] by lia. clear E3 D1 D2 Hx E IH. subst cp. dm. }
    destruct (Hx cp s3) as [H2 H3]; auto; [lia|]. split; auto. rewrite <- H3. unfold encode.
    destruct (N.ltb_spec cp 128); [lia|]. destruct (N.ltb_spec cp 2048); [lia|]. destruct (N.ltb_spec cp 65536); [|lia]. rewrite C2, C3, C4, !byte_back. auto. }
  destruct s3 as [|d s4]; [discriminate|]. simpl in Hn. pose proof (code_bound d) as Bd.
  match type of E with (if ?g then _ else _) = _ => destruct g eqn:E4 end; [|discriminate].
  rewrite !andb_true_iff, !orb_true_iff, !andb_true_iff, N.eqb_eq, N.eqb_eq in E4. unfold cont in E4. rewrite !range_iff in E4. destruct E4 as [[E4 Rc] Rd].
  set (cp := (code a - 240) * 262144 + (code b - 128) * 4096 + (code c - 128) * 64 + (code d - 128)) in *.
  assert (65536 <= cp /\ scalar cp /\ 240 + cp / 262144 = code a /\ 128 + cp / 4096 mod 64 = code b /\ 128 + cp / 64 mod 64 = code c /\ 128 + cp mod 64 = code d) as (C1 & Hs & C2 & C3 & C4 & C5).
  { assert (65536 <= cp /\ scalar cp) as [D1 D2] by (subst cp; unfold scalar; lia). split; auto. split; auto.
    assert (240 <= code a <= 244 /\ 128 <= code b <= 191) as [D3 D4] by lia. clear E4 D1 D2 Hx E IH E3. subst cp. dm. }
  destruct (Hx cp s4) as [H2 H3]; auto; [lia|]. split; auto. rewrite <- H3. unfold encode.
  destruct (N.ltb_spec cp 128); [lia|]. destruct (N.ltb_spec cp 2048); [lia|]. destruct (N.ltb_spec cp 65536); [lia|]. rewrite C2, C3, C4, C5, !byte_back. auto.
Qed.

(** C75: the tokenizer's notion of UTF-8 is the standard one. *)
Theorem C75_decoder : forall s cps, utf8_decode s = Some cps <-> Forall scalar cps /\ s = encode_all cps.
Proof.
  intros s cps. split; [apply (encode_decode (String.length s)); auto|]. intros [Hs ->].
  rewrite <- (app_nil_r_s (encode_all cps)), decode_all by auto. simpl. rewrite app_nil_r. auto.
Qed.
Lemma text_iff s : text s <-> utf8_decode s <> None.
Proof.
  split.
  - intros (cps & E). apply C75_decoder in E. congruence.
  - destruct (utf8_decode s) as [cps|] eqn:E; [|congruence]. intros _. exists cps. apply C75_decoder. auto.
Qed.

Ltac asc := vm_compute; discriminate.
(** ** Texts cut at ASCII bytes *)
Lemma text_app x r : text x -> text (x ++ r) -> text r.
Proof.
  intros (cps & Hs & ->). rewrite !text_iff, decode_all by auto. destruct (utf8_decode r); simpl; congruence.
Qed.
Lemma text_ascii s : str_all is_ascii s -> text s.
Proof. intros Ha. apply text_iff, ascii_utf8. auto. Qed.
Lemma text_join x r : text x -> text r -> text (x ++ r).
Proof. intros (cps & Hs & ->). rewrite !text_iff, decode_all by auto. destruct (utf8_decode r); simpl; congruence. Qed.
(** A character is an ASCII byte or consists of other bytes. *)
Lemma encode_bytes cp : scalar cp -> (exists c, encode cp = String c "" /\ is_ascii c) \/ str_all (fun c => 128 <= code c) (encode cp) /\ encode cp <> "".
Proof.
  intros Hs. unfold encode. destruct (N.ltb_spec cp 128); [left; eexists; split; [reflexivity|]; change (code (ascii_of_N cp) <= 127); rewrite byte_code; lia|right].
  assert (cp < 1114112) as Hb by (unfold scalar in Hs; lia).
  destruct (N.ltb_spec cp 2048); [|destruct (N.ltb_spec cp 65536)]; cbn [byte append str_all]; (split; [|discriminate]).
  - assert (cp / 64 < 32 /\ cp mod 64 < 64) as [A1 A2] by dm. rewrite !byte_code by al. repeat split; al.
  - assert (cp / 4096 < 16 /\ cp / 64 mod 64 < 64 /\ cp mod 64 < 64) as (A1 & A2 & A3) by dm. rewrite !byte_code by al. repeat split; al.
  - assert (cp / 262144 < 5 /\ cp / 4096 mod 64 < 64 /\ cp / 64 mod 64 < 64 /\ cp mod 64 < 64) as (A1 & A2 & A3 & A4) by dm. rewrite !byte_code by al. repeat split; al.
Qed.
(** What stands before an ASCII byte of a text is a text, and so is what follows. *)
Lemma text_before x c r : is_ascii c -> text (x ++ String c r) -> text x.
Proof.
  intros Hc (cps & Hs & E). revert x E. induction Hs as [|cp cps Hcp _ IH]; intros x E; [destruct x; discriminate|].
  cbn [encode_all] in E. destruct (encode_bytes cp Hcp) as [(a & Ea & _)|[Hb Hne]].
  - rewrite Ea in E. destruct x as [|d x]; [exists []; split; [constructor|auto]|]. injection E as -> E. apply IH in E as (l & Hl & ->).
    exists (cp :: l). split; [constructor; auto|]. cbn [encode_all]. rewrite Ea. auto.
  - assert (exists x', x = encode cp ++ x' /\ x' ++ String c r = encode_all cps) as (x' & -> & E').
    { revert x E. generalize (encode cp) Hb. clear -Hc. induction s as [|b s IHs]; intros Hb x E; [exists x; auto|]. destruct Hb as [Hb1 Hb2].
      destruct x as [|d x].
      - injection E as -> E. change (code b <= 127) in Hc. lia.
      - injection E as -> E. destruct (IHs Hb2 x E) as (x' & -> & E'). exists x'. auto. }
    apply IH in E' as (l & Hl & ->). exists (cp :: l). split; [constructor; auto|auto].
Qed.
Lemma text_after x c r : is_ascii c -> text (x ++ String c r) -> text r.
Proof.
  intros Hc Ht. pose proof (text_before _ _ _ Hc Ht) as Hx. pose proof (text_app _ _ Hx Ht) as Hr. change (String c r) with (String c "" ++ r) in Hr.
  apply text_app in Hr; auto. apply text_ascii. simpl. auto.
Qed.
Lemma ws_ascii c : ws c -> is_ascii c.
Proof. intros [->|[->|[->| ->]]]; vm_compute; discriminate. Qed.
Lemma delimiter_ascii c : delimiter c -> is_ascii c.
Proof. intros [Hw|[->| ->]]; [apply ws_ascii; auto| |]; vm_compute; discriminate. Qed.
Lemma text_gap g s : Gap g -> text (g ++ s) -> text s.
Proof.
  induction 1 as [|c g Hw _ IH|t g Hn _ IH]; auto; intros Ht; apply IH.
  - apply (text_after "" c); auto. apply ws_ascii. auto.
  - apply (text_after (String ";" t) "010"); [asc|]. simpl in *. rewrite app_assoc_s in Ht. exact Ht.
Qed.
Lemma digits_ascii d : all_digits d -> str_all is_ascii d.
Proof. apply str_all_impl. intros c Hc. apply range_iff in Hc. change (code c <= 127). lia. Qed.
Definition ends_line (s : string) : Prop := str_last (fun c => c = "010"%char) s.

Section Texts.
Context `{Unicode}.
Lemma word_end_text w r : ends_line (w ++ r) -> text (w ++ r) -> word_end r -> text r.
Proof.
  intros Hl Ht He. destruct r as [|c r]; [destruct He|]. assert (is_ascii c) as Hc.
  { destruct He as [Hd|[Hw ->]]; [apply delimiter_ascii; auto|]. apply str_last_suffix in Hl. simpl in Hl. subst c. asc. }
  pose proof (text_before _ _ _ Hc Ht) as Hx. apply (text_app _ _ Hx Ht).
Qed.
Lemma spells_text s t r : ends_line s -> text s -> Spells s t r -> text r.
Proof.
  intros Hl Ht Hs. inversion Hs; subst; auto;
    try (match goal with |- text ?r => match type of Ht with text (String ?a r) => apply (text_after "" a r); [asc|exact Ht] end end; fail).
  - apply (text_after "<" "=" r); [asc|exact Ht].
  - apply (text_after ">" "=" r); [asc|exact Ht].
  - match goal with Hw : word_at _ _ _ |- _ => destruct Hw as (-> & _ & He) end.
    apply (str_last_suffix _ "?") in Hl. apply (text_after "" "?") in Ht; [|asc]. eapply word_end_text; eauto.
  - match goal with Hw : word_at _ _ _ |- _ => destruct Hw as (-> & _ & He) end.
    apply (str_last_suffix _ ":") in Hl. apply (text_after "" ":") in Ht; [|asc]. eapply word_end_text; eauto.
  - eapply text_app; [|exact Ht]. apply text_ascii, digits_ascii. auto.
  - apply (text_after d ".") in Ht; [|asc]. eapply text_app; [|exact Ht]. apply text_ascii, digits_ascii. auto.
  - match goal with Hw : word_at _ _ _ |- _ => destruct Hw as (-> & _ & He) end. eapply word_end_text; eauto.
  - match goal with Hw : word_at _ _ _ |- _ => destruct Hw as (-> & _ & He) end. eapply word_end_text; eauto.
Qed.
Lemma stretch_text s x r : ends_line s -> text s -> stretch s x r -> utf8_decode x <> None.
Proof.
  intros Hl Ht (-> & _ & Hr). apply text_iff. destruct r as [|c r]; [destruct Hr|].
  apply (text_before x c r); auto. destruct Hr as [Hd| ->]; [apply delimiter_ascii; auto|]. apply str_last_suffix in Hl. simpl in Hl. subst. asc.
Qed.
Lemma text_no_panic p st q : text (rest st) -> ends_line (rest st) -> fst (lex p st) <> LPanic q.
Proof.
  intros Ht Hl E. apply C60_crash_iff in E as (g & s & Er & Hg & Hc). rewrite Er in *. apply (text_gap _ _ Hg) in Ht. apply str_last_suffix in Hl.
  inversion Hc as [s' Ho| | |s' x r Hs Hu|s' x r Hs Hu|s' x r Ho Hs Hu]; subst; try discriminate.
  - destruct Ho as (t & -> & Hn). destruct t as [|c t]; [discriminate|]. destruct (str_snoc (String c t)) as (f & d & Ef); [discriminate|].
    rewrite Ef in *. change (String ";" (f ++ String d "")) with (String ";" f ++ String d "") in Hl. apply str_last_suffix in Hl. simpl in Hl. subst d.
    apply Hn. apply str_in_app. simpl. auto.
  - apply (str_last_suffix _ "?") in Hl. apply (text_after "" "?") in Ht; [|asc]. eapply stretch_text; eauto.
  - apply (str_last_suffix _ ":") in Hl. apply (text_after "" ":") in Ht; [|asc]. eapply stretch_text; eauto.
  - eapply stretch_text; eauto.
Qed.
(** Tokens are read off a text such that a text remains. *)
Lemma lex_text p st t st' : text (rest st) -> ends_line (rest st) -> lex p st = (LTok t, st') -> text (rest st') /\ ends_line (rest st').
Proof.
  intros Ht Hl E. destruct p.
  - destruct (lex_view_ok true st) as [g s Er Hg Hs E2|g s Er Hg Hs E2]; rewrite E in E2; [|discriminate]. rewrite lex_at_peek in E2. injection E2 as _ ->. simpl.
    rewrite Er in *. split; [eapply text_gap; eauto|eapply str_last_suffix; eauto].
  - apply get_token_spec in E as (g & s & Er & Hg & Hs & _). rewrite Er in *. apply (text_gap _ _ Hg) in Ht. apply str_last_suffix in Hl. split; [eapply spells_text; eauto|].
    apply spells_split in Hs as (x & -> & _). eapply str_last_suffix; eauto.
Qed.
End Texts.

(** ** Documents *)
Section Props.
Context `{Unicode}.
(** States reached by reading and peeking, as long as tokens are delivered. *)
Inductive Going (program : string) : lstate -> Prop :=
| go_new : Going program (lex_new program)
| go_step st peek t st' : Going program st -> lex peek st = (LTok t, st') -> Going program st'.
Lemma going_text program st : text program -> ends_line program -> Going program st -> text (rest st) /\ ends_line (rest st).
Proof. intros Ht Hl. induction 1 as [|st p t st' _ [H1 H2] E]; auto. eapply lex_text; eauto. Qed.

(** No text that ends with a line break crashes the tokenizer, in whatever
    alphabet it is written. *)
Theorem C75_no_crash : forall program st p q, text program -> ends_line program -> Going program st -> fst (lex p st) <> LPanic q.
Proof. intros program st p q Ht Hl Hg. destruct (going_text program st Ht Hl Hg) as [H1 H2]. apply text_no_panic; auto. Qed.

(** The parser only crashes where it does on ASCII documents (C09). *)
Lemma text_panic program n p : text program -> ends_line program -> parse n program = Panic p -> p = PanicProblemToken.
Proof.
  intros Ht Hl E. unfold parse in E.
  assert (forall b st st', (st = st' /\ text (rest st) /\ ends_line (rest st)) ->
    rel_res (fun _ _ => True) (fun st st' => st = st' /\ text (rest st) /\ ends_line (rest st)) (fun p => p = PanicProblemToken) eq (of_lex (lex b st)) (of_lex (lex b st'))) as Hx.
  { intros b st st' (<- & H1 & H2). apply of_lex_refl; auto.
    - intros t s Es. split; auto. eapply lex_text; eauto.
    - intros q s Es. exfalso. apply (text_no_panic b st q H1 H2). rewrite Es. auto. }
  assert (Hr := parse_doc_rp (fun _ _ => True) (fun st st' => st = st' /\ text (rest st) /\ ends_line (rest st)) (fun p => p = PanicProblemToken) (fun _ _ _ => I)
    (Hx false) (Hx true) eq_refl n n (le_n n) (lex_new program) (lex_new program) (conj eq_refl (conj Ht Hl))).
  destruct (parse_doc n (lex_new program)); try discriminate. injection E as ->. simpl in Hr. tauto.
Qed.
Theorem C75_parse : forall program n, text program -> ends_line program ->
  (forall p, parse n program = Panic p -> exists hs ts bs t l st', GProblemHeader hs /\ GPSeq ts bs /\ stray t /\ Reads (lex_new program) (hs ++ ts ++ [(t, l)])%list st')
  /\ (forall l1 l2 l3 l4 st, Reads (lex_new program) [lp l1; kw KDefine l2; lp l3; kw KDomain l4] st -> forall p, parse n program <> Panic p)
  /\ ((String.length program < n)%nat -> parse n program <> OutOfFuel).
Proof.
  intros program n Ht Hl. split; [|split].
  - intros p E. apply problem_panic_iff. exists n. rewrite E. f_equal. eapply text_panic; eauto.
  - intros l1 l2 l3 l4 st Hr p E. pose proof (text_panic _ _ _ Ht Hl E) as ->. destruct (parse_problem_panic _ _ _ E) as [(s & b & Hh & Ep)|[_ Hc]].
    + apply lex_panic_kind in Ep. congruence.
    + unfold classify in Hc. repeat match goal with Hr : Reads _ (_ :: _) _ |- _ => inversion Hr; subst; clear Hr end.
      repeat match goal with E : get_token _ = _ |- _ => rewrite E in Hc; clear E end. discriminate.
  - intros Hn. apply C08_terminates; auto. revert Hl. apply str_last_impl. intros c ->. unfold delimiter, ws; auto.
Qed.

(** ** Names *)
Lemma lucky_alnum n : 128 <= n < 256 -> (lucky n <-> latin1_alnum_code n = true).
Proof.
  intros Hn. unfold lucky, latin1_alnum_code. rewrite !orb_true_iff, !andb_true_iff, !N.leb_le, !N.eqb_eq. cbn [In]. lia.
Qed.
Lemma lucky_range n : lucky n -> 128 <= n < 256.
Proof. unfold lucky. cbn [In]. lia. Qed.
Lemma str_all_list P s : str_all P s <-> forall c, In c (list_ascii_of_string s) -> P c.
Proof. induction s as [|a s IH]; cbn [str_all list_ascii_of_string In]; [tauto|]. rewrite IH. split; [intros [H1 H2] c [<-|Hc]; auto|]. intros Hx. split; [apply Hx; auto|intros; apply Hx; auto]. Qed.
Definition in_name (cp : N) : Prop := char_alnum cp = true \/ cp = 95 \/ cp = 45.
Lemma usable_iff cp : scalar cp -> (usable cp <-> str_all word_byte (encode cp) /\ in_name cp).
Proof.
  intros Hs. unfold usable, in_name, char_alnum. destruct (N.ltb_spec cp 128) as [H1|H1].
  - destruct (N.ltb_spec cp 256); [|lia].
    assert (str_all word_byte (encode cp) <-> latin1_alnum_code cp = true \/ cp = 95 \/ cp = 45) as ->.
    { unfold encode. destruct (N.ltb_spec cp 128); [|lia]. cbn [byte str_all]. unfold word_byte, latin1_alnum. rewrite byte_code by lia.
      assert (forall c, ascii_of_N cp = c <-> cp = code c) as Hc.
      { intros c. split; [intros <-; symmetry; apply byte_code; lia|intros ->; apply ascii_N_embedding]. }
      rewrite !Hc. change (code "_") with 95. change (code "-") with 45. tauto. }
    unfold latin1_alnum_code. rewrite !orb_true_iff, !andb_true_iff, !N.leb_le, !N.eqb_eq. lia.
  - destruct (encode_bytes cp Hs) as [(c & Ec & Hc)|[Hb Hne]].
    { exfalso. pose proof (decode_encode cp "" Hs) as E. rewrite Ec in E. cbn [append utf8_decode] in E. change (code c <= 127) in Hc. destruct (N.leb_spec (code c) 127); [|lia]. injection E as E. lia. }
    assert (str_all word_byte (encode cp) <-> forall c, In c (list_ascii_of_string (encode cp)) -> lucky (N_of_ascii c)) as ->.
    { rewrite str_all_list. rewrite str_all_list in Hb. split; intros Hx c Hc; specialize (Hx c Hc); specialize (Hb c Hc).
      - apply lucky_alnum; [split; [exact Hb|apply code_bound]|]. destruct Hx as [Hx|[->| ->]]; [exact Hx|vm_compute in Hb; congruence|vm_compute in Hb; congruence].
      - left. apply lucky_alnum; [split; [exact Hb|apply code_bound]|exact Hx]. }
    destruct (N.ltb_spec cp 256) as [H2|H2].
    + rewrite <- lucky_alnum by lia. split; [intros [|[|[|[|[|Hx]]]]]; [lia|lia|lia|lia|lia|]; tauto|].
      intros [H3 [H4|[H4|H4]]]; try lia. right. right. right. right. right. split; [lia|]. split; [auto|]. split; [lia|auto].
    + split; [intros [|[|[|[|[|Hx]]]]]; [lia|lia|lia|lia|lia|]; destruct Hx as (_ & _ & H3 & H4); split; auto; left; apply H3; lia|].
      intros [H3 [H4|[H4|H4]]]; try lia. right. right. right. right. right. split; [lia|]. split; [lia|]. split; [auto|auto].
Qed.
Lemma all_usable cps : Forall scalar cps -> (Forall usable cps <-> str_all word_byte (encode_all cps) /\ Forall in_name cps).
Proof.
  induction 1 as [|cp cps Hs _ IH]; cbn [encode_all str_all]; [split; auto|]. rewrite str_all_app. split.
  - intros Hx. inversion Hx as [|a b Ha Hb]; subst. apply usable_iff in Ha as [H1 H2]; auto. apply IH in Hb as [H3 H4]. auto.
  - intros [[H1 H2] H3]. inversion H3 as [|a b Ha Hb]; subst. constructor; [apply usable_iff; auto|apply IH; auto].
Qed.
Lemma word_bytes_dec s : {str_all word_byte s} + {~ str_all word_byte s}.
Proof.
  induction s as [|c s IH]; cbn [str_all]; [left; exact I|]. assert ({word_byte c} + {~ word_byte c}) as [Hc|Hc].
  { unfold word_byte. destruct (latin1_alnum c); [left; auto|]. destruct (ascii_dec c "_"); [left; auto|]. destruct (ascii_dec c "-"); [left; auto|]. right. intuition discriminate. }
  - destruct IH as [Hs|Hs]; [left; auto|right; tauto].
  - right. tauto.
Qed.

(** A word is a name exactly if it consists of usable characters; otherwise it
    is reported. *)
Theorem C75_names : forall cps d r ln, let w := encode_all cps in
  Forall scalar cps -> other_start w -> str_all (fun c => ~ delimiter c) w -> ~ reserved w -> delimiter d ->
  (Forall usable cps -> get_token (mkL (w ++ String d r) ln) = (LTok (TIdent w), mkL (String d r) ln))
  /\ (~ Forall usable cps -> fst (get_token (mkL (w ++ String d r) ln)) = LErr (mkLexErr InvalidIdentifier w ln)).
Proof.
  intros cps d r ln w Hs Ho Hnd Hr Hd. assert (utf8_decode w = Some cps) as Ew by (apply C75_decoder; auto).
  assert (other_start (w ++ String d r)) as Ho' by (destruct w; [destruct Ho|exact Ho]).
  split.
  - intros Hu. apply all_usable in Hu as [Hb Hn]; auto. apply get_token_spec. exists "", (w ++ String d r). split; [reflexivity|]. split; [constructor|]. split; [|simpl; lia].
    cbn [rest]. apply sp_ident; auto.
    + split; [auto|]. split; [exact Hb|]. simpl. auto.
    + unfold bare_start. fold w in Hb. destruct w as [|c w']; [destruct Ho|]. simpl. destruct Ho as (H1 & H2 & H3), Hb as [H4 _]. split; auto. split; auto. intros ->. apply H3. simpl. auto.
    + exists cps. auto.
  - intros Hu. assert (Bad (w ++ String d r) InvalidIdentifier w) as Hbad.
    { assert (stretch (w ++ String d r) w (String d r)) as Hst by (split; [auto|split; auto; simpl; auto]).
      destruct (word_bytes_dec w) as [Hb|Hb].
      - apply (bad_identifier _ w (String d r)); auto; [split; [auto|split; simpl; auto]|congruence|].
        intros (cps' & E & Hn). rewrite Ew in E. injection E as <-. apply Hu. apply all_usable; auto.
      - apply (bad_word _ w (String d r)); auto; [congruence|]. intros (_ & Hx & _). auto. }
    pose proof (proj2 (C60_error_iff false (mkL (w ++ String d r) ln) (mkLexErr InvalidIdentifier w ln))) as He. apply He.
    exists "", (w ++ String d r). split; [reflexivity|]. split; [constructor|]. split; [exact Hbad|]. simpl. lia.
Qed.

(** Among the characters U+0080 to U+00FF these are usable: ª ² ³ µ ¹ º ¼ ½ ¾ ê ò ó õ ù ú ü ý þ.
    The other letters (ä, é, ñ, ö, ß, ...) cannot be used in names. *)
Definition luckyb (n : N) : bool := existsb (N.eqb n) [170; 181; 186; 178; 179; 185; 188; 189; 190] || ((192 <=? n) && (n <=? 255) && negb (n =? 215) && negb (n =? 247)).
Lemma luckyb_iff n : lucky n <-> luckyb n = true.
Proof.
  unfold lucky, luckyb. rewrite orb_true_iff, existsb_exists, !andb_true_iff, !negb_true_iff, !N.leb_le, !N.eqb_neq. split.
  - intros [Hi|Hi]; [left; exists n; split; auto; apply N.eqb_refl|right; tauto].
  - intros [(x & Hi & E)|Hi]; [left; apply N.eqb_eq in E; subst; auto|right; tauto].
Qed.
Theorem C75_latin1 : forall cp, 128 <= cp < 256 ->
  (usable cp <-> In cp [170; 178; 179; 181; 185; 186; 188; 189; 190; 234; 242; 243; 245; 249; 250; 252; 253; 254]).
Proof.
  intros cp Hcp.
  assert (usable cp <-> luckyb cp && forallb (fun c => luckyb (N_of_ascii c)) (list_ascii_of_string (encode cp)) = true) as ->.
  { unfold usable. rewrite andb_true_iff, forallb_forall, <- luckyb_iff. split.
    - intros [|[|[|[|[|Hx]]]]]; [lia|lia|lia|lia|lia|]. destruct Hx as (_ & H1 & _ & H2). split; [apply H1; lia|]. intros c Hc. apply luckyb_iff. auto.
    - intros [H1 H2]. right. right. right. right. right. split; [lia|]. split; [auto|]. split; [lia|]. intros c Hc. apply luckyb_iff. auto. }
  assert (In cp (map N.of_nat (seq 128 128))) as Hi.
  { apply in_map_iff. exists (N.to_nat cp). split; [apply N2Nat.id|]. apply in_seq. lia. }
  set (f := fun cp => eqb (luckyb cp && forallb (fun c => luckyb (N_of_ascii c)) (list_ascii_of_string (encode cp)))
    (existsb (N.eqb cp) [170; 178; 179; 181; 185; 186; 188; 189; 190; 234; 242; 243; 245; 249; 250; 252; 253; 254])).
  assert (forallb f (map N.of_nat (seq 128 128)) = true) as Hf by (vm_compute; reflexivity).
  rewrite forallb_forall in Hf. specialize (Hf cp Hi). unfold f in Hf. apply eqb_prop in Hf. rewrite Hf, existsb_exists. split.
  - intros (x & Hx & E). apply N.eqb_eq in E. subst. auto.
  - intros Hx. exists cp. split; auto. apply N.eqb_refl.
Qed.
End Props.

(** ** Examples *)
(** "grün" is a name, "größe" is reported. *)
Example C75_example : let g1 := [103; 114; 252; 110] in let g2 := [103; 114; 246; 223; 101] in
  Forall scalar g1 /\ Forall (@usable uni0) g1 /\ Forall scalar g2 /\ ~ Forall (@usable uni0) g2
  /\ fst (@get_token uni0 (lex_new (encode_all g1 ++ nl))) = LTok (TIdent (encode_all g1))
  /\ fst (@get_token uni0 (lex_new (encode_all g2 ++ nl))) = LErr (mkLexErr InvalidIdentifier (encode_all g2) 1)
  /\ text (encode_all g2 ++ nl) /\ ends_line (encode_all g2 ++ nl)
  /\ is_ok (@parse uni0 300 ("(define (domain " ++ encode_all g1 ++ "))" ++ nl)) = true.
Proof.
  assert (forall l, forallb (fun cp => cp <? 55296) l = true -> Forall scalar l) as Hl.
  { intros l Hx. apply Forall_forall. intros cp Hc. rewrite forallb_forall in Hx. specialize (Hx cp Hc). apply N.ltb_lt in Hx. left. auto. }
  cbv zeta. split; [apply Hl; reflexivity|]. split.
  { apply Forall_forall. intros cp [<-|[<-|[<-|[<-|[]]]]]; unfold usable; try lia. right. right. right. right. right. split; [lia|]. split; [intros _; right; lia|]. split; [lia|].
    intros c Hc. apply luckyb_iff. vm_compute in Hc. destruct Hc as [<-|[<-|[]]]; reflexivity. }
  split; [apply Hl; reflexivity|]. split.
  { intros Hx. rewrite Forall_forall in Hx. assert (In 246 [103; 114; 246; 223; 101]) as Hi by (simpl; auto). apply Hx in Hi. apply C75_latin1 in Hi; [|lia]. simpl in Hi. lia. }
  split; [vm_compute; reflexivity|]. split; [vm_compute; reflexivity|].
  split; [apply text_iff; vm_compute; discriminate|]. split; [vm_compute; auto|]. vm_compute. reflexivity.
Qed.
(** Reading on after an error may crash: the tokenizer then stands inside of a character. *)
Theorem C75_resume_refuted : exists program e st, text program /\ ends_line program
  /\ @get_token uni0 (lex_new program) = (LErr e, st) /\ fst (@get_token uni0 st) = LPanic PanicUtf8.
Proof.
  exists (encode 228 ++ nl). do 2 eexists. split; [apply text_iff; vm_compute; discriminate|]. split; [vm_compute; auto|].
  split; [vm_compute; reflexivity|]. vm_compute. reflexivity.
Qed.
(** Without a line break at the end a text may crash the tokenizer: the last byte
    is split off. *)
Theorem C75_end_refuted : exists program, text program /\ fst (@get_token uni0 (lex_new program)) = LPanic PanicUtf8.
Proof. exists (encode 8364). split; [apply text_iff; vm_compute; discriminate|vm_compute; reflexivity]. Qed.

Definition utf8_theorems := (@C75_decoder, @C75_no_crash, @C75_parse, @C75_names, @C75_latin1, @C75_resume_refuted, @C75_end_refuted).
