(** Property theorems about the tokenizer: C01-C07 and C35.
    Specifications are in SpecLex.v; [History], [Reads] and [stream] (LexProofs2/3)
    only iterate the tokenizer's two entry points. *)
From Coq Require Import String Ascii NArith ZArith Bool List Lia.
From Verif Require Import Base Token Lexer StrFacts SpecLex LexProofs LexProofs2 LexProofs3.
Import ListNotations.
Open Scope string_scope.

(** An instance of the Unicode oracle for the examples. *)
Definition uni0 : Unicode := fun _ => true.

(** A small document used in the examples: a comment, two lines, `<=`. *)
Definition nl : string := String newline "".
Definition doc1 : string := "(define ; head" ++ nl ++ nl ++ "  (<= ?x 12)" ++ nl ++ ")" ++ nl.

(** ** C01 *)
Theorem C01_lines_true `{Unicode} : forall program st p out st',
  History program st -> lex p st = (out, st') -> (forall q, out <> LPanic q) ->
  exists before g s,
    program = before ++ g ++ s /\ rest st = g ++ s /\ Gap g /\ token_start s
    /\ line st' = (1 + count_nl (before ++ g))%N
    /\ match out with
       | LTok t => exists t0 r, Spells s t0 r
                   /\ (if p then t = peeked t0 /\ rest st' = s else t = t0 /\ rest st' = r)
       | LErr e => le_line e = (1 + count_nl (before ++ g))%N
       | _ => False
       end.
Proof. exact (fun program st p out st' => line_of_token program st p out st'). Qed.

(** The third token of [doc1] is read in line 3, after a peek at it. *)
Example C01_example :
  exists st3, @History uni0 doc1 st3
  /\ fst (@lookahead uni0 st3) = LTok (TOp OLess)
  /\ fst (@get_token uni0 st3) = LTok (TOp OLessEq)
  /\ line (snd (@get_token uni0 st3)) = 3%N.
Proof.
  set (s0 := lex_new doc1).
  set (s1 := snd (@lex uni0 false s0)). set (s2 := snd (@lex uni0 false s1)).
  set (s3 := snd (@lex uni0 true s2)). set (s4 := snd (@lex uni0 false s3)).
  exists s4. split; [|vm_compute; auto].
  eapply (@h_step uni0 _ s3 false); [|vm_compute; reflexivity|discriminate].
  eapply (@h_step uni0 _ s2 true); [|vm_compute; reflexivity|discriminate].
  eapply (@h_step uni0 _ s1 false); [|vm_compute; reflexivity|discriminate].
  eapply (@h_step uni0 _ s0 false); [apply h_new|vm_compute; reflexivity|discriminate].
Qed.

(** ** C02 *)
Theorem C02_peek_changes_nothing `{Unicode} : forall st out st1,
  lookahead st = (out, st1) -> (forall q, out <> LPanic q) ->
  get_token st1 = get_token st /\ lookahead st1 = lookahead st.
Proof.
  intros st out st1 E Hp. split;
    [exact (peek_then st out st1 E Hp false)|exact (peek_then st out st1 E Hp true)].
Qed.

Theorem C02_peek_shows_next `{Unicode} : forall st,
  match fst (get_token st) with
  | LTok (TOp OLessEq) => fst (lookahead st) = LTok (TOp OLess)
  | LTok (TOp OGreaterEq) => fst (lookahead st) = LTok (TOp OGreater)
  | o => fst (lookahead st) = o
  end.
Proof.
  intros st. rewrite peek_is_next. destruct (fst (get_token st)) as [t| | |]; auto.
  destruct t as [| | |o| | |]; auto. destruct o; auto.
Qed.

Theorem C02_peek_differs_refuted :
  exists program, fst (@lookahead uni0 (lex_new program)) <> fst (@get_token uni0 (lex_new program)).
Proof. exists "<= ". vm_compute. discriminate. Qed.

Example C02_example :
  exists st1, @lookahead uni0 (lex_new " abc )") = (LTok (TIdent "abc"), st1) /\ rest st1 = "abc )".
Proof. eexists; split; vm_compute; reflexivity. Qed.

(** ** C03: at a position, and inside a document *)
Theorem C03_gap_in_front `{Unicode} : forall g s ln p,
  Gap g ->
  lex p (mkL (g ++ s) ln) =
  (shift_out (count_nl g) (fst (lex p (mkL s ln))), shift_st (count_nl g) (snd (lex p (mkL s ln)))).
Proof. intros g s ln p Hg. rewrite lex_gap by exact Hg. apply lex_shift. Qed.

Theorem C03_insert_gap `{Unicode} : forall q w s,
  clean q -> str_last delimiter q -> Gap w ->
  exists k, forall n,
    stream n (lex_new (q ++ w ++ s)) =
    (firstn k (stream n (lex_new (q ++ s)%string))
     ++ map (shift_item (count_nl w)) (skipn k (stream n (lex_new (q ++ s)%string))))%list.
Proof. exact insert_gap. Qed.

(** A comment glued to the end of a word is not insignificant. *)
Theorem C03_comment_after_word_refuted :
  exists w s, Gap w /\
    fst (@get_token uni0 (lex_new ("abc" ++ w ++ s))) <> fst (@get_token uni0 (lex_new ("abc" ++ s))).
Proof.
  exists (";x" ++ nl), " )". split; [|vm_compute; discriminate].
  apply (gap_comment "x" ""); [|constructor]. simpl. intros [E|[]]; discriminate.
Qed.

Example C03_example :
  clean "(a " /\ str_last delimiter "(a " /\ Gap (" ;c" ++ nl ++ " ").
Proof.
  split; [|split].
  - intros x y E. exfalso. destruct x as [|? [|? [|? [|? x]]]]; discriminate.
  - simpl. unfold delimiter, ws; auto.
  - apply gap_ws; [unfold ws; auto|]. apply (gap_comment "c" " ").
    + simpl. intros [E|[]]; discriminate.
    + apply gap_ws; [unfold ws; auto|constructor].
Qed.

(** ** C04 *)
Theorem C04_progress `{Unicode} : forall program st t st',
  History program st -> str_last delimiter program ->
  get_token st = (LTok t, st') -> t <> TEOF ->
  (String.length (rest st') < String.length (rest st))%nat.
Proof.
  intros program st t st' Hh Hl E Ht. apply history_suffix in Hh as (b & ->).
  eapply get_progress; eauto. eapply str_last_suffix; eauto.
Qed.

Theorem C04_finite `{Unicode} : forall program,
  str_last delimiter program ->
  exists ts st', Reads (lex_new program) ts st' /\ (length ts <= String.length program)%nat
    /\ forall t st'', get_token st' = (LTok t, st'') -> t = TEOF.
Proof.
  intros program Hl.
  apply (token_stream_finite (S (String.length program)) (lex_new program)); simpl; auto.
Qed.

(** A document that ends inside a word: the last byte is dropped from the word
    and the empty identifier is delivered for ever. *)
Theorem C04_truncated_word `{Unicode} : forall w c ln,
  str_all word_byte w -> bare_start w -> ~ reserved w -> identifier_text w ->
  word_byte c -> is_digit c = false -> c <> "-"%char ->
  get_token (mkL (w ++ String c "") ln) = (LTok (TIdent w), mkL (String c "") ln)
  /\ get_token (mkL (String c "") ln) = (LTok (TIdent ""), mkL (String c "") ln).
Proof.
  intros w c ln H1 H2 H3 H4 Hc Hd Hm.
  assert (word_end (String c "")) as He by (simpl; auto).
  split.
  - apply (proj2 (question_mark w (String c "") ln H1 H2 H3 H4 He)).
  - apply get_token_spec. exists "", (String c ""). simpl.
    repeat split; auto; [constructor| |lia].
    apply sp_ident; simpl; auto.
    + repeat split; simpl; auto.
    + intros (t & Ht). apply bare_lookup_spec in Ht. discriminate.
    + exists []. split; [reflexivity|constructor].
Qed.

Example C04_example :
  str_last delimiter doc1 /\ ~ str_last delimiter "(define (domain d) (:types ab".
Proof. split; vm_compute; intuition discriminate. Qed.

(** ** C05 *)
Theorem C05_ascii_no_crash `{Unicode} : forall program st p q,
  str_all is_ascii program -> str_last (fun c => c = "010"%char) program ->
  History program st -> fst (lex p st) <> LPanic q.
Proof.
  intros program st p q Ha Hl Hh. apply history_suffix in Hh as (b & ->).
  apply lex_no_panic; [apply str_all_app in Ha; tauto|eapply str_last_suffix; eauto].
Qed.

Theorem C05_open_comment_crashes `{Unicode} : forall g text ln p,
  Gap g -> ~ str_in "010" text ->
  fst (lex p (mkL (g ++ String ";" text) ln)) = LPanic PanicIndex.
Proof.
  intros g text ln p Hg Ht. rewrite lex_open; auto. exists text; auto.
Qed.

Theorem C05_boundary_refuted :
  fst (@get_token uni0 (lex_new "?")) = LPanic PanicIndex
  /\ fst (@get_token uni0 (lex_new ":")) = LPanic PanicIndex
  /\ fst (@get_token uni0 (lex_new ";")) = LPanic PanicIndex
  /\ fst (@get_token uni0 (lex_new (String "195" nl))) = LPanic PanicUtf8.
Proof. vm_compute. auto. Qed.

Example C05_example :
  str_all is_ascii doc1 /\ str_last (fun c => c = "010"%char) doc1.
Proof. unfold is_ascii. vm_compute. intuition discriminate. Qed.

(** ** C06 *)
Theorem C06_round_trip `{Unicode} : forall l,
  well_written l ->
  exists st, Reads (lex_new (text_of l)) (lines_of 1 l) st
             /\ fst (get_token st) = LTok TEOF.
Proof.
  intros l Hl. destruct (written_gap_reads l "" 1%N Hl gap_nil) as (g & ln & Hr & Hg).
  exists (mkL g ln). split; [exact Hr|]. rewrite gap_eof by exact Hg. reflexivity.
Qed.

(** Every printable token has a spelling, so every sequence of printable tokens
    can be written with one blank after each token. *)
Theorem C06_every_sequence `{Unicode} : forall ts,
  Forall printable ts ->
  exists xs, length xs = length ts
    /\ Forall (fun e => Written (fst e) (snd e)) (combine ts xs)
    /\ exists st,
        Reads (lex_new (String.concat "" (map (fun x => x ++ " ") xs)))
              (map (fun t => (t, 1%N)) ts) st
        /\ fst (get_token st) = LTok TEOF.
Proof.
  intros ts Hts.
  assert (exists xs, length xs = length ts
                     /\ Forall (fun e => Written (fst e) (snd e)) (combine ts xs)) as (xs & Hlen & Hw).
  { induction Hts as [|t ts Ht _ (xs & Hlen & Hw)].
    - exists []; split; [reflexivity|constructor].
    - destruct (printable_written t Ht) as (x & Hx). exists (x :: xs). simpl. auto. }
  exists xs. split; [auto|]. split; [auto|].
  set (l := map (fun e => (fst e, snd e, " ")) (combine ts xs)).
  destruct (C06_round_trip l) as (st & Hr & He).
  { unfold well_written, l. apply Forall_map. simpl.
    apply (Forall_impl _ (P := fun e => Written (fst e) (snd e))); auto.
    intros e He. split; auto. split; [|unfold ws; auto].
    apply gap_ws; [unfold ws; auto|constructor]. }
  exists st. split; [|exact He].
  assert (text_of l = String.concat "" (map (fun x => x ++ " ") xs)) as E1.
  { unfold l. clear - Hlen. revert xs Hlen. induction ts as [|t ts IH]; intros [|x xs] Hl; try discriminate; auto.
    simpl in Hl. injection Hl as Hl. cbn [combine map text_of fst snd].
    rewrite (IH xs Hl). destruct xs; simpl; rewrite ?app_nil_r_s, ?app_assoc_s; reflexivity. }
  assert (lines_of 1 l = map (fun t => (t, 1%N)) ts) as E2.
  { unfold l. clear - Hlen. revert xs Hlen. induction ts as [|t ts IH]; intros [|x xs] Hl; try discriminate; auto.
    simpl in Hl. injection Hl as Hl. cbn [combine map lines_of fst snd].
    change (count_nl " ") with 0%N. rewrite N.add_0_r. rewrite (IH xs Hl). reflexivity. }
  rewrite E1, E2 in Hr. exact Hr.
Qed.

Example C06_example :
  @Forall token printable
    [TPunct LParen; TKeyword KDefine; TIdent "a-b_1"; TNumber (Integer 42); TOp OLessEq;
     TNumber (Real "0.5"); TReq Hierarchy; TPunct RParen].
Proof.
  repeat apply Forall_cons; try apply Forall_nil; cbn [printable]; auto; try discriminate.
  - split; [|discriminate]. unfold word_byte. simpl. intuition auto.
  - split; lia.
  - exists "0", "5". unfold all_digits. simpl. repeat split; auto; discriminate.
Qed.

(** ** C07 *)
Theorem C07_content `{Unicode} : forall st t st',
  get_token st = (LTok t, st') ->
  match t with
  | TIdent w => str_all word_byte w /\ utf8_decode w <> None
  | TNumber (Integer z) => (0 <= z <= 9223372036854775807)%Z
  | TNumber (Real l) => exists d e, l = d ++ String "." e /\ all_digits d /\ d <> "" /\ all_digits e
  | TReq r => r <> ProbabilisticEffects
  | _ => True
  end.
Proof.
  intros st t st' E. apply get_token_spec in E as (g & s & _ & _ & Hsp & _).
  assert (forall d, all_digits d -> (0 <= decimal_value d)%Z) as Hpos.
  { assert (forall d a, (0 <= a)%Z -> all_digits d -> (0 <= decimal_value_acc a d)%Z) as Hacc.
    { induction d as [|c d IH]; intros a Ha Hd; simpl; auto.
      destruct Hd as [Hc Hd]. apply IH; auto. unfold is_digit, in_range in Hc.
      apply andb_true_iff in Hc as [Hc _]. apply N.leb_le in Hc. lia. }
    intros d Hd. apply Hacc; auto. lia. }
  destruct Hsp as [| | | | | | | | |s w r Hw Hu|s w r t Hw Ht|d r Hd Hne Hr Hdot Hmax
                  |d e r Hd Hne He Hr|s w r t Hw Hs Ht|s w r Hw Hs Hres Hid]; auto.
  - destruct Hw as (_ & Hw & _). auto.
  - destruct t; simpl in Ht; try tauto. intros ->. destruct Ht.
  - exists d, e. auto.
  - destruct t; simpl in Ht; try tauto.
  - destruct Hw as (_ & Hw & _). split; auto. destruct Hid as (? & -> & _). discriminate.
Qed.

(** A digit sequence is read as its value, or rejected when it is too large. *)
Theorem C07_integers `{Unicode} : forall d r ln,
  all_digits d -> d <> "" -> ~ starts_digit r -> ~ starts_with "." r ->
  get_token (mkL (d ++ r) ln) =
  if (decimal_value d <=? 9223372036854775807)%Z
  then (LTok (TNumber (Integer (decimal_value d))), mkL r ln)
  else (LErr (mkLexErr InvalidIdentifier d ln), mkL (match d with String _ d' => d' ++ r | _ => r end) ln).
Proof.
  intros d r ln H1 H2 H3 H4.
  destruct d as [|c d]; [congruence|].
  assert (is_digit c = true) as Hc by (destruct H1; auto).
  assert (token_start (String c d ++ r)) as Hs.
  { simpl. split; [|apply digit_not; auto].
    intros Hw. eapply word_byte_not_delimiter; [apply digit_word; eauto|]. left; auto. }
  assert (E := lex_at_gap false "" (String c d ++ r) ln gap_nil Hs).
  cbn [append count_nl] in E. rewrite N.add_0_r in E. unfold get_token. cbn [append]. rewrite E.
  rewrite lex_at_digit by exact Hc. unfold peek_number.
  change (String c (d ++ r)) with (String c d ++ r).
  rewrite scan_number_int by auto. unfold i64_max.
  destruct (decimal_value (String c d) <=? 9223372036854775807)%Z; reflexivity.
Qed.

Theorem C07_invalid_real_unreachable `{Unicode} : forall p st e st',
  lex p st = (LErr e, st') -> le_type e <> InvalidRealNumber.
Proof.
  intros p st e st' E.
  destruct (lex_step p st _ _ E) as (g & s & _ & _ & _ & Ea & _); [discriminate|].
  eapply proj2, lex_at_err; eauto.
Qed.

(** In an ASCII document an identifier is made of ASCII letters, digits, '_' and '-'. *)
Theorem C07_ascii_identifiers `{Unicode} : forall program st w st',
  str_all is_ascii program -> History program st -> get_token st = (LTok (TIdent w), st') ->
  str_all (fun c => in_range 48 57 c = true \/ in_range 65 90 c = true \/ in_range 97 122 c = true
                    \/ c = "_"%char \/ c = "-"%char) w.
Proof.
  intros program st w st' Ha Hh E. apply history_suffix in Hh as (b & Eb). subst program.
  apply str_all_app in Ha as [_ Ha].
  assert (Hc := C07_content _ _ _ E). simpl in Hc. destruct Hc as [Hc _].
  apply get_token_spec in E as (g & s & Er & _ & Hsp & _). rewrite Er in Ha.
  apply str_all_app in Ha as [_ Ha].
  assert (str_all is_ascii w) as Hw.
  { inversion Hsp; subst; auto;
      try (match goal with Hw : word_at _ _ _ |- _ => destruct Hw as (-> & _) end);
      repeat match goal with
      | Hi : In _ (colon_text (TIdent _)) |- _ => destruct Hi
      | Hi : In _ (bare_text (TIdent _)) |- _ => destruct Hi end;
      simpl in Ha; rewrite ?str_all_app in Ha; tauto. }
  clear - Hc Hw. induction w as [|c w IH]; simpl in *; auto.
  destruct Hc as [Hc Hc'], Hw as [Hw Hw']. split; auto.
  destruct Hc as [Hc|[Hc|Hc]]; auto.
  unfold is_ascii in Hw. unfold latin1_alnum, latin1_alnum_code in Hc. unfold in_range.
  change (N_of_ascii c) with (code c) in Hw. clear -Hc Hw.
  repeat rewrite orb_true_iff in Hc.
  repeat match goal with
  | H : _ \/ _ |- _ => destruct H as [H|H]
  | H : (_ =? _)%N = true |- _ => apply N.eqb_eq in H; lia
  end; auto;
  apply andb_true_iff in Hc as [Hc1 Hc2]; apply N.leb_le in Hc1; lia.
Qed.

(** Outside ASCII the class of `?`-names is decided bytewise: U+037E (Greek
    question mark, bytes CD BE) is accepted after `?` although, if it is not
    alphanumeric, it is rejected as a bare name. *)
Theorem C07_variable_bytes_refuted :
  exists w, fst (@get_token (fun _ => false) (lex_new ("?" ++ w ++ " "))) = LTok (TIdent w)
    /\ fst (@get_token (fun _ => false) (lex_new (w ++ " "))) <> LTok (TIdent w).
Proof. exists (String "205" (String "190" "")). vm_compute. split; [reflexivity|discriminate]. Qed.

Example C07_example :
  fst (@get_token uni0 (lex_new "9223372036854775807)")) = LTok (TNumber (Integer 9223372036854775807))
  /\ fst (@get_token uni0 (lex_new "9223372036854775808)"))
     = LErr (mkLexErr InvalidIdentifier "9223372036854775808" 1).
Proof. vm_compute. auto. Qed.

(** ** C35 *)
Theorem C35_question_mark_token `{Unicode} : forall w r ln,
  str_all word_byte w -> bare_start w -> ~ reserved w -> identifier_text w -> word_end r ->
  get_token (mkL (String "?" (w ++ r)) ln) = (LTok (TIdent w), mkL r ln)
  /\ get_token (mkL (w ++ r) ln) = (LTok (TIdent w), mkL r ln).
Proof. exact question_mark. Qed.

Theorem C35_question_mark_document `{Unicode} : forall q w r,
  clean q -> str_last delimiter q ->
  str_all word_byte w -> bare_start w -> ~ reserved w -> identifier_text w -> word_end r ->
  forall n, stream n (lex_new (q ++ String "?" (w ++ r))) = stream n (lex_new (q ++ w ++ r)).
Proof. exact question_mark_stream. Qed.

Example C35_example :
  str_all word_byte "x1" /\ bare_start "x1" /\ ~ reserved "x1" /\ @identifier_text uni0 "x1"
  /\ word_end ")".
Proof.
  repeat split; simpl; unfold word_byte; auto; try discriminate.
  - intros (t & Ht). apply bare_lookup_spec in Ht. discriminate.
  - exists [120%N; 49%N]. split; [reflexivity|]. repeat constructor.
  - unfold delimiter; auto.
Qed.
