(** Crash freedom, round trip, and independence of the continuation. *)
From Coq Require Import String Ascii NArith ZArith Bool List Lia.
From Verif Require Import Base Token Lexer StrFacts SpecLex LexProofs LexProofs2.
Import ListNotations.
Open Scope string_scope.

(** The observable results of [n] successive reads: token or failure, and line;
    stops after a failure. *)
Fixpoint stream `{Unicode} (n : nat) (st : lstate) : list (lex_out * N) :=
  match n with
  | O => []
  | S n' =>
    let '(o, st') := get_token st in
    (o, line st') :: match o with LTok _ => stream n' st' | _ => [] end
  end.

Section Lex3.
Context `{Unicode}.

(** ** Crash freedom (C05) *)

Lemma ascii_utf8 s : str_all is_ascii s -> utf8_decode s <> None.
Proof.
  induction s as [|c s IH]; simpl; [discriminate|]. intros [Hc Hs].
  unfold is_ascii in Hc. apply N.leb_le in Hc. unfold code. rewrite Hc.
  destruct (utf8_decode s); [discriminate|]. exfalso; apply IH; auto.
Qed.

Lemma peek_lexeme_no_panic s ln p :
  s <> "" -> str_all is_ascii s -> peek_lexeme s ln <> XPanic p.
Proof.
  intros Hs Ha. unfold peek_lexeme. destruct s as [|c s]; [congruence|].
  destruct (scan_lexeme (String c s)) as [[l r] b] eqn:E.
  apply scan_lexeme_split in E. rewrite E in Ha. apply str_all_app in Ha as [Ha _].
  apply ascii_utf8, utf8_ok_true in Ha. rewrite Ha. simpl.
  destruct b; discriminate.
Qed.

Lemma lex_at_no_panic p s ln q :
  str_all is_ascii s -> str_last (fun c => c = "010"%char) s ->
  fst (lex_at p s ln) <> LPanic q.
Proof.
  intros Ha Hl E.
  assert (fst (lex_at false s ln) = LPanic q) as E'.
  { destruct p; auto. rewrite lex_at_peek in E. simpl in E.
    destruct (fst (lex_at false s ln)); simpl in E; congruence. }
  clear E. destruct s as [|c s]; [discriminate|].
  destruct Ha as [Hc Ha].
  assert (forall d, d <> "010"%char -> c = d -> s <> "") as Hne.
  { intros d Hd -> ->. simpl in Hl. congruence. }
  cbn -[str_assoc peek_lexeme peek_number ident_chars Ascii.eqb ordering_type is_digit] in E'.
  destruct (Ascii.eqb c "-"); [discriminate|].
  destruct (Ascii.eqb c "("); [discriminate|].
  destruct (Ascii.eqb c ")"); [discriminate|].
  destruct (_ || _ || _).
  { destruct (ordering_type _ _ _); discriminate. }
  destruct (Ascii.eqb_spec c "?") as [Ec|].
  { destruct (peek_lexeme s ln) eqn:El; try discriminate.
    eapply peek_lexeme_no_panic; [|exact Ha|exact El]. eapply Hne; [|exact Ec]; discriminate. }
  destruct (Ascii.eqb_spec c ":") as [Ec|].
  { destruct (peek_lexeme s ln) eqn:El; try discriminate.
    - destruct (str_assoc lexeme colon_words); discriminate.
    - eapply peek_lexeme_no_panic; [|exact Ha|exact El]. eapply Hne; [|exact Ec]; discriminate. }
  destruct (is_digit c).
  { destruct (peek_number (String c s) ln); discriminate. }
  destruct (peek_lexeme (String c s) ln) eqn:El; try discriminate.
  - destruct (str_assoc lexeme bare_words); [discriminate|].
    destruct (str_assoc lexeme operators); [discriminate|].
    destruct (ident_chars lexeme); discriminate.
  - eapply peek_lexeme_no_panic; [| |exact El]; [discriminate|simpl; auto].
Qed.

Lemma lex_no_panic p st q :
  str_all is_ascii (rest st) -> str_last (fun c => c = "010"%char) (rest st) ->
  fst (lex p st) <> LPanic q.
Proof.
  intros Ha Hl.
  destruct (lex_view_ok p st) as [g s E1 Hg Hs ->|g s E1 Hg Hs ->]; rewrite E1 in *.
  - apply str_all_app in Ha as [_ Ha]. apply str_last_suffix in Hl.
    apply lex_at_no_panic; auto.
  - exfalso. apply str_last_suffix in Hl. destruct Hs as (text & -> & Ht).
    clear - Hl Ht. destruct text as [|c t]; [simpl in Hl; discriminate|].
    change (String ";" (String c t)) with (";" ++ String c t) in Hl.
    apply str_last_suffix in Hl.
    destruct (str_snoc (String c t)) as (f & d & E); [discriminate|].
    rewrite E in *. apply str_last_suffix in Hl. simpl in Hl. subst d.
    apply Ht. apply str_in_app. simpl. auto.
Qed.

Lemma history_suffix program st :
  History program st -> exists b, program = b ++ rest st.
Proof. intros Hh. apply history_line in Hh as (b & E & _). eauto. Qed.

(** ** Round trip (C06) *)

Lemma delimiter_not_digit d r : delimiter d -> ~ starts_digit (String d r).
Proof.
  simpl. intros Hd E. eapply word_byte_not_delimiter; [|exact Hd]. apply digit_word; auto.
Qed.

Lemma delimiter_neq d c : ~ delimiter c -> delimiter d -> d <> c.
Proof. intros H1 H2 ->. auto. Qed.

Lemma bare_text_word t w : In w (bare_text t) -> str_all word_byte w /\ bare_start w.
Proof.
  destruct t as [k| | |o| | |]; simpl; try tauto;
    [destruct k|destruct o]; simpl; intros Hi;
    repeat (destruct Hi as [<-|Hi];
            [unfold bare_start, word_byte; simpl; intuition discriminate|]); destruct Hi.
Qed.

Lemma colon_text_word t w : In w (colon_text t) -> str_all word_byte w.
Proof.
  destruct t as [k| | | | |r|]; simpl; try tauto;
    [destruct k|destruct r]; simpl; intros Hi;
    repeat (destruct Hi as [<-|Hi]; [unfold word_byte; simpl; intuition auto|]); destruct Hi.
Qed.

Lemma bare_start_app w r : bare_start w -> bare_start (w ++ r).
Proof. destruct w; simpl; tauto. Qed.

Lemma written_spells t x d r :
  Written t x -> delimiter d -> Spells (x ++ String d r) t (String d r).
Proof.
  intros Hw Hd.
  assert (word_end (String d r)) as He by (simpl; auto).
  assert (d <> "="%char) as Hne.
  { intros ->. destruct Hd as [[E|[E|[E|E]]]|[E|E]]; discriminate. }
  assert (d <> "."%char) as Hnd.
  { intros ->. destruct Hd as [[E|[E|[E|E]]]|[E|E]]; discriminate. }
  destruct Hw; simpl; try (constructor; simpl; auto; fail).
  - apply sp_variable; auto. repeat split; auto.
  - apply sp_ident; auto using bare_start_app. repeat split; auto.
  - eapply sp_colon; eauto. repeat split; eauto using colon_text_word.
  - destruct (bare_text_word _ _ H0). eapply sp_word; eauto using bare_start_app.
    repeat split; auto.
  - apply sp_integer; auto using delimiter_not_digit.
  - rewrite app_assoc_s. simpl. apply sp_real; auto using delimiter_not_digit.
Qed.

(** Tokens with their spelling and the separator written after them. *)
Fixpoint text_of (l : list (token * string * string)) : string :=
  match l with
  | [] => ""
  | (_, x, g) :: l' => x ++ g ++ text_of l'
  end.

(** The tokens with the line of each, starting at line [ln]. *)
Fixpoint lines_of (ln : N) (l : list (token * string * string)) : list (token * N) :=
  match l with
  | [] => []
  | (t, _, g) :: l' => (t, ln) :: lines_of (ln + count_nl g) l'
  end.

(** A separator: starts with whitespace. *)
Definition separator (g : string) : Prop :=
  Gap g /\ match g with String c _ => ws c | EmptyString => False end.

Definition well_written (l : list (token * string * string)) : Prop :=
  Forall (fun e => Written (fst (fst e)) (snd (fst e)) /\ separator (snd e)) l.

Lemma written_gap_reads : forall l g ln,
  well_written l -> Gap g ->
  exists g' ln',
    Reads (mkL (g ++ text_of l) ln) (lines_of (ln + count_nl g) l) (mkL g' ln') /\ Gap g'.
Proof.
  induction l as [|[[t x] g1] l IH]; intros g ln Hw Hg; simpl.
  - exists g, ln. rewrite app_nil_r_s. split; [constructor|auto].
  - inversion Hw as [|? ? [Hx Hs] Hw']; subst. simpl in Hx, Hs.
    destruct Hs as [Hg1 Hs]. destruct g1 as [|d g1]; [destruct Hs|].
    destruct (IH (String d g1) (ln + count_nl g)%N Hw' Hg1) as (g' & ln' & Hr & Hg').
    exists g', ln'. split; auto.
    apply (rd_cons _ t (mkL (String d g1 ++ text_of l) (ln + count_nl g))); auto.
    apply get_token_spec. exists g, (x ++ String d g1 ++ text_of l).
    repeat split; auto.
    apply written_spells; auto. left; auto.
Qed.

Lemma gap_eof g ln : Gap g -> get_token (mkL g ln) = (LTok TEOF, mkL "" (ln + count_nl g)).
Proof.
  intros Hg. apply get_token_spec. exists g, "". rewrite app_nil_r_s.
  repeat split; auto. constructor.
Qed.

Lemma decimal_value_snoc s : forall acc c,
  decimal_value_acc acc (s ++ String c "") =
  (decimal_value_acc acc s * 10 + (Z.of_N (code c) - 48))%Z.
Proof. induction s as [|a s IH]; intros acc c; simpl; [reflexivity|]. apply IH. Qed.

Lemma digit_exists n : (n < 10)%N ->
  exists c, is_digit c = true /\ Z.of_N (code c) = (Z.of_N n + 48)%Z.
Proof.
  intros Hn. exists (ascii_of_N (48 + n)).
  unfold is_digit, in_range, code. rewrite N_ascii_embedding by lia.
  split; [|lia]. apply andb_true_iff; split; apply N.leb_le; lia.
Qed.

Lemma decimal_exists : forall n,
  exists d, all_digits d /\ d <> "" /\ decimal_value d = Z.of_N n.
Proof.
  intros n. induction n as [n IH] using (well_founded_induction N.lt_wf_0).
  destruct (N.ltb_spec n 10) as [Hn|Hn].
  - destruct (digit_exists n Hn) as (c & Hc & Ec). exists (String c "").
    unfold all_digits, decimal_value; simpl. repeat split; auto; [discriminate|lia].
  - destruct (IH (n / 10)%N) as (d & Hd & Hne & Ed); [apply N.div_lt; lia|].
    destruct (digit_exists (n mod 10)%N) as (c & Hc & Ec); [apply N.mod_lt; lia|].
    exists (d ++ String c ""). unfold all_digits in *. rewrite str_all_app. simpl.
    repeat split; auto; [apply str_nonempty_app_r; discriminate|].
    unfold decimal_value in *. rewrite decimal_value_snoc, Ed, Ec.
    assert (E := N.div_mod n 10). lia.
Qed.

Lemma printable_written t : printable t -> exists x, Written t x.
Proof.
  destruct t as [k|w|[l|z]|o|p|r|]; simpl; intros Hp.
  - destruct k;
      try (eexists; eapply (wr_colon _ _); simpl; left; reflexivity).
    eexists. apply (wr_bare (TKeyword KDefine) "define"). simpl; auto.
  - exists (String "?" w). apply wr_variable; tauto.
  - destruct Hp as (d & e & -> & H1 & H2 & H3). exists (d ++ String "." e). apply wr_real; auto.
  - destruct (decimal_exists (Z.to_N z)) as (d & H1 & H2 & H3).
    exists d. rewrite Z2N.id in H3 by lia. rewrite <- H3. apply wr_integer; auto. lia.
  - destruct o; eexists;
      try (constructor; fail); try (eapply (wr_bare (TOp _)); simpl; left; reflexivity).
  - destruct p; eexists; constructor.
  - destruct r; try congruence; eexists; eapply (wr_colon (TReq _)); simpl; left; reflexivity.
  - destruct Hp.
Qed.

(** ** Reading only looks at a prefix *)

Lemma scan_lexeme_cons c s :
  scan_lexeme (String c s) =
  let '(valid, bad) := lexeme_char c in
  if negb valid then (EmptyString, String c s, false)
  else match s with
       | EmptyString => (EmptyString, String c s, bad)
       | _ => let '(l, r, b) := scan_lexeme s in (String c l, r, bad || b)
       end.
Proof. reflexivity. Qed.

Lemma scan_lexeme_prefix q s :
  q <> "" -> str_last delimiter q ->
  exists l r b x, scan_lexeme (q ++ s) = (l, r ++ s, b) /\ q = x ++ r /\ r <> ""
            /\ forall s', scan_lexeme (q ++ s') = (l, r ++ s', b).
Proof.
  induction q as [|c q IH]; [congruence|]. intros _ Hl. cbn [append].
  setoid_rewrite scan_lexeme_cons.
  destruct (lexeme_char c) as [v bd] eqn:Ec. destruct v; cbn [negb].
  - destruct q as [|d q].
    { simpl in Hl. rewrite (lexeme_char_delimiter c Hl) in Ec. discriminate. }
    destruct IH as (l & r & b & x & E1 & E2 & E3 & E4); [discriminate|exact Hl|].
    exists (String c l), r, (bd || b), (String c x).
    cbn [append] in *. rewrite E1. repeat split; auto.
    + rewrite E2. reflexivity.
    + intros s'. rewrite E4. reflexivity.
  - exists "", (String c q), false, "". repeat split; auto. discriminate.
Qed.

Lemma scan_number_prefix q s : forall sn,
  q <> "" -> str_last delimiter q ->
  exists l r b x, scan_number sn (q ++ s) = (l, r ++ s, b) /\ q = x ++ r
            /\ forall s', scan_number sn (q ++ s') = (l, r ++ s', b).
Proof.
  induction q as [|c q IH]; [congruence|]. intros sn _ Hl. simpl.
  destruct (is_digit c) eqn:Ed.
  - destruct q as [|d q].
    { simpl in Hl. exfalso. eapply word_byte_not_delimiter; [|exact Hl]. apply digit_word; auto. }
    destruct (IH sn) as (l & r & b & x & E1 & E2 & E4); [discriminate|exact Hl|].
    exists (String c l), r, b, (String c x). rewrite E1. repeat split; auto.
    + rewrite E2; reflexivity.
    + intros s'. rewrite E4. reflexivity.
  - destruct (Ascii.eqb_spec c ".") as [->|Hc]; simpl.
    + destruct sn; simpl.
      * exists "", (String "." q), true, "". repeat split; auto.
      * destruct q as [|d q].
        { simpl in Hl. destruct Hl as [[E|[E|[E|E]]]|[E|E]]; discriminate. }
        destruct (IH true) as (l & r & b & x & E1 & E2 & E4); [discriminate|exact Hl|].
        exists (String "." l), r, b, (String "." x). rewrite E1. repeat split; auto.
        -- rewrite E2; reflexivity.
        -- intros s'. rewrite E4. reflexivity.
    + exists "", (String c q), sn, "". repeat split; auto.
Qed.

Lemma peek_lexeme_prefix q ln :
  q <> "" -> str_last delimiter q ->
  exists k, (forall s', peek_lexeme (q ++ s') ln =
      match k with
      | XOk l r => XOk l (r ++ s')
      | o => o end)
    /\ (forall l r, k = XOk l r -> exists x, q = x ++ r).
Proof.
  intros Hq Hl. destruct (scan_lexeme_prefix q "" Hq Hl) as (l & r & b & x & _ & E2 & _ & E4).
  exists (if negb (utf8_ok l) then XPanic PanicUtf8
          else if b then XErr (mkLexErr InvalidIdentifier l ln) else XOk l r).
  split.
  - intros s'. unfold peek_lexeme.
    destruct (q ++ s') eqn:E; [destruct q; [congruence|discriminate]|].
    rewrite <- E, E4. destruct (negb (utf8_ok l)); [reflexivity|]. destruct b; reflexivity.
  - intros l' r' E. destruct (negb (utf8_ok l)); [discriminate|].
    destruct b; [discriminate|]. injection E as <- <-. eauto.
Qed.

Lemma peek_number_prefix q ln :
  q <> "" -> str_last delimiter q ->
  exists k, (forall s', peek_number (q ++ s') ln =
      match k with
      | NOk n r => NOk n (r ++ s')
      | o => o end)
    /\ (forall n r, k = NOk n r -> exists x, q = x ++ r).
Proof.
  intros Hq Hl. destruct (scan_number_prefix q "" false Hq Hl) as (l & r & b & x & _ & E2 & E4).
  exists (if b then if f64_parses l then NOk (Real l) r
                    else NErr (mkLexErr InvalidRealNumber l ln)
          else if (decimal_value l <=? i64_max)%Z then NOk (Integer (decimal_value l)) r
               else NErr (mkLexErr InvalidIdentifier l ln)).
  split.
  - intros s'. unfold peek_number. rewrite E4.
    destruct b; [destruct (f64_parses l)|destruct (_ <=? _)%Z]; reflexivity.
  - intros n' r'. destruct b; [destruct (f64_parses l)|destruct (_ <=? _)%Z];
      intros E; try discriminate; injection E as <- <-; eauto.
Qed.

Lemma lex_at_prefix q ln :
  q <> "" -> str_last delimiter q ->
  exists out q', (exists x, q = x ++ q') /\
    forall s, lex_at false (q ++ s) ln = (out, mkL (q' ++ s) ln).
Proof.
  destruct q as [|c q]; [congruence|]. intros Hq Hl.
  assert (exists x, String c q = x ++ q) as Hx by (exists (String c ""); reflexivity).
  cbn [append].
  cbn -[str_assoc peek_lexeme peek_number ident_chars Ascii.eqb ordering_type is_digit].
  destruct (Ascii.eqb_spec c "-"); [exists (LTok (TPunct Dash)), q; auto|].
  destruct (Ascii.eqb_spec c "("); [exists (LTok (TPunct LParen)), q; auto|].
  destruct (Ascii.eqb_spec c ")"); [exists (LTok (TPunct RParen)), q; auto|].
  assert (q <> "" \/ ws c) as Hqe.
  { destruct q; [right|left; discriminate]. simpl in Hl. destruct Hl as [?|[?|?]]; tauto. }
  destruct (Ascii.eqb_spec c "<") as [->|].
  { cbn [orb]. destruct Hqe as [Hqe|[E|[E|[E|E]]]]; try discriminate.
    destruct q as [|d q]; [congruence|]. unfold ordering_type. simpl.
    destruct (Ascii.eqb d "=").
    - exists (LTok (TOp OLessEq)), q. split; auto. exists (String "<" (String d "")); reflexivity.
    - exists (LTok (TOp OLess)), (String d q). split; auto. }
  destruct (Ascii.eqb_spec c ">") as [->|].
  { cbn [orb]. destruct Hqe as [Hqe|[E|[E|[E|E]]]]; try discriminate.
    destruct q as [|d q]; [congruence|]. unfold ordering_type. simpl.
    destruct (Ascii.eqb d "=").
    - exists (LTok (TOp OGreaterEq)), q. split; auto. exists (String ">" (String d "")); reflexivity.
    - exists (LTok (TOp OGreater)), (String d q). split; auto. }
  destruct (Ascii.eqb_spec c "=") as [->|].
  { cbn [orb]. exists (LTok (TOp OEqual)), q. split; auto. }
  cbn [orb].
  destruct (Ascii.eqb_spec c "?") as [->|].
  { destruct Hqe as [Hqe|[E|[E|[E|E]]]]; try discriminate.
    destruct (peek_lexeme_prefix q ln Hqe) as (k & Hk & Hkr).
    { destruct q; [congruence|exact Hl]. }
    destruct k as [l r|e|p].
    - destruct (Hkr l r eq_refl) as (x & ->).
      exists (LTok (TIdent l)), r. split; [exists (String "?" x); reflexivity|].
      intros s. rewrite Hk. reflexivity.
    - exists (LErr e), q. split; auto. intros s. rewrite Hk. reflexivity.
    - exists (LPanic p), q. split; auto. intros s. rewrite Hk. reflexivity. }
  destruct (Ascii.eqb_spec c ":") as [->|].
  { destruct Hqe as [Hqe|[E|[E|[E|E]]]]; try discriminate.
    destruct (peek_lexeme_prefix q ln Hqe) as (k & Hk & Hkr).
    { destruct q; [congruence|exact Hl]. }
    destruct k as [l r|e|p].
    - destruct (Hkr l r eq_refl) as (x & ->).
      destruct (str_assoc l colon_words) as [t|] eqn:Et.
      + exists (LTok t), r. split; [exists (String ":" x); reflexivity|].
        intros s. rewrite Hk, Et. reflexivity.
      + exists (LErr (mkLexErr InvalidKeyword l ln)), r. split; [exists (String ":" x); reflexivity|].
        intros s. rewrite Hk, Et. reflexivity.
    - exists (LErr e), q. split; auto. intros s. rewrite Hk. reflexivity.
    - exists (LPanic p), q. split; auto. intros s. rewrite Hk. reflexivity. }
  destruct (is_digit c) eqn:Ed.
  { destruct (peek_number_prefix (String c q) ln Hq Hl) as (k & Hk & Hkr).
    cbn [append] in Hk. destruct k as [n' r|e].
    - exists (LTok (TNumber n')), r. split; [eauto|]. intros s. rewrite Hk. reflexivity.
    - exists (LErr e), q. split; auto. intros s. rewrite Hk. reflexivity. }
  destruct (peek_lexeme_prefix (String c q) ln Hq Hl) as (k & Hk & Hkr).
  cbn [append] in Hk. destruct k as [l r|e|p].
  - destruct (Hkr l r eq_refl) as (x & Ex).
    destruct (str_assoc l bare_words) as [t|] eqn:Et.
    { exists (LTok t), r. split; [eauto|]. intros s. rewrite Hk, Et. reflexivity. }
    destruct (str_assoc l operators) as [o|] eqn:Eo.
    { exists (LTok (TOp o)), r. split; [eauto|]. intros s. rewrite Hk, Et, Eo. reflexivity. }
    destruct (ident_chars l) eqn:Ei.
    { exists (LTok (TIdent l)), r. split; [eauto|]. intros s. rewrite Hk, Et, Eo, Ei. reflexivity. }
    exists (LErr (mkLexErr InvalidIdentifier l ln)), r. split; [eauto|].
    intros s. rewrite Hk, Et, Eo, Ei. reflexivity.
  - exists (LErr e), q. split; auto. intros s. rewrite Hk. reflexivity.
  - exists (LPanic p), q. split; auto. intros s. rewrite Hk. reflexivity.
Qed.

Lemma clean_suffix x q : clean (x ++ q) -> clean q.
Proof.
  intros Hc a b E. apply (Hc (x ++ a)). rewrite E, app_assoc_s. reflexivity.
Qed.

Lemma lex_at_eof_only s ln st' :
  token_start s -> lex_at false s ln = (LTok TEOF, st') -> s = "".
Proof.
  intros Hs E. apply lex_at_sound in E as (r & _ & Hsp); auto.
  inversion Hsp; subst; auto;
    repeat match goal with
    | Hi : In _ (colon_text TEOF) |- _ => destruct Hi
    | Hi : In _ (bare_text TEOF) |- _ => destruct Hi end.
Qed.

Lemma get_token_gap st st' :
  (exists g, Gap g /\ rest st = g ++ rest st' /\ line st' = (line st + count_nl g)%N) ->
  get_token st = get_token st'.
Proof.
  intros (g & Hg & E1 & E2). destruct st as [r l], st' as [r' l']; simpl in *; subst.
  apply lex_gap; auto.
Qed.

(** A prefix that leaves no comment open and ends in a delimiter is tokenized
    the same way whatever follows, and then what follows is tokenized from the
    line reached. *)
Lemma stream_prefix : forall m q ln,
  (String.length q < m)%nat -> clean q -> str_last delimiter q ->
  exists hd (stop : bool) ln', forall s n,
    stream n (mkL (q ++ s) ln) = firstn n (hd ++ if stop then [] else stream n (mkL s ln')).
Proof.
  assert (forall n st, firstn n (stream n st) = stream n st) as Hfirst.
  { induction n as [|n IH]; intros st; [reflexivity|]. simpl.
    destruct (get_token st) as [o st']. destruct o; simpl; rewrite ?firstn_nil; try reflexivity.
    rewrite IH. reflexivity. }
  assert (forall n m st, (n <= m)%nat -> firstn n (stream m st) = stream n st) as Hfirst2.
  { induction n as [|n IH]; intros m st Hnm; [reflexivity|].
    destruct m as [|m]; [lia|]. simpl.
    destruct (get_token st) as [o st']. destruct o; simpl; rewrite ?firstn_nil; try reflexivity.
    rewrite IH; auto; lia. }
  induction m as [|m IH]; intros q ln Hm Hc Hl; [lia|].
  destruct (lex_view_ok false (mkL q ln)) as [g q1 E1 Hg Hs _|g q1 E1 Hg Hs _]; simpl in E1; subst q.
  2:{ exfalso. apply clean_suffix in Hc. destruct Hs as (t & -> & Ht).
      apply Ht, (Hc ""). reflexivity. }
  destruct q1 as [|c q1].
  - exists [], false, (ln + count_nl g)%N. intros s n. simpl. rewrite Hfirst.
    rewrite app_nil_r_s. destruct n as [|n]; [reflexivity|]. simpl.
    rewrite (get_token_gap (mkL (g ++ s) ln) (mkL s (ln + count_nl g))); [reflexivity|].
    exists g. auto.
  - assert (str_last delimiter (String c q1)) as Hl1 by (eapply str_last_suffix; eauto).
    destruct (lex_at_prefix (String c q1) (ln + count_nl g)) as (out & q' & (x & Ex) & Hout);
      [discriminate|auto|].
    assert (forall s, get_token (mkL ((g ++ String c q1) ++ s) ln)
                      = (out, mkL (q' ++ s) (ln + count_nl g))) as Hget.
    { intros s. rewrite app_assoc_s. unfold get_token. rewrite lex_at_gap; auto. }
    destruct out as [t|e|p|].
    + assert (t <> TEOF) as Ht.
      { intros ->. specialize (Hout ""). apply lex_at_eof_only in Hout; [discriminate|].
        exact Hs. }
      destruct (IH q' (ln + count_nl g)%N) as (hd & stop & ln' & Hst).
      * assert (Hp := get_progress _ _ _ (Hget "") Ht). rewrite app_nil_r_s in Hp. simpl in Hp.
        rewrite app_nil_r_s in Hp.
        specialize (Hp Hl). lia.
      * rewrite Ex in Hc. apply clean_suffix in Hc. apply clean_suffix in Hc. exact Hc.
      * rewrite Ex in Hl1. eapply str_last_suffix; eauto.
      * exists ((LTok t, (ln + count_nl g)%N) :: hd), stop, ln'.
        intros s n. destruct n as [|n]; [reflexivity|].
        remember (stream (S n) (mkL s ln')) as big eqn:Eb.
        cbn [stream]. rewrite Hget. cbn [line]. rewrite Hst.
        cbn [app firstn]. f_equal.
        destruct stop; [reflexivity|].
        rewrite !firstn_app. f_equal. subst big. rewrite !Hfirst2; auto; lia.
    + exists [(LErr e, (ln + count_nl g)%N)], true, 0%N. intros s n.
      destruct n as [|n]; [reflexivity|]. simpl stream. rewrite Hget. simpl.
      rewrite firstn_nil. reflexivity.
    + exists [(LPanic p, (ln + count_nl g)%N)], true, 0%N. intros s n.
      destruct n as [|n]; [reflexivity|]. simpl stream. rewrite Hget. simpl.
      rewrite firstn_nil. reflexivity.
    + exists [(LFuel, (ln + count_nl g)%N)], true, 0%N. intros s n.
      destruct n as [|n]; [reflexivity|]. simpl stream. rewrite Hget. simpl.
      rewrite firstn_nil. reflexivity.
Qed.

(** Line shift of a stream. *)
Definition shift_item (k : N) (i : lex_out * N) : lex_out * N :=
  (shift_out k (fst i), (snd i + k)%N).

Lemma stream_shift : forall n s ln k,
  stream n (mkL s (ln + k)) = map (shift_item k) (stream n (mkL s ln)).
Proof.
  induction n as [|n IH]; intros s ln k; [reflexivity|]. simpl.
  unfold get_token. rewrite lex_shift.
  destruct (lex false (mkL s ln)) as [o st']. simpl. f_equal.
  destruct o; try reflexivity. simpl. destruct st' as [r l]. apply IH.
Qed.

Lemma firstn_map_split {A} (f : A -> A) n (hd l : list A) :
  firstn n (hd ++ map f l)%list =
  (firstn (length hd) (firstn n (hd ++ l))
   ++ map f (skipn (length hd) (firstn n (hd ++ l))))%list.
Proof.
  rewrite (firstn_app n hd l), (firstn_app n hd (map f l)).
  destruct (Nat.le_gt_cases (length hd) n) as [Hle|Hgt].
  - rewrite !(firstn_all2 hd) by lia.
    rewrite firstn_app, firstn_all, Nat.sub_diag, skipn_app, skipn_all, Nat.sub_diag.
    simpl. rewrite app_nil_r, firstn_map. reflexivity.
  - replace (n - length hd)%nat with 0%nat by lia. simpl. rewrite !app_nil_r.
    rewrite firstn_firstn. replace (Nat.min (length hd) n) with n by lia.
    rewrite skipn_all2 by (rewrite firstn_length; lia). simpl. rewrite app_nil_r. reflexivity.
Qed.

(** Inserting a gap shifts the lines of what follows and changes nothing else. *)
Lemma insert_gap q w s :
  clean q -> str_last delimiter q -> Gap w ->
  exists k, forall n,
    stream n (lex_new (q ++ w ++ s)) =
    (firstn k (stream n (lex_new (q ++ s)%string))
     ++ map (shift_item (count_nl w)) (skipn k (stream n (lex_new (q ++ s)%string))))%list.
Proof.
  intros Hc Hl Hw.
  destruct (stream_prefix (S (String.length q)) q 1%N) as (hd & stop & ln' & Hst); auto.
  exists (length hd). intros n. unfold lex_new. rewrite !Hst.
  destruct stop.
  - apply (firstn_map_split (shift_item (count_nl w)) n hd []).
  - assert (stream n (mkL (w ++ s) ln') = map (shift_item (count_nl w)) (stream n (mkL s ln'))) as E.
    { rewrite <- stream_shift. destruct n as [|n]; [reflexivity|]. simpl.
      rewrite (get_token_gap (mkL (w ++ s) ln') (mkL s (ln' + count_nl w))); [reflexivity|].
      exists w; auto. }
    rewrite E. apply firstn_map_split.
Qed.

(** C35 *)
Lemma question_mark w r ln :
  str_all word_byte w -> bare_start w -> ~ reserved w -> identifier_text w -> word_end r ->
  get_token (mkL (String "?" (w ++ r)) ln) = (LTok (TIdent w), mkL r ln)
  /\ get_token (mkL (w ++ r) ln) = (LTok (TIdent w), mkL r ln).
Proof.
  intros H1 H2 H3 H4 H5.
  assert (word_at (w ++ r) w r) as Hw by (repeat split; auto).
  split; apply get_token_spec.
  - exists "", (String "?" (w ++ r)). simpl. repeat split; auto; [constructor| |lia].
    apply sp_variable; auto. destruct H4 as (? & -> & _). discriminate.
  - exists "", (w ++ r). simpl. repeat split; auto; [constructor| |lia].
    apply sp_ident; auto using bare_start_app.
Qed.

Lemma question_mark_stream q w r :
  clean q -> str_last delimiter q ->
  str_all word_byte w -> bare_start w -> ~ reserved w -> identifier_text w -> word_end r ->
  forall n, stream n (lex_new (q ++ String "?" (w ++ r))) = stream n (lex_new (q ++ w ++ r)).
Proof.
  intros Hc Hl H1 H2 H3 H4 H5 n.
  destruct (stream_prefix (S (String.length q)) q 1%N) as (hd & stop & ln' & Hst); auto.
  unfold lex_new. rewrite !Hst. destruct stop; auto. f_equal. f_equal.
  destruct n as [|n]; [reflexivity|]. simpl.
  destruct (question_mark w r ln' H1 H2 H3 H4 H5) as [-> ->]. reflexivity.
Qed.

End Lex3.
