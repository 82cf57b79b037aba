(** Counting the calls of the parser. *)
From Coq Require Import String Ascii NArith ZArith Bool List Lia PeanoNat.
From Verif Require Import Base Token Lexer Errors Ast Parser Calls
  StrFacts SpecLex LexProofs LexProofs2 LexProofs3 SpecCalls CallsProofs.
Import ListNotations.
Open Scope list_scope.
Open Scope nat_scope.

Section Top.
Context `{Unicode}.

(** ** What follows from the shape *)
Lemma sess_done st l r : sess 3 st l r -> l = [].
Proof. intros Hs. inversion Hs; auto; lia. Qed.
Lemma eof_dec (t : token) : t = TEOF \/ t <> TEOF.
Proof. destruct t; (left; reflexivity) || (right; discriminate). Qed.
Lemma after_other t : t <> TEOF -> after t = 0.
Proof. destruct t; simpl; congruence. Qed.

Lemma sess_session i st l r : sess i st l r -> Session st l.
Proof.
  induction 1 as [i st|i st|i st t st' l r Hi E Hs IH|i st t st' l r Hi E Hs IH|i st Hi|i st Hi]; try constructor.
  - eapply next_call; [exact E|discriminate|auto].
  - destruct (eof_dec t) as [->|Ht].
    + apply sess_done in Hs. subst. constructor.
    + eapply next_call; [exact E|auto|auto].
Qed.

Lemma sess_no_three i st l r : sess i st l r -> i <= 2 ->
  (forall a b c l2, l = a :: b :: c :: l2 -> c_peek a = true -> c_peek b = true -> c_peek c = true -> False)
  /\ (1 <= i -> forall a b l2, l = a :: b :: l2 -> c_peek a = true -> c_peek b = true -> False)
  /\ (2 <= i -> forall a l2, l = a :: l2 -> c_peek a = true -> False).
Proof.
  intros Hs. destruct Hs as [i st|i st|i st t st' l r Hi E Hs|i st t st' l r Hi E Hs|i st Hi|i st Hi]; intros Hle.
  - repeat split; intros; discriminate.
  - repeat split; intros; discriminate.
  - split; [|split].
    + intros a b c l2 El Ha Hb Hc. inversion El; subst. clear El.
      inversion Hs; subst; simpl in *; try discriminate; [].
      match goal with X : sess _ _ (c :: l2) _ |- _ => inversion X; subst; simpl in *; try discriminate; lia end.
    + intros H1 a b l2 El Ha Hb. inversion El; subst. inversion Hs; subst; simpl in *; try discriminate; lia.
    + intros H2. lia.
  - repeat split; intros; match goal with X : _ :: _ = _ |- _ => inversion X; subst; discriminate end.
  - repeat split; intros; try lia; match goal with X : _ :: _ = _ |- _ => inversion X end.
  - repeat split; intros; match goal with X : _ :: _ = _ |- _ => inversion X; subst; discriminate end.
Qed.
Lemma sess_no_three_in i st l r : sess i st l r -> i <= 2 -> forall l1 a b c l2,
  l = l1 ++ a :: b :: c :: l2 -> c_peek a = true -> c_peek b = true -> c_peek c = true -> False.
Proof.
  induction 1 as [i st|i st|i st t st' l r Hi E Hs IH|i st t st' l r Hi E Hs IH|i st Hi|i st Hi]; intros Hle l1 a b c l2 El Ha Hb Hc.
  - destruct l1; discriminate.
  - destruct l1; discriminate.
  - destruct l1 as [|x l1]; simpl in El.
    + eapply (proj1 (sess_no_three i st (mkCall true st :: l) r (ss_peek _ _ t st' _ _ Hi E Hs) Hle)); eauto.
    + inversion El; subst. eapply (IH Hi); eauto.
  - destruct l1 as [|x l1]; simpl in El; inversion El; subst; [discriminate|].
    destruct (eof_dec t) as [->|Ht].
    + apply sess_done in Hs. destruct l1; discriminate.
    + assert (after t <= 2) as Ha2 by (rewrite after_other; auto). eapply (IH Ha2); eauto.
  - destruct l1 as [|x [|]]; discriminate.
  - destruct l1 as [|x [|]]; discriminate.
Qed.

(** A call moves the cursor over a part of the text. *)
Lemma call_moves p st t st' : lex p st = (LTok t, st') -> exists g, rest st = (g ++ rest st')%string.
Proof.
  intros E. destruct (lex_step _ _ _ _ E) as (g & s & Er & _ & _ & _ & _ & x & Es & _); [discriminate|].
  exists (g ++ x)%string. rewrite app_assoc_s. congruence.
Qed.
Lemma peek_same st t st' : lookahead st = (LTok t, st') -> get_token st' = get_token st.
Proof. intros E. apply (peek_then st (LTok t) st' E ltac:(discriminate) false). Qed.
Lemma stretch_le st : stretch st <= String.length (rest st).
Proof. unfold stretch. destruct (get_token st) as [[] st']; lia. Qed.
Lemma stretch_peek st t st' : lookahead st = (LTok t, st') -> stretch st <=
  String.length (rest st) - String.length (rest st') + stretch st' /\ String.length (rest st') <= String.length (rest st).
Proof.
  intros E. destruct (call_moves true _ _ _ E) as (g & Eg). unfold stretch. rewrite (peek_same _ _ _ E).
  assert (String.length (rest st') <= String.length (rest st)) as Hle by (rewrite Eg, app_length_s; lia).
  split; auto. destruct (get_token st) as [[] st2]; lia.
Qed.

Lemma passed_cons p st l : passed (mkCall p st :: l) = stretch st + passed l.
Proof. reflexivity. Qed.

Lemma sess_passed i st l r : sess i st l r -> i <= 2 ->
  passed l + i * stretch st <= 3 * String.length (rest st).
Proof.
  induction 1 as [i st|i st|i st t st' l r Hi E Hs IH|i st t st' l r Hi E Hs IH|i st Hi|i st Hi]; intros Hle;
    pose proof (stretch_le st) as Hb;
    rewrite ?passed_cons.
  - unfold passed. simpl. nia.
  - unfold passed. simpl. nia.
  - destruct (stretch_peek _ _ _ E) as (Hp & Hl). specialize (IH ltac:(lia)).
    simpl in *. nia.
  - destruct (call_moves false _ _ _ E) as (g & Eg).
    assert (String.length (rest st') <= String.length (rest st)) as Hl by (rewrite Eg, app_length_s; lia).
    assert (stretch st = String.length (rest st) - String.length (rest st')) as Es by (unfold stretch; rewrite E; auto).
    destruct (eof_dec t) as [->|Ht].
    + apply sess_done in Hs. subst l. unfold passed. simpl in *. nia.
    + rewrite after_other in IH by auto. specialize (IH ltac:(lia)). simpl in *. nia.
  - unfold passed. simpl in *. nia.
  - unfold passed. simpl in *. nia.
Qed.

Lemma sess_reads i st l r : sess i st l r -> i <= 2 ->
  length l + i <= 3 * length (tokens_of (reading l)) + 3
  /\ exists ts st', Reads st ts st' /\ map fst ts = tokens_of (reading l).
Proof.
  induction 1 as [i st|i st|i st t st' l r Hi E Hs IH|i st t st' l r Hi E Hs IH|i st Hi|i st Hi]; intros Hle.
  - simpl. split; [lia|]. exists [], st. split; auto. constructor.
  - simpl. split; [lia|]. exists [], st. split; auto. constructor.
  - destruct (IH ltac:(lia)) as (Hn & ts & st2 & Hr & Et). change (reading (mkCall true st :: l)) with (reading l).
    simpl length. split; [lia|].
    rewrite <- Et. inversion Hr; subst.
    + exists [], st. split; auto. constructor.
    + rewrite (peek_same _ _ _ E) in *. eexists _, st2. split; [econstructor; eauto|auto].
  - change (reading (mkCall false st :: l)) with (mkCall false st :: reading l).
    cbn [tokens_of c_at]. fold (get_token st). rewrite E. cbn [fst length].
    destruct (eof_dec t) as [->|Ht].
    + apply sess_done in Hs. subst l. simpl. split; [lia|]. eexists [(TEOF, line st')], st'. split; auto. econstructor; eauto. constructor.
    + rewrite after_other in IH by auto. destruct (IH ltac:(lia)) as (Hn & ts & st2 & Hr & Et).
      split; [lia|]. eexists ((t, line st') :: ts), st2. split; [econstructor; eauto|]. simpl. congruence.
  - simpl. split; [lia|]. exists [], st. split; auto. constructor.
  - split.
    + simpl. destruct (fst (lex false st)); simpl; lia.
    + simpl. fold (get_token st). destruct (get_token st) as [o st'] eqn:E. destruct o; simpl.
      * exists [(t, line st')], st'. split; auto. econstructor; eauto. constructor.
      * exists [], st. split; auto. constructor.
      * exists [], st. split; auto. constructor.
      * exists [], st. split; auto. constructor.
Qed.

(** At most as many tokens as bytes, and the end. *)
Lemma session_tokens st l : Session st l -> str_last delimiter (rest st) ->
  length (tokens_of (reading l)) <= S (String.length (rest st)).
Proof.
  induction 1 as [st|p st|p st t st' l E Ht Hs IH]; intros Hl.
  - simpl. lia.
  - destruct p; simpl; [lia|]. destruct (fst (lex false st)); simpl; lia.
  - destruct (call_moves _ _ _ _ E) as (g & Eg).
    assert (str_last delimiter (rest st')) as Hl' by (rewrite Eg in Hl; eapply str_last_suffix; eauto).
    specialize (IH Hl'). destruct p.
    + change (reading (mkCall true st :: l)) with (reading l). rewrite Eg, app_length_s. lia.
    + change (reading (mkCall false st :: l)) with (mkCall false st :: reading l).
      cbn [tokens_of c_at]. rewrite E. cbn [fst length].
      assert (String.length (rest st') < String.length (rest st)) as Hp; [|lia].
      eapply get_progress; [exact E|auto|auto].
Qed.

End Top.
