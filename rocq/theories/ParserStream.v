(** Parsing depends on the token stream only; layout changes move line numbers
    and nothing else. *)
From Coq Require Import String Ascii NArith ZArith Bool List Lia PeanoNat.
From Verif Require Import Base Token Lexer Errors Ast Parser AstRel ParserRel
  StrFacts SpecLex LexProofs LexProofs2 LexProofs3 ParserProofs.
Import ListNotations.
Open Scope list_scope.
Open Scope nat_scope.

Section Stream.
Context `{Unicode}.

(** Stream items equal up to lines. *)
Inductive out_rel (RL : N -> N -> Prop) : lex_out -> lex_out -> Prop :=
| our_tok t : out_rel RL (LTok t) (LTok t)
| our_err t l p p' : RL p p' -> out_rel RL (LErr (mkLexErr t l p)) (LErr (mkLexErr t l p'))
| our_panic p : out_rel RL (LPanic p) (LPanic p)
| our_fuel : out_rel RL LFuel LFuel.

Definition item_rel (RL : N -> N -> Prop) (i i' : lex_out * N) : Prop :=
  out_rel RL (fst i) (fst i') /\ (match fst i with LTok _ => RL (snd i) (snd i') | _ => True end).

Definition streams_rel (RL : N -> N -> Prop) (st st' : lstate) : Prop :=
  forall n, Forall2 (item_rel RL) (stream n st) (stream n st').

Lemma peek_line st t st1 o st' :
  lookahead st = (LTok t, st1) -> get_token st = (o, st') -> line st1 = line st'.
Proof.
  unfold lookahead, get_token. intros E1 E2.
  destruct (lex_step _ _ _ _ E1) as (g & s & Er & Hg & Hs & Ea & El & _); [discriminate|].
  destruct st as [rs ln]; simpl in *; subst rs.
  rewrite lex_at_gap in E2 by auto. rewrite lex_at_peek in Ea. injection Ea as Eo _.
  rewrite E2 in Eo. simpl in Eo. destruct o; try discriminate.
  apply lex_at_state in E2; [|auto]. destruct E2 as [-> _]. rewrite El. reflexivity.
Qed.

Section OneWay.
Variable RL : N -> N -> Prop.
Definition sim_s (st st' : lstate) : Prop := RL (line st) (line st') /\ streams_rel RL st st'.

Lemma sim_get st st' : sim_s st st' ->
  rel_res RL sim_s (fun _ => True) eq (of_lex (get_token st)) (of_lex (get_token st')).
Proof.
  intros [_ Hs].
  assert (forall n, Forall2 (item_rel RL) (stream (S n) st) (stream (S n) st')) as Hs' by (intro; apply Hs).
  cbn [stream] in Hs'.
  destruct (get_token st) as [o s], (get_token st') as [o' s'].
  assert (H0 := Hs' 0). inversion H0 as [|? ? ? ? [Ho Hl] _]; subst. simpl in Ho, Hl.
  destruct Ho; simpl; auto.
  - split; auto. split; auto. intros n. specialize (Hs' n). inversion Hs'; subst; auto.
  - constructor; auto.
Qed.

Lemma sim_peek st st' : sim_s st st' ->
  rel_res RL sim_s (fun _ => True) eq (of_lex (lookahead st)) (of_lex (lookahead st')).
Proof.
  intros Hsim. assert (Hg := sim_get st st' Hsim). destruct Hsim as [_ Hs].
  assert (E := peek_is_next st). assert (E' := peek_is_next st').
  destruct (lookahead st) as [o s] eqn:El, (lookahead st') as [o' s'] eqn:El'.
  destruct (get_token st) as [u v] eqn:Eg, (get_token st') as [u' v'] eqn:Eg'.
  simpl in E, E'. subst o o'.
  destruct u as [t| | |], u' as [t'| | |]; simpl in Hg |- *; try tauto.
  destruct Hg as [-> [Hl _]]. split; auto. split.
  - rewrite (peek_line _ _ _ _ _ El Eg), (peek_line _ _ _ _ _ El' Eg'). auto.
  - intros n. specialize (Hs n). destruct n as [|n]; [constructor|].
    cbn [stream] in Hs |- *.
    replace (get_token s) with (get_token st)
      by (symmetry; eapply (peek_then st _ s El) with (p := false); discriminate).
    replace (get_token s') with (get_token st')
      by (symmetry; eapply (peek_then st' _ s' El') with (p := false); discriminate).
    exact Hs.
Qed.

Lemma parse_doc_stream n st st' : sim_s st st' ->
  rel_res RL sim_s (fun _ => True) (ast_rel RL) (parse_doc n st) (parse_doc n st').
Proof.
  intros Hs. apply (parse_doc_rp RL sim_s (fun _ => True)); auto.
  - intros s s' [Hl _]; auto.
  - exact sim_get.
  - exact sim_peek.
Qed.
End OneWay.

Lemma streams_rel_flip (RL : N -> N -> Prop) st st' :
  streams_rel RL st st' -> streams_rel (fun x y => RL y x) st' st.
Proof.
  intros Hs n. specialize (Hs n). induction Hs as [|i i' l l' [Ho Hl] _ IH]; constructor; auto.
  split.
  - destruct Ho; constructor; auto.
  - destruct Ho; auto.
Qed.

Theorem parse_stream (RL : N -> N -> Prop) n p p' :
  RL 1%N 1%N -> streams_rel RL (lex_new p) (lex_new p') ->
  outcome_rel RL (ast_rel RL) (parse n p) (parse n p').
Proof.
  intros H1 Hs. unfold parse.
  assert (Hr := parse_doc_stream RL n (lex_new p) (lex_new p') (conj H1 Hs)).
  assert (Hr' := parse_doc_stream (fun x y => RL y x) n (lex_new p') (lex_new p)
                   (conj H1 (streams_rel_flip _ _ _ Hs))).
  destruct (parse_doc n (lex_new p)), (parse_doc n (lex_new p')); simpl in Hr, Hr';
    try tauto; try (constructor; tauto).
  destruct Hr as [<- _]. constructor.
Qed.

(** Inserting a gap. *)
Lemma insert_gap_rel q w s :
  clean q -> str_last delimiter q -> Gap w ->
  streams_rel (fun x y => (x <= y <= x + count_nl w)%N) (lex_new (q ++ s)) (lex_new (q ++ w ++ s)).
Proof.
  intros Hc Hl Hw n. destruct (insert_gap q w s Hc Hl Hw) as (k & Hk). rewrite (Hk n).
  set (l := stream n (lex_new (q ++ s))). rewrite <- (firstn_skipn k l) at 1.
  assert (forall i, item_rel (fun x y => (x <= y <= x + count_nl w)%N) i i) as Hrefl.
  { intros [o x]. split; [|destruct o; simpl; auto; lia].
    destruct o as [t|[t lx ln]|p|]; constructor; lia. }
  apply Forall2_app.
  - induction (firstn k l); constructor; auto.
  - induction (skipn k l) as [|[o x] l' IH]; constructor; auto. split; simpl.
    + destruct o as [t|[t lx ln]|p|]; simpl; constructor; simpl; lia.
    + destruct o; auto. simpl. lia.
Qed.

Theorem parse_insert_gap n q w s :
  clean q -> str_last delimiter q -> Gap w ->
  let RL := fun x y => (x <= y <= x + count_nl w)%N in
  outcome_rel RL (ast_rel RL) (parse n (q ++ s)) (parse n (q ++ w ++ s)).
Proof.
  intros Hc Hl Hw RL. apply parse_stream.
  - unfold RL; lia.
  - apply insert_gap_rel; auto.
Qed.

Lemma outcome_rel_eq {A} (RL : N -> N -> Prop) (R : A -> A -> Prop) o o' :
  (forall x y, RL x y -> x = y) -> (forall x y, R x y -> x = y) ->
  outcome_rel RL R o o' -> o = o'.
Proof.
  intros H1 H2 [a a' Ha|e e' He|p|]; auto; f_equal; auto. eapply err_rel_eq; eauto.
Qed.

(** Equal streams. *)
Theorem parse_same_stream n p p' :
  (forall k, stream k (lex_new p) = stream k (lex_new p')) -> parse n p = parse n p'.
Proof.
  intros Hs. eapply outcome_rel_eq with (RL := eq) (R := ast_rel eq); auto.
  - intros x y. apply ast_rel_eq; auto.
  - apply parse_stream; auto. intros k. rewrite Hs.
    induction (stream k (lex_new p')) as [|[o x] l IH]; constructor; auto.
    split; [destruct o as [t|[t lx ln]|q|]; constructor; auto|destruct o; simpl; auto].
Qed.

Theorem parse_question_mark n q w r :
  clean q -> str_last delimiter q ->
  str_all word_byte w -> bare_start w -> ~ reserved w -> identifier_text w -> word_end r ->
  parse n (q ++ String "?" (w ++ r)) = parse n (q ++ w ++ r).
Proof. intros. apply parse_same_stream. apply question_mark_stream; auto. Qed.

End Stream.
