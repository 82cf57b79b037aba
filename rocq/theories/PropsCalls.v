(** C70: how often the parser calls the tokenizer. *)
From Coq Require Import String Ascii NArith ZArith Bool List Lia PeanoNat.
From Verif Require Import Base Token Lexer Errors Ast Parser Calls StrFacts SpecLex LexProofs LexProofs2 LexProofs3
  SpecCalls CallsProofs CallsTop PropsLex.
Import ListNotations.
Open Scope list_scope.
Open Scope nat_scope.

Section C70.
Context `{Unicode}.

(** The calls recorded are those of the parser of Parser.v. *)
Theorem C70_same_result : forall n program, fst (parse_calls n program) = parse n program.
Proof. intros. apply parse_calls_ok. Qed.

(** One pass over the text: every call starts where the one before stopped,
    only the last may fail, nothing is read after the end. *)
Theorem C70_one_pass : forall n program, Session (lex_new program) (snd (parse_calls n program)).
Proof. intros. destruct (parse_calls_ok n program) as (_ & r & Hs). eapply sess_session; eauto. Qed.

(** The tokens read are those of the text, in order, none skipped and none
    read twice. *)
Theorem C70_tokens_once : forall n program, exists ts st',
  Reads (lex_new program) ts st' /\ map fst ts = tokens_of (reading (snd (parse_calls n program))).
Proof. intros. destruct (parse_calls_ok n program) as (_ & r & Hs). eapply sess_reads in Hs; [apply Hs|lia]. Qed.

(** No token is looked at more than twice before it is read. *)
Theorem C70_two_peeks : forall n program l1 a b c l2,
  snd (parse_calls n program) = l1 ++ a :: b :: c :: l2 ->
  c_peek a && c_peek b && c_peek c = false.
Proof.
  intros n program l1 a b c l2 E. destruct (parse_calls_ok n program) as (_ & r & Hs).
  destruct (c_peek a && c_peek b && c_peek c) eqn:Ep; auto. exfalso.
  apply andb_true_iff in Ep as (Ep & Hc). apply andb_true_iff in Ep as (Ha & Hb).
  eapply (sess_no_three_in _ _ _ _ Hs); [lia|exact E| | |]; auto.
Qed.

(** The number of calls, in tokens read and in bytes. *)
Theorem C70_calls_per_token : forall n program,
  length (snd (parse_calls n program)) <= 3 * length (tokens_of (reading (snd (parse_calls n program)))) + 3.
Proof.
  intros. destruct (parse_calls_ok n program) as (_ & r & Hs). eapply sess_reads in Hs; [|lia].
  destruct Hs as (Hs & _). lia.
Qed.
Theorem C70_linear : forall n program, str_last delimiter program ->
  length (snd (parse_calls n program)) <= 3 * String.length program + 6.
Proof.
  intros n program Hl. pose proof (C70_calls_per_token n program) as H1.
  pose proof (session_tokens _ _ (C70_one_pass n program) Hl) as H2. cbn [lex_new rest] in H2. lia.
Qed.

(** All calls together go over at most three times the text. *)
Theorem C70_text_passed : forall n program,
  passed (snd (parse_calls n program)) <= 3 * String.length program.
Proof.
  intros. destruct (parse_calls_ok n program) as (_ & r & Hs). eapply sess_passed in Hs; [|lia].
  cbn [lex_new rest] in Hs. lia.
Qed.

(** A text that stops in the middle of a word is called for without end. *)
Lemma length_get {B} (k : token -> T B) st t st' : get_token st = (LTok t, st') ->
  length (snd (tbind tget k st)) = S (length (snd (k t st'))).
Proof. intros E. unfold tbind, tget. rewrite E. simpl. destruct (k t st'). auto. Qed.
Lemma length_bind {A B} (m : T A) (k : A -> T B) st : length (snd (m st)) <= length (snd (tbind m k st)).
Proof.
  unfold tbind. destruct (m st) as [[a st'| | |] l]; simpl; auto. destruct (k a st') as [r l']. simpl. rewrite app_length. lia.
Qed.
Lemma length_done {A B} (m : T A) (k : A -> T B) st a st' : fst (m st) = POk a st' ->
  length (snd (k a st')) <= length (snd (tbind m k st)).
Proof.
  unfold tbind. destruct (m st) as [x l]. simpl. intros ->. destruct (k a st') as [r l']. simpl. rewrite app_length. lia.
Qed.
Lemma args_calls st : get_token st = (LTok (TIdent ""), st) ->
  forall n r o, length (snd (args_loop_tr n r o (TIdent "") st)) = n.
Proof.
  intros E. induction n as [|n IH]; intros r o; [reflexivity|]. cbn [args_loop_tr].
  unfold tbind at 1. unfold tpos. cbv iota beta.
  match goal with |- length (snd (let '(r0, l') := ?m in _)) = _ => assert (length (snd m) = S n) as Hm end.
  { erewrite length_get by exact E. rewrite IH. auto. }
  match goal with |- length (snd (let '(r0, l') := ?m in _)) = _ => destruct m; auto end.
Qed.
Theorem C70_cut_off_refuted : exists program, forall n, n <= length (snd (parse_calls n program)).
Proof.
  exists "(define (domain d) (:types a"%string. intros [|n]; [lia|].
  unfold parse_calls. match goal with |- _ <= length (snd (match ?x with _ => _ end)) =>
    assert (S n <= length (snd x)) as Hx; [|destruct x as [[] ?]; auto] end.
  unfold parse_doc_tr. erewrite length_get by (vm_compute; reflexivity). cbv beta iota. apply le_S.
  eapply Nat.le_trans; [|eapply length_done; vm_compute; reflexivity]. cbv beta iota.
  eapply Nat.le_trans; [|apply length_bind]. cbn [parse_domain_tr].
  erewrite length_get by (vm_compute; reflexivity). cbv beta iota. apply le_S.
  erewrite length_get by (vm_compute; reflexivity). cbv beta iota. apply le_S.
  eapply Nat.le_trans; [|apply length_bind]. unfold parse_args_tr.
  erewrite length_get by (vm_compute; reflexivity). cbv beta iota. apply le_S.
  rewrite args_calls; [auto|vm_compute; reflexivity].
Qed.

End C70.

Definition calls_theorems := (@C70_same_result, @C70_one_pass, @C70_tokens_once, @C70_two_peeks, @C70_calls_per_token,
  @C70_linear, @C70_text_passed, @C70_cut_off_refuted).

(** ** Concrete cases *)
Open Scope string_scope.
(** An action without precondition and effect: its closing parenthesis is
    looked at twice and then read. *)
Definition bare_action : string := "(define (domain d) (:action a :parameters ()  ))".
Example C70_example :
  str_last delimiter bare_action
  /\ length (snd (@parse_calls uni0 60 bare_action)) = 16
  /\ length (@tokens_of uni0 (reading (snd (@parse_calls uni0 60 bare_action)))) = 14
  /\ @passed uni0 (snd (@parse_calls uni0 60 bare_action)) = String.length bare_action + 2
  /\ map c_peek (skipn 11 (snd (@parse_calls uni0 60 bare_action))) = [false; true; true; false; false].
Proof.
  split; [simpl; unfold delimiter; auto|]. split; [vm_compute; reflexivity|]. split; [vm_compute; reflexivity|].
  split; vm_compute; reflexivity.
Qed.
(** A failing document: the last call is the one that fails. *)
Definition cut_problem : string := "(define (problem p) (:domain d) (:htn :parameters () ~ ".
Example C70_failing_example :
  (exists e, fst (@parse_calls uni0 60 cut_problem) = Err (ELex e))
  /\ length (snd (@parse_calls uni0 60 cut_problem)) = 17.
Proof. split; [eexists; vm_compute; reflexivity|vm_compute; reflexivity]. Qed.
