(** C84: what the message for a rejected document quotes, and that it is a single
    line.  Specification: SpecQuote.v. *)
From Coq Require Import String Ascii NArith ZArith Bool List Lia PeanoNat.
From Verif Require Import Base Token Lexer Errors Ast Parser Graph Semantic Tdg Api StrFacts SpecLex SpecLexErr LexProofs LexProofs2 SpecBlame ParserPrefix
  VerifyTop PropsLex PropsParse PropsLexErr PropsTdg SpecSem SemDomain SemProblem SpecText TextProofs PropsText SpecReport PropsReport SpecQuote QuoteProofs PropsBlame Double DisplayProofs.
Import ListNotations.
Open Scope list_scope.
Open Scope nat_scope.

Section S.
Context `{Unicode}.
Variable he : hash_env.
Hypothesis Hhe : hash_env_ok he.

(** The text after "expected": one of the fixed texts, or one that quotes a name
    the document has on the reported line or above. *)
Theorem C84_expected : forall n program e, parse n program = Err (ESyn e) ->
  In (se_expected e) fixed_texts
  \/ exists x, read_by program (se_line e) x /\ In (se_expected e) (quoting_texts x).
Proof. intros n program e E. exact (parse_quotes program n e E). Qed.

Lemma reads_known ts st st' : Reads st ts st' -> forall t l, In (t, l) ts -> exists s s', get_token s = (LTok t, s').
Proof. induction 1 as [|st t st1 ts st2 E Hr IH]; intros u l []; [|eauto]. injection H0 as <- <-. eauto. Qed.
Lemma read_word program k x : read_by program k x -> a_word x.
Proof.
  intros (ts & l & st & Hr & Hi & _). destruct (reads_known _ _ _ Hr _ _ Hi) as (s & s' & E). exact (proj1 (C07_content _ _ _ E)).
Qed.
Lemma all_breaks (Q : ascii -> Prop) s : ~ Q "010"%char -> str_all Q s -> line_breaks s = 0.
Proof.
  intros HQ. induction s as [|c s IH]; simpl; auto. intros [Hc Hs]. destruct (Ascii.eqb_spec c "010"); [subst; tauto|]. apply IH, Hs.
Qed.
Lemma digits_breaks s : all_digits s -> line_breaks s = 0.
Proof. apply all_breaks. discriminate. Qed.
Lemma Z_breaks z : line_breaks (show_Z z) = 0.
Proof. destruct z; cbn [show_Z line_breaks]; rewrite ?show_N_breaks; auto. Qed.
Lemma fixed_breaks s : In s fixed_texts -> line_breaks s = 0.
Proof.
  intros Hi. assert (forallb (fun s => Nat.eqb (line_breaks s) 0) fixed_texts = true) as Hf by (vm_compute; reflexivity).
  rewrite forallb_forall in Hf. apply Nat.eqb_eq, Hf, Hi.
Qed.
Lemma quoting_breaks x s : line_breaks x = 0 -> In s (quoting_texts x) -> line_breaks s = 0.
Proof.
  intros Hx Hi. unfold quoting_texts in Hi. cbn [In] in Hi.
  repeat (destruct Hi as [<-|Hi]; [rewrite ?breaks_app, ?Hx; reflexivity|]). destruct Hi.
Qed.
Lemma token_breaks t : match t with TIdent w => a_word w | _ => True end ->
  line_breaks (show_token t) = 0.
Proof.
  destruct t as [k|s|[l|z]|o|p|r|]; cbn beta iota; cbn [show_token show_number]; intros Ht.
  - destruct k; reflexivity.
  - rewrite breaks_app, (word_breaks s) by auto. reflexivity.
  - rewrite breaks_app. destruct (display_bytes l) as [->|Hb]; [reflexivity|]. rewrite (all_breaks _ (display64 l)) with (2 := Hb); [reflexivity|]. intros [E|E]; discriminate.
  - rewrite breaks_app, Z_breaks. reflexivity.
  - destruct o; reflexivity.
  - destruct p; reflexivity.
  - destruct r; reflexivity.
  - reflexivity.
Qed.

(** A tokenizer error: no line break. *)
Lemma bad_breaks s k x : Bad s k x -> line_breaks x = 0.
Proof.
  assert (forall s x r, stretch s x r -> line_breaks x = 0) as Hs.
  { intros s0 y r (_ & Hy & _). revert Hy. apply all_breaks. unfold delimiter, ws. intuition. }
  intros Hb. destruct Hb; eauto; try (apply digits_breaks; assumption); apply word_breaks;
    match goal with Hx : word_at _ _ _ |- _ => apply Hx end.
Qed.
Theorem C84_lexical_line : forall n program e, parse n program = Err (ELex e) -> line_breaks (show_lex_err e) = 0.
Proof.
  intros n program e E. destruct (C60_document n program e E) as (b & g & r & ts & _ & _ & Hb & _).
  unfold show_lex_err. rewrite !breaks_app, show_N_breaks, (bad_breaks _ _ _ Hb). destruct (le_type e); reflexivity.
Qed.
(** A syntax error: one, at the end. *)
Theorem C84_syntax_line : forall n program e, parse n program = Err (ESyn e) ->
  exists m, show_syn_err e = (m ++ String "010" "")%string /\ line_breaks m = 0.
Proof.
  intros n program e E.
  assert (line_breaks (se_expected e) = 0) as Hx.
  { destruct (C84_expected n program e E) as [Hi|(x & Hx & Hi)]; [apply fixed_breaks, Hi|].
    eapply quoting_breaks; [|exact Hi]. eapply word_breaks, read_word, Hx. }
  assert (line_breaks (show_token (se_found e)) = 0) as Hf.
  { destruct (C45_syntax_error n program e E) as (ts & t & (st & _ & Ht & _) & Hf & _). apply token_breaks.
    destruct (get_token st) as [o st'] eqn:G. cbn [fst] in Ht. subst o. pose proof (C07_content _ _ _ G) as Hc.
    destruct Hf as [->| ->].
    - destruct t as [k|s|v|o|p|r|]; auto. apply Hc.
    - destruct t as [k|s|v|o|p|r|]; cbn [peeked]; auto; [apply Hc|destruct o; exact I]. }
  eexists ("line " ++ show_N (se_line e) ++ ": expected '" ++ se_expected e ++ "', but found '" ++ show_token (se_found e) ++ "'")%string. split.
  - unfold show_syn_err. rewrite !app_assoc_s. reflexivity.
  - rewrite !breaks_app, show_N_breaks, Hx, Hf. reflexivity.
Qed.
(** Every message of a rejection is one line; only syntax errors end it
    themselves. *)
Theorem C84_one_line : forall n dom prob e t, verify he n dom prob = Err e -> show_parsing_error e = Some t ->
  exists m, line_breaks m = 0
  /\ t = match e with ESyn _ => (m ++ String "010" "")%string | _ => m end.
Proof.
  intros n dom prob e t E Et. destruct e as [e|e|e]; cbn [show_parsing_error] in Et.
  - injection Et as <-. exists (show_lex_err e). split; auto.
    destruct (verify_err_inv he Hhe n dom prob _ E) as [Ep|[(d & _ & Ec)|(d & s & _ & Hd & -> & [Ep|(p & ws & _ & Ec)])]];
      try (eapply C84_lexical_line; exact Ep); [apply check_domain_err in Ec as (? & ? & _)|destruct (accepted_nodup d Hd) as (N1 & N2 & N3); apply (check_problem_err d N1 N2 N3) in Ec as (? & ? & _)]; discriminate.
  - injection Et as <-.
    destruct (verify_err_inv he Hhe n dom prob _ E) as [Ep|[(d & _ & Ec)|(d & s & _ & Hd & -> & [Ep|(p & ws & _ & Ec)])]];
      try (destruct (C84_syntax_line _ _ _ Ep) as (m & Em & Hm); eauto; fail); [apply check_domain_err in Ec as (? & ? & _)|destruct (accepted_nodup d Hd) as (N1 & N2 & N3); apply (check_problem_err d N1 N2 N3) in Ec as (? & ? & _)]; discriminate.
  - exists t. split; auto. eapply C78_fault_one_line; eauto.
Qed.
End S.

(** A name quoted from the line above the error. *)
Definition no_task : string := ("(define (domain d) (:method" ++ nl ++ " go :parameters () :task" ++ nl ++ "( ) ))")%string.
Example C84_example : exists e, @parse uni0 300 no_task = Err (ESyn e)
  /\ se_expected e = "The task that method go decomposes"%string /\ se_line e = 3%N
  /\ In (se_expected e) (quoting_texts "go") /\ ~ In (se_expected e) fixed_texts
  /\ exists ts st, @Reads uni0 (lex_new no_task) ts st /\ In (TIdent "go", 2%N) ts.
Proof.
  eexists. split; [vm_compute; reflexivity|]. split; [reflexivity|]. split; [reflexivity|]. split; [|split].
  - cbn. tauto.
  - intros Hi. assert (existsb (String.eqb "The task that method go decomposes") fixed_texts = false) as Hf by (vm_compute; reflexivity).
    rewrite <- not_true_iff_false in Hf. apply Hf, existsb_exists. eexists. split; [exact Hi|apply String.eqb_refl].
  - eexists [_; _; _; _; _; _; _; _; _], _. split.
    + do 9 (eapply rd_cons; [vm_compute; reflexivity|]). apply rd_nil.
    + vm_compute. do 8 right. left. reflexivity.
Qed.
Example C84_example_lexical : @verify uni0 env_id 300 "(define (domain a!b) )" None = Err (ELex (mkLexErr InvalidIdentifier "a!b" 1)).
Proof. vm_compute. reflexivity. Qed.

Definition C84_assumptions := (@C84_expected, @C84_lexical_line, @C84_syntax_line, @C84_one_line).
