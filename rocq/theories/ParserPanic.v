(** When the parser itself (not the tokenizer) panics: exactly on problem
    documents with a stray token where a block should start. *)
From Coq Require Import String Ascii NArith ZArith Bool List Lia PeanoNat.
From Verif Require Import Base Token Lexer Errors Ast Parser AstRel ParserRel ParserProofs
  StrFacts SpecLex LexProofs LexProofs2 LexProofs3 SpecGrammar GrammarSound GrammarComplete GrammarTop.
Import ListNotations.
Open Scope list_scope.
Open Scope nat_scope.

(** A token that cannot start a block or end the document. *)
Definition stray (t : token) : Prop := t <> TPunct LParen /\ t <> TPunct RParen /\ t <> TEOF.

(** "(define (problem n) (domain m)". *)
Inductive GProblemHeader : list tok -> Prop :=
| gph l1 l2 l3 l4 n ln l5 l6 l7 m lm l8 :
    GProblemHeader [lp l1; kw KDefine l2; lp l3; kw KProblem l4; id n ln; rp l5;
                    lp l6; kw KDomain l7; id m lm; rp l8].

Section Panics.
Context `{Unicode}.

Lemma lex_panic_kind p st q : fst (lex p st) = LPanic q -> q <> PanicProblemToken.
Proof.
  intros E ->. revert E. unfold lex. generalize (S (String.length (rest st))) as n. intros n. revert st.
  induction n as [|n IH]; intros st; cbn [lex_fuel]; [discriminate|].
  destruct (skip_whitespaces (rest st) (line st)) as [s ln]. destruct s as [|c s]; [discriminate|].
  assert (forall x, peek_lexeme x ln <> XPanic PanicProblemToken) as Hx.
  { intros x. unfold peek_lexeme. destruct x; [discriminate|].
    destruct (scan_lexeme _) as [[l r] b]. destruct (negb _); [discriminate|]. destruct b; discriminate. }
  repeat (match goal with |- fst (if ?b then _ else _) = _ -> _ => destruct b end);
    try discriminate.
  - destruct (ordering_type _ _ _); discriminate.
  - destruct (peek_lexeme s ln) eqn:E; try discriminate. intros E'. injection E' as ->. eapply Hx; eauto.
  - destruct (peek_lexeme s ln) eqn:E; try discriminate; [destruct (str_assoc lexeme colon_words); discriminate|].
    intros E'. injection E' as ->. eapply Hx; eauto.
  - destruct (skip_comment _); [apply IH|discriminate].
  - destruct (peek_number _ _); discriminate.
  - destruct (peek_lexeme (String c s) ln) eqn:E; try discriminate.
    + destruct (str_assoc lexeme bare_words); [discriminate|].
      destruct (str_assoc lexeme operators); [discriminate|].
      destruct (ident_chars lexeme); discriminate.
    + intros E'. injection E' as ->. eapply Hx; eauto.
Qed.

(** No part of the parser except the problem router raises this panic. *)
Definition quiet {A} (m : P A) : Prop := forall st, m st <> PPanic PanicProblemToken.

Let T : N -> N -> Prop := fun _ _ => True.
Let OKP : panic_site -> Prop := fun p => p <> PanicProblemToken.

Lemma lex_rp b : forall st st', st = st' ->
  rel_res T eq OKP eq (of_lex (lex b st)) (of_lex (lex b st')).
Proof.
  intros st st' <-. assert (Hk := lex_panic_kind b st).
  destruct (lex b st) as [[t|[x y z]|p|] s]; simpl in *; auto.
  - constructor. exact I.
  - split; auto. apply Hk. reflexivity.
Qed.

Lemma rp_quiet {A} (R : A -> A -> Prop) (m : P A) : ParserRel.rp T eq OKP R m m -> quiet m.
Proof.
  intros Hm st E. specialize (Hm st st eq_refl). rewrite E in Hm. simpl in Hm. destruct Hm as [_ Hm].
  apply Hm; reflexivity.
Qed.

Ltac q L := eapply rp_quiet; apply L; auto; try exact (lex_rp false); try exact (lex_rp true); try (unfold T; auto; fail).

Lemma quiet_reqs n l : quiet (parse_requirements n l). Proof. q parse_requirements_rp. Qed.
Lemma quiet_args n : quiet (parse_args n). Proof. q parse_args_rp. Qed.
Lemma quiet_preds f n : quiet (parse_predicates f n []).
Proof. eapply rp_quiet. eapply parse_predicates_rp; auto; try exact (lex_rp false); try exact (lex_rp true); try (unfold T; auto; fail). Qed.
Lemma quiet_formula n : quiet (parse_formula n n). Proof. q formula_rp. Qed.
Lemma quiet_init n : quiet (parse_initial_tn n). Proof. q parse_initial_tn_rp. Qed.
Lemma quiet_type : quiet parse_document_type. Proof. q parse_document_type_rp. Qed.
Lemma quiet_domain f n nm : quiet (parse_domain f n (new_domain nm)).
Proof. eapply rp_quiet. eapply parse_domain_rp; auto; try exact (lex_rp false); try exact (lex_rp true); try (unfold T; auto; fail).
  constructor; constructor. Qed.

(** ** A panic shows a stray token *)
Lemma problem_panic_sound fuel : forall n d st,
  parse_problem fuel n d st = PPanic PanicProblemToken ->
  exists ts bs t l st', GPSeq ts bs /\ stray t /\ Run st (ts ++ [(t, l)]) st'.
Proof.
  induction n as [|n IH]; intros d st E; [discriminate|]. cbn [parse_problem] in E.
  unfold bind at 1 in E. unfold get at 1 in E.
  assert (Hk := lex_panic_kind false st). unfold get_token in E.
  destruct (lex false st) as [o s1] eqn:E1. simpl in Hk.
  destruct o as [t| |p|]; simpl in E; try discriminate;
    [|injection E as ->; exfalso; eapply Hk; reflexivity].
  assert (Hstray : stray t -> exists ts bs t l st', GPSeq ts bs /\ stray t /\ Run st (ts ++ [(t, l)]) st').
  { intros Ht. exists [], [], t, (line s1), s1. split; [constructor|]. split; auto.
    simpl. eapply run_get; [exact E1|constructor]. }
  destruct t as [| | | |pu| |]; try discriminate; try (apply Hstray; repeat split; discriminate).
  destruct pu; try discriminate; [apply Hstray; repeat split; discriminate|]. clear Hstray.
  unfold bind at 1 in E. unfold get at 1 in E. clear Hk.
  assert (Hk := lex_panic_kind false s1). unfold get_token in E.
  destruct (lex false s1) as [o s2] eqn:E2. simpl in Hk.
  destruct o as [u| |p|]; simpl in E; try discriminate;
    [|injection E as ->; exfalso; eapply Hk; reflexivity].
  assert (Hrun : forall ts s3, Run s2 ts s3 -> Run st ((TPunct LParen, line s1) :: (u, line s2) :: ts) s3).
  { intros ts s3 Hr. eapply run_get; [exact E1|]. eapply run_get; [exact E2|exact Hr]. }
  assert (Hnext : forall ts b s3 d', Run st ts s3 -> GPBlock ts b false ->
    parse_problem fuel n d' s3 = PPanic PanicProblemToken ->
    exists ts bs t l st', GPSeq ts bs /\ stray t /\ Run st (ts ++ [(t, l)]) st').
  { intros ts b s3 d' Hr Hg E'. destruct (IH _ _ E') as (us & bs & t & l & st' & Hs & Ht & Hr').
    exists (ts ++ us), (b :: bs), t, l, st'. split; [constructor; auto|]. split; auto.
    rewrite <- app_assoc. eapply run_app; eauto. }
  destruct u as [k| | | | | |]; try discriminate. destruct k; try discriminate; unfold bind in E.
  - assert (Hs := parse_requirements_sound fuel [] s2). unfold okp in Hs.
    assert (Hq := quiet_reqs fuel [] s2). destruct (parse_requirements fuel [] s2) as [a s3| | |]; try discriminate; try congruence.
    destruct Hs as (ts & rs & Hr & Hg & _). eapply (Hnext _ (QReqs rs)); [apply Hrun; exact Hr|apply gpb_reqs; exact Hg|exact E].
  - assert (Hs := parse_args_sound fuel s2). unfold okp in Hs.
    assert (Hq := quiet_args fuel s2). destruct (parse_args fuel s2) as [a s3| | |]; try discriminate; try congruence.
    destruct Hs as (ts & Hr & Hg). destruct (rebuild_objects a); [|discriminate].
    eapply (Hnext _ (QObjects a)); [apply Hrun; exact Hr|apply gpb_objects; exact Hg|exact E].
  - assert (Hs := parse_predicates_sound fuel fuel [] s2). unfold okp in Hs.
    assert (Hq := quiet_preds fuel fuel s2). destruct (parse_predicates fuel fuel [] s2) as [a s3| | |]; try discriminate; try congruence.
    destruct Hs as (ts & rs & Hr & Hg & _). eapply (Hnext _ (QInit rs)); [apply Hrun; exact Hr|apply gpb_init; exact Hg|exact E].
  - assert (Hs := parse_initial_tn_sound fuel s2). unfold okp in Hs.
    assert (Hq := quiet_init fuel s2). destruct (parse_initial_tn fuel s2) as [a s3| | |]; try discriminate; try congruence.
    destruct Hs as (ts & b & Hr & Hg & Hb). destruct b.
    + exfalso. destruct (Hb eq_refl) as (l & s4 & E3 & _). destruct n as [|n]; [discriminate|].
      cbn [parse_problem] in E. unfold bind, get in E. rewrite E3 in E. discriminate.
    + eapply (Hnext _ (QHtn a)); [apply Hrun; exact Hr|apply gpb_htn; exact Hg|exact E].
  - assert (Hs := formula_sound fuel s2). unfold okp in Hs.
    assert (Hq := quiet_formula fuel s2). destruct (parse_formula fuel fuel s2) as [a s3| | |]; try discriminate; try congruence.
    destruct Hs as (ts & Hr & Hg).
    eapply (Hnext _ (QGoal a)); [apply Hrun; exact Hr|apply gpb_goal; exact Hg|exact E].
Qed.

(** ** A stray token causes a panic *)

(** Running [m] from [st] continues as [X] in a state from which [us] is read. *)
Definition continues (us : list tok) (st' : lstate) {A} (m : P A) (st : lstate) (X : P A) : Prop :=
  exists s, ReadsE s us st' /\ m st = X s.

Lemma c_get {A} us st' t l vs (k : token -> P A) st X :
  ReadsE st ((t, l) :: vs) st' ->
  (forall s, ReadsE s vs st' -> continues us st' (k t) s X) -> continues us st' (bind get k) st X.
Proof.
  intros H1 Hk. destruct (readsE_cons _ _ _ _ _ H1) as (s2 & E & _ & H2).
  destruct (Hk _ H2) as (s3 & H3 & E3). exists s3. split; auto.
  unfold bind, get. rewrite E. exact E3.
Qed.

Lemma c_sub {A B} us st' (m : P A) vs a ws (k : A -> P B) st X :
  cpl m vs a -> ReadsE st (vs ++ ws) st' ->
  (forall s, ReadsE s ws st' -> continues us st' (k a) s X) -> continues us st' (bind m k) st X.
Proof.
  intros Hc H1 Hk. apply readsE_app in H1 as (s2 & H1 & H2).
  destruct (Hc _ _ H1) as (s3 & E & Hs).
  destruct (Hk s3) as (s4 & H4 & E4); [eapply readsE_same; eauto|].
  exists s4. split; auto. unfold bind. rewrite E. exact E4.
Qed.

Lemma c_here {A} us st' (m : P A) st : ReadsE st us st' -> continues us st' m st m.
Proof. intros Hr. exists st. auto. Qed.

Lemma pblock_step fuel n d st ts b us st' :
  GPBlock ts b false -> length ts <= fuel -> ReadsE st (ts ++ us) st' ->
  continues us st' (parse_problem fuel (S n) d) st (parse_problem fuel n (apply_pblock d b)).
Proof.
  intros Hg Hf Hr. cbn [parse_problem].
  remember false as o eqn:Eo.
  destruct Hg; simpl app in *; cbn [length] in Hf;
    (eapply c_get; [exact Hr|]; intros s1 H1; cbn beta iota);
    (eapply c_get; [exact H1|]; intros s2 H2; cbn beta iota).
  - eapply c_sub; [eapply (parse_requirements_complete ts r); eauto; lia|exact H2|].
    intros s3 H3. apply c_here; auto.
  - eapply c_sub; [eapply parse_args_complete; eauto; lia|exact H2|].
    intros s3 H3. cbn beta. rewrite rebuild_some by (eapply gargs_typed_iff; eauto). apply c_here; auto.
  - eapply c_sub; [|exact H2|intros s3 H3; apply c_here; auto].
    intros sa sb Hab. eapply parse_initial_tn_complete; eauto; [lia|]. congruence.
  - eapply c_sub; [eapply formula_complete; eauto; lia|exact H2|].
    intros s3 H3. apply c_here; auto.
  - eapply c_sub; [eapply (parse_predicates_complete ts r); eauto; lia|exact H2|].
    intros s3 H3. apply c_here; auto.
Qed.

Lemma problem_panic_complete fuel ts bs t l st' : GPSeq ts bs -> stray t -> forall n d st,
  length ts <= fuel -> length ts < n -> ReadsE st (ts ++ [(t, l)]) st' ->
  parse_problem fuel n d st = PPanic PanicProblemToken.
Proof.
  intros Hs Ht. induction Hs as [|ts b us bs Hb Hs IH]; intros n d st Hf Hn Hr;
    (destruct n as [|n]; [lia|]).
  - cbn [parse_problem]. destruct (readsE_cons _ _ _ _ _ Hr) as (s2 & E & _ & _).
    unfold bind, get. rewrite E. simpl. destruct Ht as (H1 & H2 & H3).
    destruct t as [| | | |[]| |]; try reflexivity; congruence.
  - rewrite app_length in Hf, Hn. assert (Hl := gpblock_length _ _ _ Hb).
    rewrite <- app_assoc in Hr.
    destruct (pblock_step fuel n d st _ _ _ _ Hb ltac:(lia) Hr) as (s & H1 & ->).
    apply IH; auto; lia.
Qed.

Ltac get1 := eapply g_get; [eassumption|]; let s := fresh "s" in let E := fresh "El" in let H := fresh "Hr" in
  intros s E H; cbn beta iota.
Ltac ret1 := apply g_ret; assumption.

Theorem problem_panic_iff program :
  (exists n, parse n program = Panic PanicProblemToken) <->
  exists hs ts bs t l st', GProblemHeader hs /\ GPSeq ts bs /\ stray t
    /\ Reads (lex_new program) (hs ++ ts ++ [(t, l)]) st'.
Proof.
  split.
  - intros (n & E). unfold parse in E.
    destruct (parse_doc n (lex_new program)) as [| |p|] eqn:Ed; try discriminate.
    injection E as ->. unfold parse_doc in Ed.
    unfold bind at 1 in Ed. unfold get at 1 in Ed.
    assert (Hk := lex_panic_kind false (lex_new program)). unfold get_token in Ed.
    destruct (lex false (lex_new program)) as [o s1] eqn:E1. simpl in Hk.
    destruct o as [t| |p|]; simpl in Ed; try discriminate;
      [|injection Ed as ->; exfalso; eapply Hk; reflexivity].
    destruct t as [| | | |pu| |]; try discriminate. destruct pu; try discriminate.
    unfold bind at 1 in Ed.
    assert (Hq := quiet_type s1).
    assert (Hty : okp parse_document_type
      (fun dt st => match dt with
         | DefDomain nm => True
         | DefProblem _ _ => exists hs, Run s1 hs st /\ GProblemHeader ((TPunct LParen, line s1) :: hs) end) s1).
    { unfold parse_document_type.
      repeat match goal with
      | |- okp (bind get _) _ _ => apply okp_get; intros ?t ?st ?E
      | |- okp (syn _ _) _ _ => exact I
      | |- okp (match ?x with _ => _ end) _ _ => is_var x; destruct x
      end.
      - unfold parse_domain_header, okp, bind, get.
        destruct (get_token st1) as [[[]| | |] s]; simpl; auto.
        destruct (get_token s) as [[[| | | |[]| |]| | |] s']; simpl; auto.
      - unfold parse_problem_header.
        repeat match goal with
        | |- okp (bind get _) _ _ => apply okp_get; intros ?t ?st ?E
        | |- okp (syn _ _) _ _ => exact I
        | |- okp (match ?x with _ => _ end) _ _ => is_var x; destruct x
        end.
        apply okp_ret. eexists. split.
        + repeat (eapply run_get; [eassumption|]). constructor.
        + constructor. }
    unfold okp in Hty. destruct (parse_document_type s1) as [dt s2| | |]; try discriminate; try congruence.
    destruct dt as [nm|pn dn].
    + exfalso. unfold bind in Ed. assert (Hd := quiet_domain n n nm s2).
      destruct (parse_domain n n (new_domain nm) s2); try discriminate; congruence.
    + unfold bind in Ed. destruct (parse_problem n n new_problem s2) as [| |p|] eqn:Ep; try discriminate.
      injection Ed as ->. apply problem_panic_sound in Ep as (ts & bs & t & l & st' & Hs & Ht & Hr).
      destruct Hty as (hs & Hh & Hg).
      assert (Run (lex_new program) (((TPunct LParen, line s1) :: hs) ++ ts ++ [(t, l)]) st') as Hrun.
      { eapply run_app; [|exact Hr]. eapply run_get; [exact E1|exact Hh]. }
      apply run_reads in Hrun as (st'' & Hrun & _).
      exists ((TPunct LParen, line s1) :: hs), ts, bs, t, l, st''. auto.
  - intros (hs & ts & bs & t & l & st' & Hg & Hs & Ht & Hr).
    exists (S (length ts)). unfold parse.
    assert (ReadsE (lex_new program) (hs ++ ts ++ [(t, l)]) st') as HrE.
    { exists st'. split; [exact Hr|apply same_refl]. }
    destruct Hg. cbn [app] in HrE.
    assert (exists s, ReadsE s (ts ++ [(t, l)]) st' /\
       parse_doc (S (length ts)) (lex_new program) =
       bind (parse_problem (S (length ts)) (S (length ts)) new_problem) (fun p => ret (AProblem p)) s) as (s & H1 & ->).
    { unfold parse_doc, parse_document_type.
      eapply c_get; [exact HrE|]; intros s1 H1; cbn beta iota.
      eapply (c_sub _ _ _ [kw KDefine l2; lp l3; kw KProblem l4; id n ln; SpecGrammar.rp l5; lp l6; kw KDomain l7; id m lm; SpecGrammar.rp l8]
         (DefProblem n m)); [|exact H1|].
      - intros sa sb Hab. repeat get1. unfold parse_problem_header. repeat get1. ret1.
      - intros s2 H2. cbn beta iota. apply c_here; auto. }
    unfold bind. rewrite (problem_panic_complete _ ts bs t l st' Hs Ht) by (auto; lia). reflexivity.
Qed.
End Panics.
