(** Lemmas about classification, diagnostics and notification histories. *)
From Coq Require Import String Ascii NArith ZArith Bool List Lia.
From Verif Require Import Base Token Lexer Errors Ast AstLines Parser Graph Semantic Tdg Api Json Lsp Cli StrFacts LexProofs2 SpecIo VerifyTop.
Import ListNotations.
Open Scope list_scope.

(** ** Classification and parsing *)
Section Classify.
Context `{Unicode}.

Ltac header E :=
  unfold parse, parse_doc, parse_document_type, bind, get in E.
Lemma parse_classified n s a : parse n s = Ok a ->
  classify s = Some match a with ADomain _ => VDomain | AProblem _ => VProblem end.
Proof.
  intros E. header E. unfold classify.
  destruct (get_token (lex_new s)) as [[t1| | |] s1]; simpl in E; try discriminate.
  destruct t1 as [| | | |pu| |]; try discriminate. destruct pu; try discriminate. simpl in E.
  destruct (get_token s1) as [[t2| | |] s2]; simpl in E; try discriminate.
  destruct t2 as [k| | | | | |]; try discriminate. destruct k; try discriminate.
  destruct (get_token s2) as [[t3| | |] s3]; simpl in E; try discriminate.
  destruct t3 as [| | | |pu| |]; try discriminate. destruct pu; try discriminate.
  destruct (get_token s3) as [[t4| | |] s4]; simpl in E; try discriminate.
  destruct t4 as [k| | | | | |]; try discriminate. destruct k; try discriminate.
  - destruct a; auto. exfalso. unfold parse_domain_header, bind, get in E.
    destruct (get_token s4) as [[t5| | |] s5]; simpl in E; try discriminate.
    destruct t5; simpl in E; try discriminate.
    destruct (get_token s5) as [[t6| | |] s6]; simpl in E; try discriminate.
    destruct t6 as [| | | |pu| |]; try discriminate. destruct pu; try discriminate. simpl in E.
    destruct (parse_domain n n (new_domain s0) s6); discriminate.
  - destruct a; auto. exfalso. unfold parse_problem_header, bind, get in E.
    destruct (get_token s4) as [[t5| | |] s5]; simpl in E; try discriminate.
    destruct t5; simpl in E; try discriminate.
    destruct (get_token s5) as [[t6| | |] s6]; simpl in E; try discriminate.
    destruct t6 as [| | | |pu| |]; try discriminate. destruct pu; try discriminate. simpl in E.
    destruct (get_token s6) as [[t7| | |] s7]; simpl in E; try discriminate.
    destruct t7 as [| | | |pu| |]; try discriminate. destruct pu; try discriminate. simpl in E.
    destruct (get_token s7) as [[t8| | |] s8]; simpl in E; try discriminate.
    destruct t8 as [k| | | | | |]; try discriminate. destruct k; try discriminate.
    destruct (get_token s8) as [[t9| | |] s9]; simpl in E; try discriminate.
    destruct t9; simpl in E; try discriminate.
    destruct (get_token s9) as [[t10| | |] u10]; simpl in E; try discriminate.
    destruct t10 as [| | | |pu| |]; try discriminate. destruct pu; try discriminate. simpl in E.
    destruct (parse_problem n n new_problem u10); discriminate.
Qed.

Lemma get_no_fuel st st' : get_token st <> (LFuel, st').
Proof. intros E. apply (lex_no_fuel false st). unfold get_token in E. rewrite E. auto. Qed.

Lemma parse_unclassified s : classify s = Some VMaybeNotHDDL -> exists e, forall n, parse n s = Err e.
Proof.
  unfold classify, parse, parse_doc, parse_document_type, bind, get.
  destruct (get_token (lex_new s)) as [[t1| | |] s1] eqn:Gt1; simpl; try discriminate; eauto; [|destruct (get_no_fuel _ _ Gt1)].
  destruct t1 as [| | | |pu| |]; simpl; eauto. destruct pu; simpl; eauto.
  destruct (get_token s1) as [[t2| | |] s2] eqn:Gt2; simpl; try discriminate; eauto; [|destruct (get_no_fuel _ _ Gt2)].
  destruct t2 as [k| | | | | |]; simpl; eauto. destruct k; simpl; eauto.
  destruct (get_token s2) as [[t3| | |] s3] eqn:Gt3; simpl; try discriminate; eauto; [|destruct (get_no_fuel _ _ Gt3)].
  destruct t3 as [| | | |pu| |]; simpl; eauto. destruct pu; simpl; eauto.
  destruct (get_token s3) as [[t4| | |] s4] eqn:Gt4; simpl; try discriminate; eauto; [|destruct (get_no_fuel _ _ Gt4)].
  destruct t4 as [k| | | | | |]; simpl; eauto. destruct k; simpl; try discriminate; eauto.
Qed.

Lemma parse_classify_panics n s : classify s = None -> exists p, parse n s = Panic p.
Proof.
  unfold classify, parse, parse_doc, parse_document_type, bind, get.
  destruct (get_token (lex_new s)) as [[t1| | |] s1]; simpl; try discriminate; eauto.
  destruct t1 as [| | | |pu| |]; simpl; try discriminate. destruct pu; simpl; try discriminate.
  destruct (get_token s1) as [[t2| | |] s2]; simpl; try discriminate; eauto.
  destruct t2 as [k| | | | | |]; simpl; try discriminate. destruct k; simpl; try discriminate.
  destruct (get_token s2) as [[t3| | |] s3]; simpl; try discriminate; eauto.
  destruct t3 as [| | | |pu| |]; simpl; try discriminate. destruct pu; simpl; try discriminate.
  destruct (get_token s3) as [[t4| | |] s4]; simpl; try discriminate; eauto.
  destruct t4 as [k| | | | | |]; simpl; try discriminate. destruct k; simpl; try discriminate.
Qed.

End Classify.

(** ** Diagnostics *)
Definition at_least_1 (l : N) : Prop := (1 <= l)%N.
Lemma to_diagnostic_cases e : Forall at_least_1 (err_lines e) ->
  (two_places e /\ to_diagnostic e = Panic PanicUrl)
  \/ (~ two_places e /\ exists d, to_diagnostic e = Ok d /\ shows e d)
  \/ (~ two_places e /\ show_parsing_error e = None /\ to_diagnostic e = Panic PanicUnreachable).
Proof.
  intros Hl.
  assert (forall ln t, err_lines e = [ln] -> show_parsing_error e = Some t ->
            (forall r, e <> ESem (DuplicateRequirement r)) -> exists d, line_diag ln (Some t) = Ok d /\ shows e d) as Hline.
  { intros ln t El Et Hr. rewrite El in Hl. inversion Hl as [|? ? H1 _]; subst. unfold at_least_1 in H1. unfold line_diag.
    replace (ln =? 0)%N with false by (symmetry; apply N.eqb_neq; lia). eexists. split; [eauto|].
    unfold shows. rewrite El. simpl. split; [auto|]. split; [split; lia|]. destruct e as [| |[]]; auto. edestruct Hr; eauto. }
  assert (forall ln, err_lines e = [ln] -> line_diag ln None = Panic PanicUnreachable) as Hnone.
  { intros ln El. rewrite El in Hl. inversion Hl as [|? ? H1 _]; subst. unfold at_least_1 in H1. unfold line_diag.
    replace (ln =? 0)%N with false by (symmetry; apply N.eqb_neq; lia). auto. }
  assert (forall l, err_lines e = [l] -> ~ two_places e) as Hone.
  { intros l El (l1 & l2 & E). congruence. }
  destruct e as [l|s|x].
  - right. left. split; [eapply Hone; reflexivity|]. simpl. eapply Hline; eauto. discriminate.
  - right. left. split; [eapply Hone; reflexivity|]. simpl. eapply Hline; eauto. discriminate.
  - destruct x; try (left; split; [do 2 eexists; reflexivity|reflexivity]);
      try (right; left; split; [eapply Hone; reflexivity|]; simpl; eapply Hline; eauto; discriminate).
    + right. left. split; [intros (? & ? & E); discriminate|]. simpl. eexists. split; eauto. repeat split.
    + destruct (show_sem_err (InconsistentPredicateArgType e)) eqn:Es.
      * right. left. split; [eapply Hone; reflexivity|]. cbn [to_diagnostic]. rewrite Es. eapply Hline; eauto. discriminate.
      * right. right. split; [eapply Hone; reflexivity|]. split; auto. cbn [to_diagnostic]. rewrite Es. apply Hnone; auto.
    + destruct (show_sem_err (InconsistentTaskArgType e)) eqn:Es.
      * right. left. split; [eapply Hone; reflexivity|]. cbn [to_diagnostic]. rewrite Es. eapply Hline; eauto. discriminate.
      * right. right. split; [eapply Hone; reflexivity|]. split; auto. cbn [to_diagnostic]. rewrite Es. apply Hnone; auto.
    + right. left. split; [intros (? & ? & E); discriminate|]. simpl. eexists. split; eauto. repeat split.
Qed.

(** ** The store of documents *)
Lemma doc_lookup_filter uri u ds : u <> uri ->
  doc_lookup uri (filter (fun uc => negb (String.eqb (fst uc) u)) ds) = doc_lookup uri ds.
Proof.
  intros Hu. induction ds as [|[v c] ds IH]; simpl; auto.
  destruct (String.eqb_spec v u) as [->|Hv]; simpl.
  - destruct (String.eqb_spec u uri); [congruence|auto].
  - destruct (String.eqb v uri); auto.
Qed.
Lemma doc_lookup_sync uri u text ds : doc_lookup uri (sync ds u text) =
  if String.eqb u uri then Some text else doc_lookup uri ds.
Proof.
  unfold sync. simpl. destruct (String.eqb_spec u uri); auto. apply doc_lookup_filter; auto.
Qed.

Section Histories.
Context `{Unicode}.
Variable he : hash_env.

Lemma handle_lookup n ds e ds' r uri : handle he n ds e = Ok (ds', r) ->
  doc_lookup uri ds' = match brings uri e with Some t => Some t | None => doc_lookup uri ds end.
Proof.
  destruct e as [u t|u [t|] [x|]|u [|t l]|u dir]; simpl; intros E; try discriminate;
    try (injection E as <- <-; rewrite ?doc_lookup_sync; destruct (String.eqb u uri); auto; fail).
  apply bind_ok in E as (y & _ & E). injection E as <- <-. auto.
Qed.

Lemma session_app n es es' : forall ds, session he n ds (es ++ es') =
  obind (session he n ds es) (fun r => obind (session he n (fst r) es') (fun r' => Ok (fst r', snd r ++ snd r'))).
Proof.
  induction es as [|e es IH]; intros ds; simpl.
  - destruct (session he n ds es') as [[]| | |]; auto.
  - destruct (handle he n ds e) as [[ds1 r]| | |]; simpl; auto. rewrite IH.
    destruct (session he n ds1 es) as [[ds2 rs]| | |]; simpl; auto.
    destruct (session he n ds2 es') as [[ds3 rs']| | |]; simpl; auto. destruct r; auto.
Qed.

Lemma latest_cons uri e es t : latest uri (e :: es) t <->
  latest uri es t \/ (never_sent uri es /\ brings uri e = Some t).
Proof.
  split.
  - intros ([|e1 b] & e0 & a & E & Hb & Ha).
    + injection E as <- <-. right; auto.
    + injection E as <- ->. left. exists b, e0, a; auto.
  - intros [(b & e0 & a & -> & Hb & Ha)|[Hn Hb]].
    + exists (e :: b), e0, a; auto.
    + exists [], e, es; auto.
Qed.
Lemma latest_or uri es : (exists t, latest uri es t) \/ never_sent uri es.
Proof.
  induction es as [|e es [(t & IH)|IH]].
  - right. constructor.
  - left. exists t. apply latest_cons; auto.
  - destruct (brings uri e) eqn:E.
    + left. exists s. apply latest_cons; auto.
    + right. constructor; auto.
Qed.
Lemma latest_not_never uri es t : latest uri es t -> never_sent uri es -> False.
Proof.
  intros (b & e & a & -> & Hb & _) Hn. unfold never_sent in Hn. rewrite Forall_app in Hn. destruct Hn as [_ Hn].
  inversion Hn; congruence.
Qed.
Lemma latest_fun uri es : forall t t', latest uri es t -> latest uri es t' -> t = t'.
Proof.
  induction es as [|e es IH]; intros t t' H1 H2.
  - destruct H1 as ([] & ? & ? & E & _); discriminate.
  - rewrite latest_cons in H1, H2. destruct H1 as [H1|[H1 E1]], H2 as [H2|[H2 E2]]; eauto; try congruence.
    + destruct (latest_not_never _ _ _ H1 H2).
    + destruct (latest_not_never _ _ _ H2 H1).
Qed.

Lemma session_lookup n uri es : forall ds ds' rs, session he n ds es = Ok (ds', rs) ->
  (forall t, latest uri es t -> doc_lookup uri ds' = Some t)
  /\ (never_sent uri es -> doc_lookup uri ds' = doc_lookup uri ds).
Proof.
  induction es as [|e es IH]; intros ds ds' rs E.
  - simpl in E. injection E as <- <-. split; auto. intros t ([] & ? & ? & E & _); discriminate.
  - simpl in E. apply bind_ok in E as ([ds1 r1] & Eh & E). apply bind_ok in E as ([ds2 rs2] & Es & E).
    injection E as <- <-. simpl in *. apply IH in Es as [I1 I2]. pose proof (handle_lookup _ _ _ _ _ uri Eh) as Hh. split.
    + intros t Ht. apply latest_cons in Ht as [Ht|[Hn Hb]]; auto. rewrite I2, Hh, Hb; auto.
    + intros Hn. inversion Hn; subst. rewrite I2, Hh; auto. match goal with Hx : brings _ _ = None |- _ => rewrite Hx end. auto.
Qed.

End Histories.
