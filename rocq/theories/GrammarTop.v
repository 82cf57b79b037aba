(** Acceptance and the result of parsing in terms of the grammar; what is not
    read does not matter. *)
From Coq Require Import String Ascii NArith ZArith Bool List Lia PeanoNat.
From Verif Require Import Base Token Lexer Errors Ast Parser AstRel ParserRel ParserProofs
  StrFacts SpecLex LexProofs LexProofs2 LexProofs3 ParserStream SpecGrammar GrammarSound GrammarComplete.
Import ListNotations.
Open Scope list_scope.
Open Scope nat_scope.

Section Top.
Context `{Unicode}.

Lemma parse_sound n program a :
  parse n program = Ok a -> exists ts st', Reads (lex_new program) ts st' /\ GDocument ts a.
Proof.
  intros E. unfold parse in E. assert (Hs := parse_doc_sound n (lex_new program)).
  unfold okp in Hs. destruct (parse_doc n (lex_new program)) as [x st| | |]; try discriminate.
  injection E as ->. destruct Hs as (ts & Hr & Hg). apply run_reads in Hr as (st' & Hr & _). eauto.
Qed.

Lemma parse_complete n program ts st' a :
  Reads (lex_new program) ts st' -> GDocument ts a -> length ts <= n -> parse n program = Ok a.
Proof.
  intros Hr Hg Hn. unfold parse.
  destruct (parse_doc_complete n ts a Hg Hn (lex_new program) st') as (s & E & _).
  - exists st'. split; auto. intro; reflexivity.
  - rewrite E. reflexivity.
Qed.

Theorem parse_iff_grammar program a :
  (exists n, parse n program = Ok a)
  <-> exists ts st', Reads (lex_new program) ts st' /\ GDocument ts a.
Proof.
  split.
  - intros (n & E). eapply parse_sound; eauto.
  - intros (ts & st' & Hr & Hg). exists (length ts). eapply parse_complete; eauto.
Qed.

Theorem grammar_unique program ts st' a ts2 st2 a2 :
  Reads (lex_new program) ts st' -> GDocument ts a ->
  Reads (lex_new program) ts2 st2 -> GDocument ts2 a2 -> a = a2.
Proof.
  intros Hr Hg Hr2 Hg2.
  assert (E1 := parse_complete (length ts + length ts2) program ts st' a Hr Hg ltac:(lia)).
  assert (E2 := parse_complete (length ts + length ts2) program ts2 st2 a2 Hr2 Hg2 ltac:(lia)).
  congruence.
Qed.

(** ** Replacing what follows *)

Lemma word_end_swap y z z' : y <> ""%string -> str_last delimiter y ->
  word_end (y ++ z) -> word_end (y ++ z').
Proof.
  destruct y as [|c y]; [congruence|]. intros _ Hl. cbn [append word_end].
  intros [Hd|[Hw E]]; auto. destruct y as [|d y]; [|discriminate].
  simpl in Hl. exfalso. eapply word_byte_not_delimiter; eauto.
Qed.

Lemma first_swap (Q : string -> Prop) y z z' :
  (forall c u v, Q (String c u) -> Q (String c v)) -> y <> ""%string -> Q (y ++ z)%string -> Q (y ++ z')%string.
Proof. destruct y as [|c y]; [congruence|]. intros HQ _. simpl. apply HQ. Qed.

Lemma bare_swap w y z z' : y <> ""%string -> bare_start (w ++ y ++ z) -> bare_start (w ++ y ++ z').
Proof.
  intros Hy. rewrite <- !app_assoc_s. apply first_swap; [simpl; auto|].
  destruct w; [exact Hy|discriminate].
Qed.

Lemma spells_swap s t r y z z' :
  Spells s t r -> r = (y ++ z)%string -> y <> ""%string -> str_last delimiter y ->
  exists x, s = (x ++ y ++ z)%string /\ Spells (x ++ y ++ z') t (y ++ z').
Proof.
  intros Hs. destruct Hs; intros Er Hy Hl; subst;
    try match goal with Hx : word_at _ _ _ |- _ => destruct Hx as (-> & Hw & He) end.
  - destruct y; [congruence|discriminate].
  - exists "(". split; [reflexivity|]. constructor.
  - exists ")". split; [reflexivity|]. constructor.
  - exists "-". split; [reflexivity|]. constructor.
  - exists "<". split; [reflexivity|]. cbn [append]. constructor.
    revert H0. apply (first_swap (fun r => ~ starts_with "=" r)); auto.
  - exists ">". split; [reflexivity|]. cbn [append]. constructor.
    revert H0. apply (first_swap (fun r => ~ starts_with "=" r)); auto.
  - exists "<=". split; [reflexivity|]. cbn [append]. constructor.
  - exists ">=". split; [reflexivity|]. cbn [append]. constructor.
  - exists "=". split; [reflexivity|]. cbn [append]. constructor.
  - exists (String "?" w). split; [reflexivity|]. cbn [append]. constructor; auto.
    repeat split; auto. eapply word_end_swap; eauto.
  - exists (String ":" w). split; [reflexivity|]. cbn [append]. eapply sp_colon; [|eassumption].
    repeat split; auto. eapply word_end_swap; eauto.
  - exists d. split; [reflexivity|]. constructor; auto.
    + revert H2. apply (first_swap (fun r => ~ starts_digit r)); auto.
    + revert H3. apply (first_swap (fun r => ~ starts_with "." r)); auto.
  - exists (d ++ String "." e)%string. split; [rewrite app_assoc_s; reflexivity|].
    rewrite app_assoc_s. cbn [append]. constructor; auto.
    revert H3. apply (first_swap (fun r => ~ starts_digit r)); auto.
  - exists w. split; [reflexivity|]. eapply sp_word; [|eapply bare_swap; eassumption|eassumption].
    repeat split; auto. eapply word_end_swap; eauto.
  - exists w. split; [reflexivity|]. eapply sp_ident; [|eapply bare_swap; eassumption|assumption|assumption].
    repeat split; auto. eapply word_end_swap; eauto.
Qed.

(** The tokens read up to a ')' are read again whatever follows it. *)
Lemma reads_swap : forall ts st l st',
  Reads st (ts ++ [rp l]) st' ->
  exists q, rest st = (q ++ rest st')%string /\ q <> ""%string /\ str_last (fun c => c = ")"%char) q /\
    forall z, Reads (mkL (q ++ z) (line st)) (ts ++ [rp l]) (mkL z (line st')).
Proof.
  induction ts as [|[t lt] ts IH]; intros st l st' Hr; simpl app in *.
  - inversion Hr as [|? t st1 ? ? E Hr']; subst. inversion Hr'; subst.
    apply get_token_spec in E as (g & s & Er & Hg & Hs & El).
    inversion Hs; subst; try (match goal with Hi : In _ _ |- _ => destruct Hi end).
    exists (g ++ String ")" "")%string. repeat split.
    + rewrite Er, app_assoc_s. reflexivity.
    + destruct g; discriminate.
    + apply str_last_app; [discriminate|]. reflexivity.
    + intros z. apply (rd_cons _ (TPunct RParen) (mkL z (line st')) []); [|constructor].
      apply get_token_spec. exists g, (String ")" z). rewrite app_assoc_s. repeat split; auto. constructor.
  - inversion Hr as [|? t' st1 ? ? E Hr']; subst.
    destruct (IH _ _ _ Hr') as (q & Eq & Hq & Hl & Hz).
    assert (Hd : str_last delimiter q).
    { revert Hl. apply str_last_impl. intros c ->. unfold delimiter. auto. }
    apply get_token_spec in E as (g & s & Er & Hg & Hs & El).
    destruct (spells_swap s t (rest st1) q (rest st') (rest st') Hs Eq Hq Hd) as (x & -> & _).
    exists (g ++ x ++ q)%string. repeat split.
    + rewrite Er, !app_assoc_s. reflexivity.
    + intros E0. apply Hq. destruct g; [destruct x|]; try discriminate. exact E0.
    + apply str_last_app; [destruct x; [exact Hq|discriminate]|]. apply str_last_app; auto.
    + intros z. apply (rd_cons _ t (mkL (q ++ z) (line st1))); [|apply Hz].
      apply get_token_spec.
      destruct (spells_swap _ t (rest st1) q (rest st') z Hs Eq Hq Hd) as (x' & Ex & Hsz).
      apply app_inv_tail_s in Ex. subst x'.
      exists g, (x ++ q ++ z)%string. cbn [rest line]. rewrite !app_assoc_s. auto.
Qed.

(** Appending to or replacing what follows the last token that was read. *)
Theorem parse_ignores_rest program ts l st' a :
  Reads (lex_new program) (ts ++ [rp l]) st' -> GDocument (ts ++ [rp l]) a ->
  exists q, program = (q ++ rest st')%string /\
    forall tail n, length ts < n -> parse n (q ++ tail) = Ok a.
Proof.
  intros Hr Hg. destruct (reads_swap _ _ _ _ Hr) as (q & Eq & _ & _ & Hz).
  exists q. split; [exact Eq|]. intros tail n Hn.
  eapply parse_complete; [apply Hz|exact Hg|]. rewrite app_length. simpl. lia.
Qed.

Lemma gblocks_last ts bs : GBlocks ts bs -> exists us l, ts = us ++ [rp l].
Proof.
  induction 1 as [l|ts b l Hb|ts b us bs Hb Hbs (vs & l & ->)].
  - exists [], l. reflexivity.
  - eauto.
  - exists (ts ++ vs), l. apply app_assoc.
Qed.

Lemma gpblocks_last ts bs : GPBlocks ts bs -> exists us t l, ts = us ++ [(t, l)] /\ (t = TPunct RParen \/ t = TEOF).
Proof.
  induction 1 as [l|l|ts b l Hb|ts b us bs Hb Hbs (vs & t & l & -> & Ht)].
  - exists [], (TPunct RParen), l. auto.
  - exists [], TEOF, l. auto.
  - exists ts, (TPunct RParen), l. auto.
  - exists (ts ++ vs), t, l. split; auto. apply app_assoc.
Qed.

Theorem parse_domain_ignores_rest n program d :
  parse n program = Ok (ADomain d) ->
  exists q tail n0, program = (q ++ tail)%string /\ str_last (fun c => c = ")"%char) q /\
    forall tail' n', n0 <= n' -> parse n' (q ++ tail') = Ok (ADomain d).
Proof.
  intros E. apply parse_sound in E as (ts & st' & Hr & Hg).
  assert (exists us l, ts = us ++ [rp l]) as (us & l & ->).
  { inversion Hg as [l1 l2 l3 l4 nm ln l5 us bs Hb|]; subst.
    destruct (gblocks_last _ _ Hb) as (vs & l & ->).
    exists (lp l1 :: kw KDefine l2 :: lp l3 :: kw KDomain l4 :: id nm ln :: rp l5 :: vs), l. reflexivity. }
  destruct (reads_swap _ _ _ _ Hr) as (q & Eq & _ & Hl & Hz).
  exists q, (rest st'), (S (length us)). repeat split; auto.
  intros tail' n' Hn. eapply parse_complete; [apply Hz|exact Hg|]. rewrite app_length. simpl. lia.
Qed.

(** A problem either read up to a ')' and ignores the rest, or read up to the
    end of the file. *)
Theorem parse_problem_ignores_rest n program d :
  parse n program = Ok (AProblem d) ->
  (exists q tail n0, program = (q ++ tail)%string /\ str_last (fun c => c = ")"%char) q /\
    forall tail' n', n0 <= n' -> parse n' (q ++ tail') = Ok (AProblem d))
  \/ (exists ts l st', Reads (lex_new program) (ts ++ [(TEOF, l)]) st').
Proof.
  intros E. apply parse_sound in E as (ts & st' & Hr & Hg).
  assert (exists us t l, ts = us ++ [(t, l)] /\ (t = TPunct RParen \/ t = TEOF)) as (us & t & l & -> & [-> | ->]).
  { inversion Hg as [|l1 l2 l3 l4 nm ln l5 l6 l7 m lm l8 us bs Hb]; subst.
    destruct (gpblocks_last _ _ Hb) as (vs & t & l & -> & Ht).
    eexists (lp l1 :: kw KDefine l2 :: lp l3 :: kw KProblem l4 :: id nm ln :: rp l5
      :: lp l6 :: kw KDomain l7 :: id m lm :: rp l8 :: vs), t, l. split; [reflexivity|auto]. }
  - left. destruct (reads_swap _ _ _ _ Hr) as (q & Eq & _ & Hl & Hz).
    exists q, (rest st'), (S (length us)). repeat split; auto.
    intros tail' n' Hn. eapply parse_complete; [apply Hz|exact Hg|]. rewrite app_length. unfold tok in *. simpl. lia.
  - right. eauto.
Qed.

(** A sequence of closed blocks. *)
Inductive GPSeq : list tok -> list pblock -> Prop :=
| gps_nil : GPSeq [] []
| gps_cons ts b us bs : GPBlock ts b false -> GPSeq us bs -> GPSeq (ts ++ us) (b :: bs).

Lemma gpseq_close ts bs us cs : GPSeq ts bs -> GPBlocks us cs -> GPBlocks (ts ++ us) (bs ++ cs).
Proof.
  induction 1 as [|ts b vs bs Hb Hs IH]; intros Hu; simpl; auto.
  rewrite <- app_assoc. apply gpbs_cons; auto.
Qed.

(** The parenthesis that closes "(:goal f)" ends the problem: blocks after it
    are not read. *)
Theorem goal_ends_problem l1 l2 l3 l4 nm ln l5 l6 l7 m lm l8 ts bs g1 g2 us f l :
  GPSeq ts bs -> GFormula us f ->
  GDocument (lp l1 :: kw KDefine l2 :: lp l3 :: kw KProblem l4 :: id nm ln :: rp l5
             :: lp l6 :: kw KDomain l7 :: id m lm :: rp l8
             :: ts ++ (lp g1 :: kw KGoal g2 :: us) ++ [rp l])
            (AProblem (problem_of (bs ++ [QGoal f]))).
Proof.
  intros Hs Hf. apply gd_problem. apply gpseq_close; auto.
  apply gpbs_cons; [apply gpb_goal; auto|constructor].
Qed.

End Top.
