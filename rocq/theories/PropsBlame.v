(** Property theorems about rejected documents: the reported token is the first
    one that cannot be continued to an accepted document (C45).  Specification:
    SpecBlame.v. *)
From Coq Require Import String Ascii NArith Bool List Lia PeanoNat.
From Verif Require Import Base Token Lexer Errors Ast Parser StrFacts SpecLex LexProofs2 LexProofs3 ParserProofs
  ParserPrefix ParserShapes ParserPrefix2 SpecBlame ParserBlame PropsLex PropsParse.
Import ListNotations.
Open Scope list_scope.
Open Scope nat_scope.

Section S.
Context `{Unicode}.

Lemma completed ts st toks : noeof ts -> (exists p, Reads (lex_new p) ts st) -> Forall printable toks ->
  (forall program' st' us st1', Reads (lex_new program') ts st' ->
     map fst us = toks -> Reads st' us st1' -> exists a m, parse m program' = Ok a) -> viable (map fst ts).
Proof.
  intros Hn (p & Hr) Hp Hc. destruct (reads_rewritten _ _ _ Hr Hn) as (q & Hq).
  destruct (reads_printed toks (line st) Hp) as (z & us & st1 & Eu & Hu).
  assert (Reads (lex_new (String " " (q ++ z))) ts (mkL (String " " z) (line st))) as Hq' by apply (Hq z).
  destruct (Hc _ _ _ _ Hq' Eu Hu) as (a & m & Ea).
  exists (String " " (q ++ z))%string, (ts ++ us), toks, st1, m, a. split; [eapply reads_app; eauto|].
  split; auto. rewrite map_app, Eu. auto.
Qed.

(** A syntax error stands on the first token with which the document can no
    longer be continued, on that token's line. *)
Theorem C45_syntax_error : forall n program e, parse n program = Err (ESyn e) ->
  exists ts t, stands_at program ts (LTok t) (se_line e)
    /\ (se_found e = t \/ se_found e = peeked t)
    /\ viable (map fst ts) /\ ~ viable (map fst ts ++ [t]).
Proof.
  intros n program e E. destruct (parse_blame n program (inl (ESyn e)) E) as (ts & st & Hr & Hn & (t & Ht & Hf & Hl) & Hfin & (toks & Hp & Hc) & _).
  exists ts, t. split; [exists st; repeat split; auto|]. split; auto. split.
  - eapply completed; eauto.
  - eapply (not_viable program (inl (ESyn e)) ts st); eauto.
Qed.
(** A lexical error is the first item of the document that is no token. *)
Theorem C45_lexical_error : forall n program e, parse n program = Err (ELex e) ->
  exists ts l, stands_at program ts (LErr e) l /\ viable (map fst ts).
Proof.
  intros n program e E. destruct (parse_blame n program (inl (ELex e)) E) as (ts & st & Hr & Hn & Ht & Hfin & (toks & Hp & Hc) & _).
  exists ts, (line (snd (get_token st))). split; [exists st; auto|]. eapply completed; eauto.
Qed.
Theorem C45_never_semantic : forall n program e, parse n program <> Err (ESem e).
Proof.
  intros n program e E. destruct (parse_blame n program (inl (ESem e)) E) as (ts & st & _ & _ & Hb & _). exact Hb.
Qed.
(** A crash is one of the tokenizer, or stands on the first token with which the
    document can no longer be continued. *)
Theorem C45_crash : forall n program p, parse n program = Panic p ->
  exists ts l, (stands_at program ts (LPanic p) l /\ viable (map fst ts))
    \/ (p = PanicProblemToken /\ exists t, stands_at program ts (LTok t) l
        /\ viable (map fst ts) /\ ~ viable (map fst ts ++ [t])).
Proof.
  intros n program p E. destruct (parse_blame n program (inr p) E) as (ts & st & Hr & Hn & Hb & Hfin & (toks & Hp & Hc) & _).
  assert (viable (map fst ts)) as Hv by (eapply completed; eauto).
  exists ts, (line (snd (get_token st))). destruct Hb as [Hb|(-> & t & Hb)]; [left; split; auto; exists st; auto|].
  right. split; auto. exists t. split; [exists st; auto|]. split; auto.
  eapply (not_viable program (inr PanicProblemToken) ts st); eauto.
Qed.
(** Whatever is written behind the reported token, the report is the same. *)
Theorem C45_rest_irrelevant : forall n program e, parse n program = Err e ->
  exists ts o l, stands_at program ts o l
    /\ forall program' m, stands_at program' ts o l -> parse m program' = OutOfFuel \/ parse m program' = Err e.
Proof.
  intros n program e E. destruct (parse_blame n program (inl e) E) as (ts & st & Hr & Hn & Hb & Hfin & _).
  exists ts, (fst (item st)), (snd (item st)). split; [exists st; auto|].
  intros program' m (st' & Hr' & Ho & Hl). apply (Hfin program' st' m Hr'). unfold item in *. cbn [fst snd] in *. congruence.
Qed.
(** The text before the reported token can be completed to an accepted document. *)
Theorem C45_completion : forall n program e, str_last delimiter program -> parse n program = Err e ->
  exists q r ts o l, program = (q ++ r)%string /\ stands_at program ts o l
    /\ (exists st, Reads (lex_new program) ts st /\ rest st = r)
    /\ match e with ESyn e => o = LTok (se_found e) \/ exists t, o = LTok t /\ se_found e = peeked t | ELex e => o = LErr e | ESem _ => False end
    /\ exists z a m, parse m (q ++ " " ++ z)%string = Ok a.
Proof.
  intros n program e Hl E. destruct (parse_blame n program (inl e) E) as (ts & st & Hr & Hn & Hb & Hfin & (toks & Hp & Hc) & _).
  destruct (reads_again ts (lex_new program) st Hr Hn Hl) as (q & Eq & Hq).
  exists q, (rest st), ts, (fst (item st)), (snd (item st)). split; [exact Eq|]. split; [exists st; auto|].
  split; [exists st; auto|]. split.
  { destruct e as [e|e|e]; cbn [blames] in Hb; auto. destruct Hb as (t & -> & [->| ->] & _); eauto. }
  destruct (reads_printed toks (line st) Hp) as (z & us & st1 & Eu & Hu).
  exists z. assert (Reads (lex_new (q ++ " " ++ z)) ts (mkL (String " " z) (line st))) as Hq'.
  { apply (Hq " "%char z). unfold delimiter, ws; auto. }
  destruct (Hc _ _ _ _ Hq' Eu Hu) as (a & m & Ea). eauto.
Qed.
(** Every token up to which the document can be continued comes before the
    reported one. *)
Theorem C45_first : forall n program e ts t, parse n program = Err (ESyn e) ->
  (exists l, stands_at program ts (LTok t) l) -> viable (map fst ts ++ [t]) ->
  exists us u, stands_at program us (LTok u) (se_line e) /\ ~ viable (map fst us ++ [u]) /\ length ts < length us.
Proof.
  intros n program e ts t E (l & st & Hr & Ho & Hl) Hv.
  destruct (C45_syntax_error n program e E) as (us & u & Hs & _ & Hv1 & Hn). exists us, u. split; auto. split; auto.
  destruct (Nat.le_gt_cases (length us) (length ts)) as [Hle|]; auto. exfalso. apply Hn.
  destruct Hs as (st' & Hr' & Ho' & Hl').
  assert (forall ts us st s1 s2, Reads st us s1 -> Reads st (ts) s2 -> length us < length ts ->
           exists x, ts = us ++ (match fst (get_token s1) with LTok t => t | _ => TEOF end, line (snd (get_token s1))) :: x) as Hx.
  { clear. intros ts us st s1 s2 H1. revert ts. induction H1 as [st|st a st1 us st2 Ea _ IH]; intros ts H2 Hlt.
    - destruct ts as [|[t l] ts]; simpl in Hlt; [lia|]. apply reads_cons_inv in H2 as (s & E & <- & _). rewrite E. exists ts. auto.
    - destruct ts as [|[t l] ts]; simpl in Hlt; [lia|]. apply reads_cons_inv in H2 as (s & E & <- & H2).
      rewrite Ea in E. injection E as <- <-. destruct (IH ts H2 ltac:(lia)) as (x & ->). exists x. reflexivity. }
  assert (Reads (lex_new program) (ts ++ [(t, l)]) (snd (get_token st))) as Hrt.
  { eapply reads_app; [exact Hr|]. destruct (get_token st) as [o s] eqn:Eg. cbn [fst snd] in *. subst. econstructor; [exact Eg|constructor]. }
  destruct (Hx _ _ _ _ _ Hr' Hrt) as (x & Ex); [rewrite app_length; simpl; lia|]. rewrite Ho' in Ex.
  destruct Hv as (p & vs & more & s & m & a & Hp1 & Hp2 & Hp3). apply (f_equal (map fst)) in Ex. rewrite !map_app in Ex. cbn [map fst] in Ex.
  exists p, vs, (map fst x ++ more), s, m, a. split; auto. split; auto. rewrite Hp2, Ex, <- !app_assoc. reflexivity.
Qed.
End S.

Definition blame_theorems := (
  @C45_syntax_error,
  @C45_lexical_error,
  @C45_never_semantic,
  @C45_crash,
  @C45_rest_irrelevant,
  @C45_completion,
  @C45_first).

(** ** Concrete cases *)
Open Scope string_scope.
(** The opening parenthesis of [:action] is missing on line 2. *)
Definition bad_dom : string := "(define (domain d) (:predicates (p))" ++ nl ++ " :action a :parameters ()))" ++ nl.
Example C45_example : exists e, @parse uni0 300 bad_dom = Err (ESyn e) /\ se_line e = 2%N
  /\ se_found e = TKeyword KAction /\ str_last delimiter bad_dom.
Proof. eexists. split; [vm_compute; reflexivity|]. split; [reflexivity|]. split; [reflexivity|]. vm_compute. auto. Qed.
Example C45_completion_example : exists a, @parse uni0 300 ("(define (domain d) (:predicates (p))" ++ " " ++ ")") = Ok a.
Proof. eexists. vm_compute. reflexivity. Qed.
Example C45_lexical_example : exists e, @parse uni0 300 ("(define (domain d) (:predicates (p) [))" ++ nl) = Err (ELex e).
Proof. eexists. vm_compute. reflexivity. Qed.
Example C45_crash_example : @parse uni0 300 ("(define (problem p) (domain d) (:init (q)) x)" ++ nl) = Panic PanicProblemToken.
Proof. vm_compute. reflexivity. Qed.
(** A token before the reported one is viable. *)
Example C45_first_example : @viable uni0 [TPunct LParen; TKeyword KDefine].
Proof.
  exists "(define (domain d))", [(TPunct LParen, 1%N); (TKeyword KDefine, 1%N)], [].
  exists (mkL " (domain d))" 1). exists 300. eexists. split; [|split; [reflexivity|vm_compute; reflexivity]].
  apply (rd_cons _ (TPunct LParen) (mkL "define (domain d))" 1)); [vm_compute; reflexivity|].
  apply (rd_cons _ (TKeyword KDefine) (mkL " (domain d))" 1)); [vm_compute; reflexivity|]. apply rd_nil.
Qed.
