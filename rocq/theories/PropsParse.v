(** Property theorems about the parser: C08-C14, C38, and C03/C35 for whole
    documents.  Specifications: SpecLex.v (text and tokens), SpecGrammar.v (the
    grammar), SpecPrint.v (canonical text), AstLines.v (recorded lines). *)
From Coq Require Import String Ascii NArith ZArith Bool List Lia PeanoNat.
From Verif Require Import Base Token Lexer Errors Ast Parser AstRel AstLines AstLinesProofs StrFacts SpecLex
  LexProofs LexProofs2 LexProofs3 PropsLex ParserRel ParserProofs ParserStream ParserTerm SpecGrammar
  GrammarSound GrammarComplete GrammarTop SpecPrint FormulaInd PrintProofs PrintText PrintSound ParserPanic.
Import ListNotations.
Open Scope string_scope.

(** Documents used in the examples. *)
Definition dom1 : string :=
  "(define (domain d)" ++ nl ++
  " (:requirements :hierarchy)" ++ nl ++
  " (:types a b - object)" ++ nl ++
  " (:predicates (p ?x - a) (q))" ++ nl ++
  " (:task t :parameters (?x - a))" ++ nl ++
  " (:method m :parameters (?x - a)" ++ nl ++
  "   :task (t ?x) :precondition (and (p ?x) (not (q)))" ++ nl ++
  "   :ordered-subtasks (and (c ?x) (c ?x)))" ++ nl ++
  " (:action c :parameters (?y - a) :effect (q)))" ++ nl.
Definition prob1 : string :=
  "(define (problem p1) (domain d)" ++ nl ++
  " (:objects x - a)" ++ nl ++
  " (:htn :subtasks (and (t1 (t x)) (t2 (t x))) :ordering (< t1 t2))" ++ nl ++
  " (:init (p x)))" ++ nl.

Definition is_ok {A} (o : outcome A) : bool := match o with Ok _ => true | _ => false end.
Lemma is_ok_ex {A} (o : outcome A) : is_ok o = true -> exists a, o = Ok a.
Proof. destruct o; try discriminate; eauto. Qed.

(** ** C03 and C35 for documents *)
Theorem C03_parse_layout `{Unicode} : forall n q w s,
  clean q -> str_last delimiter q -> Gap w ->
  let later := fun x y => (x <= y <= x + count_nl w)%N in
  outcome_rel later (ast_rel later) (parse n (q ++ s)) (parse n (q ++ w ++ s)).
Proof. exact parse_insert_gap. Qed.

(** Any two texts of the same tokens denote the same tree, up to lines. *)
Theorem C03_any_layout `{Unicode} : forall a text n,
  wf_ast a -> Forall printable (ast_tokens a) -> layout_of (ast_tokens a) text ->
  (length (ast_tokens a) <= n)%nat ->
  exists a', parse n text = Ok a' /\ ast_at 1 a' = ast_at 1 a.
Proof. intros. eapply layout_round_trip; eauto. Qed.

Theorem C35_question_mark_parse `{Unicode} : forall n q w r,
  clean q -> str_last delimiter q ->
  str_all word_byte w -> bare_start w -> ~ reserved w -> identifier_text w -> word_end r ->
  parse n (q ++ String "?" (w ++ r)) = parse n (q ++ w ++ r).
Proof. exact parse_question_mark. Qed.

(** ** C08 *)
Theorem C08_terminates `{Unicode} : forall program n,
  str_last delimiter program -> (String.length program < n)%nat -> parse n program <> OutOfFuel.
Proof. exact (fun program n => parse_terminates n program). Qed.

(** More fuel does not change an answer: the result is that of the unbounded loops. *)
Theorem C08_fuel_irrelevant `{Unicode} : forall program n m,
  (n <= m)%nat -> parse n program <> OutOfFuel -> parse m program = parse n program.
Proof. intros program n m Hn E. apply parse_mono; auto. Qed.

(** Without a delimiter at the end of the document the parser need not stop. *)
Lemma args_stuck `{Unicode} st : get_token st = (LTok (TIdent ""), st) ->
  forall n r o, args_loop n r o (TIdent "") st = PFuel.
Proof.
  intros E. induction n as [|n IH]; intros; simpl; auto.
  unfold bind, pos, ret, get, of_lex. rewrite E. simpl. apply IH.
Qed.

Theorem C08_truncated_refuted `{Unicode} :
  exists program, forall n, parse n program = OutOfFuel.
Proof.
  exists "(define (domain d) (:types a". intros [|n]; [vm_compute; reflexivity|].
  unfold parse, parse_doc, bind, get.
  repeat (match goal with |- context [get_token ?s] =>
    let v := eval vm_compute in (get_token s) in change (get_token s) with v end;
    cbn [of_lex parse_domain]; unfold parse_document_type, parse_domain_header, bind, get, ret).
  unfold parse_args, bind, get.
  match goal with |- context [get_token ?s] =>
    let v := eval vm_compute in (get_token s) in change (get_token s) with v end.
  cbn [of_lex]. rewrite args_stuck; [reflexivity|vm_compute; reflexivity].
Qed.

Example C08_example :
  str_last delimiter dom1 /\ is_ok (@parse uni0 (S (String.length dom1)) dom1) = true
  /\ is_ok (@parse uni0 (S (String.length prob1)) prob1) = true.
Proof. split; [|split]; vm_compute; intuition discriminate. Qed.

(** ** C09 *)
Theorem C09_only_stray_token_panics `{Unicode} : forall program n p,
  str_all is_ascii program -> str_last (fun c => c = "010"%char) program ->
  parse n program = Panic p ->
  exists hs ts bs t l st',
    GProblemHeader hs /\ GPSeq ts bs /\ stray t
    /\ Reads (lex_new program) (hs ++ ts ++ [(t, l)])%list st'.
Proof.
  intros program n p Ha Hl E. apply problem_panic_iff. exists n.
  destruct (parse_problem_panic _ _ _ E) as [(st & b & Hh & Ep)|[-> _]]; auto.
  exfalso. eapply C05_ascii_no_crash; eauto.
Qed.

(** The panic does happen, on every such document. *)
Theorem C09_stray_token_panics_refuted `{Unicode} : forall program hs ts bs t l st',
  GProblemHeader hs -> GPSeq ts bs -> stray t ->
  Reads (lex_new program) (hs ++ ts ++ [(t, l)])%list st' ->
  exists n, parse n program = Panic PanicProblemToken.
Proof. intros. apply problem_panic_iff. do 6 eexists. eauto. Qed.

Theorem C09_domain_never_panics `{Unicode} : forall program n p l1 l2 l3 l4 st,
  str_all is_ascii program -> str_last (fun c => c = "010"%char) program ->
  Reads (lex_new program) [lp l1; kw KDefine l2; lp l3; kw KDomain l4] st ->
  parse n program <> Panic p.
Proof.
  intros program n p l1 l2 l3 l4 st Ha Hl Hr E.
  destruct (parse_problem_panic _ _ _ E) as [(s & b & Hh & Ep)|[_ Hc]].
  - eapply C05_ascii_no_crash; eauto.
  - unfold classify in Hc.
    repeat match goal with
    | Hr : Reads _ (_ :: _) _ |- _ => inversion Hr; subst; clear Hr
    end.
    repeat match goal with E : get_token _ = _ |- _ => rewrite E in Hc; clear E end. discriminate.
Qed.

(** Together with C08: what can happen to a text document. *)
Theorem C09_outcomes `{Unicode} : forall program n,
  str_all is_ascii program -> str_last (fun c => c = "010"%char) program ->
  (String.length program < n)%nat ->
  (exists a, parse n program = Ok a) \/ (exists e, parse n program = Err e)
  \/ exists hs ts bs t l st',
       GProblemHeader hs /\ GPSeq ts bs /\ stray t
       /\ Reads (lex_new program) (hs ++ ts ++ [(t, l)])%list st'.
Proof.
  intros program n Ha Hl Hn. destruct (parse n program) as [a|e|p|] eqn:E; eauto.
  - right; right. eapply C09_only_stray_token_panics; eauto.
  - exfalso. eapply C08_terminates; [| |exact E]; auto.
    revert Hl. apply str_last_impl. intros c ->. unfold delimiter, ws; auto.
Qed.

Lemma reads_step `{Unicode} st t l st1 ts st' :
  get_token st = (LTok t, st1) -> l = line st1 -> Reads st1 ts st' -> Reads st ((t, l) :: ts) st'.
Proof. intros E -> Hr. econstructor; eauto. Qed.

Definition stray_doc : string := "(define (problem p) (domain d) (:objects x) y" ++ nl.
Example C09_example :
  str_all is_ascii stray_doc /\ str_last (fun c => c = "010"%char) stray_doc
  /\ @parse uni0 50 stray_doc = Panic PanicProblemToken
  /\ exists st, @Reads uni0 (lex_new dom1) [lp 1; kw KDefine 1; lp 1; kw KDomain 1] st.
Proof.
  unfold is_ascii. split; [vm_compute; intuition discriminate|]. split; [vm_compute; auto|].
  split; [vm_compute; reflexivity|].
  eexists. unfold lp, kw. repeat (eapply reads_step; [vm_compute; reflexivity|reflexivity|]). constructor.
Qed.

(** ** C10 *)
Theorem C10_parser_is_grammar `{Unicode} : forall program a,
  (exists n, parse n program = Ok a)
  <-> exists ts st', Reads (lex_new program) ts st' /\ GDocument ts a.
Proof. exact parse_iff_grammar. Qed.

Theorem C10_unambiguous `{Unicode} : forall program ts st' a ts2 st2 a2,
  Reads (lex_new program) ts st' -> GDocument ts a ->
  Reads (lex_new program) ts2 st2 -> GDocument ts2 a2 -> a = a2.
Proof. exact grammar_unique. Qed.

(** Everything else is rejected with an error (or the panic of C09). *)
Theorem C10_rejects `{Unicode} : forall program n,
  str_last delimiter program -> (String.length program < n)%nat ->
  (forall ts st' a, Reads (lex_new program) ts st' -> ~ GDocument ts a) ->
  (exists e, parse n program = Err e) \/ (exists p, parse n program = Panic p).
Proof.
  intros program n Hl Hn Hg. destruct (parse n program) as [a|e|p|] eqn:E; eauto.
  - exfalso. apply parse_sound in E as (ts & st' & Hr & Hd). eapply Hg; eauto.
  - exfalso. eapply C08_terminates; eauto.
Qed.

(** Tokens of the canonical text of [prob1]: the grammar derives a non-trivial problem. *)
Example C10_example :
  exists ts st' a, @Reads uni0 (lex_new dom1) ts st' /\ GDocument ts a.
Proof.
  destruct (is_ok_ex (@parse uni0 400 dom1)) as (a & E); [vm_compute; reflexivity|].
  apply parse_sound in E as (ts & st' & Hr & Hg). eauto.
Qed.

(** ** C11 *)
Theorem C11_print_parse `{Unicode} : forall a n,
  wf_ast a -> Forall printable (ast_tokens a) -> (length (ast_tokens a) <= n)%nat ->
  parse n (ast_text a) = Ok (ast_at 1 a).
Proof. intros. apply text_round_trip; auto. Qed.

Theorem C11_parse_print_parse `{Unicode} : forall program n a,
  parse n program = Ok a ->
  exists n0, forall m, (n0 <= m)%nat -> parse m (ast_text a) = Ok (ast_at 1 a).
Proof. intros program n a. apply reparse. Qed.

(** What the parser accepts is exactly what can be printed, up to lines. *)
Theorem C11_image `{Unicode} : forall a,
  (exists n program a', parse n program = Ok a' /\ ast_at 1 a' = ast_at 1 a)
  <-> exists a', ast_at 1 a' = ast_at 1 a /\ wf_ast a' /\ Forall printable (ast_tokens a').
Proof.
  intros a. split.
  - intros (n & program & a' & E & Ea). exists a'. apply parse_wf in E as [Hw Hp]. auto.
  - intros (a' & Ea & Hw & Hp). exists (length (ast_tokens a')), (ast_text a'), (ast_at 1 a').
    split; [apply text_round_trip; auto|]. rewrite at_idem. exact Ea.
Qed.

Example C11_example :
  exists a, @parse uni0 400 dom1 = Ok a /\ wf_ast a /\ Forall printable (ast_tokens a)
    /\ ast_text a <> dom1 /\ ast_at 1 a <> a.
Proof.
  destruct (is_ok_ex (@parse uni0 400 dom1)) as (a & E); [vm_compute; reflexivity|].
  exists a. split; auto. destruct (parse_wf _ _ _ E) as [H1 H2]. split; auto. split; auto.
  vm_compute in E. injection E as <-. split; vm_compute; discriminate.
Qed.

(** ** C12 *)
Theorem C12_domain_invariants `{Unicode} : forall program n d,
  parse n program = Ok (ADomain d) ->
  wf_decls (d_types d) /\ wf_decls (d_constants d)
  /\ Forall (fun p => wf_args (pred_vars p)) (d_preds d)
  /\ Forall (fun f => wf_args (func_vars f)) (d_funcs d)
  /\ Forall (fun t => wf_args (task_params t)) (d_tasks d)
  /\ Forall wf_method (d_methods d) /\ Forall wf_action (d_actions d).
Proof. intros program n d E. apply parse_wf in E as [Hw _]. exact Hw. Qed.

Theorem C12_problem_invariants `{Unicode} : forall program n p,
  parse n program = Ok (AProblem p) ->
  wf_decl (p_objects p)
  /\ wf_opt (fun t => wf_opt wf_args (itn_params t) /\ wf_htn (itn_tn t)) (p_init_tn p)
  /\ Forall (fun q => wf_args (pred_vars q)) (p_init p)
  /\ wf_opt wf_formula (p_goal p).
Proof. intros program n p E. apply parse_wf in E as [Hw _]. exact Hw. Qed.

(** Implications never reach the analyser: `imply` is not accepted, although it
    is a reserved word and has a tree node. *)
Theorem C12_imply_rejected_refuted :
  exists program e, @parse uni0 100 program = Err e
    /\ program = "(define (domain d) (:action a :parameters () :precondition (imply (p) (q))))" ++ nl.
Proof. do 2 eexists. split; [|reflexivity]. vm_compute. reflexivity. Qed.

Example C12_example :
  exists d, @parse uni0 400 dom1 = Ok (ADomain d) /\ length (d_methods d) = 1%nat /\ d_types d <> None.
Proof.
  destruct (is_ok_ex (@parse uni0 400 dom1)) as (a & E); [vm_compute; reflexivity|].
  vm_compute in E. injection E as <-. eexists. split; [vm_compute; reflexivity|].
  split; [reflexivity|discriminate].
Qed.

(** ** C13 (syntax trees, lexical and syntactic errors) *)
Theorem C13_tree_lines `{Unicode} : forall program n a,
  parse n program = Ok a ->
  Forall (fun l => (1 <= l <= 1 + count_nl program)%N) (ast_lines a).
Proof.
  intros program n a E. assert (Hh := parse_history program n). rewrite E in Hh.
  eapply ast_al; [|exact Hh]. intros x y [_ Hd]. exact Hd.
Qed.

Theorem C13_error_lines `{Unicode} : forall program n e,
  parse n program = Err e ->
  err_lines e <> [] /\ Forall (fun l => (1 <= l <= 1 + count_nl program)%N) (err_lines e).
Proof.
  intros program n e E. assert (Hh := parse_history program n). rewrite E in Hh. split.
  - inversion Hh; discriminate.
  - eapply err_al; [|exact Hh]. intros x y [_ Hd]. exact Hd.
Qed.

Example C13_example :
  exists a, @parse uni0 400 dom1 = Ok a
    /\ fold_right N.max 0%N (ast_lines a) = 9%N /\ count_nl dom1 = 9%N.
Proof.
  destruct (is_ok_ex (@parse uni0 400 dom1)) as (a & E); [vm_compute; reflexivity|].
  exists a. split; auto. vm_compute in E. injection E as <-. vm_compute. auto.
Qed.

(** ** C14 *)
Theorem C14_domain_tail_ignored `{Unicode} : forall program n d,
  parse n program = Ok (ADomain d) ->
  exists q tail n0, program = q ++ tail /\ str_last (fun c => c = ")"%char) q /\
    forall tail' n', (n0 <= n')%nat -> parse n' (q ++ tail') = Ok (ADomain d).
Proof. intros program n d. apply parse_domain_ignores_rest. Qed.

Theorem C14_problem_tail_ignored `{Unicode} : forall program n d,
  parse n program = Ok (AProblem d) ->
  (exists q tail n0, program = q ++ tail /\ str_last (fun c => c = ")"%char) q /\
    forall tail' n', (n0 <= n')%nat -> parse n' (q ++ tail') = Ok (AProblem d))
  \/ (exists ts l st', Reads (lex_new program) (ts ++ [(TEOF, l)])%list st').
Proof. intros program n d. apply parse_problem_ignores_rest. Qed.

(** The parenthesis that closes "(:goal f)" already ends the problem: whatever
    follows, blocks included, is not read. *)
Theorem C14_after_goal_ignored `{Unicode} : forall program hs ts bs g1 g2 us f l st',
  GProblemHeader hs -> GPSeq ts bs -> GFormula us f ->
  Reads (lex_new program) ((hs ++ ts ++ lp g1 :: kw KGoal g2 :: us) ++ [rp l])%list st' ->
  exists q n0, program = q ++ rest st' /\
    forall tail n, (n0 <= n)%nat -> parse n (q ++ tail) = Ok (AProblem (problem_of (bs ++ [QGoal f])%list)).
Proof.
  intros program hs ts bs g1 g2 us f l st' Hh Hs Hf Hr.
  assert (GDocument ((hs ++ ts ++ lp g1 :: kw KGoal g2 :: us) ++ [rp l])
            (AProblem (problem_of (bs ++ [QGoal f])))) as Hg.
  { destruct Hh. rewrite <- app_assoc. cbn [app]. rewrite <- app_assoc.
    apply (goal_ends_problem l1 l2 l3 l4 n ln l5 l6 l7 m lm l8 ts bs g1 g2 us f l Hs Hf). }
  destruct (parse_ignores_rest _ _ _ _ _ Hr Hg) as (q & Eq & Hq).
  eexists q, (S _). split; [exact Eq|]. intros tail n Hn. apply Hq. exact Hn.
Qed.

(** So an initial state written after the goal is lost. *)
Theorem C14_init_after_goal_refuted :
  exists p, @parse uni0 100 ("(define (problem p) (domain d) (:goal (q)) (:init (q)))" ++ nl) = Ok (AProblem p)
    /\ p_init p = [].
Proof.
  eexists. split; [vm_compute; reflexivity|]. reflexivity.
Qed.

Example C14_example :
  exists d, @parse uni0 400 dom1 = Ok (ADomain d) /\ @parse uni0 400 (dom1 ++ "((( : ; $") = Ok (ADomain d).
Proof.
  destruct (is_ok_ex (@parse uni0 400 dom1)) as (a & E); [vm_compute; reflexivity|].
  assert (E2 := E). vm_compute in E2. injection E2 as <-. eexists. split; [exact E|]. vm_compute. reflexivity.
Qed.

(** ** C38 *)
(** A block sequence without open blocks. *)
Inductive GSeq : list tok -> list dblock -> Prop :=
| gsq_nil : GSeq [] []
| gsq_cons ts b us bs : GBlock ts b false -> GSeq us bs -> GSeq (ts ++ us)%list (b :: bs).

(** After a method that has a precondition but neither subtasks nor ordered
    subtasks, the parenthesis meant to close the method closes the domain:
    everything after it is ignored. *)
Theorem C38_open_method_ends_domain_refuted `{Unicode} :
  forall program l1 l2 l3 l4 d ld l5 ts bs m1 m2 us m l st',
  GSeq ts bs -> GMethod us m true ->
  Reads (lex_new program)
    ((lp l1 :: kw KDefine l2 :: lp l3 :: kw KDomain l4 :: id d ld :: rp l5
      :: ts ++ lp m1 :: kw KMethod m2 :: us) ++ [rp l])%list st' ->
  exists q n0, program = q ++ rest st' /\
    forall tail n, (n0 <= n)%nat ->
      parse n (q ++ tail) = Ok (ADomain (domain_of d (bs ++ [BMethod m])%list)).
Proof.
  intros program l1 l2 l3 l4 d ld l5 ts bs m1 m2 us m l st' Hs Hm Hr.
  match type of Hr with Reads _ (?a ++ _)%list _ => set (hs := a) in * end.
  assert (GDocument (hs ++ [rp l]) (ADomain (domain_of d (bs ++ [BMethod m])))) as Hg.
  { unfold hs. cbn [app]. rewrite <- app_assoc. apply gd_domain.
    clear Hr hs. induction Hs as [|ts b vs bs Hb Hs IH]; cbn [app].
    - apply (gbs_open (lp m1 :: kw KMethod m2 :: us) (BMethod m) l). apply gbl_method; auto.
    - rewrite <- app_assoc. apply gbs_cons; auto. }
  destruct (parse_ignores_rest _ _ _ _ _ Hr Hg) as (q & Eq & Hq).
  eexists q, (S _). split; [exact Eq|]. intros tail n Hn. apply Hq. exact Hn.
Qed.

(** The action after such a method is lost. *)
Theorem C38_actions_lost_refuted :
  exists d, @parse uni0 200
    ("(define (domain d) (:predicates (p)) (:task t :parameters ())" ++ nl ++
     " (:method m :parameters () :task (t) :precondition (p))" ++ nl ++
     " (:action a :parameters () :effect (p)))" ++ nl) = Ok (ADomain d)
    /\ length (d_methods d) = 1%nat /\ d_actions d = [].
Proof. eexists. split; [vm_compute; reflexivity|]. split; reflexivity. Qed.

(** Conversely, nothing is lost when every block is closed. *)
Theorem C38_closed_blocks_kept `{Unicode} :
  forall program l1 l2 l3 l4 d ld l5 ts bs l st',
  GSeq ts bs ->
  Reads (lex_new program)
    (lp l1 :: kw KDefine l2 :: lp l3 :: kw KDomain l4 :: id d ld :: rp l5 :: ts ++ [rp l])%list st' ->
  exists n0, forall n, (n0 <= n)%nat -> parse n program = Ok (ADomain (domain_of d bs)).
Proof.
  intros program l1 l2 l3 l4 d ld l5 ts bs l st' Hs Hr.
  eexists. intros n Hn. eapply parse_complete; [exact Hr| |exact Hn]. apply gd_domain.
  clear - Hs. induction Hs as [|ts b vs bs Hb Hs IH]; cbn [app].
  - constructor.
  - rewrite <- app_assoc. apply gbs_cons; auto.
Qed.

Example C38_example :
  exists us m, GMethod us m true /\ m_pre m <> None.
Proof.
  exists [id "m" 1; kw KParameters 1; lp 1; rp 1; kw KTask 1; lp 1; id "t" 1; rp 1;
          kw KPrecondition 1; lp 1; rp 1].
  eexists. split.
  - apply (gme "m" 1 1 1 [rp 1] [] 1 1 "t" 1 [rp 1] [] [kw KPrecondition 1; lp 1; rp 1] (Some FEmpty) []
             (mkHtn [] None (Partial []) None) true).
    + apply (ga_end [] 1).
    + apply (ga_end [] 1).
    + apply (gof_some KPrecondition 1 [lp 1; rp 1]). constructor.
    + constructor.
    + discriminate.
  - discriminate.
Qed.
