(** Instances of the relational pass: fuel monotonicity, panics, tree
    invariants, positions, dependence on the token stream only. *)
From Coq Require Import String Ascii NArith ZArith Bool List Lia PeanoNat.
From Verif Require Import Base Token Lexer Errors Ast Parser AstRel ParserRel
  StrFacts SpecLex LexProofs LexProofs2 LexProofs3.
Import ListNotations.
Open Scope list_scope.
Open Scope nat_scope.

(** ** Equality from similarity with equal lines *)

Section Eq.
Variable RL : N -> N -> Prop.
Hypothesis RL_eq : forall x y, RL x y -> x = y.

Lemma opt_rel_eq {A} (R : A -> A -> Prop) :
  (forall x y, R x y -> x = y) -> forall o o', opt_rel R o o' -> o = o'.
Proof. intros HR o o' [|a b Hr]; auto. f_equal; auto. Qed.

Lemma Forall2_eq {A} (R : A -> A -> Prop) :
  (forall x y, R x y -> x = y) -> forall l l', Forall2 R l l' -> l = l'.
Proof. intros HR l l'. induction 1; auto. f_equal; auto. Qed.

Lemma sym_rel_eq x y : sym_rel RL x y -> x = y.
Proof.
  intros [n p p' Hp|n p p' t q q' Hp Hq]; apply RL_eq in Hp; subst; auto.
  apply RL_eq in Hq; subst; auto.
Qed.
Lemma syms_rel_eq x y : syms_rel RL x y -> x = y.
Proof. apply Forall2_eq, sym_rel_eq. Qed.
Lemma plain_rel_eq x y : plain_rel RL x y -> x = y.
Proof. intros [n p p' Hp]. apply RL_eq in Hp; subst; auto. Qed.
Lemma pred_rel_eq x y : pred_rel RL x y -> x = y.
Proof. intros [n p p' l l' Hp Hl]. apply RL_eq in Hp. apply syms_rel_eq in Hl. subst; auto. Qed.
Lemma func_rel_eq x y : func_rel RL x y -> x = y.
Proof. intros [n p p' l l' Hp Hl]. apply RL_eq in Hp. apply syms_rel_eq in Hl. subst; auto. Qed.
Lemma task_rel_eq x y : task_rel RL x y -> x = y.
Proof. intros [n p p' l l' Hp Hl]. apply RL_eq in Hp. apply syms_rel_eq in Hl. subst; auto. Qed.

Lemma formula_rel_eq x y : formula_rel RL x y -> x = y.
Proof.
  intros Hr.
  apply (formula_rel_mut RL (fun f f' _ => f = f') (fun l l' _ => l = l')) in Hr; auto;
    intros; try congruence.
  - f_equal. apply pred_rel_eq; auto.
  - f_equal; auto. apply syms_rel_eq; auto.
  - f_equal; auto. apply syms_rel_eq; auto.
Qed.

Lemma action_rel_eq x y : action_rel RL x y -> x = y.
Proof.
  intros [n p p' l l' pre pre' eff eff' Hp Hl H1 H2]. apply RL_eq in Hp. apply syms_rel_eq in Hl.
  apply (opt_rel_eq _ formula_rel_eq) in H1. apply (opt_rel_eq _ formula_rel_eq) in H2. subst; auto.
Qed.
Lemma subtask_rel_eq x y : subtask_rel RL x y -> x = y.
Proof.
  intros [i i' t t' l l' Hi Ht Hl]. apply (opt_rel_eq _ plain_rel_eq) in Hi.
  apply plain_rel_eq in Ht. apply (Forall2_eq _ plain_rel_eq) in Hl. subst; auto.
Qed.
Lemma htn_rel_eq x y : htn_rel RL x y -> x = y.
Proof.
  intros [s s' c Hs|s s' o o' l c Hs Ho _]; apply (Forall2_eq _ subtask_rel_eq) in Hs; subst; auto.
  apply (opt_rel_eq _ RL_eq) in Ho. subst; auto.
Qed.
Lemma init_rel_eq x y : init_rel RL x y -> x = y.
Proof.
  intros [p p' t t' Hp Ht]. apply (opt_rel_eq _ syms_rel_eq) in Hp. apply htn_rel_eq in Ht. subst; auto.
Qed.
Lemma method_rel_eq x y : method_rel RL x y -> x = y.
Proof.
  intros [n n' t t' l l' p p' pre pre' tn tn' Hn Ht Hl Hp Hpre Htn].
  apply plain_rel_eq in Hn. apply plain_rel_eq in Ht. apply syms_rel_eq in Hl. apply syms_rel_eq in Hp.
  apply (opt_rel_eq _ formula_rel_eq) in Hpre. apply htn_rel_eq in Htn. subst; auto.
Qed.
Lemma domain_rel_eq x y : domain_rel RL x y -> x = y.
Proof.
  intros [n ty ty' c c' r p p' t t' m m' a a' f f' H1 H2 H3 H4 H5 H6 H7].
  apply (opt_rel_eq _ syms_rel_eq) in H1. apply (opt_rel_eq _ syms_rel_eq) in H2.
  apply (Forall2_eq _ pred_rel_eq) in H3. apply (Forall2_eq _ task_rel_eq) in H4.
  apply (Forall2_eq _ method_rel_eq) in H5. apply (Forall2_eq _ action_rel_eq) in H6.
  apply (Forall2_eq _ func_rel_eq) in H7. subst; auto.
Qed.
Lemma problem_rel_eq x y : problem_rel RL x y -> x = y.
Proof.
  intros [r tn tn' i i' g g' o o' H1 H2 H3 H4].
  apply (opt_rel_eq _ init_rel_eq) in H1. apply (Forall2_eq _ pred_rel_eq) in H2.
  apply (opt_rel_eq _ formula_rel_eq) in H3. apply syms_rel_eq in H4. subst; auto.
Qed.
Lemma ast_rel_eq x y : ast_rel RL x y -> x = y.
Proof. intros [d d' Hd|p p' Hp]; f_equal; auto using domain_rel_eq, problem_rel_eq. Qed.
Lemma err_rel_eq x y : err_rel RL x y -> x = y.
Proof. intros [t l p p' Hp|s t p p' Hp]; apply RL_eq in Hp; subst; auto. Qed.
End Eq.

Section Instances.
Context `{Unicode}.

(** Same outcome up to line numbers. *)
Inductive outcome_rel {A} (RL : N -> N -> Prop) (R : A -> A -> Prop) : outcome A -> outcome A -> Prop :=
| out_ok a a' : R a a' -> outcome_rel RL R (Ok a) (Ok a')
| out_err e e' : err_rel RL e e' -> outcome_rel RL R (Err e) (Err e')
| out_panic p : outcome_rel RL R (Panic p) (Panic p)
| out_fuel : outcome_rel RL R OutOfFuel OutOfFuel.

(** ** Fuel monotonicity *)

Lemma of_lex_refl (RL : N -> N -> Prop) (Sim : lstate -> lstate -> Prop) (PanicOK : panic_site -> Prop) r :
  (forall t st, r = (LTok t, st) -> Sim st st) ->
  (forall e st, r = (LErr e, st) -> RL (le_line e) (le_line e)) ->
  (forall p st, r = (LPanic p, st) -> PanicOK p) ->
  rel_res RL Sim PanicOK eq (of_lex r) (of_lex r).
Proof.
  intros H1 H2 H3. destruct r as [[t|e|p|] st]; simpl; eauto.
  destruct e as [ty l ln]. constructor. exact (H2 _ _ eq_refl).
Qed.

Lemma parse_mono n n' program :
  n <= n' -> parse n program <> OutOfFuel -> parse n' program = parse n program.
Proof.
  intros Hn Hf. unfold parse in *.
  assert (Hr := parse_doc_rp eq eq (fun _ => True)
                  (fun st st' E => f_equal line E)).
  specialize (Hr (fun st st' (E : st = st') =>
    match E in (_ = s) return rel_res eq eq (fun _ => True) eq (get st) (get s) with
    | eq_refl => of_lex_refl _ _ _ _ (fun _ _ _ => eq_refl) (fun _ _ _ => eq_refl) (fun _ _ _ => I)
    end)).
  specialize (Hr (fun st st' (E : st = st') =>
    match E in (_ = s) return rel_res eq eq (fun _ => True) eq (peek st) (peek s) with
    | eq_refl => of_lex_refl _ _ _ _ (fun _ _ _ => eq_refl) (fun _ _ _ => eq_refl) (fun _ _ _ => I)
    end)).
  specialize (Hr I n n' Hn (lex_new program) (lex_new program) eq_refl).
  destruct (parse_doc n (lex_new program)) as [a st|e|p|], (parse_doc n' (lex_new program)) as [a' st'|e'|p'|];
    simpl in Hr; try tauto; try congruence.
  - destruct Hr as [Ha _]. apply ast_rel_eq in Ha; [congruence|auto].
  - apply err_rel_eq in Hr; [congruence|auto].
  - destruct Hr; congruence.
Qed.

(** ** Positions, tree invariants and panics along a run over one document *)

Variable program : string.

(** Lines of the document. *)
Definition doc_line (x : N) : Prop := (1 <= x <= 1 + count_nl program)%N.

Definition diag (x y : N) : Prop := x = y /\ doc_line x.

Definition hist (st st' : lstate) : Prop := st = st' /\ History program st.

(** A panic of the tokenizer on this document. *)
Definition lexer_panics (p : panic_site) : Prop :=
  exists st b, History program st /\ fst (lex b st) = LPanic p.

Lemma history_doc_line st : History program st -> doc_line (line st).
Proof.
  intros Hh. apply history_line in Hh as (b & E & ->). unfold doc_line.
  rewrite E, count_nl_app. lia.
Qed.

Lemma hist_line st st' : hist st st' -> diag (line st) (line st').
Proof. intros [-> Hh]. split; auto. apply history_doc_line; auto. Qed.

Lemma hist_lex (PanicOK : panic_site -> Prop) b :
  (forall p, lexer_panics p -> PanicOK p) ->
  forall st st', hist st st' ->
  rel_res diag hist PanicOK eq (of_lex (lex b st)) (of_lex (lex b st')).
Proof.
  intros Hp st st' [<- Hh]. apply of_lex_refl.
  - intros t s E. split; auto. eapply h_step; eauto. discriminate.
  - intros e s E. split; auto.
    destruct (line_of_token program st b _ _ Hh E) as (x & g & s' & Ep & _ & _ & _ & _ & El); [discriminate|].
    rewrite El. unfold doc_line. rewrite Ep, !count_nl_app. lia.
  - intros p s E. apply Hp. exists st, b. rewrite E. auto.
Qed.

Definition doc_panic (p : panic_site) : Prop := p = PanicProblemToken \/ lexer_panics p.

Lemma run_history n :
  rel_res diag hist doc_panic (ast_rel diag)
          (parse_doc n (lex_new program)) (parse_doc n (lex_new program)).
Proof.
  apply (parse_doc_rp diag hist doc_panic hist_line).
  - intros st st' Hs. apply (hist_lex doc_panic false); auto. intros p Hp; right; auto.
  - intros st st' Hs. apply (hist_lex doc_panic true); auto. intros p Hp; right; auto.
  - left; auto.
  - auto.
  - split; auto. constructor.
Qed.

Lemma parse_history n :
  match parse n program with
  | Ok a => ast_rel diag a a
  | Err e => err_rel diag e e
  | Panic p => doc_panic p
  | OutOfFuel => True
  end.
Proof.
  assert (Hr := run_history n). unfold parse.
  destruct (parse_doc n (lex_new program)); simpl in Hr; tauto.
Qed.

(** The panic of the problem router needs a problem header. *)
Lemma parse_problem_panic n p :
  parse n program = Panic p -> lexer_panics p \/ (p = PanicProblemToken /\ classify program = Some VProblem).
Proof.
  intros E. unfold parse in E.
  assert (Hg : forall b st st', hist st st' ->
    rel_res diag hist lexer_panics eq (of_lex (lex b st)) (of_lex (lex b st'))).
  { intros b. apply hist_lex. auto. }
  destruct (parse_doc n (lex_new program)) as [| |p'|] eqn:Ed; try discriminate.
  injection E as ->. pose proof Ed as Ed0.
  assert (forall b st, History program st -> forall o st', lex b st = (o, st') ->
          match o with LTok _ => History program st' | LPanic q => lexer_panics q | _ => True end) as Hl.
  { intros b st Hh o st' El. destruct o; auto.
    - eapply h_step; eauto. discriminate.
    - exists st, b. rewrite El. auto. }
  unfold parse_doc, bind, get in Ed. unfold classify.
  destruct (get_token (lex_new program)) as [o1 s1] eqn:E1.
  assert (H1 := Hl false _ (h_new _) _ _ E1).
  destruct o1 as [t1| | |]; simpl in Ed; try discriminate; [|injection Ed as ->; auto].
  destruct t1 as [| | | |pu| |]; try discriminate. destruct pu; try discriminate.
  unfold parse_document_type, bind, get in Ed.
  destruct (get_token s1) as [o2 s2] eqn:E2.
  assert (H2 := Hl false _ H1 _ _ E2).
  destruct o2 as [t2| | |]; simpl in Ed; try discriminate; [|injection Ed as ->; auto].
  destruct t2 as [k| | | | | |]; try discriminate. destruct k; try discriminate.
  destruct (get_token s2) as [o3 s3] eqn:E3.
  assert (H3 := Hl false _ H2 _ _ E3).
  destruct o3 as [t3| | |]; simpl in Ed; try discriminate; [|injection Ed as ->; auto].
  destruct t3 as [| | | |pu| |]; try discriminate. destruct pu; try discriminate.
  destruct (get_token s3) as [o4 s4] eqn:E4.
  assert (H4 := Hl false _ H3 _ _ E4).
  destruct o4 as [t4| | |]; simpl in Ed; try discriminate; [|injection Ed as ->; auto].
  destruct t4 as [k| | | | | |]; try discriminate. destruct k; try discriminate.
  - left. unfold parse_domain_header, bind, get in Ed.
    destruct (get_token s4) as [o5 s5] eqn:E5.
    assert (H5 := Hl false _ H4 _ _ E5).
    destruct o5 as [t5| | |]; simpl in Ed; try discriminate; [|injection Ed as ->; auto].
    destruct t5; try discriminate.
    destruct (get_token s5) as [o6 s6] eqn:E6.
    assert (H6 := Hl false _ H5 _ _ E6).
    destruct o6 as [t6| | |]; simpl in Ed; try discriminate; [|injection Ed as ->; auto].
    destruct t6 as [| | | |pu| |]; try discriminate. destruct pu; try discriminate.
    simpl in Ed.
    assert (Hr := parse_domain_rp diag hist lexer_panics hist_line (Hg false) (Hg true)
                    n n (le_n n) n n (new_domain s) (new_domain s) (le_n n)).
    assert (domain_rel diag (new_domain s) (new_domain s)) as Hd by (constructor; constructor).
    specialize (Hr Hd s6 s6 (conj eq_refl H6)).
    destruct (parse_domain n n (new_domain s) s6); try discriminate. injection Ed as ->.
    simpl in Hr. tauto.
  - assert (Hr := parse_history n). unfold parse in Hr.
    rewrite Ed0 in Hr. destruct Hr; auto.
Qed.

End Instances.
