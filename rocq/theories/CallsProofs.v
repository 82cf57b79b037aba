(** Proofs about the calls the parser makes. *)
From Coq Require Import String Ascii NArith ZArith Bool List Lia PeanoNat.
From Verif Require Import Base Token Lexer Errors Ast Parser Calls
  StrFacts SpecLex LexProofs LexProofs2 LexProofs3 SpecCalls.
Import ListNotations.
Open Scope list_scope.
Open Scope nat_scope.

Section Proofs.
Context `{Unicode}.

(** ** The shape of a series of calls *)
(** [sess i st l r]: the calls [l] from [st] on, when [i] calls of [lookahead]
    came last before them; [r] is the number afterwards and the state reached,
    [None] after a failure.  The number 3 stands for a text read to its end. *)
Definition after (t : token) : nat := match t with TEOF => 3 | _ => 0 end.
Inductive sess : nat -> lstate -> list call -> option (nat * lstate) -> Prop :=
| ss_nil i st : sess i st [] (Some (i, st))
| ss_stop i st : sess i st [] None
| ss_peek i st t st' l r : i < 2 -> lookahead st = (LTok t, st') -> sess (S i) st' l r ->
    sess i st (mkCall true st :: l) r
| ss_get i st t st' l r : i <= 2 -> get_token st = (LTok t, st') -> sess (after t) st' l r ->
    sess i st (mkCall false st :: l) r
| ss_peek_fail i st : i < 2 -> sess i st [mkCall true st] None
| ss_get_fail i st : i <= 2 -> sess i st [mkCall false st] None.

Lemma sess_mono j st l r : sess j st l r -> forall i, i <= j ->
  match r with
  | Some (k, st') => exists k', k' <= k /\ sess i st l (Some (k', st'))
  | None => sess i st l None
  end.
Proof.
  induction 1 as [j st|j st|j st t st' l r Hj E Hs IH|j st t st' l r Hj E Hs IH|j st Hj|j st Hj]; intros i Hi.
  - exists i. split; auto. constructor.
  - constructor.
  - specialize (IH (S i) ltac:(lia)). destruct r as [(k & st2)|].
    + destruct IH as (k' & Hk & IH). exists k'. split; auto. apply (ss_peek _ _ t st'); auto. lia.
    + apply (ss_peek _ _ t st'); auto. lia.
  - specialize (IH (after t) (le_n _)). destruct r as [(k & st2)|].
    + destruct IH as (k' & Hk & IH). exists k'. split; auto. apply (ss_get _ _ t st'); auto. lia.
    + apply (ss_get _ _ t st'); auto. lia.
  - apply ss_peek_fail. lia.
  - apply ss_get_fail. lia.
Qed.

Lemma sess_app i st l j st1 l' r :
  sess i st l (Some (j, st1)) -> sess j st1 l' r -> sess i st (l ++ l') r.
Proof.
  intros Hs. remember (Some (j, st1)) as x eqn:Ex.
  induction Hs as [i st|i st|i st t st' l r0 Hj E Hs IH|i st t st' l r0 Hj E Hs IH|i st Hj|i st Hj]; intros Hl; simpl; try discriminate.
  - inversion Ex; subst. auto.
  - apply (ss_peek _ _ t st'); auto.
  - apply (ss_get _ _ t st'); auto.
Qed.

(** ** The parser and its record *)
Definition zero {A} : A -> nat := fun _ => 0.
Definition tri_at {A} (st : lstate) (i : nat) (m : P A) (m' : T A) (Q : A -> nat) : Prop :=
  fst (m' st) = m st /\
  match m st with
  | POk a st' => exists j, j <= Q a /\ sess i st (snd (m' st)) (Some (j, st'))
  | _ => sess i st (snd (m' st)) None
  end.
Definition tri {A} (i : nat) (m : P A) (m' : T A) (Q : A -> nat) : Prop := forall st, tri_at st i m m' Q.

Lemma t_conseq {A} i i' (m : P A) m' Q Q' :
  tri i m m' Q -> i' <= i -> (forall a, Q a <= Q' a) -> tri i' m m' Q'.
Proof.
  intros Hm Hi HQ st. destruct (Hm st) as (E & Hs). split; auto.
  destruct (m st) as [a st'| | |].
  - destruct Hs as (j & Hj & Hs). apply sess_mono with (i := i') in Hs; auto.
    destruct Hs as (k & Hk & Hs). exists k. split; auto. specialize (HQ a). lia.
  - apply sess_mono with (i := i') in Hs; auto.
  - apply sess_mono with (i := i') in Hs; auto.
  - apply sess_mono with (i := i') in Hs; auto.
Qed.
Lemma t_bind_at {A B} st i (m : P A) m' (Q : A -> nat) (k : A -> P B) k' R :
  tri_at st i m m' Q -> (forall a, tri (Q a) (k a) (k' a) R) -> tri_at st i (bind m k) (tbind m' k') R.
Proof.
  intros (E & Hs) Hk. unfold tri_at, bind, tbind.
  destruct (m' st) as [x l] eqn:Em. simpl in E, Hs. subst x.
  destruct (m st) as [a st'| | |]; simpl; auto.
  destruct Hs as (j & Hj & Hs). destruct (Hk a st') as (E' & Hs').
  destruct (k' a st') as [x l'] eqn:Ek. simpl in *. subst x. split; auto.
  destruct (k a st') as [b st2| | |].
  - destruct Hs' as (j' & Hj' & Hs'). apply sess_mono with (i := j) in Hs'; auto.
    destruct Hs' as (k2 & Hk2 & Hs'). exists k2. split; [lia|]. eapply sess_app; eauto.
  - apply sess_mono with (i := j) in Hs'; auto. eapply sess_app; eauto.
  - apply sess_mono with (i := j) in Hs'; auto. eapply sess_app; eauto.
  - apply sess_mono with (i := j) in Hs'; auto. eapply sess_app; eauto.
Qed.
Lemma t_bind {A B} i (m : P A) m' (Q : A -> nat) (k : A -> P B) k' R :
  tri i m m' Q -> (forall a, tri (Q a) (k a) (k' a) R) -> tri i (bind m k) (tbind m' k') R.
Proof. intros Hm Hk st. eapply t_bind_at; [apply Hm|auto]. Qed.
Lemma t_at {A} st i (m : P A) m' Q : tri i m m' Q -> tri_at st i m m' Q.
Proof. auto. Qed.
Lemma t_ret {A} i (a : A) (Q : A -> nat) : i <= Q a -> tri i (ret a) (tret a) Q.
Proof. intros Hi st. split; auto. simpl. exists i. split; auto. constructor. Qed.
Lemma t_pos i : tri i pos tpos (fun _ => i).
Proof. intros st. split; auto. simpl. exists i. split; auto. constructor. Qed.
Lemma t_syn {A} i e f (Q : A -> nat) : tri i (syn e f) (tsyn e f) Q.
Proof. intros st. split; auto. simpl. constructor. Qed.
Lemma t_fuel {A} i (Q : A -> nat) : tri i pfuel tfuel Q.
Proof. intros st. split; auto. simpl. constructor. Qed.
Lemma t_panic {A} i p (Q : A -> nat) : tri i (ppanic p) (tpanic p) Q.
Proof. intros st. split; auto. simpl. constructor. Qed.
Lemma t_get i : i <= 2 -> tri i get tget after.
Proof.
  intros Hi st. split; auto. unfold get, tget. simpl.
  destruct (get_token st) as [o st'] eqn:E. destruct o; simpl; try (apply ss_get_fail; auto).
  exists (after t). split; auto. apply (ss_get _ _ t st'); auto. constructor.
Qed.
(** A token that was seen is there to be read. *)
Lemma t_get_seen {B} st i t (k : token -> P B) k' R : fst (lookahead st) = LTok t -> t <> TEOF -> i <= 2 ->
  (forall a, tri 0 (k a) (k' a) R) -> tri_at st i (bind get k) (tbind tget k') R.
Proof.
  intros Hl Ht Hi Hk. apply (t_bind_at _ _ _ _ zero); auto.
  unfold tri_at, get, tget. simpl. split; auto. rewrite peek_is_next in Hl.
  destruct (get_token st) as [o st'] eqn:E. destruct o; simpl in *; try discriminate.
  exists 0. split; auto. apply (ss_get _ _ t0 st'); auto.
  assert (after t0 = 0) as -> by (inversion Hl; subst; destruct t0; simpl in *; congruence). constructor.
Qed.
Lemma t_peek_bind {B} i (k : token -> P B) k' R : i < 2 ->
  (forall t st, fst (lookahead st) = LTok t -> tri_at st (S i) (k t) (k' t) R) -> tri i (bind peek k) (tbind tpeek k') R.
Proof.
  intros Hi Hk st. unfold tri_at, bind, tbind, peek, tpeek.
  destruct (lookahead st) as [o st'] eqn:E. destruct o; simpl; try (split; auto; apply ss_peek_fail; auto).
  assert (fst (lookahead st') = LTok t) as Hl.
  { unfold lookahead in *. rewrite (peek_then st (LTok t) st' E); [|discriminate]. rewrite E. auto. }
  destruct (Hk t st' Hl) as (E' & Hs). destruct (k' t st') as [x l]. simpl in *. subst x. split; auto.
  destruct (k t st') as [b st2| | |].
  - destruct Hs as (j & Hj & Hs). exists j. split; auto. apply (ss_peek _ _ t st'); auto.
  - apply (ss_peek _ _ t st'); auto.
  - apply (ss_peek _ _ t st'); auto.
  - apply (ss_peek _ _ t st'); auto.
Qed.
Ltac side := simpl; unfold zero; simpl; try lia.
Ltac tri1 :=
  match goal with
  | |- tri _ (bind get _) (tbind tget _) _ => apply (t_bind _ _ _ after); [apply t_get; side|intro; cbv beta]
  | |- tri ?i (bind pos _) (tbind tpos _) _ => apply (t_bind _ _ _ (fun _ => i)); [apply t_pos|intro; cbv beta]
  | |- tri _ (bind peek _) (tbind tpeek _) _ => apply t_peek_bind; [side|intros ? ? ?; cbv beta]
  | E : fst (lookahead ?st) = LTok _ |- tri_at ?st _ (bind get _) (tbind tget _) _ =>
    eapply t_get_seen; [exact E|discriminate|side|intro; cbv beta]
  | |- tri_at _ _ (match ?x with _ => _ end) _ _ => is_var x; destruct x
  | |- tri_at _ _ (ret _) (tret _) _ => apply t_at, t_ret; side
  | |- tri_at _ _ (syn _ _) (tsyn _ _) _ => apply t_at, t_syn
  | |- tri _ (ret _) (tret _) _ => apply t_ret; side
  | |- tri _ (syn _ _) (tsyn _ _) _ => apply t_syn
  | |- tri _ pfuel tfuel _ => apply t_fuel
  | |- tri _ (ppanic _) (tpanic _) _ => apply t_panic
  | |- tri _ (match ?x with _ => _ end) _ _ => is_var x; destruct x
  | |- tri _ (bind (match ?x with _ => _ end) _) (tbind (match ?x with _ => _ end) _) _ => is_var x; destruct x
  end.
Ltac known :=
  match goal with
  | L : _ |- tri_at _ _ (bind _ _) (tbind _ _) _ => apply t_at, (t_bind _ _ _ zero); [solve [eapply t_conseq; [apply L|side|intro; side]]|intro; cbv beta]
  | L : _ |- tri _ (bind _ _) (tbind _ _) _ => apply (t_bind _ _ _ zero); [solve [eapply t_conseq; [apply L|side|intro; side]]|intro; cbv beta]
  | L : _ |- tri _ _ _ _ => solve [eapply t_conseq; [apply L|side|intro; side]]
  end.
Ltac tri_all := repeat (first [tri1|known]).

Lemma args_loop_t : forall n objects result tok,
  tri (after tok) (args_loop n objects result tok) (args_loop_tr n objects result tok) zero.
Proof.
  induction n as [|n IH]; intros objects result tok; cbn [args_loop args_loop_tr]; [apply t_fuel|].
  destruct tok; tri_all.
Qed.
Lemma parse_args_t n : tri 2 (parse_args n) (parse_args_tr n) zero.
Proof. unfold parse_args, parse_args_tr. pose proof args_loop_t as L. tri1. apply L. Qed.

Lemma parse_requirements_t : forall n acc, tri 2 (parse_requirements n acc) (parse_requirements_tr n acc) zero.
Proof. induction n as [|n IH]; intros acc; cbn [parse_requirements parse_requirements_tr]; tri_all. Qed.
Lemma parse_predicate_definition_t n : tri 2 (parse_predicate_definition n) (parse_predicate_definition_tr n) zero.
Proof. pose proof (parse_args_t n) as L1. unfold parse_predicate_definition, parse_predicate_definition_tr. tri_all. Qed.
Lemma parse_predicates_t fuel : forall n acc, tri 2 (parse_predicates fuel n acc) (parse_predicates_tr fuel n acc) zero.
Proof. pose proof (parse_predicate_definition_t fuel) as L1. induction n as [|n IH]; intros acc; cbn [parse_predicates parse_predicates_tr]; tri_all. Qed.
Lemma parse_function_definition_t n : tri 2 (parse_function_definition n) (parse_function_definition_tr n) zero.
Proof. pose proof (parse_args_t n) as L1. unfold parse_function_definition, parse_function_definition_tr. tri_all. Qed.
Lemma parse_functions_t fuel : forall n acc, tri 2 (parse_functions fuel n acc) (parse_functions_tr fuel n acc) zero.
Proof. pose proof (parse_function_definition_t fuel) as L1. induction n as [|n IH]; intros acc; cbn [parse_functions parse_functions_tr]; tri_all. Qed.

Lemma formula_t fuel : forall n,
  tri 2 (parse_formula fuel n) (parse_formula_tr fuel n) zero
  /\ (forall acc, tri 2 (connective fuel n acc) (connective_tr fuel n acc) zero)
  /\ (forall acc, tri 2 (branches fuel n acc) (branches_tr fuel n acc) zero).
Proof.
  pose proof (parse_args_t fuel) as L1.
  induction n as [|n (IF & IC & IB)]; (split; [|split]); intros;
    cbn [parse_formula connective branches parse_formula_tr connective_tr branches_tr]; tri_all.
Qed.
Lemma parse_formula_t fuel n : tri 2 (parse_formula fuel n) (parse_formula_tr fuel n) zero.
Proof. apply formula_t. Qed.

Lemma parse_task_t n : tri 2 (parse_task n) (parse_task_tr n) zero.
Proof. pose proof (parse_args_t n) as L1. unfold parse_task, parse_task_tr. tri_all. Qed.
Lemma parse_action_t n : tri 2 (parse_action n) (parse_action_tr n) zero.
Proof.
  pose proof (parse_task_t n) as L1. pose proof (parse_formula_t n n) as L2. unfold parse_action, parse_action_tr.
  known. tri1. apply (t_bind_at _ _ _ _ (fun _ => 1)).
  { tri_all. }
  intro. tri1. apply (t_bind_at _ _ _ _ (fun _ => 2)).
  { tri_all. }
  intro. tri_all.
Qed.

Lemma ordering_ids_t msg t1 : forall n acc, tri 2 (ordering_ids msg t1 n acc) (ordering_ids_tr msg t1 n acc) zero.
Proof. induction n as [|n IH]; intros acc; cbn [ordering_ids ordering_ids_tr]; tri_all. Qed.
Lemma parse_ordering_t n : tri 2 (parse_ordering n) (parse_ordering_tr n) zero.
Proof. pose proof ordering_ids_t as L1. unfold parse_ordering, parse_ordering_tr. tri_all. Qed.
Lemma ordering_conj_t fuel : forall n acc, tri 2 (ordering_conj fuel n acc) (ordering_conj_tr fuel n acc) zero.
Proof. pose proof (parse_ordering_t fuel) as L1. induction n as [|n IH]; intros acc; cbn [ordering_conj ordering_conj_tr]; tri_all. Qed.
Lemma parse_orderings_t n acc : tri 2 (parse_orderings n acc) (parse_orderings_tr n acc) zero.
Proof. pose proof ordering_ids_t as L1. pose proof (ordering_conj_t n) as L2. unfold parse_orderings, parse_orderings_tr. tri_all. Qed.

Lemma id_subtask_terms_t id tsk : forall n acc, tri 2 (id_subtask_terms id tsk n acc) (id_subtask_terms_tr id tsk n acc) zero.
Proof. induction n as [|n IH]; intros acc; cbn [id_subtask_terms id_subtask_terms_tr]; tri_all. Qed.
Lemma plain_subtask_terms_t tsk f : forall n acc, tri 2 (plain_subtask_terms tsk f n acc) (plain_subtask_terms_tr tsk f n acc) zero.
Proof. induction n as [|n IH]; intros acc; cbn [plain_subtask_terms plain_subtask_terms_tr]; tri_all. Qed.
Lemma parse_subtask_t n : tri 2 (parse_subtask n) (parse_subtask_tr n) zero.
Proof.
  pose proof id_subtask_terms_t as L1. pose proof plain_subtask_terms_t as L2.
  unfold parse_subtask, parse_subtask_tr. cbv zeta. tri_all.
Qed.
Lemma subtasks_loop_t fuel : forall n acc, tri 2 (subtasks_loop fuel n acc) (subtasks_loop_tr fuel n acc) zero.
Proof. pose proof (parse_subtask_t fuel) as L1. induction n as [|n IH]; intros acc; cbn [subtasks_loop subtasks_loop_tr]; tri_all. Qed.
Lemma parse_subtasks_t n : tri 2 (parse_subtasks n) (parse_subtasks_tr n) zero.
Proof.
  pose proof (parse_subtask_t n) as L1. pose proof (subtasks_loop_t n) as L2.
  unfold parse_subtasks, parse_subtasks_tr. tri_all.
Qed.
Lemma parse_constraint_t : tri 2 parse_constraint parse_constraint_tr zero.
Proof. unfold parse_constraint, parse_constraint_tr. tri_all. Qed.
Lemma constraints_loop_t : forall n acc, tri 2 (constraints_loop n acc) (constraints_loop_tr n acc) zero.
Proof. pose proof parse_constraint_t as L1. induction n as [|n IH]; intros acc; cbn [constraints_loop constraints_loop_tr]; tri_all. Qed.
Lemma parse_constraints_t n : tri 2 (parse_constraints n) (parse_constraints_tr n) zero.
Proof.
  pose proof parse_constraint_t as L1. pose proof constraints_loop_t as L2.
  unfold parse_constraints, parse_constraints_tr. tri_all.
Qed.
Lemma htn_loop_t fuel : forall n s o ord c, tri 2 (htn_loop fuel n s o ord c) (htn_loop_tr fuel n s o ord c) zero.
Proof.
  pose proof (parse_orderings_t fuel) as L1. pose proof (parse_constraints_t fuel) as L2.
  induction n as [|n IH]; intros s o ord c; cbn [htn_loop htn_loop_tr]; tri_all.
Qed.
Lemma parse_htn_t n : tri 1 (parse_htn n) (parse_htn_tr n) (fun _ => 2).
Proof.
  pose proof (parse_subtasks_t n) as L1. pose proof (parse_constraints_t n) as L2. pose proof (htn_loop_t n n) as L3.
  unfold parse_htn, parse_htn_tr.
  match goal with |- tri _ (bind peek (fun la => match la with TEOF => ?b | _ => _ end)) (tbind tpeek (fun la' => match la' with TEOF => ?b' | _ => _ end)) _ =>
    assert (B : tri 2 b b' zero) by tri_all end.
  tri1. destruct t as [| | | |[| |]| |]; try (apply t_at; eapply t_conseq; [apply B|side|intro; side]). tri1.
Qed.
Ltac htn L := try apply t_at; apply (t_bind _ _ _ (fun _ => 2)); [eapply t_conseq; [apply L|side|intro; side]|intro; tri_all].
Lemma parse_initial_tn_t n : tri 0 (parse_initial_tn n) (parse_initial_tn_tr n) (fun _ => 2).
Proof.
  pose proof (parse_args_t n) as L1. unfold parse_initial_tn, parse_initial_tn_tr.
  tri_all; try (htn (parse_htn_t n)).
Qed.
Lemma parse_method_t n : tri 0 (parse_method n) (parse_method_tr n) (fun _ => 2).
Proof.
  pose proof (parse_args_t n) as L1. pose proof (parse_formula_t n n) as L2. unfold parse_method, parse_method_tr. cbv zeta.
  tri_all; try (htn (parse_htn_t n)).
Qed.

Lemma parse_domain_t fuel : forall n d, tri 2 (parse_domain fuel n d) (parse_domain_tr fuel n d) zero.
Proof.
  pose proof (parse_predicates_t fuel) as L1. pose proof (parse_functions_t fuel) as L2. pose proof (parse_task_t fuel) as L3.
  pose proof (parse_action_t fuel) as L5. pose proof (parse_requirements_t fuel) as L6. pose proof (parse_args_t fuel) as L7.
  induction n as [|n IH]; intros d; cbn [parse_domain parse_domain_tr]; tri_all; htn (parse_method_t fuel).
Qed.
Lemma parse_problem_t fuel : forall n p, tri 2 (parse_problem fuel n p) (parse_problem_tr fuel n p) (fun _ => 3).
Proof.
  pose proof (parse_predicates_t fuel) as L1. pose proof (parse_requirements_t fuel) as L6. pose proof (parse_args_t fuel) as L7.
  pose proof (parse_formula_t fuel fuel) as L8.
  induction n as [|n IH]; intros d; cbn [parse_problem parse_problem_tr]; tri_all.
  - destruct (rebuild_objects a); tri_all.
  - htn (parse_initial_tn_t fuel).
Qed.
Lemma parse_domain_header_t : tri 2 parse_domain_header parse_domain_header_tr zero.
Proof. unfold parse_domain_header, parse_domain_header_tr. tri_all. Qed.
Lemma parse_problem_header_t : tri 2 parse_problem_header parse_problem_header_tr zero.
Proof. unfold parse_problem_header, parse_problem_header_tr. tri_all. Qed.
Lemma parse_document_type_t : tri 2 parse_document_type parse_document_type_tr zero.
Proof.
  pose proof parse_domain_header_t as L1. pose proof parse_problem_header_t as L2.
  unfold parse_document_type, parse_document_type_tr. tri_all.
Qed.
Lemma parse_doc_t n : tri 0 (parse_doc n) (parse_doc_tr n) (fun _ => 3).
Proof.
  pose proof parse_document_type_t as L1. pose proof (parse_domain_t n n) as L2.
  unfold parse_doc, parse_doc_tr. tri_all.
  apply (t_bind _ _ _ (fun _ => 3)); [eapply t_conseq; [apply parse_problem_t|side|intro; side]|intro; tri_all].
Qed.

Lemma parse_calls_ok n program :
  fst (parse_calls n program) = parse n program
  /\ exists r, sess 0 (lex_new program) (snd (parse_calls n program)) r.
Proof.
  destruct (parse_doc_t n (lex_new program)) as (E & Hs). unfold parse_calls, parse.
  destruct (parse_doc_tr n (lex_new program)) as [x l]. simpl in *. subst x.
  destruct (parse_doc n (lex_new program)) as [a st'| | |]; simpl; split; eauto.
  destruct Hs as (j & _ & Hs). eauto.
Qed.

End Proofs.
