(** The names quoted by syntax errors have been read (C84). *)
From Coq Require Import String Ascii NArith Bool List Lia PeanoNat.
From Verif Require Import Base Token Lexer Errors Ast Parser StrFacts SpecLex LexProofs LexProofs2 ParserPrefix SpecQuote.
Import ListNotations.
Open Scope list_scope.

Section S.
Context `{Unicode}.
Variable program : string.

(** The tokenizer has been brought to [st], possibly after a look ahead. *)
Definition known (st : lstate) : Prop :=
  exists ts st0, Reads (lex_new program) ts st0 /\ get_token st = get_token st0 /\ (line st0 <= line st)%N.
Definition told (k : N) (s : string) : Prop :=
  In s fixed_texts \/ exists x, read_by program k x /\ In s (quoting_texts x).
(** [m], started at or below line [k], ends with [Q] or fails with a text that
    quotes only what was read. *)
Definition G {A} (k : N) (m : P A) (Q : A -> N -> Prop) : Prop :=
  forall st, known st -> (k <= line st)%N ->
  match m st with
  | POk a st' => known st' /\ (k <= line st')%N /\ Q a (line st')
  | PErr (ESyn e) => told (se_line e) (se_expected e)
  | _ => True
  end.
Lemma read_mono k k' x : (k <= k')%N -> read_by program k x -> read_by program k' x.
Proof. intros Hk (ts & l & st & Hr & Hi & Hl). exists ts, l, st. split; auto. split; auto. lia. Qed.
Lemma G_ret A k (a : A) (Q : A -> N -> Prop) : (forall k', (k <= k')%N -> Q a k') -> G k (ret a) Q.
Proof. intros HQ st Hs Hk. cbn. auto. Qed.
Lemma G_fuel A k (Q : A -> N -> Prop) : G k pfuel Q.
Proof. intros st Hs Hk. exact I. Qed.
Lemma G_panic A k p (Q : A -> N -> Prop) : G k (ppanic p) Q.
Proof. intros st Hs Hk. exact I. Qed.
Lemma G_fixed A k s t (Q : A -> N -> Prop) : existsb (String.eqb s) fixed_texts = true -> G k (syn s t) Q.
Proof. intros Hi st Hs Hk. left. apply existsb_exists in Hi as (x & Hx & E). apply String.eqb_eq in E as ->. exact Hx. Qed.
Lemma G_told A k s t (Q : A -> N -> Prop) : told k s -> G k (syn s t) Q.
Proof.
  intros Hi st Hs Hk. cbn. destruct Hi as [Hi|(x & Hx & Hi)]; [left; auto|right; exists x; split; auto; eapply read_mono; eauto].
Qed.
Lemma G_quoting A k s t x k' (Q : A -> N -> Prop) : read_by program k' x -> (k' <= k)%N -> In s (quoting_texts x) -> G k (syn s t) Q.
Proof. intros Hr Hl Hi st Hs Hk. right. exists x. split; auto. eapply read_mono; [|exact Hr]. cbn. lia. Qed.
Lemma G_bind A B k (m : P A) (f : A -> P B) Q R : G k m Q ->
  (forall a k', (k <= k')%N -> Q a k' -> G k' (f a) R) -> G k (bind m f) R.
Proof.
  intros Hm Hf st Hs Hk. specialize (Hm st Hs Hk). unfold bind. destruct (m st) as [a st'|e|p|]; auto.
  destruct Hm as (Hs' & Hk' & HQ). specialize (Hf a (line st') Hk' HQ st' Hs' (N.le_refl _)).
  destruct (f a st') as [b st''|e|p|]; auto. destruct Hf as (H1 & H2 & H3). split; auto. split; auto. lia.
Qed.
Lemma G_conseq A k (m : P A) (Q R : A -> N -> Prop) : (forall a k', Q a k' -> R a k') -> G k m Q -> G k m R.
Proof.
  intros HQ Hm st Hs Hk. specialize (Hm st Hs Hk). destruct (m st); auto. destruct Hm as (H1 & H2 & H3). auto.
Qed.
Lemma G_pos k : G k pos (fun _ _ => True).
Proof. intros st Hs Hk. cbn. auto. Qed.
Lemma G_get k : G k get (fun t k' => forall x, t = TIdent x -> read_by program k' x).
Proof.
  intros st (ts & st0 & Hr & Hg & Hl) Hk. unfold get. destruct (get_token st) as [[t|e|p|] st1] eqn:E; cbn [of_lex]; auto.
  assert (line st <= line st1)%N as Hle by (apply get_token_spec in E as (g & s & _ & _ & _ & ->); lia).
  assert (Reads (lex_new program) (ts ++ [(t, line st1)]) st1) as Hr1.
  { eapply reads_app; [exact Hr|]. econstructor; [symmetry; exact Hg|constructor]. }
  split; [|split].
  - exists (ts ++ [(t, line st1)]), st1. split; auto. split; auto. lia.
  - lia.
  - intros x ->. exists (ts ++ [(TIdent x, line st1)]), (line st1), st1. split; auto. split; [|lia]. apply in_or_app. right. left. auto.
Qed.
Lemma G_peek k : G k peek (fun _ _ => True).
Proof.
  intros st (ts & st0 & Hr & Hg & Hl) Hk. unfold peek. pose proof (peek_is_next st) as Hp.
  destruct (get_token st) as [o st1] eqn:E. cbn [fst] in Hp. destruct (lookahead st) as [o' stp] eqn:El. cbn [fst] in Hp. subst o'.
  destruct o as [t|e|p|]; cbn [peeked_out of_lex]; auto.
  destruct (peek_of st t st1 E) as (stp' & El' & _ & G1 & G2). rewrite El in El'. injection El' as <-.
  assert (line st <= line st1)%N as Hle by (apply get_token_spec in E as (g & s & _ & _ & _ & ->); lia).
  split; [|split; auto; lia]. exists ts, st0. split; auto. split; [congruence|lia].
Qed.

Definition any {A} (_ : A) (_ : N) : Prop := True.
Hint Unfold any : core.
Ltac qt := unfold quoting_texts; solve [repeat first [left; reflexivity | right]].
Ltac tx := first [apply G_fixed; vm_compute; reflexivity
  | match goal with Hx : forall x, TIdent ?y = TIdent x -> read_by program ?k x |- _ =>
      eapply (G_quoting _ _ _ _ y k); [apply Hx; reflexivity|lia|qt] end
  | match goal with Hx : read_by program ?k ?y |- _ =>
      eapply (G_quoting _ _ _ _ y k); [exact Hx|lia|qt] end].
Ltac gb l := eapply G_bind; [l|intros ? ? ? ?].
Ltac step := match goal with
  | |- G _ (ret _) _ => apply G_ret; intros; exact I
  | |- G _ pfuel _ => apply G_fuel
  | |- G _ (ppanic _) _ => apply G_panic
  | |- G _ (syn _ _) _ => tx
  | |- G _ (bind get _) _ => eapply G_bind; [apply G_get|intros ? ? ? ?]
  | |- G _ (bind peek _) _ => eapply G_bind; [apply G_peek|intros ? ? ? _]
  | |- G _ (bind pos _) _ => eapply G_bind; [apply G_pos|intros ? ? ? _]
  | |- G _ (bind _ _) _ => eapply G_bind; [solve [eauto 3]|intros ? ? ? _]
  | |- G _ (match ?x with _ => _ end) _ => is_var x; destruct x
  | |- G _ (let _ := _ in _) _ => cbv zeta
  end.
Ltac go := repeat step.

Lemma args_loop_g : forall n o r t k, G k (args_loop n o r t) any.
Proof. induction n as [|n IH]; intros o r t k; cbn [args_loop]; go; apply IH. Qed.
Lemma parse_args_g n k : G k (parse_args n) any.
Proof. unfold parse_args. go. apply args_loop_g. Qed.
Hint Resolve parse_args_g : core.
Lemma requirements_g : forall n a k, G k (parse_requirements n a) any.
Proof. induction n as [|n IH]; intros a k; cbn [parse_requirements]; go; apply IH. Qed.
Lemma predicate_g f k : G k (parse_predicate_definition f) any.
Proof. unfold parse_predicate_definition. go. Qed.
Lemma function_g f k : G k (parse_function_definition f) any.
Proof. unfold parse_function_definition. go. Qed.
Hint Resolve requirements_g predicate_g function_g : core.
Lemma predicates_g f : forall n a k, G k (parse_predicates f n a) any.
Proof. induction n as [|n IH]; intros a k; cbn [parse_predicates]; go; apply IH. Qed.
Lemma functions_g f : forall n a k, G k (parse_functions f n a) any.
Proof. induction n as [|n IH]; intros a k; cbn [parse_functions]; go; apply IH. Qed.
Hint Resolve predicates_g functions_g : core.
Lemma formula_g f : forall n, (forall k, G k (parse_formula f n) any) /\ (forall a k, G k (connective f n a) any) /\ (forall a k, G k (branches f n a) any).
Proof.
  induction n as [|n (I1 & I2 & I3)]; (split; [|split]); intros; cbn [parse_formula connective branches]; go; first [apply I2 | apply I3 | idtac].
Qed.
Lemma parse_formula_g f n k : G k (parse_formula f n) any.
Proof. apply formula_g. Qed.
Hint Resolve parse_formula_g : core.
Lemma task_g f k : G k (parse_task f) (fun t k' => read_by program k' (task_name t)).
Proof.
  unfold parse_task. go. apply G_ret. intros. cbn [task_name]. eapply read_mono; [|match goal with Hx : forall x, TIdent ?s = _ -> _ |- read_by _ _ ?s => apply (Hx s eq_refl) end]. lia.
Qed.
Lemma action_g f k : G k (parse_action f) any.
Proof.
  unfold parse_action. eapply G_bind; [apply task_g|]. intros t k1 Hk1 Ht. cbv beta in Ht.
  eapply G_bind; [apply G_peek|]. intros la k2 Hk2 _.
  eapply (G_bind _ _ _ _ _ any); [go|]. intros pre k3 Hk3 _.
  eapply G_bind; [apply G_peek|]. intros lb k4 Hk4 _.
  eapply (G_bind _ _ _ _ _ any); [go|]. intros eff k5 Hk5 _. go.
Qed.
Lemma ids_g msg t1 : forall n a k, told k msg -> G k (ordering_ids msg t1 n a) any.
Proof.
  assert (forall k t, told k msg -> G k (syn (A := list (string * string)) msg t) any) as Hs.
  { intros k t Hi. apply G_told. exact Hi. }
  assert (forall k k', (k <= k')%N -> told k msg -> told k' msg) as Hm.
  { intros k k' Hk [Hi|(x & Hx & Hi)]; [left; auto|right; exists x; split; auto; eapply read_mono; eauto]. }
  induction n as [|n IH]; intros a k Hk; cbn [ordering_ids]; [apply G_fuel|].
  eapply G_bind; [apply G_get|]. intros t k' Hk' _. apply (Hm k k' Hk') in Hk.
  destruct t; try (apply Hs; assumption); [apply IH; auto|]. destruct p; try (apply Hs; assumption). apply G_ret. exact (fun _ _ => I).
Qed.
Lemma told_name k x s : (forall y, TIdent x = TIdent y -> read_by program k y) -> In s (quoting_texts x) -> told k s.
Proof. intros Hx Hi. right. exists x. auto. Qed.
Lemma ordering_g f k : G k (parse_ordering f) any.
Proof. unfold parse_ordering. go. apply ids_g. eapply told_name; [eassumption|]. qt. Qed.
Hint Resolve ordering_g : core.
Lemma ordering_conj_g f : forall n a k, G k (ordering_conj f n a) any.
Proof. induction n as [|n IH]; intros a k; cbn [ordering_conj]; go; apply IH. Qed.
Lemma orderings_g f a k : G k (parse_orderings f a) any.
Proof.
  unfold parse_orderings. go; [apply ordering_conj_g|]. apply ids_g. eapply told_name; [eassumption|]. qt.
Qed.
Lemma id_terms_g id tsk k0 : read_by program k0 (sym_name tsk) -> forall n a k, (k0 <= k)%N -> G k (id_subtask_terms id tsk n a) any.
Proof. intros Hr. induction n as [|n IH]; intros a k Hk; cbn [id_subtask_terms]; go; apply IH; lia. Qed.
Lemma plain_terms_g tsk x k0 : read_by program k0 x -> forall n a k, (k0 <= k)%N -> G k (plain_subtask_terms tsk x n a) any.
Proof. intros Hr. induction n as [|n IH]; intros a k Hk; cbn [plain_subtask_terms]; go; apply IH; lia. Qed.
Lemma subtask_g f k : G k (parse_subtask f) any.
Proof.
  unfold parse_subtask. go.
  - eapply plain_terms_g; [match goal with Hx : forall x, TIdent ?s = _ -> _ |- read_by _ _ ?s => apply (Hx s eq_refl) end|lia].
  - eapply id_terms_g; [cbn [sym_name plain fst]; match goal with Hx : forall x, TIdent ?s = _ -> _ |- read_by _ _ ?s => apply (Hx s eq_refl) end|lia].
Qed.
Hint Resolve subtask_g orderings_g action_g : core.
Lemma subtasks_loop_g f : forall n a k, G k (subtasks_loop f n a) any.
Proof. induction n as [|n IH]; intros a k; cbn [subtasks_loop]; go; apply IH. Qed.
Lemma subtasks_g f k : G k (parse_subtasks f) any.
Proof. unfold parse_subtasks. go. apply subtasks_loop_g. Qed.
Lemma constraint_g k : G k parse_constraint any.
Proof. unfold parse_constraint. go. Qed.
Hint Resolve subtasks_g constraint_g : core.
Lemma constraints_loop_g : forall n a k, G k (constraints_loop n a) any.
Proof. induction n as [|n IH]; intros a k; cbn [constraints_loop]; go; apply IH. Qed.
Lemma constraints_g f k : G k (parse_constraints f) any.
Proof. unfold parse_constraints. go. apply constraints_loop_g. Qed.
Hint Resolve constraints_g : core.
Lemma htn_loop_g f : forall n s o r c k, G k (htn_loop f n s o r c) any.
Proof. induction n as [|n IH]; intros s o r c k; cbn [htn_loop]; go; apply IH. Qed.
Lemma htn_g f k : G k (parse_htn f) any.
Proof. unfold parse_htn. go; apply htn_loop_g. Qed.
Hint Resolve htn_g : core.
Lemma initial_g f k : G k (parse_initial_tn f) any.
Proof. unfold parse_initial_tn. go. Qed.
Lemma method_g f k : G k (parse_method f) any.
Proof. unfold parse_method. go. Qed.
Hint Resolve initial_g method_g : core.
Lemma domain_g f : forall n d k0 k, read_by program k0 (d_name d) -> (k0 <= k)%N -> G k (parse_domain f n d) any.
Proof.
  induction n as [|n IH]; intros d k0 k Hr Hk; cbn [parse_domain]; go; try (eapply IH; [exact Hr|lia]).
  eapply G_bind; [apply task_g|]. intros tk k1 Hk1 Ht. cbv beta in Ht. go. eapply IH; [exact Hr|lia].
Qed.
Lemma problem_g f : forall n p k, G k (parse_problem f n p) any.
Proof.
  induction n as [|n IH]; intros p k; cbn [parse_problem]; go; try apply IH.
  destruct (rebuild_objects a); [apply IH|apply G_panic].
Qed.
Definition header_ok (dt : definition_type) (k : N) : Prop := match dt with DefDomain x => read_by program k x | _ => True end.
Lemma header_g k : G k parse_document_type header_ok.
Proof.
  unfold parse_document_type, parse_domain_header, parse_problem_header. go.
  apply G_ret. intros. cbn [header_ok]. eapply read_mono; [|match goal with Hx : forall x, TIdent ?s = _ -> _ |- read_by _ _ ?s => apply (Hx s eq_refl) end]. lia.
Qed.
Lemma doc_g f k : G k (parse_doc f) any.
Proof.
  unfold parse_doc. go. eapply G_bind; [apply header_g|]. intros [x|x y] k1 Hk1 Hx.
  - eapply G_bind; [eapply domain_g; [exact Hx|lia]|]. intros; go.
  - eapply G_bind; [apply problem_g|]. intros; go.
Qed.
Lemma parse_quotes n e : parse n program = Err (ESyn e) -> told (se_line e) (se_expected e).
Proof.
  unfold parse. intros E. pose proof (doc_g n 0 (lex_new program)) as Hg.
  destruct (parse_doc n (lex_new program)) as [a st|e'|p|]; try discriminate. injection E as ->. apply Hg; [|apply N.le_0_l].
  exists [], (lex_new program). split; [constructor|]. split; [reflexivity|apply N.le_refl].
Qed.
End S.
