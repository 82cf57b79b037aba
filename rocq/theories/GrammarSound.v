(** Soundness of the parser: a successful run consumed a sentence of the
    grammar that denotes the returned tree. *)
From Coq Require Import String Ascii NArith ZArith Bool List Lia PeanoNat.
From Verif Require Import Base Token Lexer Errors Ast Parser
  StrFacts SpecLex LexProofs LexProofs2 LexProofs3 SpecGrammar.
Import ListNotations.
Open Scope list_scope.
Open Scope nat_scope.

Section Sound.
Context `{Unicode}.

(** Reads interleaved with peeks. *)
Inductive Run : lstate -> list tok -> lstate -> Prop :=
| run_nil st : Run st [] st
| run_peek st t st1 ts st2 :
    lookahead st = (LTok t, st1) -> Run st1 ts st2 -> Run st ts st2
| run_get st t st1 ts st2 :
    get_token st = (LTok t, st1) -> Run st1 ts st2 -> Run st ((t, line st1) :: ts) st2.

Lemma run_app st ts st1 us st2 : Run st ts st1 -> Run st1 us st2 -> Run st (ts ++ us) st2.
Proof.
  induction 1; simpl; intros; auto.
  - eapply run_peek; eauto.
  - eapply run_get; eauto.
Qed.

(** Two states from which the tokenizer behaves the same. *)
Definition same_next (st st' : lstate) : Prop := forall p, lex p st = lex p st'.

Lemma run_reads st ts st' :
  Run st ts st' -> exists st'', Reads st ts st'' /\ same_next st'' st'.
Proof.
  induction 1 as [st|st t st1 ts st2 E Hr (s & Hs & Hn)|st t st1 ts st2 E Hr (s & Hs & Hn)].
  - exists st. split; [constructor|intro; reflexivity].
  - assert (forall p, lex p st1 = lex p st) as Hp by (eapply peek_then; [exact E|discriminate]).
    inversion Hs; subst.
    + exists st. split; [constructor|]. intros p. rewrite <- (Hp p). apply Hn.
    + exists s. split; auto. econstructor; eauto. unfold get_token in *. rewrite <- (Hp false). auto.
  - exists s. split; auto. econstructor; eauto.
Qed.

(** The next token is ')'. *)
Definition next_rp (st : lstate) : Prop := exists l st1, get_token st = (LTok (TPunct RParen), st1) /\ line st1 = l.

(** Postcondition of a successful run. *)
Definition okp {A} (m : P A) (Q : A -> lstate -> Prop) (st : lstate) : Prop :=
  match m st with POk a st' => Q a st' | _ => True end.

Lemma okp_get {B} (k : token -> P B) Q st :
  (forall t st', get_token st = (LTok t, st') -> okp (k t) Q st') -> okp (bind get k) Q st.
Proof.
  intros Hk. unfold okp, bind, get. destruct (get_token st) as [[t| | |] st'] eqn:E; simpl; auto.
  apply (Hk t st'); auto.
Qed.

Lemma okp_peek {B} (k : token -> P B) Q st :
  (forall t st', lookahead st = (LTok t, st') -> okp (k t) Q st') -> okp (bind peek k) Q st.
Proof.
  intros Hk. unfold okp, bind, peek. destruct (lookahead st) as [[t| | |] st'] eqn:E; simpl; auto.
  apply (Hk t st'); auto.
Qed.

Lemma okp_pos {B} (k : N -> P B) Q st : okp (k (line st)) Q st -> okp (bind pos k) Q st.
Proof. auto. Qed.
Lemma okp_ret {A} (a : A) (Q : A -> lstate -> Prop) st : Q a st -> okp (ret a) Q st.
Proof. auto. Qed.

Lemma okp_bind {A B} (m : P A) (k : A -> P B) R Q st :
  okp m R st -> (forall a st', R a st' -> okp (k a) Q st') -> okp (bind m k) Q st.
Proof.
  intros Hm Hk. unfold okp, bind in *. destruct (m st) as [a st'| | |]; auto. apply Hk; auto.
Qed.

Lemma okp_conseq {A} (m : P A) (R Q : A -> lstate -> Prop) st :
  okp m R st -> (forall a st', R a st' -> Q a st') -> okp m Q st.
Proof. unfold okp. destruct (m st); auto. Qed.

(** Parsing [m] from [st] consumes tokens related to the result by [G]. *)
Definition snd_at {A} (G : list tok -> A -> Prop) (m : P A) : Prop :=
  forall st, okp m (fun a st' => exists ts, Run st ts st' /\ G ts a) st.

Lemma peek_get st t st1 t' st2 :
  lookahead st = (LTok t, st1) -> get_token st1 = (LTok t', st2) -> t = peeked t'.
Proof.
  intros E1 E2. assert (E := peek_is_next st). rewrite E1 in E. simpl in E.
  unfold get_token in E2. rewrite (peek_then _ _ _ E1 ltac:(discriminate) false) in E2.
  unfold get_token in E. rewrite E2 in E. simpl in E. congruence.
Qed.

Lemma peeked_kw t k : TKeyword k = peeked t -> t = TKeyword k.
Proof. destruct t as [| | |o| | |]; simpl; try congruence. destruct o; simpl; congruence. Qed.
Lemma peeked_punct t k : TPunct k = peeked t -> t = TPunct k.
Proof. destruct t as [| | |o| | |]; simpl; try congruence. destruct o; simpl; congruence. Qed.
Lemma peeked_id t k : TIdent k = peeked t -> t = TIdent k.
Proof. destruct t as [| | |o| | |]; simpl; try congruence. destruct o; simpl; congruence. Qed.
Lemma peeked_and t : TOp OAnd = peeked t -> t = TOp OAnd.
Proof. destruct t as [| | |o| | |]; simpl; try congruence. destruct o; simpl; congruence. Qed.

Ltac step :=
  match goal with
  | |- okp (bind get _) _ _ => apply okp_get; intros ?t ?st ?E
  | |- okp (bind peek _) _ _ => apply okp_peek; intros ?t ?st ?E
  | |- okp (bind pos _) _ _ => apply okp_pos
  | |- okp (syn _ _) _ _ => exact I
  | |- okp pfuel _ _ => exact I
  | |- okp (ppanic _) _ _ => exact I
  | |- okp (match ?x with _ => _ end) _ _ => is_var x; destruct x
  end.
Ltac seq L := eapply okp_bind; [apply L|]; intros ?a ?st (?ts & ?Hrun & ?Hg).
(** Builds the consumed token list from the steps in the context. *)
Ltac run :=
  repeat first
    [ eapply run_get; [eassumption|]
    | eapply run_peek; [eassumption|]
    | eapply run_app; [eassumption|] ];
  apply run_nil.

Lemma args_loop_sound : forall n o r t st ln,
  line st = ln ->
  okp (args_loop n o r t)
      (fun a st' => exists ts us syms,
         Run st ts st' /\ GArgs (us ++ (t, ln) :: ts) syms
         /\ us = ids o /\ a = r ++ syms) st.
Proof.
  induction n as [|n IH]; intros o r t st ln Hl; [exact I|]. cbn [args_loop].
  step; try exact I.
  - (* identifier *)
    step. step. eapply okp_conseq; [apply IH; reflexivity|].
    intros a st' (ts & us & syms & Hr & Hg & -> & ->).
    exists ((t, line st0) :: ts), (ids o), syms. split; [|split; [|auto]].
    + eapply run_get; eauto.
    + unfold ids in Hg. rewrite map_app, <- app_assoc in Hg. rewrite Hl in Hg. exact Hg.
  - step; try exact I.
    + (* dash *)
      step. step. step; try exact I. step.
      eapply okp_conseq; [apply IH; reflexivity|].
      intros a st' (ts & us & syms & Hr & Hg & -> & ->).
      exists ((TIdent s, line st0) :: (t, line st1) :: ts), (ids o), (map (typed s (line st0)) o ++ syms).
      split; [|split; [|split; auto]].
      * eapply run_get; [eassumption|]. eapply run_get; eauto.
      * apply (ga_group o ln s (line st0) ((t, line st1) :: ts) syms Hg).
      * rewrite app_assoc. reflexivity.
    + (* end *)
      apply okp_ret. exists [], (ids o), (map plain o). split; [apply run_nil|].
      split; [|auto]. apply (ga_end o ln).
Qed.

Lemma parse_args_sound n : snd_at GArgs (parse_args n).
Proof.
  intros st. unfold parse_args. step.
  eapply okp_conseq; [apply args_loop_sound; reflexivity|].
  intros a st' (ts & us & syms & Hr & Hg & -> & ->). simpl in *.
  eexists. split; [eapply run_get; eauto|]. exact Hg.
Qed.

Lemma parse_requirements_sound : forall n acc st,
  okp (parse_requirements n acc)
      (fun a st' => exists ts rs, Run st ts st' /\ GReqs ts rs /\ a = acc ++ rs) st.
Proof.
  induction n as [|n IH]; intros acc st; [exact I|]. cbn [parse_requirements].
  step. step; try exact I.
  - step; try exact I. apply okp_ret. exists [(TPunct RParen, line st0)], [].
    split; [run|]. split; [constructor|]. rewrite app_nil_r. reflexivity.
  - eapply okp_conseq; [apply IH|]. intros a st' (ts & rs & Hr & Hg & ->).
    eexists _, (r :: rs). split; [eapply run_get; eauto|]. split; [constructor; auto|].
    rewrite <- app_assoc. reflexivity.
Qed.

Definition GPredDef (ts : list tok) (p : predicate) : Prop :=
  exists n ln us vars, ts = id n ln :: us /\ GArgs us vars /\ p = mkPred n ln vars.
Definition GFuncDef (ts : list tok) (p : func) : Prop :=
  exists n ln us vars, ts = id n ln :: us /\ GArgs us vars /\ p = mkFunc n ln vars.

Lemma parse_predicate_definition_sound n : snd_at GPredDef (parse_predicate_definition n).
Proof.
  intros st. unfold parse_predicate_definition. repeat step. seq parse_args_sound.
  apply okp_ret. eexists. split; [run|]. rewrite app_nil_r.
  eexists _, _, _, _. split; [reflexivity|]. eauto.
Qed.

Lemma parse_function_definition_sound n : snd_at GFuncDef (parse_function_definition n).
Proof.
  intros st. unfold parse_function_definition. repeat step. seq parse_args_sound.
  apply okp_ret. eexists. split; [run|]. rewrite app_nil_r.
  eexists _, _, _, _. split; [reflexivity|]. eauto.
Qed.

Lemma parse_predicates_sound fuel : forall n acc st,
  okp (parse_predicates fuel n acc)
      (fun a st' => exists ts rs, Run st ts st' /\ GPreds ts rs /\ a = acc ++ rs) st.
Proof.
  induction n as [|n IH]; intros acc st; [exact I|]. cbn [parse_predicates].
  step. step; try exact I. step; try exact I.
  - seq parse_predicate_definition_sound. destruct Hg as (m & ln & us & vars & -> & Hg & ->).
    eapply okp_conseq; [apply IH|]. intros a st' (ts' & rs & Hr & Hg' & ->).
    eexists _, _. split; [eapply run_get; [eassumption|]; eapply run_app; eassumption|].
    split; [apply gp_cons; eassumption|]. rewrite <- app_assoc. reflexivity.
  - apply okp_ret. exists [(TPunct RParen, line st0)], [].
    split; [run|]. split; [constructor|]. rewrite app_nil_r. reflexivity.
Qed.

Lemma parse_functions_sound fuel : forall n acc st,
  okp (parse_functions fuel n acc)
      (fun a st' => exists ts rs, Run st ts st' /\ GFuncs ts rs /\ a = acc ++ rs) st.
Proof.
  induction n as [|n IH]; intros acc st; [exact I|]. cbn [parse_functions].
  step. step; try exact I. step; try exact I.
  - seq parse_function_definition_sound. destruct Hg as (m & ln & us & vars & -> & Hg & ->).
    eapply okp_conseq; [apply IH|]. intros a st' (ts' & rs & Hr & Hg' & ->).
    eexists _, _. split; [eapply run_get; [eassumption|]; eapply run_app; eassumption|].
    split; [apply gf_cons; eassumption|]. rewrite <- app_assoc. reflexivity.
  - apply okp_ret. exists [(TPunct RParen, line st0)], [].
    split; [run|]. split; [constructor|]. rewrite app_nil_r. reflexivity.
Qed.

Lemma parse_formula_sound fuel : forall n,
  snd_at GFormula (parse_formula fuel n)
  /\ (forall acc, snd_at (fun ts a => exists fs, GMembers ts fs /\ a = acc ++ fs) (connective fuel n acc))
  /\ (forall acc, snd_at (fun ts a => exists fs, GBranches ts fs /\ a = acc ++ fs) (branches fuel n acc)).
Proof.
  induction n as [|n (IHf & IHc & IHb)].
  { split; [|split]; intros; intro; exact I. }
  split; [|split].
  - intros st. cbn [parse_formula]. step. step; try exact I.
    step; try exact I; [|apply okp_ret; eexists; split; [run|constructor]].
    step. step; try exact I.
    + step. seq parse_args_sound. apply okp_ret. eexists. split; [run|]. rewrite app_nil_r.
      apply gfo_atom; auto.
    + step; try exact I.
      * seq IHc. destruct Hg as (fs & Hg & ->). apply okp_ret. eexists. split; [run|].
        rewrite app_nil_r. apply gfo_or; auto.
      * seq IHf. repeat step. apply okp_ret. eexists. split; [run|]. apply gfo_not; auto.
      * seq IHc. destruct Hg as (fs & Hg & ->). apply okp_ret. eexists. split; [run|].
        rewrite app_nil_r. apply gfo_and; auto.
      * seq IHc. destruct Hg as (fs & Hg & ->). apply okp_ret. eexists. split; [run|].
        rewrite app_nil_r. apply gfo_xor; auto.
      * repeat step. seq parse_args_sound. seq IHf. repeat step. apply okp_ret.
        eexists. split; [run|]. apply gfo_forall; auto.
      * repeat step. seq parse_args_sound. seq IHf. repeat step. apply okp_ret.
        eexists. split; [run|]. apply gfo_exists; auto.
      * seq IHb. destruct Hg as (fs & Hg & ->). apply okp_ret. eexists. split; [run|].
        rewrite app_nil_r. apply gfo_prob; auto.
      * repeat step. apply okp_ret. eexists. split; [run|]. apply gfo_equal.
    + step; try exact I. apply okp_ret. eexists. split; [run|constructor].
  - intros acc st. cbn [connective]. seq IHf.
    assert (forall a' st', (exists us, Run st0 us st'
              /\ exists fs, GMembers us fs /\ a' = (acc ++ [a]) ++ fs) -> a <> FEmpty ->
            exists us, Run st us st' /\ exists fs, GMembers us fs /\ a' = acc ++ fs) as Hcons.
    { intros a' st' (us & Hr & fs & Hm & ->) Hne. exists (ts ++ us).
      split; [eapply run_app; eauto|]. exists (a :: fs). split; [apply gm_cons; auto|].
      rewrite <- app_assoc. reflexivity. }
    destruct a; try (eapply okp_conseq; [apply IHc|]; intros a' st' Hx; apply Hcons; [exact Hx|discriminate]).
    apply okp_ret. exists ts. split; auto. exists []. split; [constructor; auto|].
    rewrite app_nil_r. reflexivity.
  - intros acc st. cbn [branches]. step. step; try exact I.
    + rename n0 into w. seq IHf.
      assert (forall a' st', (exists us, Run st1 us st'
                /\ exists fs, GBranches us fs /\ a' = (acc ++ [FWeighted w a]) ++ fs) -> a <> FEmpty ->
              exists us, Run st us st' /\ exists fs, GBranches us fs /\ a' = acc ++ fs) as Hcons.
      { intros a' st' (us & Hr & fs & Hm & ->) Hne. exists ((TNumber w, line st0) :: ts ++ us).
        split; [eapply run_get; [eassumption|]; eapply run_app; eauto|].
        exists (FWeighted w a :: fs). split; [apply gb_cons; auto|].
        rewrite <- app_assoc. reflexivity. }
      destruct a; try exact I;
        (eapply okp_conseq; [apply IHb|]; intros a' st' Hx; apply Hcons; [exact Hx|discriminate]).
    + step; try exact I. apply okp_ret. exists [(TPunct RParen, line st0)]. split; [run|].
      exists []. split; [constructor|]. rewrite app_nil_r. reflexivity.
Qed.

Lemma formula_sound n : snd_at GFormula (parse_formula n n).
Proof. apply parse_formula_sound. Qed.

Lemma parse_task_sound n : snd_at GTask (parse_task n).
Proof.
  intros st. unfold parse_task. repeat step. seq parse_args_sound. apply okp_ret.
  eexists. split; [run|]. rewrite app_nil_r. constructor; auto.
Qed.

(** Empty or a keyword and a formula, with interleaved peeks. *)
Lemma opt_formula_sound k st la st1 (m : P (option formula)) :
  lookahead st = (LTok la, st1) ->
  (okp m (fun a st' => exists ts, Run st1 ts st' /\ GOptFormula k ts a) st1) ->
  okp m (fun a st' => exists ts, Run st ts st' /\ GOptFormula k ts a) st1.
Proof.
  intros E Hm. eapply okp_conseq; [exact Hm|]. intros a st' (ts & Hr & Hg).
  exists ts. split; auto. eapply run_peek; eauto.
Qed.

Lemma parse_action_sound n : snd_at GAction (parse_action n).
Proof.
  intros st. unfold parse_action. seq parse_task_sound. destruct Hg as [nm ln l1 l2 us params Hg].
  cbn [task_name task_pos task_params]. step.
  eapply (okp_bind _ _ (fun a st' => exists us, Run st0 us st' /\ GOptFormula KPrecondition us a)).
  { eapply opt_formula_sound; [eassumption|].
    repeat step; try (apply okp_ret; exists []; split; [run|constructor]).
    pose proof (peek_get _ _ _ _ _ E E0) as Ep. apply peeked_kw in Ep. subst.
    seq formula_sound. apply okp_ret. eexists. split; [run|]. rewrite app_nil_r. constructor; auto. }
  intros pre st2 (us2 & Hr2 & Hg2). step.
  eapply (okp_bind _ _ (fun a st' => exists us, Run st2 us st' /\ GOptFormula KEffect us a)).
  { eapply opt_formula_sound; [eassumption|].
    repeat step; try (apply okp_ret; exists []; split; [run|constructor]).
    pose proof (peek_get _ _ _ _ _ E0 E1) as Ep. apply peeked_kw in Ep. subst.
    seq formula_sound. apply okp_ret. eexists. split; [run|]. rewrite app_nil_r. constructor; auto. }
  intros eff st4 (us4 & Hr4 & Hg4). repeat step. apply okp_ret.
  eexists. split.
  - eapply run_app; [exact Hrun|]. eapply run_app; [exact Hr2|]. eapply run_app; [exact Hr4|].
    eapply run_get; [eassumption|]. apply run_nil.
  - apply gac; auto. constructor; auto.
Qed.

Lemma ordering_ids_sound msg t1 : forall n acc,
  snd_at (fun ts a => exists ns l, ts = ids ns ++ [rp l] /\ a = acc ++ map (fun x => (t1, fst x)) ns)
         (ordering_ids msg t1 n acc).
Proof.
  induction n as [|n IH]; intros acc st; [exact I|]. cbn [ordering_ids]. step. step; try exact I.
  - eapply okp_conseq; [apply IH|]. intros a st' (ts & Hr & ns & l & -> & ->).
    eexists. split; [eapply run_get; eauto|]. exists ((s, line st0) :: ns), l.
    split; [reflexivity|]. rewrite <- app_assoc. reflexivity.
  - step; try exact I. apply okp_ret. eexists. split; [run|].
    exists [], (line st0). split; [reflexivity|]. rewrite app_nil_r. reflexivity.
Qed.

Lemma parse_ordering_sound n : snd_at GOrder (parse_ordering n).
Proof.
  intros st. unfold parse_ordering. repeat step. eapply okp_conseq; [apply ordering_ids_sound|].
  intros a st' (ts & Hr & ns & l & -> & ->).
  eexists. split; [eapply run_get; [eassumption|]; eapply run_get; eauto|]. apply go.
Qed.

Lemma ordering_conj_sound fuel : forall n acc,
  snd_at (fun ts a => exists os, GOrderList ts os /\ a = acc ++ os) (ordering_conj fuel n acc).
Proof.
  induction n as [|n IH]; intros acc st; [exact I|]. cbn [ordering_conj]. step. step; try exact I.
  step; try exact I.
  - seq parse_ordering_sound. eapply okp_conseq; [apply IH|].
    intros a' st' (ts' & Hr & os & Hg' & ->).
    eexists. split; [eapply run_get; [eassumption|]; eapply run_app; eauto|].
    exists (a ++ os). split; [apply gol_cons; auto|]. rewrite <- app_assoc. reflexivity.
  - apply okp_ret. eexists. split; [run|]. exists []. split; [constructor|].
    rewrite app_nil_r. reflexivity.
Qed.

Lemma parse_orderings_sound n acc :
  snd_at (fun ts a => exists os, GOrderings ts os /\ a = acc ++ os) (parse_orderings n acc).
Proof.
  intros st. unfold parse_orderings. repeat step.
  - eapply okp_conseq; [apply ordering_conj_sound|]. intros a st' (ts & Hr & os & Hg & ->).
    eexists. split; [eapply run_get; [eassumption|]; eapply run_get; eauto|].
    exists os. split; auto. apply gos_and; auto.
  - eapply okp_conseq; [apply ordering_ids_sound|]. intros a st' (ts & Hr & ns & l & -> & ->).
    eexists. split; [eapply run_get; [eassumption|]; eapply run_get; [eassumption|]; eapply run_get; eauto|].
    eexists. split; [|reflexivity]. apply gos_one. apply go.
  - apply okp_ret. eexists. split; [run|]. exists []. split; [constructor|].
    rewrite app_nil_r. reflexivity.
Qed.

Lemma id_subtask_terms_sound i k : forall n acc,
  snd_at (fun ts a => exists ns l1 l2, ts = ids ns ++ [rp l1; rp l2]
                      /\ a = mkSub (Some i) k (acc ++ map untyped ns))
         (id_subtask_terms i k n acc).
Proof.
  induction n as [|n IH]; intros acc st; [exact I|]. cbn [id_subtask_terms]. step. step; try exact I.
  - step. eapply okp_conseq; [apply IH|]. intros a st' (ts & Hr & ns & l1 & l2 & -> & ->).
    eexists. split; [eapply run_get; eauto|]. exists ((s, line st0) :: ns), l1, l2.
    split; [reflexivity|]. rewrite <- app_assoc. reflexivity.
  - repeat step. apply okp_ret. eexists. split; [run|].
    exists [], (line st0), (line st1). split; [reflexivity|]. rewrite app_nil_r. reflexivity.
Qed.

Lemma plain_subtask_terms_sound k x : forall n acc,
  snd_at (fun ts a => exists ns l, ts = ids ns ++ [rp l] /\ a = mkSub None k (acc ++ map untyped ns))
         (plain_subtask_terms k x n acc).
Proof.
  induction n as [|n IH]; intros acc st; [exact I|]. cbn [plain_subtask_terms]. step. step; try exact I.
  - step. eapply okp_conseq; [apply IH|]. intros a st' (ts & Hr & ns & l & -> & ->).
    eexists. split; [eapply run_get; eauto|]. exists ((s, line st0) :: ns), l.
    split; [reflexivity|]. rewrite <- app_assoc. reflexivity.
  - step; try exact I. apply okp_ret. eexists. split; [run|].
    exists [], (line st0). split; [reflexivity|]. rewrite app_nil_r. reflexivity.
Qed.

Lemma parse_subtask_sound n : snd_at GSubtask (parse_subtask n).
Proof.
  intros st. unfold parse_subtask. repeat step.
  - eapply okp_conseq; [apply plain_subtask_terms_sound|]. intros a st' (ts & Hr & ns & l & -> & ->).
    eexists. split; [eapply run_get; [eassumption|]; eapply run_get; eauto|].
    apply (gs_plain s (line st0) ((s0, line st1) :: ns) l).
  - eapply okp_conseq; [apply id_subtask_terms_sound|]. intros a st' (ts & Hr & ns & l1 & l2 & -> & ->).
    eexists. split; [eapply run_get; [eassumption|]; eapply run_get; [eassumption|]; eapply run_get; eauto|].
    apply gs_id.
  - apply okp_ret. eexists. split; [run|]. apply (gs_plain s (line st0) [] (line st1)).
Qed.

Lemma subtasks_loop_sound fuel : forall n acc,
  snd_at (fun ts a => exists ss, GSubtaskList ts ss /\ a = acc ++ ss) (subtasks_loop fuel n acc).
Proof.
  induction n as [|n IH]; intros acc st; [exact I|]. cbn [subtasks_loop]. step. step; try exact I.
  step; try exact I.
  - seq parse_subtask_sound. eapply okp_conseq; [apply IH|].
    intros a' st' (ts' & Hr & os & Hg' & ->).
    eexists. split; [eapply run_get; [eassumption|]; eapply run_app; eauto|].
    exists (a :: os). split; [apply gsl_cons; auto|]. rewrite <- app_assoc. reflexivity.
  - apply okp_ret. eexists. split; [run|]. exists []. split; [constructor|].
    rewrite app_nil_r. reflexivity.
Qed.

Lemma parse_subtasks_sound n : snd_at GSubtasks (parse_subtasks n).
Proof.
  intros st. unfold parse_subtasks. repeat step.
  - seq parse_subtask_sound. apply okp_ret. eexists. split; [run|]. rewrite app_nil_r.
    apply gss_one; auto.
  - pose proof (peek_get _ _ _ _ _ E0 E1) as Ep. apply peeked_and in Ep. subst.
    eapply okp_conseq; [apply subtasks_loop_sound|]. intros a st' (ts & Hr & ss & Hg & ->).
    eexists. split; [eapply run_get; [eassumption|]; eapply run_peek; [eassumption|]; eapply run_get; eauto|].
    apply gss_and; auto.
  - pose proof (peek_get _ _ _ _ _ E0 E1) as Ep. apply peeked_punct in Ep. subst.
    apply okp_ret. eexists. split; [run|]. constructor.
Qed.

Lemma parse_constraint_sound : snd_at GConstraint parse_constraint.
Proof.
  intros st. unfold parse_constraint. repeat step; apply okp_ret; eexists; (split; [run|]); constructor.
Qed.

Lemma constraints_loop_sound : forall n acc,
  snd_at (fun ts a => exists ss, GConstraintList ts ss /\ a = acc ++ ss) (constraints_loop n acc).
Proof.
  induction n as [|n IH]; intros acc st; [exact I|]. cbn [constraints_loop]. step. step; try exact I.
  step; try exact I.
  - seq parse_constraint_sound. eapply okp_conseq; [apply IH|].
    intros a' st' (ts' & Hr & os & Hg' & ->).
    eexists. split; [eapply run_get; [eassumption|]; eapply run_app; eauto|].
    exists (a :: os). split; [apply gcl_cons; auto|]. rewrite <- app_assoc. reflexivity.
  - apply okp_ret. eexists. split; [run|]. exists []. split; [constructor|].
    rewrite app_nil_r. reflexivity.
Qed.

Lemma parse_constraints_sound n : snd_at GConstraints (parse_constraints n).
Proof.
  intros st. unfold parse_constraints. repeat step.
  - seq parse_constraint_sound. apply okp_ret. eexists. split; [run|]. rewrite app_nil_r.
    apply gcs_one; auto.
  - pose proof (peek_get _ _ _ _ _ E0 E1) as Ep. apply peeked_and in Ep. subst.
    eapply okp_conseq; [apply constraints_loop_sound|]. intros a st' (ts & Hr & ss & Hg & ->).
    eexists. split; [eapply run_get; [eassumption|]; eapply run_peek; [eassumption|]; eapply run_get; eauto|].
    apply gcs_and; auto.
  - seq parse_constraint_sound. apply okp_ret. eexists. split; [run|]. rewrite app_nil_r.
    apply gcs_one; auto.
  - pose proof (peek_get _ _ _ _ _ E0 E1) as Ep. apply peeked_punct in Ep. subst.
    apply okp_ret. eexists. split; [run|]. constructor.
Qed.

Lemma htn_loop_sound fuel s : forall n o l c,
  snd_at (GClauses s o l c) (htn_loop fuel n s o l c).
Proof.
  induction n as [|n IH]; intros o l c st; [exact I|]. cbn [htn_loop]. repeat step.
  - seq parse_orderings_sound. destruct Hg as (os & Hg & ->).
    eapply okp_conseq; [apply IH|]. intros a st' (ts' & Hr & Hg').
    eexists. split; [eapply run_get; [eassumption|]; eapply run_app; eauto|].
    eapply gcl_ordering; eauto.
  - seq parse_constraints_sound.
    eapply okp_conseq; [apply IH|]. intros a' st' (ts' & Hr & Hg').
    eexists. split; [eapply run_get; [eassumption|]; eapply run_app; eauto|].
    eapply gcl_constraints; eauto.
  - apply okp_ret. eexists. split; [run|]. constructor.
Qed.

(** With the condition on the next token. *)
Definition snd_open {A} (G : list tok -> A -> bool -> Prop) (m : P A) : Prop :=
  forall st, okp m (fun a st' => exists ts b, Run st ts st' /\ G ts a b /\ (b = true -> next_rp st')) st.

Lemma peek_rp st st1 : lookahead st = (LTok (TPunct RParen), st1) -> next_rp st1.
Proof.
  intros E. assert (Ep := peek_is_next st). rewrite E in Ep. simpl in Ep.
  assert (E' := peek_then _ _ _ E ltac:(discriminate) false).
  unfold next_rp, get_token in *. rewrite E'.
  destruct (lex false st) as [[t| | |] st2]; simpl in Ep; try discriminate.
  injection Ep as Ep. apply peeked_punct in Ep. subst. eauto.
Qed.

Lemma parse_htn_sound n : snd_open GHtn (parse_htn n).
Proof.
  intros st. unfold parse_htn. apply okp_peek. intros la st1 E.
  assert (okp (bind get (fun t => match t with
      | TKeyword KSubtasks =>
        bind (parse_subtasks n) (fun subtasks => htn_loop n n subtasks None [] None)
      | TKeyword KOrderedSubtasks =>
        bind (parse_subtasks n) (fun subtasks => bind get (fun u =>
        match u with
        | TKeyword KConstraints =>
          bind (parse_constraints n) (fun c => ret (mkHtn subtasks None Total (Some c)))
        | TPunct RParen => ret (mkHtn subtasks None Total None)
        | other => syn "closing ')' after task network definition" other
        end))
      | other => syn ":subtasks or :ordered-subtasks keyword" other
      end)) (fun a st' => exists ts b, Run st ts st' /\ GHtn ts a b /\ (b = true -> next_rp st')) st1) as Hrest.
  { repeat step.
    - seq parse_subtasks_sound. eapply okp_conseq; [apply htn_loop_sound|].
      intros h st' (us & Hr & Hg'). eexists _, false.
      split; [eapply run_peek; [eassumption|]; eapply run_get; [eassumption|]; eapply run_app; eauto|].
      split; [|discriminate]. apply gh_partial with (s := a); auto.
    - seq parse_subtasks_sound. repeat step.
      + seq parse_constraints_sound. apply okp_ret. eexists _, false.
        split; [eapply run_peek; [eassumption|]; eapply run_get; [eassumption|]; eapply run_app; [eassumption|];
                eapply run_get; eassumption|].
        split; [|discriminate]. apply gh_total_constraints; auto.
      + apply okp_ret. eexists _, false.
        split; [eapply run_peek; [eassumption|]; eapply run_get; [eassumption|]; eapply run_app; [eassumption|];
                eapply run_get; [eassumption|]; apply run_nil|].
        split; [|discriminate]. apply gh_total; auto. }
  destruct la as [| | | |p| |]; try exact Hrest. destruct p; try exact Hrest.
  apply okp_ret. exists [], true. split; [eapply run_peek; [eassumption|]; apply run_nil|].
  split; [constructor|]. intros _. eapply peek_rp; eauto.
Qed.

Ltac seqo L := eapply okp_bind; [apply L|]; intros ?a ?st (?ts & ?b & ?Hrun & ?Hg & ?Hb).

Lemma parse_initial_tn_sound n : snd_open GInitTn (parse_initial_tn n).
Proof.
  intros st. unfold parse_initial_tn. repeat step.
  - pose proof (peek_get _ _ _ _ _ E E0) as Ep. apply peeked_kw in Ep. subst.
    seq parse_args_sound. seqo parse_htn_sound. apply okp_ret. eexists _, b.
    split; [eapply run_peek; [eassumption|]; eapply run_get; [eassumption|]; eapply run_get; [eassumption|];
            eapply run_app; eassumption|].
    split; auto. apply gi_params; auto.
  - seqo parse_htn_sound. apply okp_ret. eexists _, b.
    split; [eapply run_peek; [eassumption|]; eassumption|]. split; auto. apply gi_plain; auto.
  - seqo parse_htn_sound. apply okp_ret. eexists _, b.
    split; [eapply run_peek; [eassumption|]; eassumption|]. split; auto. apply gi_plain; auto.
  - apply okp_ret. exists [], true. split; [eapply run_peek; [eassumption|]; apply run_nil|].
    split; [apply gi_plain; constructor|]. intros _. eapply peek_rp; eauto.
Qed.

Lemma htn_not_open st k st1 ts h b st' st'' :
  lookahead st = (LTok (TKeyword k), st1) -> Run st1 ts st' -> GHtn ts h b ->
  (b = true -> next_rp st'') -> st' = st'' -> b = false.
Proof.
  intros E Hr Hg Hb ->. destruct b; auto. exfalso. specialize (Hb eq_refl). inversion Hg; subst.
  apply run_reads in Hr as (s & Hs & Hn). inversion Hs; subst.
  destruct Hb as (l & s2 & Hb & _). unfold get_token in Hb. rewrite <- (Hn false) in Hb.
  assert (Ep := peek_is_next st). rewrite E in Ep. simpl in Ep.
  assert (E' := peek_then _ _ _ E ltac:(discriminate) false).
  unfold get_token in Ep. rewrite <- E', Hb in Ep. discriminate.
Qed.

Lemma parse_method_sound n : snd_open GMethod (parse_method n).
Proof.
  intros st. unfold parse_method. repeat step. seq parse_args_sound. repeat step.
  seq parse_args_sound. step.
  assert (forall pre us2 h b2 sX sY,
     Run st7 us2 sX -> GOptFormula KPrecondition us2 pre ->
     (exists us3, Run sX us3 sY /\ GHtn us3 h b2 /\ (b2 = true -> next_rp sY)) ->
     (pre = None -> b2 = false) ->
     exists ts b, Run st ts sY /\
       GMethod ts (mkMethod (plain (s, line st0)) (plain (s0, line st6)) a0 a pre h) b
       /\ (b = true -> next_rp sY)) as Hfin.
  { intros pre us2 h b2 sX sY Hr2 Hg2 (us3 & Hr3 & Hg3 & Hb3) Hpre. eexists _, b2. split.
    - eapply run_get; [eassumption|]. eapply run_get; [eassumption|]. eapply run_get; [eassumption|].
      eapply run_app; [eassumption|]. eapply run_get; [eassumption|]. eapply run_get; [eassumption|].
      eapply run_get; [eassumption|]. eapply run_app; [eassumption|]. eapply run_app; [eassumption|].
      eassumption.
    - split; auto. apply gme; auto. }
  step; try exact I. step; try exact I.
  - step. pose proof (peek_get _ _ _ _ _ E5 E6) as Ep. apply peeked_kw in Ep. subst.
    seq formula_sound. seqo parse_htn_sound. apply okp_ret. eapply Hfin; [| | |].
    + eapply run_peek; [eassumption|]. eapply run_get; eassumption.
    + constructor; eassumption.
    + eauto.
    + discriminate.
  - seqo parse_htn_sound. apply okp_ret. eapply Hfin; [| | |].
    + eapply run_peek; [eassumption|]. apply run_nil.
    + constructor.
    + eauto.
    + intros _. eapply htn_not_open; eauto.
  - seqo parse_htn_sound. apply okp_ret. eapply Hfin; [| | |].
    + eapply run_peek; [eassumption|]. apply run_nil.
    + constructor.
    + eauto.
    + intros _. eapply htn_not_open; eauto.
Qed.

(** Contribution of one block. *)
Definition apply_block (d : domain_ast) (b : dblock) : domain_ast :=
  match b with
  | BReqs l => add_reqs d l | BTypes l => add_types d l | BConstants l => add_constants d l
  | BPreds l => add_preds d l | BFuncs l => add_funcs d l | BTask t => add_task d t
  | BMethod m => add_method d m | BAction a => add_action d a
  end.

Lemma open_last st ts b us bs :
  GBlock ts b true -> next_rp st -> GBlocks us bs ->
  (exists st', Reads st us st') -> exists l, us = [rp l] /\ bs = [].
Proof.
  intros _ (l & s1 & E & El) Hg (st' & Hr).
  assert (forall t x us', us = (t, x) :: us' -> t = TPunct RParen) as Hfst.
  { intros t x us' ->. inversion Hr; subst. congruence. }
  destruct Hg as [l'|ts' b' l' Hb'|ts' b' us' bs' Hb' _].
  - eauto.
  - destruct Hb'; simpl in Hfst; specialize (Hfst _ _ _ eq_refl); discriminate.
  - destruct Hb'; simpl in Hfst; specialize (Hfst _ _ _ eq_refl); discriminate.
Qed.

Lemma parse_domain_sound fuel : forall n d,
  snd_at (fun ts a => exists bs, GBlocks ts bs /\ a = fold_left apply_block bs d) (parse_domain fuel n d).
Proof.
  induction n as [|n IH]; intros d st; [exact I|]. cbn [parse_domain].
  assert (forall st1 (ts : list tok) blk b,
     Run st ts st1 -> GBlock ts blk b -> (b = true -> next_rp st1) ->
     okp (parse_domain fuel n (apply_block d blk))
       (fun a st' => exists ts, Run st ts st' /\ exists bs, GBlocks ts bs /\ a = fold_left apply_block bs d) st1)
    as Hnext.
  { intros st1 ts blk b Hr Hg Hb. eapply okp_conseq; [apply IH|].
    intros a st' (us & Hr' & bs & Hgs & ->). exists (ts ++ us). split; [eapply run_app; eauto|].
    exists (blk :: bs). split; [|reflexivity]. destruct b.
    - destruct (open_last st1 ts blk us bs Hg (Hb eq_refl) Hgs) as (l & -> & ->).
      + apply run_reads in Hr' as (s & Hs & _). eauto.
      + apply gbs_open; auto.
    - apply gbs_cons; auto. }
  step. step; try exact I. step; try exact I;
    [|apply okp_ret; eexists; split; [run|]; exists []; split; [constructor|reflexivity]].
  step. step; try exact I. step; try exact I.
  - eapply okp_bind; [apply parse_requirements_sound|]. intros a st2 (ts & rs & Hr & Hg & ->).
    eapply (Hnext _ _ (BReqs rs) false); [|apply gbl_reqs; exact Hg|discriminate].
    eapply run_get; [eassumption|]. eapply run_get; eassumption.
  - seq parse_args_sound. eapply (Hnext _ _ (BTypes a) false); [|apply gbl_types; exact Hg|discriminate].
    eapply run_get; [eassumption|]. eapply run_get; eassumption.
  - seq parse_task_sound. repeat step.
    eapply (Hnext _ _ (BTask a) false); [|apply gbl_task; exact Hg|discriminate].
    eapply run_get; [eassumption|]. eapply run_get; [eassumption|]. eapply run_app; [eassumption|].
    eapply run_get; [eassumption|]. apply run_nil.
  - seq parse_args_sound. eapply (Hnext _ _ (BConstants a) false); [|apply gbl_constants; exact Hg|discriminate].
    eapply run_get; [eassumption|]. eapply run_get; eassumption.
  - eapply okp_bind; [apply parse_predicates_sound|]. intros a st2 (ts & rs & Hr & Hg & ->).
    eapply (Hnext _ _ (BPreds rs) false); [|apply gbl_preds; exact Hg|discriminate].
    eapply run_get; [eassumption|]. eapply run_get; eassumption.
  - eapply okp_bind; [apply parse_functions_sound|]. intros a st2 (ts & rs & Hr & Hg & ->).
    eapply (Hnext _ _ (BFuncs rs) false); [|apply gbl_funcs; exact Hg|discriminate].
    eapply run_get; [eassumption|]. eapply run_get; eassumption.
  - seq parse_action_sound. eapply (Hnext _ _ (BAction a) false); [|apply gbl_action; exact Hg|discriminate].
    eapply run_get; [eassumption|]. eapply run_get; eassumption.
  - seqo parse_method_sound. eapply (Hnext _ _ (BMethod a) b); [|apply gbl_method; exact Hg|exact Hb].
    eapply run_get; [eassumption|]. eapply run_get; eassumption.
Qed.

(** Contribution of one problem block. *)
Definition apply_pblock (p : problem_ast) (b : pblock) : problem_ast :=
  match b with
  | QReqs l => p_add_reqs p l | QObjects l => p_add_objects p l | QHtn t => p_set_init_tn p t
  | QGoal f => p_set_goal p f | QInit l => p_set_init p l
  end.

Lemma open_plast st ts b us bs :
  GPBlock ts b true -> next_rp st -> GPBlocks us bs ->
  (exists st', Reads st us st') -> exists l, us = [rp l] /\ bs = [].
Proof.
  intros _ (l & s1 & E & El) Hg (st' & Hr).
  assert (forall t x us', us = (t, x) :: us' -> t = TPunct RParen) as Hfst.
  { intros t x us' ->. inversion Hr; subst. congruence. }
  destruct Hg as [l'|l'|ts' b' l' Hb'|ts' b' us' bs' Hb' _].
  - eauto.
  - specialize (Hfst _ _ _ eq_refl); discriminate.
  - destruct Hb'; simpl in Hfst; specialize (Hfst _ _ _ eq_refl); discriminate.
  - destruct Hb'; simpl in Hfst; specialize (Hfst _ _ _ eq_refl); discriminate.
Qed.

Lemma rebuild_id l l' : rebuild_objects l = Some l' ->
  (forall s, In s l -> sym_type s = None -> sym_type_pos s = None) -> l' = l.
Proof.
  revert l'. induction l as [|[n p t tp] l IH]; intros l' E Hok; simpl in E.
  - congruence.
  - destruct t as [t|].
    + destruct tp as [tp|]; [|discriminate]. destruct (rebuild_objects l) as [r|]; [|discriminate].
      injection E as <-. f_equal. apply IH; auto. intros; apply Hok; simpl; auto.
    + assert (tp = None) as -> by (apply (Hok (mkSym n p None tp)); simpl; auto).
      destruct (rebuild_objects l) as [r|]; [|discriminate].
      injection E as <-. f_equal. apply IH; auto. intros; apply Hok; simpl; auto.
Qed.

Lemma gargs_typed ts l : GArgs ts l ->
  forall s, In s l -> sym_type s = None -> sym_type_pos s = None.
Proof.
  induction 1 as [ns l|ns l t lt ts r Hg IH]; intros s Hi Ht.
  - apply in_map_iff in Hi as (x & <- & _). reflexivity.
  - apply in_app_or in Hi as [Hi|Hi]; auto. apply in_map_iff in Hi as (x & <- & _). discriminate.
Qed.

Lemma parse_problem_sound fuel : forall n d,
  snd_at (fun ts a => exists bs, GPBlocks ts bs /\ a = fold_left apply_pblock bs d) (parse_problem fuel n d).
Proof.
  induction n as [|n IH]; intros d st; [exact I|]. cbn [parse_problem].
  assert (forall st1 (ts : list tok) blk b,
     Run st ts st1 -> GPBlock ts blk b -> (b = true -> next_rp st1) ->
     okp (parse_problem fuel n (apply_pblock d blk))
       (fun a st' => exists ts, Run st ts st' /\ exists bs, GPBlocks ts bs /\ a = fold_left apply_pblock bs d) st1)
    as Hnext.
  { intros st1 ts blk b Hr Hg Hb. eapply okp_conseq; [apply IH|].
    intros a st' (us & Hr' & bs & Hgs & ->). exists (ts ++ us). split; [eapply run_app; eauto|].
    exists (blk :: bs). split; [|reflexivity]. destruct b.
    - destruct (open_plast st1 ts blk us bs Hg (Hb eq_refl) Hgs) as (l & -> & ->).
      + apply run_reads in Hr' as (s & Hs & _). eauto.
      + apply gpbs_open; auto.
    - apply gpbs_cons; auto. }
  step. step; try exact I;
    [|apply okp_ret; eexists; split; [run|]; exists []; split; [constructor|reflexivity]].
  step; try exact I;
    [|apply okp_ret; eexists; split; [run|]; exists []; split; [constructor|reflexivity]].
  step. step; try exact I. step; try exact I.
  - eapply okp_bind; [apply parse_requirements_sound|]. intros a st2 (ts & rs & Hr & Hg & ->).
    eapply (Hnext _ _ (QReqs rs) false); [|apply gpb_reqs; exact Hg|discriminate].
    eapply run_get; [eassumption|]. eapply run_get; eassumption.
  - seq parse_args_sound. destruct (rebuild_objects a) as [a'|] eqn:Er; [|exact I].
    apply rebuild_id in Er; [|eapply gargs_typed; eauto]. subst a'.
    eapply (Hnext _ _ (QObjects a) false); [|apply gpb_objects; exact Hg|discriminate].
    eapply run_get; [eassumption|]. eapply run_get; eassumption.
  - eapply okp_bind; [apply parse_predicates_sound|]. intros a st2 (ts & rs & Hr & Hg & ->).
    eapply (Hnext _ _ (QInit rs) false); [|apply gpb_init; exact Hg|discriminate].
    eapply run_get; [eassumption|]. eapply run_get; eassumption.
  - seqo parse_initial_tn_sound. eapply (Hnext _ _ (QHtn a) b); [|apply gpb_htn; exact Hg|exact Hb].
    eapply run_get; [eassumption|]. eapply run_get; eassumption.
  - seq formula_sound. eapply (Hnext _ _ (QGoal a) false); [|apply gpb_goal; exact Hg|discriminate].
    eapply run_get; [eassumption|]. eapply run_get; eassumption.
Qed.

(** Folding the contributions gives the declarative tree. *)
Lemma push_opt_some {A} (l l' : list A) : push_opt (some_if l) l' = some_if (l ++ l').
Proof.
  destruct l' as [|x l']; simpl.
  - rewrite app_nil_r. reflexivity.
  - destruct l; reflexivity.
Qed.

Lemma domain_of_snoc name bs b : domain_of name (bs ++ [b]) = apply_block (domain_of name bs) b.
Proof.
  destruct b; unfold domain_of, apply_block, add_reqs, add_types, add_constants, add_preds, add_funcs,
    add_task, add_method, add_action; cbn [d_name d_types d_constants d_reqs d_preds d_tasks d_methods
    d_actions d_funcs]; rewrite !flat_map_app; cbn [flat_map]; rewrite ?app_nil_r, ?push_opt_some;
    reflexivity.
Qed.

Lemma fold_domain name : forall bs bs0,
  fold_left apply_block bs (domain_of name bs0) = domain_of name (bs0 ++ bs).
Proof.
  induction bs as [|b bs IH]; intros bs0; simpl.
  - rewrite app_nil_r. reflexivity.
  - rewrite <- domain_of_snoc, IH, <- app_assoc. reflexivity.
Qed.

Lemma last_some_snoc {A B} (f : A -> option B) l x :
  last_some f (l ++ [x]) = match f x with Some y => Some y | None => last_some f l end.
Proof. unfold last_some. rewrite fold_left_app. reflexivity. Qed.

Lemma problem_of_snoc bs b : problem_of (bs ++ [b]) = apply_pblock (problem_of bs) b.
Proof.
  destruct b; unfold problem_of, apply_pblock, p_add_reqs, p_add_objects, p_set_init_tn, p_set_init, p_set_goal;
    cbn [p_reqs p_init_tn p_init p_goal p_objects]; rewrite !flat_map_app, !last_some_snoc; cbn [flat_map];
    rewrite ?app_nil_r; reflexivity.
Qed.

Lemma fold_problem : forall bs bs0,
  fold_left apply_pblock bs (problem_of bs0) = problem_of (bs0 ++ bs).
Proof.
  induction bs as [|b bs IH]; intros bs0; simpl.
  - rewrite app_nil_r. reflexivity.
  - rewrite <- problem_of_snoc, IH, <- app_assoc. reflexivity.
Qed.

Theorem parse_doc_sound n : snd_at GDocument (parse_doc n).
Proof.
  intros st. unfold parse_doc. step. step; try exact I. step; try exact I.
  unfold parse_document_type.
  eapply (okp_bind _ _ (fun dt st' => exists ts, Run st0 ts st' /\
     match dt with
     | DefDomain n => exists l2 l3 l4 ln l5, ts = [kw KDefine l2; lp l3; kw KDomain l4; id n ln; rp l5]
     | DefProblem n m => exists l2 l3 l4 ln l5 l6 l7 lm l8,
         ts = [kw KDefine l2; lp l3; kw KProblem l4; id n ln; rp l5; lp l6; kw KDomain l7; id m lm; rp l8]
     end)).
  { repeat step.
    - unfold parse_domain_header. repeat step. apply okp_ret. eexists. split; [run|].
      repeat eexists.
    - unfold parse_problem_header. repeat step. apply okp_ret. eexists. split; [run|].
      repeat eexists. }
  intros dt st1 (ts & Hr & Hd). destruct dt as [nm|pn dn].
  - destruct Hd as (l2 & l3 & l4 & ln & l5 & ->). seq parse_domain_sound.
    destruct Hg as (bs & Hg & ->). apply okp_ret. eexists.
    split; [eapply run_get; [eassumption|]; eapply run_app; eassumption|].
    change (new_domain nm) with (domain_of nm []). rewrite fold_domain. apply gd_domain; auto.
  - destruct Hd as (l2 & l3 & l4 & ln & l5 & l6 & l7 & lm & l8 & ->). seq parse_problem_sound.
    destruct Hg as (bs & Hg & ->). apply okp_ret. eexists.
    split; [eapply run_get; [eassumption|]; eapply run_app; eassumption|].
    change new_problem with (problem_of []). rewrite fold_problem. apply gd_problem; auto.
Qed.

End Sound.
