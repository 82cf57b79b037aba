(** Termination: on a document that ends with a delimiter, fuel greater than
    the number of bytes is enough for every parsing function. *)
From Coq Require Import String Ascii NArith ZArith Bool List Lia PeanoNat.
From Verif Require Import Base Token Lexer Errors Ast Parser
  StrFacts SpecLex LexProofs LexProofs2 LexProofs3.
Import ListNotations.
Open Scope list_scope.
Open Scope nat_scope.

Section Term.
Context `{Unicode}.

Definition len (st : lstate) : nat := String.length (rest st).
Definition delim (st : lstate) : Prop := str_last delimiter (rest st).

Definition wp {A} (m : P A) (Q : A -> lstate -> Prop) (st : lstate) : Prop :=
  match m st with
  | POk a st' => Q a st'
  | PFuel => False
  | _ => True
  end.

(** Any result, nothing un-read. *)
Definition post {A} (st : lstate) (_ : A) (st' : lstate) : Prop := delim st' /\ len st' <= len st.
(** Something was consumed. *)
Definition spost {A} (st : lstate) (_ : A) (st' : lstate) : Prop := delim st' /\ len st' < len st.

Lemma lex_facts b st :
  delim st ->
  match of_lex (lex b st) with
  | POk t st' => delim st' /\ len st' <= len st /\ (b = false -> t <> TEOF -> len st' < len st)
  | PFuel => False
  | _ => True
  end.
Proof.
  intros Hd. destruct (lex b st) as [o st'] eqn:E.
  assert (Hf := lex_no_fuel b st). rewrite E in Hf. simpl in Hf.
  destruct o as [t| | |]; simpl; auto.
  destruct (lex_suffix _ _ _ _ E) as (x & Ex); [discriminate|].
  split; [|split].
  - unfold delim in *. rewrite Ex in Hd. eapply str_last_suffix; eauto.
  - unfold len. rewrite Ex, app_length_s. lia.
  - intros -> Ht. apply (get_progress st t st' E Ht Hd).
Qed.

Lemma wp_get {B} (k : token -> P B) Q st :
  delim st ->
  (forall t st', delim st' -> len st' <= len st -> (t <> TEOF -> len st' < len st) -> wp (k t) Q st') ->
  wp (bind get k) Q st.
Proof.
  intros Hd Hk. unfold wp, bind, get, get_token. assert (Hl := lex_facts false st Hd).
  destruct (of_lex (lex false st)) as [t st'| | |]; auto.
  destruct Hl as (H1 & H2 & H3). apply (Hk t st'); auto.
Qed.

Lemma wp_peek {B} (k : token -> P B) Q st :
  delim st ->
  (forall t st', delim st' -> len st' <= len st -> wp (k t) Q st') ->
  wp (bind peek k) Q st.
Proof.
  intros Hd Hk. unfold wp, bind, peek, lookahead. assert (Hl := lex_facts true st Hd).
  destruct (of_lex (lex true st)) as [t st'| | |]; auto.
  destruct Hl as (H1 & H2 & H3). apply (Hk t st'); auto.
Qed.

Lemma wp_pos {B} (k : N -> P B) Q st :
  (forall p, wp (k p) Q st) -> wp (bind pos k) Q st.
Proof. intros Hk. apply (Hk (line st)). Qed.

Lemma wp_syn {A} x t Q st : wp (@syn A x t) Q st.
Proof. exact I. Qed.
Lemma wp_panic {A} p Q st : wp (@ppanic A p) Q st.
Proof. exact I. Qed.
Lemma wp_ret {A} (a : A) (Q : A -> lstate -> Prop) st : Q a st -> wp (ret a) Q st.
Proof. auto. Qed.

Lemma wp_bind {A B} (m : P A) (k : A -> P B) Q st :
  wp m (post st) st ->
  (forall a st', delim st' -> len st' <= len st -> wp (k a) Q st') ->
  wp (bind m k) Q st.
Proof.
  intros Hm Hk. unfold wp, bind in *. destruct (m st) as [a st'| | |]; auto.
  destruct Hm. apply Hk; auto.
Qed.

Lemma wp_sbind {A B} (m : P A) (k : A -> P B) Q st :
  wp m (spost st) st ->
  (forall a st', delim st' -> len st' < len st -> wp (k a) Q st') ->
  wp (bind m k) Q st.
Proof.
  intros Hm Hk. unfold wp, bind in *. destruct (m st) as [a st'| | |]; auto.
  destruct Hm. apply Hk; auto.
Qed.

Lemma wp_conseq {A} (m : P A) (Q Q' : A -> lstate -> Prop) st :
  wp m Q st -> (forall a st', Q a st' -> Q' a st') -> wp m Q' st.
Proof. unfold wp. destruct (m st); auto. Qed.

Lemma post_trans {A} (m : P A) st st' :
  wp m (post st') st' -> len st' <= len st -> wp m (post st) st'.
Proof. intros Hw Hl. eapply wp_conseq; [exact Hw|]. intros a s [H1 H2]. split; auto. lia. Qed.

Lemma spost_trans {A} (m : P A) st st' :
  wp m (post st') st' -> len st' < len st -> wp m (spost st) st'.
Proof. intros Hw Hl. eapply wp_conseq; [exact Hw|]. intros a s [H1 H2]. split; auto. lia. Qed.

Ltac noeof :=
  repeat match goal with
  | Hx : ?c <> TEOF -> _ |- _ => first [specialize (Hx ltac:(discriminate)) | clear Hx]
  end.

Ltac step :=
  match goal with
  | |- wp (bind get _) _ _ => apply wp_get; [assumption|]; intros ?t ?st ?Hd ?Hle ?Hlt
  | |- wp (bind peek _) _ _ => apply wp_peek; [assumption|]; intros ?t ?st ?Hd ?Hle
  | |- wp (bind pos _) _ _ => apply wp_pos; intros ?p
  | |- wp (syn _ _) _ _ => exact I
  | |- wp (ppanic _) _ _ => exact I
  | |- wp (match ?x with _ => _ end) _ _ => is_var x; destruct x
  end.
Ltac fin := noeof; apply wp_ret; split; [assumption|lia].
Ltac use L := noeof; eapply post_trans; [apply L; (assumption || lia)|lia].
Ltac seq L := noeof; eapply wp_bind; [apply L; (assumption || lia)|]; intros ?a ?st ?Hd ?Hle.

Lemma args_loop_wp : forall n o r t st,
  delim st -> (t = TEOF /\ 0 < n \/ len st + 1 < n) -> wp (args_loop n o r t) (post st) st.
Proof.
  induction n as [|n IH]; intros o r t st Hd Hn; [lia|]. cbn [args_loop].
  repeat step; try fin.
  - destruct Hn as [[? _]|Hn]; [discriminate|].
    eapply post_trans; [apply IH; auto|lia].
    destruct (token_eq_eof t) as [->|Ht]; [left; split; auto; lia|]. specialize (Hlt Ht). lia.
  - destruct Hn as [[? _]|Hn]; [discriminate|].
    eapply post_trans; [apply IH; auto|lia].
    destruct (token_eq_eof t) as [->|Ht]; [left; split; auto; lia|]. specialize (Hlt0 Ht). lia.
Qed.

Lemma parse_args_wp n st : delim st -> len st < n -> wp (parse_args n) (post st) st.
Proof.
  intros Hd Hn. unfold parse_args. step. eapply post_trans; [apply args_loop_wp; auto|lia].
  destruct (token_eq_eof t) as [->|Ht]; [left; split; auto; lia|]. specialize (Hlt Ht). lia.
Qed.

Lemma parse_requirements_wp : forall n acc st,
  delim st -> len st < n -> wp (parse_requirements n acc) (post st) st.
Proof.
  induction n as [|n IH]; intros acc st Hd Hn; [lia|]. cbn [parse_requirements].
  repeat step; try fin. use IH.
Qed.

Lemma parse_predicate_definition_wp n st :
  delim st -> len st < n -> wp (parse_predicate_definition n) (post st) st.
Proof.
  intros Hd Hn. unfold parse_predicate_definition. repeat step. seq parse_args_wp. fin.
Qed.

Lemma parse_predicates_wp fuel : forall n acc st,
  delim st -> len st < n -> len st < fuel -> wp (parse_predicates fuel n acc) (post st) st.
Proof.
  induction n as [|n IH]; intros acc st Hd Hn Hf; [lia|]. cbn [parse_predicates].
  repeat step; try fin. seq parse_predicate_definition_wp. use IH.
Qed.

Lemma parse_function_definition_wp n st :
  delim st -> len st < n -> wp (parse_function_definition n) (post st) st.
Proof.
  intros Hd Hn. unfold parse_function_definition. repeat step. seq parse_args_wp. fin.
Qed.

Lemma parse_functions_wp fuel : forall n acc st,
  delim st -> len st < n -> len st < fuel -> wp (parse_functions fuel n acc) (post st) st.
Proof.
  induction n as [|n IH]; intros acc st Hd Hn Hf; [lia|]. cbn [parse_functions].
  repeat step; try fin. seq parse_function_definition_wp. use IH.
Qed.

Lemma parse_formula_wp fuel : forall n,
  (forall st, delim st -> len st < n -> len st < fuel -> wp (parse_formula fuel n) (spost st) st)
  /\ (forall acc st, delim st -> len st + 1 < n -> len st < fuel -> wp (connective fuel n acc) (post st) st)
  /\ (forall acc st, delim st -> len st < n -> len st < fuel -> wp (branches fuel n acc) (post st) st).
Proof.
  induction n as [|n (IHf & IHc & IHb)]; [repeat split; intros; lia|].
  repeat split.
  - intros st Hd Hn Hf. cbn [parse_formula]. step. step; try exact I.
    step; try exact I; [|fin]. noeof. step. step; try exact I.
    + step. noeof. seq parse_args_wp. fin.
    + step; try exact I; noeof.
      * seq IHc. fin.
      * eapply wp_sbind; [apply IHf; (assumption || lia)|]. intros f st' Hd' Hlt'. repeat step. fin.
      * seq IHc. fin.
      * seq IHc. fin.
      * repeat step. seq parse_args_wp.
        eapply wp_sbind; [apply IHf; (assumption || lia)|]. intros f st' Hd' Hlt'. repeat step. fin.
      * repeat step. seq parse_args_wp.
        eapply wp_sbind; [apply IHf; (assumption || lia)|]. intros f st' Hd' Hlt'. repeat step. fin.
      * seq IHb. fin.
      * repeat step. fin.
    + step; try exact I. fin.
  - intros acc st Hd Hn Hf. cbn [connective].
    eapply wp_sbind; [apply IHf; (assumption || lia)|]. intros f st' Hd' Hlt'.
    destruct f; try (use IHc). fin.
  - intros acc st Hd Hn Hf. cbn [branches]. step. step; try exact I.
    + noeof. eapply wp_sbind; [apply IHf; (assumption || lia)|]. intros f st' Hd' Hlt'.
      destruct f; try exact I; use IHb.
    + step; try exact I. fin.
Qed.

Lemma formula_wp n st : delim st -> len st < n -> wp (parse_formula n n) (post st) st.
Proof.
  intros Hd Hn. eapply wp_conseq; [apply (proj1 (parse_formula_wp n n)); auto|].
  intros a st' [H1 H2]. split; auto. lia.
Qed.

Lemma parse_task_wp n st : delim st -> len st < n -> wp (parse_task n) (post st) st.
Proof. intros Hd Hn. unfold parse_task. repeat step. seq parse_args_wp. fin. Qed.

Lemma parse_action_wp n st : delim st -> len st < n -> wp (parse_action n) (post st) st.
Proof.
  intros Hd Hn. unfold parse_action. seq parse_task_wp. step.
  eapply wp_bind.
  { repeat step; try fin. seq formula_wp. fin. }
  intros pre stA HdA HleA. step. eapply wp_bind.
  { repeat step; try fin. seq formula_wp. fin. }
  intros eff stB HdB HleB. repeat step. fin.
Qed.

Lemma ordering_ids_wp msg t1 : forall n acc st,
  delim st -> len st < n -> wp (ordering_ids msg t1 n acc) (post st) st.
Proof.
  induction n as [|n IH]; intros acc st Hd Hn; [lia|]. cbn [ordering_ids].
  repeat step; try fin. use IH.
Qed.

Lemma parse_ordering_wp n st : delim st -> len st < n -> wp (parse_ordering n) (post st) st.
Proof. intros Hd Hn. unfold parse_ordering. repeat step. use ordering_ids_wp. Qed.

Lemma ordering_conj_wp fuel : forall n acc st,
  delim st -> len st < n -> len st < fuel -> wp (ordering_conj fuel n acc) (post st) st.
Proof.
  induction n as [|n IH]; intros acc st Hd Hn Hf; [lia|]. cbn [ordering_conj].
  repeat step; try fin. seq parse_ordering_wp. use IH.
Qed.

Lemma parse_orderings_wp n acc st : delim st -> len st < n -> wp (parse_orderings n acc) (post st) st.
Proof.
  intros Hd Hn. unfold parse_orderings. repeat step; try fin.
  - use ordering_conj_wp.
  - use ordering_ids_wp.
Qed.

Lemma id_subtask_terms_wp i k : forall n acc st,
  delim st -> len st < n -> wp (id_subtask_terms i k n acc) (post st) st.
Proof.
  induction n as [|n IH]; intros acc st Hd Hn; [lia|]. cbn [id_subtask_terms].
  repeat step; try fin. use IH.
Qed.

Lemma plain_subtask_terms_wp k x : forall n acc st,
  delim st -> len st < n -> wp (plain_subtask_terms k x n acc) (post st) st.
Proof.
  induction n as [|n IH]; intros acc st Hd Hn; [lia|]. cbn [plain_subtask_terms].
  repeat step; try fin. use IH.
Qed.

Lemma parse_subtask_wp n st : delim st -> len st < n -> wp (parse_subtask n) (post st) st.
Proof.
  intros Hd Hn. unfold parse_subtask. repeat step; try fin.
  - use plain_subtask_terms_wp.
  - use id_subtask_terms_wp.
Qed.

Lemma subtasks_loop_wp fuel : forall n acc st,
  delim st -> len st < n -> len st < fuel -> wp (subtasks_loop fuel n acc) (post st) st.
Proof.
  induction n as [|n IH]; intros acc st Hd Hn Hf; [lia|]. cbn [subtasks_loop].
  repeat step; try fin. seq parse_subtask_wp. use IH.
Qed.

Lemma parse_subtasks_wp n st : delim st -> len st < n -> wp (parse_subtasks n) (post st) st.
Proof.
  intros Hd Hn. unfold parse_subtasks. repeat step; try fin.
  - seq parse_subtask_wp. fin.
  - use subtasks_loop_wp.
Qed.

Lemma parse_constraint_wp st : delim st -> wp parse_constraint (post st) st.
Proof. intros Hd. unfold parse_constraint. repeat step; fin. Qed.

Lemma constraints_loop_wp : forall n acc st,
  delim st -> len st < n -> wp (constraints_loop n acc) (post st) st.
Proof.
  induction n as [|n IH]; intros acc st Hd Hn; [lia|]. cbn [constraints_loop].
  repeat step; try fin. seq parse_constraint_wp. use IH.
Qed.

Lemma parse_constraints_wp n st : delim st -> len st < n -> wp (parse_constraints n) (post st) st.
Proof.
  intros Hd Hn. unfold parse_constraints. repeat step; try fin.
  - seq parse_constraint_wp. fin.
  - use constraints_loop_wp.
  - seq parse_constraint_wp. fin.
Qed.

Lemma htn_loop_wp fuel : forall n s o l c st,
  delim st -> len st < n -> len st < fuel -> wp (htn_loop fuel n s o l c) (post st) st.
Proof.
  induction n as [|n IH]; intros s o l c st Hd Hn Hf; [lia|]. cbn [htn_loop].
  repeat step; try fin.
  - seq parse_orderings_wp. use IH.
  - seq parse_constraints_wp. use IH.
Qed.

Lemma parse_htn_wp n st : delim st -> len st < n -> wp (parse_htn n) (post st) st.
Proof.
  intros Hd Hn. unfold parse_htn. apply wp_peek; [assumption|]. intros la st1 Hd1 Hle1.
  assert (wp (bind get (fun t => match t with
      | TKeyword KSubtasks =>
        bind (parse_subtasks n) (fun subtasks => htn_loop n n subtasks None [] None)
      | TKeyword KOrderedSubtasks =>
        bind (parse_subtasks n) (fun subtasks => bind get (fun u =>
        match u with
        | TKeyword KConstraints =>
          bind (parse_constraints n) (fun c => ret (mkHtn subtasks None Total (Some c)))
        | TPunct RParen => ret (mkHtn subtasks None Total None)
        | other => syn "closing ')' after task network definition" other
        end))
      | other => syn ":subtasks or :ordered-subtasks keyword" other
      end)) (post st) st1) as Hrest.
  { repeat step.
    - seq parse_subtasks_wp. use htn_loop_wp.
    - seq parse_subtasks_wp. repeat step; try fin. seq parse_constraints_wp. fin. }
  destruct la as [| | | |p| |]; try exact Hrest. destruct p; try exact Hrest. fin.
Qed.

Lemma parse_initial_tn_wp n st : delim st -> len st < n -> wp (parse_initial_tn n) (post st) st.
Proof.
  intros Hd Hn. unfold parse_initial_tn. repeat step; try fin.
  - seq parse_args_wp. seq parse_htn_wp. fin.
  - seq parse_htn_wp. fin.
  - seq parse_htn_wp. fin.
Qed.

Lemma parse_method_wp n st : delim st -> len st < n -> wp (parse_method n) (post st) st.
Proof.
  intros Hd Hn. unfold parse_method. repeat step. seq parse_args_wp. repeat step.
  seq parse_args_wp. repeat step.
  - seq formula_wp. seq parse_htn_wp. fin.
  - seq parse_htn_wp. fin.
  - seq parse_htn_wp. fin.
Qed.

Lemma parse_domain_wp fuel : forall n d st,
  delim st -> len st < n -> len st < fuel -> wp (parse_domain fuel n d) (post st) st.
Proof.
  induction n as [|n IH]; intros d st Hd Hn Hf; [lia|]. cbn [parse_domain].
  repeat step; try fin.
  - seq parse_requirements_wp. use IH.
  - seq parse_args_wp. use IH.
  - seq parse_task_wp. repeat step. use IH.
  - seq parse_args_wp. use IH.
  - seq parse_predicates_wp. use IH.
  - seq parse_functions_wp. use IH.
  - seq parse_action_wp. use IH.
  - seq parse_method_wp. use IH.
Qed.

Lemma parse_problem_wp fuel : forall n p st,
  delim st -> len st < n -> len st < fuel -> wp (parse_problem fuel n p) (post st) st.
Proof.
  induction n as [|n IH]; intros p st Hd Hn Hf; [lia|]. cbn [parse_problem].
  repeat step; try fin.
  - seq parse_requirements_wp. use IH.
  - seq parse_args_wp. destruct (rebuild_objects a); [|exact I]. use IH.
  - seq parse_predicates_wp. use IH.
  - seq parse_initial_tn_wp. use IH.
  - seq formula_wp. use IH.
Qed.

Lemma parse_document_type_wp st : delim st -> wp parse_document_type (post st) st.
Proof.
  intros Hd. unfold parse_document_type. repeat step.
  - unfold parse_domain_header. repeat step. fin.
  - unfold parse_problem_header. repeat step. fin.
Qed.

Theorem parse_terminates n program :
  str_last delimiter program -> String.length program < n -> parse n program <> OutOfFuel.
Proof.
  intros Hd Hn.
  assert (wp (parse_doc n) (post (lex_new program)) (lex_new program)) as Hw.
  { change (delim (lex_new program)) in Hd. change (len (lex_new program) < n) in Hn.
    generalize dependent (lex_new program). intros st Hd Hn.
    unfold parse_doc. repeat step. seq parse_document_type_wp. destruct a.
    - seq parse_domain_wp. fin.
    - seq parse_problem_wp. fin. }
  unfold wp in Hw. unfold parse. destruct (parse_doc n (lex_new program)); try discriminate. tauto.
Qed.

End Term.
