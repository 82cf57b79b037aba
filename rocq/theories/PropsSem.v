(** Property theorems about semantic verification: C13 (semantic part),
    C15-C22, C28-C30, C36, C37.  Specifications: SpecSem.v (well-formedness and
    what each error asserts), AstLines.v (lines carried by errors).

    [settles f r]: [r] is the result for all large enough loop bounds. *)
From Coq Require Import String Ascii NArith Bool List Lia PeanoNat Relations Permutation.
From Verif Require Import Base Token Lexer Errors Ast Parser Graph Semantic Tdg Api AstLines AstLinesProofs AstRel StrFacts GraphProofs SpecLex
  LexProofs LexProofs2 ParserProofs SpecGrammar PrintSound SpecPrint ParserPanic PropsLex PropsParse
  SpecSem SemProofs SemFormula SemDomain SemProblem SemLines SemFacts HeaderProofs TdgGraph TdgReach TdgNull
  SpecTdg TdgTop VerifyTop.
Import ListNotations.
Open Scope list_scope.
Open Scope nat_scope.

Definition in_doc (s : string) (l : N) : Prop := (1 <= l <= 1 + count_nl s)%N.

(** The accepted documents of the examples. *)
Lemma env_id_ok : hash_env_ok env_id.
Proof. constructor; intros; apply Permutation_refl. Qed.

Section S.
Context `{Unicode}.
Variable he : hash_env.
Hypothesis Hhe : hash_env_ok he.

(** A document that is verified alone. *)
Lemma domain_verdict n dom d : parse n dom = Ok (ADomain d) ->
  (exists ws, settles (fun k => verify he k dom None) (Ok ws)) <-> domain_ok d.
Proof.
  intros Ep. split.
  - intros (ws & _ & k & Hk). specialize (Hk (k + n) ltac:(lia)). apply verify_ok_inv in Hk as (d' & Ep' & _ & Hok & _); auto.
    rewrite (parse_mono n (k + n)) in Ep' by (try lia; congruence). congruence.
  - intros Hok. destruct (verify_settles he n 0 dom None Hhe) as (r & Hr); [congruence|discriminate|].
    destruct r as [ws|e|p|]; [eauto| | |destruct Hr; congruence]; exfalso.
    + destruct Hr as (_ & k & Hk). specialize (Hk (k + n) ltac:(lia)).
      apply verify_err_inv in Hk as [E|[(d' & E & Ec)|(d' & s & _ & _ & E & _)]]; auto; try discriminate;
        rewrite (parse_mono n (k + n)) in E by (try lia; congruence); [congruence|].
      assert (d' = d) as -> by congruence. apply check_domain_ok in Hok. congruence.
    + destruct Hr as (_ & k & Hk). specialize (Hk (k + n) ltac:(lia)).
      apply verify_panic_inv in Hk as [E|[(q & E & _)|[(d' & E & Ec)|(d' & s & _ & _ & E & _)]]]; auto; try discriminate;
        rewrite (parse_mono n (k + n)) in E by (try lia; congruence); try congruence.
      assert (d' = d) as -> by congruence. apply check_domain_ok in Hok. congruence.
Qed.

Lemma same_domain n m dom d d' : parse n dom = Ok (ADomain d) -> parse m dom = Ok (ADomain d') -> d = d'.
Proof.
  intros E1 E2. rewrite <- (parse_mono n (n + m)) in E1 by (try lia; congruence).
  rewrite <- (parse_mono m (n + m)) in E2 by (try lia; congruence). congruence.
Qed.
Lemma same_problem n m s p p' : parse n s = Ok (AProblem p) -> parse m s = Ok (AProblem p') -> p = p'.
Proof.
  intros E1 E2. rewrite <- (parse_mono n (n + m)) in E1 by (try lia; congruence).
  rewrite <- (parse_mono m (n + m)) in E2 by (try lia; congruence). congruence.
Qed.

Lemma parse_not_sem n s e : parse n s <> Err (ESem e).
Proof. intros E. assert (Hh := parse_history s n). rewrite E in Hh. inversion Hh. Qed.

Lemma accepted n m dom prob ws d : verify he n dom prob = Ok ws -> parse m dom = Ok (ADomain d) -> domain_ok d.
Proof.
  intros E Ep. apply verify_ok_inv in E as (d' & Ep' & _ & Hok & _); auto.
  rewrite (same_domain _ _ _ _ _ Ep Ep'); auto.
Qed.

(** ** C13 *)
Theorem C13_verification_error_lines : forall n dom prob e,
  verify he n dom prob = Err e ->
  Forall (in_doc dom) (err_lines e)
  \/ exists s, prob = Some s /\ Forall (in_doc s) (err_lines e).
Proof.
  intros n dom prob e E. apply verify_err_inv in E as [E|[(d & E & Ec)|(d & s & E & Hok & -> & [Ep|(p & ws & Ep & Ec)])]]; auto.
  - left. apply C13_error_lines in E as [_ E]; auto.
  - left. apply check_domain_err in Ec as (x & -> & Hv). apply C13_tree_lines in E.
    rewrite Forall_forall in *. intros l Hl. apply E. simpl. eapply domain_violation_lines; eauto.
  - right. exists s. split; auto. apply C13_error_lines in Ep as [_ Ep]; auto.
  - right. exists s. split; auto. destruct (accepted_nodup d Hok) as (N1 & N2 & N3).
    apply check_problem_err in Ec as (x & -> & Hv); auto. apply C13_tree_lines in Ep.
    rewrite Forall_forall in *. intros l Hl. apply Ep. simpl. eapply problem_violation_lines; eauto.
Qed.

Theorem C13_warning_lines : forall n dom prob ws x l,
  verify he n dom prob = Ok ws -> In (NoPrimitiveRefinement x l) ws -> in_doc dom l.
Proof.
  intros n dom prob ws x l E Hi. apply verify_ok_inv in E as (d & Ep & Ev & _ & _); auto.
  destruct (verify_domain_warning he n d (table ws d) x l Hhe Ev Hi) as (g & t & _ & Ht & _ & <- & _).
  apply C13_tree_lines in Ep. rewrite Forall_forall in Ep. apply Ep. simpl. unfold domain_lines. rewrite !in_app_iff.
  do 4 right. left. apply in_flat_map. exists t. split; auto. left; auto.
Qed.

(** ** C15 *)
Theorem C15_no_duplicates : forall n dom prob ws d,
  verify he n dom prob = Ok ws -> parse n dom = Ok (ADomain d) ->
  NoDup (d_reqs d) /\ NoDup (map pred_name (d_preds d)) /\ NoDup (map task_name (d_tasks d))
  /\ NoDup (map act_name (d_actions d)) /\ NoDup (map (fun m => sym_name (m_name m)) (d_methods d))
  /\ (forall a, In a (d_actions d) -> NoDup (map sym_name (act_params a)))
  /\ (forall m, In m (d_methods d) -> NoDup (map sym_name (m_params m))).
Proof.
  intros n dom prob ws d E Ep. pose proof (accepted _ _ _ _ _ _ E Ep) as (O1 & _ & O3 & _ & O5 & _ & O7 & O8 & O9 & O10).
  rewrite Forall_forall in O8, O10. do 5 (split; auto). split; intros; [apply O8|apply O10]; auto.
Qed.

Theorem C15_duplicate_errors_true : forall n dom d s,
  verify he n dom None = Err (ESem s) -> parse n dom = Ok (ADomain d) ->
  match s with
  | DuplicateRequirement r => exists l1 l2 l3, d_reqs d = l1 ++ r :: l2 ++ r :: l3
  | DuplicatePredicate e => repeated pred_name pred_pos (d_preds d) e
  | DuplicateCompoundTask e => repeated task_name task_pos (d_tasks d) e
  | DuplicateAction e => repeated act_name act_pos (d_actions d) e
  | DuplicateMethod e => repeated (fun m => sym_name (m_name m)) (fun m => sym_pos (m_name m)) (d_methods d) e
  | DuplicateParameter e =>
    (exists a, In a (d_actions d) /\ repeated sym_name sym_pos (act_params a) e)
    \/ (exists m, In m (d_methods d) /\ repeated sym_name sym_pos (m_params m) e)
  | DuplicateObject _ => False
  | _ => True
  end.
Proof.
  intros n dom d s E Ep. apply verify_err_inv in E as [E|[(d' & E & Ec)|(d' & x & _ & _ & E & _)]]; auto; try congruence.
  assert (d' = d) as -> by congruence. apply check_domain_err in Ec as (x & Ex & Hv). injection Ex as <-.
  destruct Hv; eauto. destruct H0; eauto.
Qed.

(** ** C16 *)
Theorem C16_cyclic_types_iff : forall n dom d,
  parse n dom = Ok (ADomain d) ->
  (settles (fun k => verify he k dom None) (Err (ESem CyclicType))
   <-> NoDup (d_reqs d) /\ exists a, clos_trans string (parent (d_types d)) a a).
Proof.
  intros n dom d Ep.
  assert (settles (fun k => verify he k dom None) (Err (ESem CyclicType)) <-> check_domain d = Err (ESem CyclicType)) as ->.
  { split.
    - intros (_ & k & Hk). specialize (Hk (k + n) ltac:(lia)).
      apply verify_err_inv in Hk as [E|[(d' & E & Ec)|(d' & s & _ & _ & E & _)]]; auto; try discriminate;
        rewrite (parse_mono n (k + n)) in E by (try lia; congruence); congruence.
    - intros E. eapply settles_verify; [|discriminate]. unfold verify, parse_as_domain. rewrite Ep. cbn [obind].
      rewrite (proj2 (verify_domain_err he Hhe d n _) E). reflexivity. }
  split.
  - intros E. pose proof E as E'. apply check_domain_err in E' as (x & Ex & Hv). injection Ex as <-. inversion Hv as [|a Hc| | | | | | | | | | | | | | | |]; subst.
    split; eauto. unfold check_domain in E. apply seq_err in E as [E|[E0 _]].
    + apply dup_reqs_err in E as (r & E & _). discriminate.
    + apply dup_reqs_ok in E0. tauto.
  - intros (Hn & a & Ha). unfold check_domain.
    rewrite (proj2 (dup_reqs_ok (d_reqs d) [])) by (split; auto). cbn [obind].
    destruct (verify_type_hierarchy (d_types d)) as [[]|e|p|] eqn:Eh.
    + exfalso. apply hierarchy_ok in Eh. eapply Eh; eauto.
    + apply hierarchy_err in Eh as [-> _]. reflexivity.
    + unfold verify_type_hierarchy in Eh. destruct (acyclicb _); discriminate.
    + unfold verify_type_hierarchy in Eh. destruct (acyclicb _); discriminate.
Qed.

(** ** C17 *)
Theorem C17_predicates_declared : forall n dom prob ws d params g p,
  verify he n dom prob = Ok ws -> parse n dom = Ok (ADomain d) ->
  dom_formula d params g -> within (FAtom p) g ->
  exists def, In def (d_preds d) /\ pred_name def = pred_name p
              /\ length (pred_vars p) = length (pred_vars def).
Proof.
  intros n dom prob ws d params g p E Ep Hf Hw. pose proof (accepted _ _ _ _ _ _ E Ep) as Hok.
  apply (ok_formula d Hok) in Hf as (_ & _ & Hf & _). auto.
Qed.
Theorem C17_undefined_predicate_true : forall n dom d e,
  verify he n dom None = Err (ESem (UndefinedPredicate e)) -> parse n dom = Ok (ADomain d) ->
  exists params g p, dom_formula d params g /\ within (FAtom p) g
    /\ e = mkUndef (pred_name p) (pred_pos p) /\ unnamed pred_name (pred_name p) (d_preds d).
Proof.
  intros n dom d e E Ep. apply verify_err_inv in E as [E|[(d' & E & Ec)|(d' & x & _ & _ & E & _)]]; auto; try congruence.
  assert (d' = d) as -> by congruence. apply check_domain_err in Ec as (x & Ex & Hv). injection Ex as <-.
  inversion Hv; subst. eauto 10.
Qed.

(** ** C18 *)
Theorem C18_atoms_typed : forall n dom prob ws d params g p,
  verify he n dom prob = Ok ws -> parse n dom = Ok (ADomain d) ->
  dom_formula d params g -> within_open (FAtom p) g ->
  exists def, In def (d_preds d) /\ pred_name def = pred_name p
    /\ args_ok (d_types d) params (constants_of d) (pred_vars p) (pred_vars def).
Proof.
  intros n dom prob ws d params g p E Ep Hf Hw. pose proof (accepted _ _ _ _ _ _ E Ep) as Hok.
  apply (ok_formula d Hok) in Hf as (_ & _ & _ & _ & Hf). auto.
Qed.
Theorem C18_type_errors_true : forall n dom d s,
  verify he n dom None = Err (ESem s) -> parse n dom = Ok (ADomain d) ->
  match s with
  | InconsistentPredicateArity e =>
    exists params g p def, dom_formula d params g /\ within (FAtom p) g /\ In def (d_preds d)
      /\ pred_name def = pred_name p
      /\ e = mkArity (pred_name p) (length (pred_vars def)) (length (pred_vars p)) (pred_pos p)
      /\ length (pred_vars def) <> length (pred_vars p)
  | InconsistentPredicateArgType e =>
    exists params g p def i v f t, dom_formula d params g /\ within_open (FAtom p) g /\ In def (d_preds d)
      /\ pred_name def = pred_name p
      /\ nth_error (pred_vars p) i = Some v /\ nth_error (pred_vars def) i = Some f
      /\ denotes params (constants_of d) (sym_name v) t /\ ~ fits (d_types d) t (sym_type f)
      /\ e = mkTypeErr (sym_type f) t (sym_name v) (sym_pos v)
  | _ => True
  end.
Proof.
  intros n dom d e E Ep. apply verify_err_inv in E as [E|[(d' & E & Ec)|(d' & x & _ & _ & E & _)]]; auto; try congruence.
  assert (d' = d) as -> by congruence. apply check_domain_err in Ec as (x & Ex & Hv). injection Ex as <-.
  destruct Hv; auto.
  - exists params, g, p, def. auto 10.
  - exists params, g, p, def, i, v, f, t. auto 20.
Qed.

(** ** C19 *)
Theorem C19_heads_typed : forall n dom prob ws d m,
  verify he n dom prob = Ok ws -> parse n dom = Ok (ADomain d) -> In m (d_methods d) ->
  exists t, In t (d_tasks d) /\ task_name t = sym_name (m_task m)
    /\ args_ok (d_types d) (m_params m) (constants_of d) (m_task_terms m) (task_params t).
Proof.
  intros n dom prob ws d m E Ep Hm. pose proof (accepted _ _ _ _ _ _ E Ep) as Hok.
  destruct (ok_call d Hok _ _ _ _ (dc_head d m Hm)) as (_ & fo & Hc & Ha). inversion Hc; subst. eauto.
Qed.
Theorem C19_subtasks_typed : forall n dom prob ws d m s,
  verify he n dom prob = Ok ws -> parse n dom = Ok (ADomain d) ->
  In m (d_methods d) -> In s (htn_subtasks (m_tn m)) ->
  (exists a, In a (d_actions d) /\ act_name a = sym_name (sub_task s)
     /\ args_ok (d_types d) (m_params m) (constants_of d) (sub_terms s) (act_params a))
  \/ (exists t, In t (d_tasks d) /\ task_name t = sym_name (sub_task s)
     /\ args_ok (d_types d) (m_params m) (constants_of d) (sub_terms s) (task_params t)).
Proof.
  intros n dom prob ws d m s E Ep Hm Hs. pose proof (accepted _ _ _ _ _ _ E Ep) as Hok.
  destruct (ok_call d Hok _ _ _ _ (dc_sub d m s Hm Hs)) as (_ & fo & Hc & Ha). inversion Hc; subst; eauto 10.
Qed.
Theorem C19_call_errors_true : forall n dom d s,
  verify he n dom None = Err (ESem s) -> parse n dom = Ok (ADomain d) ->
  match s with
  | UndefinedTask e =>
    exists m, In m (d_methods d) /\ e = mkUndef (sym_name (m_task m)) (sym_pos (m_task m))
      /\ unnamed task_name (sym_name (m_task m)) (d_tasks d)
  | UndefinedSubtask e =>
    exists m x, In m (d_methods d) /\ In x (htn_subtasks (m_tn m))
      /\ e = mkUndef (sym_name (sub_task x)) (sym_pos (sub_task x))
      /\ unnamed task_name (sym_name (sub_task x)) (d_tasks d)
      /\ unnamed act_name (sym_name (sub_task x)) (d_actions d)
  | InconsistentTaskArity e =>
    exists h params tk terms formals, dom_call d h params tk terms /\ callable d h (sym_name tk) formals
      /\ length formals <> length terms /\ ar_symbol e = sym_name tk /\ ar_pos e = sym_pos tk
  | InconsistentTaskArgType e =>
    exists h params tk terms formals i v f t, dom_call d h params tk terms /\ callable d h (sym_name tk) formals
      /\ nth_error terms i = Some v /\ nth_error formals i = Some f
      /\ denotes params (constants_of d) (sym_name v) t /\ ~ fits (d_types d) t (sym_type f)
      /\ e = mkTypeErr (sym_type f) t (sym_name v) (sym_pos v)
  | _ => True
  end.
Proof.
  intros n dom d e E Ep. apply verify_err_inv in E as [E|[(d' & E & Ec)|(d' & x & _ & _ & E & _)]]; auto; try congruence.
  assert (d' = d) as -> by congruence. apply check_domain_err in Ec as (x & Ex & Hv). injection Ex as <-.
  destruct Hv; auto.
  - inversion H0; subst. exists m. split; auto. split; auto. intros t Ht Et. apply (H1 (task_params t)). rewrite <- Et. apply call_task; auto. discriminate.
  - inversion H0; subst. exists m, s. do 3 (split; auto).
    assert (unnamed act_name (sym_name (sub_task s)) (d_actions d)) as Hu.
    { intros a Ha Ea. apply (H1 (act_params a)). rewrite <- Ea. apply call_action; auto. }
    split; auto. intros t Ht Et. apply (H1 (task_params t)). rewrite <- Et in *. apply call_task; auto.
  - exists true, params, task, terms, formals. auto 10.
  - exists false, params, task, terms, formals. auto 10.
  - exists h, params, task, terms, formals, i, v, f, t. auto 10.
Qed.

(** ** C20 *)
Theorem C20_orderings_acyclic : forall n dom prob ws d m,
  verify he n dom prob = Ok ws -> parse n dom = Ok (ADomain d) -> In m (d_methods d) ->
  order_acyclic (htn_orderings (m_tn m)).
Proof.
  intros n dom prob ws d m E Ep Hm. pose proof (accepted _ _ _ _ _ _ E Ep) as (_ & _ & _ & _ & _ & _ & _ & _ & _ & O).
  rewrite Forall_forall in O. apply O; auto.
Qed.
Theorem C20_initial_network_acyclic : forall n dom s ws p t,
  verify he n dom (Some s) = Ok ws -> parse n s = Ok (AProblem p) -> p_init_tn p = Some t ->
  order_acyclic (htn_orderings (itn_tn t)).
Proof.
  intros n dom s ws p t E Ep Et. apply verify_ok_inv in E as (d & _ & _ & _ & p' & Ep' & Hp); auto.
  assert (p' = p) as -> by congruence. destruct Hp as (_ & _ & _ & Hp & _). rewrite Et in Hp. tauto.
Qed.
Theorem C20_cyclic_error_true : forall n dom prob d pos,
  verify he n dom prob = Err (ESem (CyclicOrdering pos)) -> parse n dom = Ok (ADomain d) ->
  (exists m l a, In m (d_methods d) /\ htn_orderings (m_tn m) = Partial l
     /\ clos_trans string (before l) a a /\ htn_ordering_pos (m_tn m) = Some pos)
  \/ (exists s p t l a, prob = Some s /\ parse n s = Ok (AProblem p) /\ p_init_tn p = Some t
     /\ htn_orderings (itn_tn t) = Partial l /\ clos_trans string (before l) a a
     /\ htn_ordering_pos (itn_tn t) = Some pos).
Proof.
  intros n dom prob d pos E Ep.
  apply verify_err_inv in E as [E|[(d' & E & Ec)|(d' & s & E & Hok & -> & [E'|(p & ws & E' & Ec)])]]; auto; try congruence.
  - assert (d' = d) as -> by congruence. apply check_domain_err in Ec as (x & Ex & Hv). injection Ex as <-.
    inversion Hv; subst. left. eauto 10.
  - exfalso. eapply parse_not_sem; eauto.
  - assert (d' = d) as -> by congruence. destruct (accepted_nodup d Hok) as (N1 & N2 & N3).
    apply check_problem_err in Ec as (x & Ex & Hv); auto. injection Ex as <-. inversion Hv; subst. right. exists s, p, t, l, a. auto 10.
Qed.

(** ** C21 *)
Theorem C21_domain_decided : forall n dom d,
  parse n dom = Ok (ADomain d) ->
  ((exists ws, settles (fun k => verify he k dom None) (Ok ws)) <-> domain_ok d).
Proof. exact domain_verdict. Qed.

Theorem C21_error_true : forall n dom d e,
  verify he n dom None = Err e -> parse n dom = Ok (ADomain d) ->
  exists s, e = ESem s /\ domain_violation d s /\ ~ domain_ok d.
Proof.
  intros n dom d e E Ep. apply verify_err_inv in E as [E|[(d' & E & Ec)|(d' & x & _ & _ & E & _)]]; auto; try congruence.
  assert (d' = d) as -> by congruence. apply check_domain_err in Ec as (x & -> & Hv).
  exists x. split; auto. split; auto. intros Hok. eapply ok_no_violation; eauto.
Qed.

Lemma wf_members fs g :
  (fix members fs := match fs with [] => True | g :: r => wf_formula g /\ g <> FEmpty /\ members r end) fs ->
  In g fs -> wf_formula g.
Proof. induction fs as [|x fs IH]; [intros _ []|]. intros (H1 & _ & H2) [<-|Hi]; auto. Qed.
Lemma wf_branches fs g :
  (fix branches fs := match fs with [] => True | FWeighted _ g :: r => wf_formula g /\ g <> FEmpty /\ branches r | _ :: _ => False end) fs ->
  In g fs -> exists w h, g = FWeighted w h /\ wf_formula h.
Proof.
  induction fs as [|x fs IH]; [intros _ []|]. destruct x; try tauto. intros (H1 & _ & H2) [<-|Hi]; eauto.
Qed.
Lemma wf_within g f : within g f -> wf_formula f \/ (exists w h, f = FWeighted w h /\ wf_formula h) ->
  wf_formula g \/ (exists w h, g = FWeighted w h /\ wf_formula h).
Proof.
  unfold within. intros Hw. apply clos_rt_rtn1 in Hw. induction Hw as [|f f' Hc _ IH]; auto.
  intros Hf. apply IH. clear IH. destruct Hc as [f|f fs Hi|f fs Hi|f fs Hi|f ps qs Hi|f ps qs Hi|v f|v f|w f];
    (destruct Hf as [Hf|(w' & h & E & Hf)]; [|try discriminate]); simpl in Hf.
  - auto.
  - destruct Hf as [Hf|[_ Hf]]; [left; eapply wf_members; eauto|right; eapply wf_branches; eauto].
  - left; eapply wf_members; eauto.
  - left; eapply wf_members; eauto.
  - tauto.
  - tauto.
  - tauto.
  - tauto.
  - tauto.
  - injection E as -> ->. auto.
Qed.

Theorem C21_crash_needs_exists : forall n dom d p,
  verify he n dom None = Panic p -> parse n dom = Ok (ADomain d) ->
  p = PanicFormula /\ exists params g v b, dom_formula d params g /\ within (FExists v b) g.
Proof.
  intros n dom d p E Ep.
  apply verify_panic_inv in E as [E|[(q & E & _)|[(d' & E & Ec)|(d' & x & _ & _ & E & _)]]]; auto; try congruence.
  assert (d' = d) as -> by congruence. apply parse_wf in E as [Hw _]. simpl in Hw.
  destruct (check_domain_panic d p Hw Ec) as (-> & params & g & Hf & h & Hwi & Hh). split; auto.
  exists params, g.
  assert (wf_formula g) as Hg.
  { destruct Hw as (_ & _ & _ & _ & _ & Hm & Ha). rewrite Forall_forall in Hm, Ha. destruct Hf as [a g Hi E'|a g Hi E'|m g Hi E'].
    - apply Ha in Hi as (_ & Hi & _). rewrite E' in Hi. auto.
    - apply Ha in Hi as (_ & _ & Hi). rewrite E' in Hi. auto.
    - apply Hm in Hi as (_ & _ & _ & _ & Hi & _). rewrite E' in Hi. auto. }
  destruct (wf_within _ _ Hwi (or_introl Hg)) as [Hx|(w & h' & -> & _)]; [|tauto].
  destruct h; try tauto; eauto. destruct Hx.
Qed.

Theorem C21_terminates : forall n dom, parse n dom <> OutOfFuel ->
  exists r, settles (fun k => verify he k dom None) r.
Proof. intros n dom Ep. apply (verify_settles he n 0); auto. discriminate. Qed.

(** ** C22 *)
Theorem C22_problem_decided : forall n dom d s p,
  parse n dom = Ok (ADomain d) -> domain_ok d -> parse n s = Ok (AProblem p) ->
  ((exists ws, settles (fun k => verify he k dom (Some s)) (Ok ws)) <-> problem_ok d p).
Proof.
  intros n dom d s p Ed Hok Ep. split.
  - intros (ws & _ & k & Hk). specialize (Hk k (le_n k)). apply verify_ok_inv in Hk as (d' & Ed' & _ & _ & p' & Ep' & Hp); auto.
    rewrite (same_domain _ _ _ _ _ Ed Ed'), (same_problem _ _ _ _ _ Ep Ep'). auto.
  - intros Hp. destruct (domain_verdict n dom d Ed) as [_ Hv]. destruct (Hv Hok) as (ws & _ & k & Hk).
    specialize (Hk (n + k) ltac:(lia)). pose proof Hk as Hv'. apply verify_ok_inv in Hv' as (d' & Ed' & Ev & _); auto.
    rewrite <- (same_domain _ _ _ _ _ Ed Ed') in Ev. exists ws. apply (settles_verify he (n + k)); [|discriminate].
    unfold verify, parse_as_domain, parse_as_problem.
    rewrite (parse_mono n (n + k) dom), (parse_mono n (n + k) s), Ed, Ep by (try lia; congruence). cbn [obind].
    rewrite Ev. cbn [obind]. rewrite verify_problem_check. destruct (accepted_nodup d Hok) as (N1 & N2 & N3).
    rewrite (proj2 (check_problem_ok d N1 N2 N3 ws p) Hp). reflexivity.
Qed.

Theorem C22_error_true : forall n dom d s p e,
  parse n dom = Ok (ADomain d) -> domain_ok d -> parse n s = Ok (AProblem p) ->
  verify he n dom (Some s) = Err e ->
  exists x, e = ESem x /\ problem_violation d p x /\ ~ problem_ok d p.
Proof.
  intros n dom d s p e Ed Hok Ep E.
  apply verify_err_inv in E as [E|[(d' & E & Ec)|(d' & s' & E & _ & Es & [E'|(p' & ws & E' & Ec)])]]; auto; try congruence.
  - assert (d' = d) as -> by congruence. apply check_domain_ok in Hok. congruence.
  - assert (d' = d) as -> by congruence. injection Es as <-. assert (p' = p) as -> by congruence.
    destruct (accepted_nodup d Hok) as (N1 & N2 & N3).
    apply check_problem_err in Ec as (x & -> & Hv); auto. exists x. split; auto. split; auto.
    intros Hp. eapply ok_no_problem_violation; eauto.
Qed.

Theorem C22_no_crash : forall n dom d s p q,
  parse n dom = Ok (ADomain d) -> domain_ok d -> parse n s = Ok (AProblem p) ->
  verify he n dom (Some s) <> Panic q.
Proof.
  intros n dom d s p q Ed Hok Ep E.
  apply verify_panic_inv in E as [E|[(q' & E & _)|[(d' & E & Ec)|(d' & x & E & _ & Ex & [E'|(d2 & E' & _)])]]]; auto; try congruence.
  assert (d' = d) as -> by congruence. apply check_domain_ok in Hok. congruence.
Qed.

(** ** C29 *)
Theorem C29_domain_error_first : forall n dom s e,
  verify he n dom None = Err e -> verify he n dom (Some s) = Err e.
Proof.
  intros n dom s e. unfold verify. destruct (parse_as_domain n dom) as [d| | |]; cbn [obind]; auto; try discriminate.
  destruct (verify_domain he n d); cbn [obind]; auto; discriminate.
Qed.
Theorem C29_success_extends : forall n dom s ws,
  verify he n dom (Some s) = Ok ws -> verify he n dom None = Ok ws.
Proof.
  intros n dom s ws E. apply verify_ok_inv in E as (d & Ed & Ev & _); auto.
  unfold verify, parse_as_domain. rewrite Ed. cbn [obind]. rewrite Ev. reflexivity.
Qed.
Theorem C29_problem_error_only_after_domain : forall n dom s e,
  verify he n dom (Some s) = Err e -> verify he n dom None <> Err e ->
  exists ws, verify he n dom None = Ok ws.
Proof.
  intros n dom s e. unfold verify. destruct (parse_as_domain n dom) as [d| | |]; cbn [obind]; try congruence.
  destruct (verify_domain he n d); cbn [obind]; try congruence. eauto.
Qed.

(** ** C30 *)
Theorem C30_display_fails_iff : forall e,
  show_parsing_error e = None <->
  exists t, (e = ESem (InconsistentPredicateArgType t) \/ e = ESem (InconsistentTaskArgType t))
            /\ ty_expected t = None /\ ty_found t = None.
Proof.
  intros e. split.
  - destruct e as [| |[]]; simpl; try discriminate; unfold show_type_err; destruct e as [ex fo v p]; simpl;
      destruct ex, fo; try discriminate; intros _; eexists; split; eauto.
  - intros (t & [->| ->] & E1 & E2); simpl; unfold show_type_err; rewrite E1, E2; auto.
Qed.
Theorem C30_domain_errors_display : forall n dom e,
  verify he n dom None = Err e -> exists text, show_parsing_error e = Some text.
Proof.
  intros n dom e E. destruct (show_parsing_error e) eqn:Es; eauto. exfalso.
  apply C30_display_fails_iff in Es as (t & He & E1 & E2).
  apply verify_err_inv in E as [E|[(d & E & Ec)|(d' & x & _ & _ & E & _)]]; auto; try discriminate.
  - destruct He as [->| ->]; eapply parse_not_sem; eauto.
  - apply check_domain_err in Ec as (x & -> & Hv).
    destruct He as [Ex|Ex]; injection Ex as ->; inversion Hv; subst; simpl in *; subst; match goal with H : ~ fits _ _ _ |- _ => apply H end;
      rewrite E1; simpl; auto.
Qed.
Theorem C30_undisplayable_error : forall n dom s e,
  verify he n dom (Some s) = Err e -> show_parsing_error e = None ->
  exists d p q def i v f o, parse n dom = Ok (ADomain d) /\ parse n s = Ok (AProblem p)
    /\ prob_atom p q /\ In def (d_preds d) /\ pred_name def = pred_name q
    /\ nth_error (pred_vars q) i = Some v /\ nth_error (pred_vars def) i = Some f
    /\ sym_type f = None /\ In o (p_objects p) /\ sym_name o = sym_name v /\ sym_type o <> None.
Proof.
  intros n dom s e E Es. pose proof Es as He. apply C30_display_fails_iff in He as (t & He & E1 & E2).
  pose proof E as E0.
  apply verify_err_inv in E as [E|[(d & E & Ec)|(d & x & E & Hok & Ex & [E'|(p & ws & E' & Ec)])]]; auto.
  - destruct He as [->| ->]; exfalso; eapply parse_not_sem; eauto.
  - exfalso. assert (verify he n dom None = Err e) as Ev.
    { unfold verify, parse_as_domain. rewrite E. cbn [obind]. rewrite (proj2 (verify_domain_err he Hhe d n e) Ec). auto. }
    apply C30_domain_errors_display in Ev as (text & Ev). congruence.
  - destruct He as [->| ->]; exfalso; eapply parse_not_sem; eauto.
  - injection Ex as <-. destruct (accepted_nodup d Hok) as (N1 & N2 & N3).
    apply check_problem_err in Ec as (y & -> & Hv); auto.
    remember y as y0 eqn:E0y in Hv.
    destruct Hv as [| | | | | |q def i v f ty sh Ha Hi En F1 F2 Hde Hfi Hs| | |tn tk terms fo i v f ty e' Hc Hn F1 F2 Hde Hfi Ee
      |tn tk terms fo i v f ty e' Hc Hn F1 F2 Hde Hfi _ _ Ee|];
      subst; try (destruct He as [He|He]; discriminate).
    + destruct He as [He|He]; [|discriminate]. injection He as <-. simpl in E1, E2. subst sh.
      exists d, p, q, def, i, v, f. destruct Hs as [[_ <-]|[Hix _]].
      * exfalso. apply Hfi. rewrite E1. simpl; auto.
      * destruct Hde as [o Ho Eno Et|c Hu _ _].
        -- exists o. do 10 (split; auto). intros Hn. apply Hfi. rewrite E1, <- Et, Hn. simpl; auto.
        -- exfalso. apply in_map_iff in Hix as (o & Eo & Ho). eapply Hu; eauto.
    + exfalso. destruct He as [He|He]; [discriminate|]. injection He as <-. simpl in E1, E2. apply Hfi. rewrite E1, E2. simpl; auto.
    + exfalso. destruct He as [He|He]; [|discriminate]. injection He as <-. simpl in E1, E2. apply Hfi. rewrite E1, E2. simpl; auto.
Qed.

(** ** C36 *)
Lemma check_domain_header w rs d : NoDup (d_reqs d) -> NoDup rs ->
  check_domain (with_header w rs d) = check_domain d.
Proof.
  intros H1 H2. unfold check_domain.
  rewrite (proj2 (dup_reqs_ok (d_reqs d) [])) by (split; auto).
  rewrite (proj2 (dup_reqs_ok (d_reqs (with_header w rs d)) [])) by (split; auto). reflexivity.
Qed.
Lemma verify_domain_header n w rs d : NoDup (d_reqs d) -> NoDup rs ->
  verify_domain he n (with_header w rs d) = verify_domain he n d.
Proof. intros H1 H2. unfold verify_domain. rewrite check_domain_header by auto. reflexivity. Qed.

Theorem C36_domain_header_ignored : forall n dom dom' d w rs prob,
  parse n dom = Ok (ADomain d) -> parse n dom' = Ok (ADomain (with_header w rs d)) ->
  NoDup (d_reqs d) -> NoDup rs ->
  verify he n dom' prob = verify he n dom prob.
Proof.
  intros n dom dom' d w rs prob E1 E2 H1 H2. unfold verify, parse_as_domain. rewrite E1, E2. cbn [obind].
  rewrite verify_domain_header; auto.
Qed.

(** Replacing the name in the header of a domain. *)
Theorem C36_domain_name_in_text : forall n dom dom' w w' hs hs' st d,
  GDomainHeader w hs -> GDomainHeader w' hs' ->
  Reads (lex_new dom) hs st -> Reads (lex_new dom') hs' st ->
  parse n dom = Ok (ADomain d) -> parse n dom' = Ok (ADomain (with_name w' d)).
Proof.
  intros n dom dom' w w' hs hs' st d Hh Hh' Hr Hr'.
  rewrite (header_domain _ _ _ _ _ Hr Hh), (header_domain _ _ _ _ _ Hr' Hh').
  destruct (parse_domain n n (new_domain w) st) as [d0 st'| | |] eqn:E; try discriminate.
  intros Ed. injection Ed as ->. apply (domain_name_free n w') in E.
  change (with_name w' (new_domain w)) with (new_domain w') in E. rewrite E. reflexivity.
Qed.

(** Replacing both names in the header of a problem. *)
Theorem C36_problem_names_ignored : forall n s s' hs hs' st,
  GProblemHeader hs -> GProblemHeader hs' ->
  Reads (lex_new s) hs st -> Reads (lex_new s') hs' st ->
  parse n s = parse n s'.
Proof.
  intros n s s' hs hs' st Hh Hh' Hr Hr'.
  rewrite (header_problem _ _ _ _ Hr Hh), (header_problem _ _ _ _ Hr' Hh'). reflexivity.
Qed.

Theorem C36_problem_requirements_ignored : forall n dom s s' p rs,
  parse n s = Ok (AProblem p) ->
  parse n s' = Ok (AProblem (mkProblem rs (p_init_tn p) (p_init p) (p_goal p) (p_objects p))) ->
  verify he n dom (Some s') = verify he n dom (Some s).
Proof.
  intros n dom s s' p rs E1 E2. unfold verify, parse_as_problem. rewrite E1, E2. cbn [obind]. reflexivity.
Qed.

(** ** C37 *)
Theorem C37_order_irrelevant : forall n dom dom' d d',
  parse n dom = Ok (ADomain d) -> parse n dom' = Ok (ADomain d') ->
  reordered d d' -> NoDup (map sym_name (constants_of d)) ->
  ((exists ws, settles (fun k => verify he k dom None) (Ok ws))
   <-> (exists ws, settles (fun k => verify he k dom' None) (Ok ws))).
Proof.
  intros n dom dom' d d' E1 E2 Hr Hc. rewrite (domain_verdict n dom d E1), (domain_verdict n dom' d' E2).
  split; [apply reordered_ok; auto|]. apply reordered_ok; [apply reordered_sym; auto|].
  eapply perm_NoDup_map; [apply (re_constants _ _ Hr)|auto].
Qed.
Theorem C37_problem_order_irrelevant : forall n dom dom' d d' s s' p p',
  parse n dom = Ok (ADomain d) -> parse n dom' = Ok (ADomain d') -> domain_ok d ->
  parse n s = Ok (AProblem p) -> parse n s' = Ok (AProblem p') ->
  reordered d d' -> NoDup (map sym_name (constants_of d)) ->
  Permutation (p_objects p) (p_objects p') -> Permutation (p_init p) (p_init p') ->
  p_init_tn p = p_init_tn p' -> p_goal p = p_goal p' ->
  ((exists ws, settles (fun k => verify he k dom (Some s)) (Ok ws))
   <-> (exists ws, settles (fun k => verify he k dom' (Some s')) (Ok ws))).
Proof.
  intros n dom dom' d d' s s' p p' E1 E2 Hok E3 E4 Hr Hc P1 P2 P3 P4.
  assert (domain_ok d') as Hok' by (eapply reordered_ok; eauto).
  rewrite (C22_problem_decided n dom d s p E1 Hok E3), (C22_problem_decided n dom' d' s' p' E2 Hok' E4).
  split; [eapply reordered_problem_ok; eauto|]. eapply reordered_problem_ok; auto using Permutation_sym.
  - apply reordered_sym; auto.
  - eapply perm_NoDup_map; [apply (re_constants _ _ Hr)|auto].
Qed.
End S.

(** ** C28 *)
Section Det.
Context `{Unicode}.
Variables he he' : hash_env.
Hypothesis Hhe : hash_env_ok he.
Hypothesis Hhe' : hash_env_ok he'.

Lemma same_class n dom prob : verify he n dom prob <> OutOfFuel -> verify he' n dom prob <> OutOfFuel ->
  match verify he n dom prob, verify he' n dom prob with
  | Ok _, Ok _ => True
  | Err e, Err e' => e = e'
  | Panic p, Panic p' => p = p'
  | _, _ => False
  end.
Proof.
  unfold verify. destruct (parse_as_domain n dom) as [d| | |]; cbn [obind]; auto; try congruence.
  destruct (check_domain d) as [[]|e|p|] eqn:Ec.
  - destruct (verify_domain he n d) as [tb|e|p|] eqn:E1; cbn [obind]; try congruence.
    2: apply (verify_domain_err he Hhe) in E1; congruence.
    2: apply (verify_domain_panic he Hhe) in E1; congruence.
    destruct (verify_domain he' n d) as [tb'|e|p|] eqn:E2; cbn [obind]; try congruence.
    2: apply (verify_domain_err he' Hhe') in E2; congruence.
    2: apply (verify_domain_panic he' Hhe') in E2; congruence.
    apply verify_domain_sound in E1 as (_ & ws & ->). apply verify_domain_sound in E2 as (_ & ws' & ->).
    destruct prob as [s|]; auto. destruct (parse_as_problem n s) as [p| | |]; cbn [obind]; auto; try congruence.
    rewrite !verify_problem_check. change (check_problem d ws' p) with (check_problem d ws p).
    destruct (check_problem d ws p); cbn [obind]; auto; congruence.
  - rewrite (proj2 (verify_domain_err he Hhe d n _) Ec), (proj2 (verify_domain_err he' Hhe' d n _) Ec). simpl; auto.
  - rewrite (proj2 (verify_domain_panic he Hhe d n _) Ec), (proj2 (verify_domain_panic he' Hhe' d n _) Ec). simpl; auto.
  - exfalso. eapply check_domain_fuel; eauto.
Qed.

Lemma other_settles n dom prob r : verify he n dom prob = r -> r <> OutOfFuel ->
  exists r', settles (fun k => verify he' k dom prob) r'.
Proof.
  intros E Hr. subst r.
  assert (exists k, verify he' k dom prob <> OutOfFuel) as (k & Hk).
  { destruct (parse n dom) as [[d|p]|e|p|] eqn:Ed;
      try (exists n; unfold verify, parse_as_domain in *; rewrite Ed in *; cbn [obind] in *; congruence).
    destruct (verify_domain_settles he' d Hhe') as (r0 & Hr0 & n0 & Hn0).
    exists (n + n0). unfold verify, parse_as_domain in *. rewrite Ed in Hr.
    rewrite (parse_mono n (n + n0) dom), Ed by (try lia; congruence). cbn [obind] in *.
    specialize (Hn0 (n + n0) ltac:(lia)). rewrite Hn0. destruct r0 as [tb'|e|p|]; cbn [obind]; try congruence.
    destruct prob as [s|]; [|discriminate].
    destruct (verify_domain_sound _ _ _ _ Hn0) as (Ec & ws' & ->).
    destruct (verify_domain he n d) as [tb|e|p|] eqn:Ev; cbn [obind] in *; try congruence.
    - unfold parse_as_problem in *. destruct (parse n s) as [[d'|p]|e|p|] eqn:Ep;
        try (rewrite (parse_mono n (n + n0) s), Ep by (try lia; congruence); cbn [obind] in *; congruence).
      2: cbn [obind] in Hr; congruence.
      rewrite (parse_mono n (n + n0) s), Ep by (try lia; congruence). cbn [obind]. rewrite verify_problem_check.
      destruct (check_problem_calm d ws' p) as [_ C]; [apply parse_wf in Ep as [Hw _]; auto|].
      destruct (check_problem d ws' p); cbn [obind]; congruence.
    - apply (verify_domain_err he Hhe) in Ev. congruence.
    - apply (verify_domain_panic he Hhe) in Ev. congruence. }
  exists (verify he' k dom prob). eapply settles_verify; eauto.
Qed.

(** Whatever the iteration orders of hash tables in another run, it has the
    same outcome; only the warnings of a successful run may differ. *)
Theorem C28_error_deterministic : forall n dom prob e,
  verify he n dom prob = Err e -> settles (fun k => verify he' k dom prob) (Err e).
Proof.
  intros n dom prob e E. destruct (other_settles n dom prob _ E) as (r & Hr & n0 & Hn0); [discriminate|].
  specialize (Hn0 (n + n0) ltac:(lia)).
  assert (verify he (n + n0) dom prob = Err e) as E' by (rewrite <- E; apply verify_mono; [lia|congruence]).
  pose proof (same_class (n + n0) dom prob) as Hc. rewrite E', Hn0 in Hc.
  specialize (Hc ltac:(discriminate) Hr). destruct r; try tauto. subst. apply (settles_verify he' (n + n0)); auto.
Qed.
Theorem C28_success_deterministic : forall n dom prob ws,
  verify he n dom prob = Ok ws -> exists ws', settles (fun k => verify he' k dom prob) (Ok ws').
Proof.
  intros n dom prob e E. destruct (other_settles n dom prob _ E) as (r & Hr & n0 & Hn0); [discriminate|].
  specialize (Hn0 (n + n0) ltac:(lia)).
  assert (verify he (n + n0) dom prob = Ok e) as E' by (rewrite <- E; apply verify_mono; [lia|congruence]).
  pose proof (same_class (n + n0) dom prob) as Hc. rewrite E', Hn0 in Hc.
  specialize (Hc ltac:(discriminate) Hr). destruct r; try tauto. eexists. apply (settles_verify he' (n + n0)); eauto.
Qed.
Theorem C28_crash_deterministic : forall n dom prob p,
  verify he n dom prob = Panic p -> settles (fun k => verify he' k dom prob) (Panic p).
Proof.
  intros n dom prob e E. destruct (other_settles n dom prob _ E) as (r & Hr & n0 & Hn0); [discriminate|].
  specialize (Hn0 (n + n0) ltac:(lia)).
  assert (verify he (n + n0) dom prob = Panic e) as E' by (rewrite <- E; apply verify_mono; [lia|congruence]).
  pose proof (same_class (n + n0) dom prob) as Hc. rewrite E', Hn0 in Hc.
  specialize (Hc ltac:(discriminate) Hr). destruct r; try tauto. subst. apply (settles_verify he' (n + n0)); auto.
Qed.

Lemma perm_filter {A} (f : A -> bool) l l' : Permutation l l' -> Permutation (filter f l) (filter f l').
Proof.
  induction 1; simpl; auto.
  - destruct (f x); auto.
  - destruct (f x), (f y); auto using perm_swap, Permutation_refl.
  - eapply Permutation_trans; eauto.
Qed.

(** If the nullable tasks agree, so do the warnings, up to their order. *)
Lemma reached_nil c : forall l k r, reached_names c k l r = [] <->
  (forall i n, nth_error l i = Some (n, c) -> ~ In (k + i) r).
Proof.
  intros l k r. split.
  - intros E i n Hn Hi. assert (In n (reached_names c k l r)) as Hx by (apply reached_In; eauto). rewrite E in Hx. destruct Hx.
  - intros Hf. destruct (reached_names c k l r) as [|n rest] eqn:E; auto. exfalso.
    assert (In n (reached_names c k l r)) as Hx by (rewrite E; left; auto). apply reached_In in Hx as (i & Hi & Hr). eapply Hf; eauto.
Qed.
Theorem C28_warnings_by_nullables : forall n n' dom prob ws ws' d g nulls nulls',
  verify he n dom prob = Ok ws -> verify he' n' dom prob = Ok ws' ->
  parse n dom = Ok (ADomain d) -> tdg_new d = Ok g ->
  settles (fun k => compute_nullables he k g) (Ok nulls) ->
  settles (fun k => compute_nullables he' k g) (Ok nulls') ->
  (forall x, In x nulls <-> In x nulls') ->
  Permutation ws ws'.
Proof.
  intros n n' dom prob ws ws' d g nulls nulls' E E' Ed Eg (_ & k & Hk) (_ & k' & Hk') Hn.
  pose (N := n + n' + k + k' + tdg_bound g).
  assert (verify he N dom prob = Ok ws) as V by (rewrite <- E; apply verify_mono; [unfold N; lia|congruence]).
  assert (verify he' N dom prob = Ok ws') as V' by (rewrite <- E'; apply verify_mono; [unfold N; lia|congruence]).
  apply verify_ok_inv in V as (d1 & P1 & D1 & _); auto. apply verify_ok_inv in V' as (d2 & P2 & D2 & _); auto.
  rewrite <- (same_domain _ _ _ _ _ Ed P1) in D1. rewrite <- (same_domain _ _ _ _ _ Ed P2) in D2.
  apply verify_domain_list in D1 as (g1 & G1 & W1). apply verify_domain_list in D2 as (g2 & G2 & W2).
  assert (g1 = g) as -> by congruence. assert (g2 = g) as -> by congruence. simpl in W1, W2. subst ws ws'.
  apply Permutation_map.
  assert (forall l, incl l (d_tasks d) -> filter (warns g he N) l = filter (warns g he' N) l) as Hf.
  { intros l Hl. apply filter_ext_in. intros t Ht. apply Hl in Ht.
    assert (compound d (task_name t)) as Hc by (apply in_map; auto).
    destruct (reachable_compound d g Eg he Hhe N (task_name t) Hc) as (i & r & nu & Ei & Hr & En & Er); [unfold N; lia|].
    destruct (reachable_compound d g Eg he' Hhe' N (task_name t) Hc) as (i' & r' & nu' & Ei' & Hr' & En' & Er'); [unfold N; lia|].
    rewrite Hk in En by (unfold N; lia). rewrite Hk' in En' by (unfold N; lia). injection En as <-. injection En' as <-.
    assert (i' = i) as -> by congruence. unfold warns. rewrite Er, Er'. cbn [rs_primitives rs_nullable].
    assert (mem_str (task_name t) nulls = mem_str (task_name t) nulls') as ->.
    { apply eq_true_iff_eq. rewrite !mem_str_In. apply Hn. }
    assert (reached_names false 0 (tg_tasks g) r = [] <-> reached_names false 0 (tg_tasks g) r' = []) as Hx.
    { rewrite !reached_nil. split; intros Hz j m Hj Hi; eapply Hz; eauto; [apply Hr, Hr'|apply Hr', Hr]; auto. }
    destruct (reached_names false 0 (tg_tasks g) r), (reached_names false 0 (tg_tasks g) r'); auto;
      destruct Hx as [Hx1 Hx2]; [specialize (Hx1 eq_refl)|specialize (Hx2 eq_refl)]; discriminate. }
  rewrite Hf by (intros t Ht; apply (decl_In he Hhe d); auto).
  apply perm_filter. eapply Permutation_trans; [apply ho_decl_ok; auto|].
  apply Permutation_sym, ho_decl_ok; auto.
Qed.
End Det.


(** All theorems of this file at once (each separate query takes seconds). *)
Definition sem_theorems := (
  @C13_verification_error_lines,
  @C13_warning_lines,
  @C15_no_duplicates,
  @C15_duplicate_errors_true,
  @C16_cyclic_types_iff,
  @C17_predicates_declared,
  @C17_undefined_predicate_true,
  @C18_atoms_typed,
  @C18_type_errors_true,
  @C19_heads_typed,
  @C19_subtasks_typed,
  @C19_call_errors_true,
  @C20_orderings_acyclic,
  @C20_initial_network_acyclic,
  @C20_cyclic_error_true,
  @C21_domain_decided,
  @C21_error_true,
  @C21_crash_needs_exists,
  @C21_terminates,
  @C22_problem_decided,
  @C22_error_true,
  @C22_no_crash,
  @C28_error_deterministic,
  @C28_success_deterministic,
  @C28_crash_deterministic,
  @C28_warnings_by_nullables,
  @C29_domain_error_first,
  @C29_success_extends,
  @C29_problem_error_only_after_domain,
  @C30_display_fails_iff,
  @C30_domain_errors_display,
  @C30_undisplayable_error,
  @C36_domain_header_ignored,
  @C36_domain_name_in_text,
  @C36_problem_names_ignored,
  @C36_problem_requirements_ignored,
  @C37_order_irrelevant,
  @C37_problem_order_irrelevant).

(** ** Concrete cases *)
Open Scope string_scope.
(** One domain around some declarations; one problem around some blocks. *)
Definition dom_with (body : string) : string :=
  "(define (domain d) (:types a b - c) (:predicates (p ?x - a) (q))" ++ nl ++
  " (:task t :parameters (?x - a)) (:action c :parameters (?y - a) :effect (q))" ++ nl ++ body ++ ")" ++ nl.
Definition prob_with (body : string) : string :=
  "(define (problem e) (domain d)" ++ nl ++ body ++ ")" ++ nl.
Definition run (dom : string) (prob : option string) : outcome (list warning) := @verify uni0 env_id 300 dom prob.
Definition run_error (dom : string) (prob : option string) : option parsing_error :=
  match run dom prob with Err e => Some e | _ => None end.

(** The hypotheses "is accepted" of C15, C17-C20, C22, C29. *)
Example accepted_example :
  run dom1 None = Ok [] /\ run dom1 (Some prob1) = Ok []
  /\ match @parse uni0 300 dom1 with
     | Ok (ADomain d) => match d_methods d, d_actions d with
                         | [m], [a] => exists g, m_pre m = Some g /\ length (prop_preds g) = 2%nat
                                       /\ length (htn_subtasks (m_tn m)) = 2%nat
                         | _, _ => False end
     | _ => False end.
Proof. split; [vm_compute; auto|]. split; [vm_compute; auto|]. vm_compute. eexists. repeat split. Qed.

Definition meth (params task body : string) : string :=
  "(:method m :parameters (" ++ params ++ ") :task " ++ task ++ " " ++ body ++ ")".
Definition dom2 : string :=
  dom_with (meth "?x - a" "(t ?x)" ":ordered-subtasks (and (c ?x))" ++ "(:predicates (u ?y)) (:constants k - a)").
Notation errors_of bodies := (map (fun b => run_error (dom_with b) None) bodies).
Notation problem_errors_of bodies := (map (fun b => run_error dom2 (Some (prob_with b))) bodies).

Example C13_error_example :
  errors_of [meth "" (nl ++ "(t x)") ":ordered-subtasks ()"]
    = [Some (ESem (UndefinedParameter (mkUndef "x" 4)))]
  /\ problem_errors_of ["(:objects x y - a" ++ nl ++ "x - a)"] = [Some (ESem (DuplicateObject (mkDup "x" 2 3)))].
Proof. vm_compute. auto. Qed.
Example C13_warning_example :
  run (dom_with "(:task u :parameters ())") None
  = Ok [NoPrimitiveRefinement "t" 2; NoPrimitiveRefinement "u" 3].
Proof. vm_compute. auto. Qed.

Example C15_example :
  errors_of
    ["(:requirements :typing :typing)"; "(:predicates (q ?z))"; "(:task t :parameters ())";
     "(:action c :parameters ())";
     meth "?x - a" "(t ?x)" ":ordered-subtasks ()" ++ nl ++ meth "?x - a" "(t ?x)" ":ordered-subtasks ()";
     "(:action e :parameters (?x" ++ nl ++ "?x))"]
  = [Some (ESem (DuplicateRequirement TypedObjects));
     Some (ESem (DuplicatePredicate (mkDup "q" 1 3)));
     Some (ESem (DuplicateCompoundTask (mkDup "t" 2 3)));
     Some (ESem (DuplicateAction (mkDup "c" 2 3)));
     Some (ESem (DuplicateMethod (mkDup "m" 3 4)));
     Some (ESem (DuplicateParameter (mkDup "x" 3 4)))].
Proof. vm_compute. auto. Qed.

(** Repeated types, constants and compound-task parameters are accepted, and so
    is an action with the name of a compound task. *)
Theorem C15_not_covered_refuted : exists dom d ws,
  @verify uni0 env_id 300 dom None = Ok ws /\ @parse uni0 300 dom = Ok (ADomain d)
  /\ ~ NoDup (map sym_name (type_decls (d_types d))) /\ ~ NoDup (map sym_name (constants_of d))
  /\ (exists t, In t (d_tasks d) /\ ~ NoDup (map sym_name (task_params t)))
  /\ ~ NoDup (map task_name (d_tasks d) ++ map act_name (d_actions d))%list.
Proof.
  exists (dom_with "(:constants k - a k - b k) (:types a a - c) (:task u :parameters (?z ?z)) (:action t :parameters ())").
  eexists. eexists. split; [vm_compute; reflexivity|]. split; [vm_compute; reflexivity|].
  assert (forall (x : string) l1 l2 l3, ~ NoDup (l1 ++ x :: l2 ++ x :: l3)%list) as Hd.
  { intros x l1 l2 l3 Hn. apply NoDup_remove_2 in Hn. apply Hn. rewrite !in_app_iff. right; right; left; auto. }
  split; [exact (Hd "a" [] ["b"] ["a"])|]. split; [exact (Hd "k" [] [] ["k"])|].
  split; [eexists; split; [right; left; reflexivity|exact (Hd "z" [] [] [])]|].
  exact (Hd "t" [] ["u"; "c"] []).
Qed.

Example C16_example :
  errors_of ["(:types x - y y - z z - x)"; "(:types c - a)"; "(:types y - a z - y)"]
  = [Some (ESem CyclicType); Some (ESem CyclicType); None].
Proof. vm_compute. auto. Qed.

Example C17_example :
  errors_of ["(:action e :parameters (?x - a) :precondition (forall (?y - a) (and (r) (p ?y))))"]
  = [Some (ESem (UndefinedPredicate (mkUndef "r" 3)))].
Proof. vm_compute. auto. Qed.

Example C18_example :
  errors_of
    ["(:action e :parameters (?x - c) :precondition (p ?x))";
     "(:action e :parameters (?x - a) :precondition (p ?x ?x))";
     "(:types e - a) (:action e :parameters (?x - e) :precondition (p ?x))"]
  = [Some (ESem (InconsistentPredicateArgType (mkTypeErr (Some "a") (Some "c") "x" 3)));
     Some (ESem (InconsistentPredicateArity (mkArity "p" 1 2 3))); None].
Proof. vm_compute. auto. Qed.
(** Types of constants and of parameters that occur in no formula are not checked. *)
Theorem C18_unchecked_types_refuted : exists dom d ws,
  @verify uni0 env_id 300 dom None = Ok ws /\ @parse uni0 300 dom = Ok (ADomain d)
  /\ (exists c t, In c (constants_of d) /\ sym_type c = Some t /\ ~ declared_type (d_types d) t)
  /\ (exists a s t, In a (d_actions d) /\ In s (act_params a) /\ sym_type s = Some t /\ ~ declared_type (d_types d) t).
Proof.
  exists (dom_with "(:constants k - none) (:action e :parameters (?x - none))").
  eexists. eexists. split; [vm_compute; reflexivity|]. split; [vm_compute; reflexivity|].
  assert (forall l t, existsb (fun s => String.eqb (sym_name s) t || match sym_type s with Some u => String.eqb u t | None => false end) l = false ->
    ~ declared_type (Some l) t) as Hd.
  { intros l t E (s & Hs & Hx). rewrite <- not_true_iff_false in E. apply E. apply existsb_exists. exists s. split; auto.
    apply orb_true_iff. destruct Hx as [<-|Ex]; [left; apply String.eqb_refl|right; rewrite Ex; apply String.eqb_refl]. }
  split.
  - eexists. exists "none". split; [left; reflexivity|]. split; [reflexivity|]. apply Hd. reflexivity.
  - eexists. eexists. exists "none". split; [right; left; reflexivity|]. split; [left; reflexivity|].
    split; [reflexivity|]. apply Hd. reflexivity.
Qed.

Example C19_example :
  errors_of
    [meth "?x - a" "(c ?x)" ":ordered-subtasks ()";
     meth "?x - a" "(t ?x)" ":ordered-subtasks (and (w))";
     meth "?x - a" "(t ?x ?x)" ":ordered-subtasks ()";
     meth "?x - b" "(t ?x)" ":ordered-subtasks ()"]
  = [Some (ESem (UndefinedTask (mkUndef "c" 3)));
     Some (ESem (UndefinedSubtask (mkUndef "w" 3)));
     Some (ESem (InconsistentTaskArity (mkArity "t" 2 1 3)));
     Some (ESem (InconsistentTaskArgType (mkTypeErr (Some "a") (Some "b") "x" 3)))].
Proof. vm_compute. auto. Qed.

Example C20_example :
  errors_of
    [meth "?x - a" "(t ?x)" ":subtasks (and (i (c ?x)) (j (c ?x))) :ordering (and (< i j) (< j i))";
     meth "?x - a" "(t ?x)" ":subtasks (and (i (c ?x)) (j (c ?x))) :ordering (and (< i j))"]
    = [Some (ESem (CyclicOrdering 3)); None]
  /\ problem_errors_of
    ["(:objects o - a) (:htn :subtasks (and (i (t o)) (j (t o))) :ordering (and (< i j) (< j i))) (:init (p o))"]
    = [Some (ESem (CyclicOrdering 2))].
Proof. vm_compute. auto. Qed.

(** Existential quantifiers parse but crash verification. *)
Theorem C21_exists_crashes_refuted : exists dom d,
  @parse uni0 300 dom = Ok (ADomain d) /\ @verify uni0 env_id 300 dom None = Panic PanicFormula.
Proof.
  exists (dom_with "(:action e :parameters () :precondition (exists (?y - a) (p ?y)))").
  eexists. split; vm_compute; reflexivity.
Qed.
Example C21_example :
  exists d, @parse uni0 300 dom1 = Ok (ADomain d) /\ domain_ok d
    /\ (length (d_methods d), length (d_actions d), length (d_preds d)) = (1, 1, 2)%nat.
Proof.
  destruct (is_ok_ex (@parse uni0 300 dom1)) as ([d|p] & E); [vm_compute; reflexivity| |vm_compute in E; discriminate].
  exists d. split; auto. split; [|vm_compute in E; injection E as <-; reflexivity].
  apply (@accepted uni0 env_id 300 300 dom1 None [] d); [vm_compute; reflexivity|exact E].
Qed.

Example C22_example :
  problem_errors_of
    ["(:objects o - a) (:htn :subtasks (and (t o) (c k))) (:init (p o) (p k) (q))";
     "(:objects o - a) (:init (p z))"; "(:objects o - a) (:init (p o)) (:goal (and (w)))";
     "(:objects o - a) (:htn :subtasks (and (t o o))) (:init (p o))"; "(:objects o - zzz) (:init )"]
  = [None; Some (ESem (UndefinedObject (mkUndef "z" 2))); Some (ESem (UndefinedPredicate (mkUndef "w" 2)));
     Some (ESem (InconsistentTaskArity (mkArity "t" 1 2 2))); Some (ESem (UndefinedType (mkUndef "zzz" 2)))]
  /\ run dom2 (Some (prob_with "(:objects o - a) (:htn :subtasks (and (t o) (c k))) (:init (p o) (p k) (q))")) = Ok [].
Proof. vm_compute. auto. Qed.
(** Goals under quantifiers are not looked at. *)
Theorem C22_quantified_goal_refuted : exists s p v q,
  @verify uni0 env_id 300 dom2 (Some s) = Ok [] /\ @parse uni0 300 s = Ok (AProblem p)
  /\ p_goal p = Some (FExists v (FAtom q)) /\ pred_name q = "nosuch".
Proof.
  exists (prob_with "(:objects o - a) (:init ) (:goal (exists (?x - a) (nosuch ?x)))").
  do 3 eexists. split; [vm_compute; reflexivity|]. split; [vm_compute; reflexivity|]. split; reflexivity.
Qed.

(** C28: the iteration orders of another run. *)
Definition env_rev : hash_env :=
  mkEnv (fun _ l => rev l) (fun _ l => rev l) (fun l => rev l) (fun l => rev l) (fun l => rev l) (fun l => rev l).
Lemma env_rev_ok : hash_env_ok env_rev.
Proof. constructor; intros; apply Permutation_sym, Permutation_rev. Qed.
Example C28_example :
  @verify uni0 env_rev 300 (dom_with "(:task u :parameters ())") None
  = Ok [NoPrimitiveRefinement "u" 3; NoPrimitiveRefinement "t" 2].
Proof. vm_compute. auto. Qed.

Example C29_example :
  run_error (dom_with "(:types c - a)") None = Some (ESem CyclicType)
  /\ run_error (dom_with "(:types c - a)") (Some "(not a problem") = Some (ESem CyclicType)
  /\ run dom1 (Some prob1) = run dom1 None.
Proof. vm_compute. auto. Qed.

Theorem C30_problem_error_undisplayable_refuted : exists dom s e,
  @verify uni0 env_id 300 dom (Some s) = Err e /\ show_parsing_error e = None.
Proof.
  exists dom2, (prob_with "(:objects o - a) (:init (u o))"). eexists.
  split; [vm_compute; reflexivity|]. vm_compute. reflexivity.
Qed.
Example C30_example :
  option_map show_parsing_error (run_error (dom_with "(:predicates (q ?z))") None)
  = Some (Some "predicate 'q' is first defined in line 1, and then redefined in line 3.").
Proof. vm_compute. auto. Qed.

(** C36: headers that differ in the names only. *)
Ltac read_header := repeat (eapply rd_cons; [vm_compute; reflexivity|]); apply rd_nil.
Example C36_example :
  let body := " (:objects o - a))" ++ nl in
  let s1 := "(define (problem p1) (domain d1)" ++ body in
  let s2 := "(define (problem other) (domain another)" ++ body in
  exists hs1 hs2 st, GProblemHeader hs1 /\ GProblemHeader hs2
    /\ @Reads uni0 (lex_new s1) hs1 st /\ @Reads uni0 (lex_new s2) hs2 st
    /\ is_ok (@parse uni0 300 s1) = true.
Proof.
  intros body s1 s2. do 3 eexists. split; [|split; [|split; [|split]]].
  3: { do 10 (eapply rd_cons; [vm_compute; reflexivity|]). apply rd_nil. }
  3: { do 10 (eapply rd_cons; [vm_compute; reflexivity|]). apply rd_nil. }
  1, 2: constructor.
  vm_compute. reflexivity.
Qed.
Example C36_domain_example :
  let body := " (:requirements :typing) (:types a))" ++ nl in
  let s1 := "(define (domain d1)" ++ body in
  let s2 := "(define (domain other)" ++ body in
  exists hs1 hs2 st, GDomainHeader "d1" hs1 /\ GDomainHeader "other" hs2
    /\ @Reads uni0 (lex_new s1) hs1 st /\ @Reads uni0 (lex_new s2) hs2 st
    /\ run s1 None = Ok [] /\ run s2 None = Ok [].
Proof.
  intros body s1 s2. do 3 eexists. split; [|split; [|split; [|split]]].
  3: { do 6 (eapply rd_cons; [vm_compute; reflexivity|]). apply rd_nil. }
  3: { do 6 (eapply rd_cons; [vm_compute; reflexivity|]). apply rd_nil. }
  1, 2: constructor.
  vm_compute. auto.
Qed.

Example C37_example :
  exists dom dom' d d', @parse uni0 300 dom = Ok (ADomain d) /\ @parse uni0 300 dom' = Ok (ADomain d')
    /\ reordered d d' /\ d <> d' /\ NoDup (map sym_name (constants_of d)) /\ run dom None = Ok [].
Proof.
  exists "(define (domain d) (:constants k l) (:predicates (p) (q)) (:action a :parameters ()) (:action b :parameters ()))",
         "(define (domain d) (:action b :parameters ()) (:action a :parameters ()) (:constants l k) (:predicates (q) (p)))".
  do 2 eexists. split; [vm_compute; reflexivity|]. split; [vm_compute; reflexivity|]. split; [|split; [discriminate|split]].
  - constructor; simpl; try apply Permutation_refl; try apply perm_swap. tauto.
  - simpl. repeat constructor; simpl; intuition discriminate.
  - vm_compute. reflexivity.
Qed.
(** With a repeated constant the order matters: the first one counts. *)
Theorem C37_repeated_constant_refuted : exists dom dom' d d',
  @parse uni0 300 dom = Ok (ADomain d) /\ @parse uni0 300 dom' = Ok (ADomain d') /\ reordered d d'
  /\ is_ok (run dom None) = true /\ is_ok (run dom' None) = false.
Proof.
  exists (dom_with "(:constants k - a k - b) (:action e :parameters () :precondition (p k))"),
         (dom_with "(:constants k - b k - a) (:action e :parameters () :precondition (p k))").
  do 2 eexists. split; [vm_compute; reflexivity|]. split; [vm_compute; reflexivity|]. split; [|split; vm_compute; reflexivity].
  constructor; simpl; try apply Permutation_refl; try apply perm_swap. tauto.
Qed.
