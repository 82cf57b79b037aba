(** C56: the reported error is that of the first faulty part. *)
From Coq Require Import String NArith Bool List Lia PeanoNat Relations.
From Verif Require Import Base Token Lexer Errors Ast Graph Semantic Tdg Parser Api SpecSem SpecFirst
  SemProofs SemFormula SemDomain SemProblem SemFacts VerifyTop ParserProofs PropsLex PropsParse PropsSem.
Import ListNotations.
Open Scope list_scope.
Open Scope nat_scope.
Open Scope outcome_scope.

(** ** Sequences of checks *)
Lemma seq_assoc {B} (a b : outcome unit) (c : outcome B) : ((a ;;; b) ;;; c) = (a ;;; b ;;; c).
Proof. destruct a as [[]| | |]; reflexivity. Qed.
Lemma seq_unit (a : outcome unit) : (a ;;; Ok tt) = a.
Proof. destruct a as [[]| | |]; reflexivity. Qed.
Lemma for_each_app {A} (f : A -> outcome unit) l r : for_each f (l ++ r) = (for_each f l ;;; for_each f r).
Proof. induction l as [|x l IH]; simpl; auto. rewrite IH. destruct (f x) as [[]| | |]; reflexivity. Qed.
Lemma each_fresh_app {A} mk (name : A -> string) pos body l r : forall before,
  each_fresh mk name pos body before (l ++ r)
  = (each_fresh mk name pos body before l ;;; each_fresh mk name pos body (before ++ l) r).
Proof.
  induction l as [|x l IH]; intros before; simpl.
  { rewrite app_nil_r. reflexivity. }
  rewrite IH, <- app_assoc. simpl. destruct (check_fresh _ _ _ _) as [[]| | |]; simpl; auto.
  destruct (body before x) as [[]| | |]; reflexivity.
Qed.

(** [b] is [a] and then further checks. *)
Definition starts (a b : outcome unit) : Prop := exists r : outcome unit, b = (a ;;; r).
Lemma starts_refl a : starts a a.
Proof. exists (Ok tt). symmetry. apply seq_unit. Qed.
Lemma starts_trans a b c : starts a b -> starts b c -> starts a c.
Proof. intros [r ->] [s ->]. exists (r ;;; s). apply seq_assoc. Qed.
Lemma starts_here (a r : outcome unit) : starts a (a ;;; r).
Proof. exists r. reflexivity. Qed.
Lemma starts_after (a b c : outcome unit) : starts b c -> starts (a ;;; b) (a ;;; c).
Proof. intros [r ->]. exists r. symmetry. apply seq_assoc. Qed.
Lemma starts_fails a b : starts a b -> a <> Ok tt -> b = a.
Proof. intros [r ->] Hn. destruct a as [[]| | |]; try reflexivity. congruence. Qed.
Lemma starts_each_fresh {A} mk (name : A -> string) pos body l r :
  starts (each_fresh mk name pos body [] l) (each_fresh mk name pos body [] (l ++ r)).
Proof. rewrite each_fresh_app. apply starts_here. Qed.

(** The first element that spoils a property of lists. *)
Lemma first_spoiler {A} (Q : list A -> Prop) (dec : forall l, Q l \/ ~ Q l) : forall l k,
  Q k -> ~ Q (k ++ l) -> exists l1 x l2, l = l1 ++ x :: l2 /\ Q (k ++ l1) /\ ~ Q (k ++ l1 ++ [x]).
Proof.
  induction l as [|x l IH]; intros k Hk Hn; [rewrite app_nil_r in Hn; tauto|].
  destruct (dec (k ++ [x])) as [Hx|Hx].
  - destruct (IH (k ++ [x])) as (l1 & y & l2 & -> & H1 & H2); [auto|rewrite <- app_assoc; auto|].
    exists (x :: l1), y, l2. rewrite <- app_assoc in H1, H2. auto.
  - exists [], x, l. rewrite app_nil_r. auto.
Qed.
Lemma domain_ok_dec d : domain_ok d \/ ~ domain_ok d.
Proof.
  destruct (check_domain d) as [[]|e|p|] eqn:E; [left; apply check_domain_ok; auto|right..];
    intros H; apply check_domain_ok in H; congruence.
Qed.

Ltac found c := eexists; eexists; split; [eapply c; eassumption|split; assumption].

Section Domain.
Variable d : domain_ast.

Notation fresh_actions := (each_fresh DuplicateAction act_name act_pos (fun _ a => verify_action d a)).
Notation mname := (fun m => sym_name (m_name m)).
Notation mpos := (fun m => sym_pos (m_name m)).
Notation fresh_methods := (each_fresh DuplicateMethod mname mpos (fun _ m => verify_method d m)).
Notation fresh_preds := (each_fresh DuplicatePredicate pred_name pred_pos
    (fun _ p => check_type_declarations (d_types d) (pred_vars p)) []).
Notation fresh_tasks := (each_fresh DuplicateCompoundTask task_name task_pos
    (fun _ t => check_type_declarations (d_types d) (task_params t)) []).
Notation base := (check_duplicate_requirements [] (d_reqs d)).
Notation hier := (verify_type_hierarchy (d_types d)).

Lemma check_part_types preds tasks acts ms :
  check_domain (part d (d_reqs d) (d_types d) preds tasks acts ms)
  = (base ;;; hier ;;; fresh_preds preds ;;; fresh_tasks tasks ;;;
     each_fresh DuplicateAction act_name act_pos
       (fun _ a => verify_action (part d (d_reqs d) (d_types d) preds tasks acts ms) a) [] acts ;;;
     each_fresh DuplicateMethod mname mpos
       (fun _ m => verify_method (part d (d_reqs d) (d_types d) preds tasks acts ms) m) [] ms).
Proof. reflexivity. Qed.
Lemma check_whole :
  check_domain d = (base ;;; hier ;;; fresh_preds (d_preds d) ;;; fresh_tasks (d_tasks d) ;;;
     fresh_actions [] (d_actions d) ;;; fresh_methods [] (d_methods d)).
Proof. reflexivity. Qed.
Lemma part_actions acts :
  check_domain (part d (d_reqs d) (d_types d) (d_preds d) (d_tasks d) acts [])
  = (base ;;; hier ;;; fresh_preds (d_preds d) ;;; fresh_tasks (d_tasks d) ;;; fresh_actions [] acts).
Proof.
  rewrite check_part_types. simpl. rewrite seq_unit. reflexivity.
Qed.
Lemma part_methods ms :
  check_domain (part d (d_reqs d) (d_types d) (d_preds d) (d_tasks d) (d_actions d) ms)
  = (base ;;; hier ;;; fresh_preds (d_preds d) ;;; fresh_tasks (d_tasks d) ;;; fresh_actions [] (d_actions d) ;;;
     fresh_methods [] ms).
Proof. reflexivity. Qed.
Lemma part_tasks tasks :
  check_domain (part d (d_reqs d) (d_types d) (d_preds d) tasks [] [])
  = (base ;;; hier ;;; fresh_preds (d_preds d) ;;; fresh_tasks tasks).
Proof. rewrite check_part_types. simpl. rewrite seq_unit. reflexivity. Qed.
Lemma part_preds preds :
  check_domain (part d (d_reqs d) (d_types d) preds [] [] []) = (base ;;; hier ;;; fresh_preds preds).
Proof. rewrite check_part_types. simpl. rewrite seq_unit. reflexivity. Qed.
Lemma part_types : check_domain (part d (d_reqs d) (d_types d) [] [] [] []) = (base ;;; hier).
Proof. rewrite part_preds. simpl. rewrite seq_unit. reflexivity. Qed.
Lemma part_reqs : check_domain (part d (d_reqs d) None [] [] [] []) = base.
Proof.
  change (check_domain (part d (d_reqs d) None [] [] [] [])) with (base ;;; Ok tt). apply seq_unit.
Qed.

(** One more action. *)
Lemma actions_snoc l x :
  fresh_actions [] (l ++ [x])
  = (fresh_actions [] l ;;; check_fresh DuplicateAction (map (fun y => (act_name y, act_pos y)) l) (act_name x) (act_pos x) ;;;
     verify_action d x).
Proof.
  rewrite each_fresh_app. simpl. destruct (each_fresh _ _ _ _ _ l) as [[]| | |]; simpl; auto.
  destruct (check_fresh _ _ _ _) as [[]| | |]; simpl; auto. apply seq_unit.
Qed.
Lemma methods_snoc l x :
  fresh_methods [] (l ++ [x])
  = (fresh_methods [] l ;;; check_fresh DuplicateMethod (map (fun y => (mname y, mpos y)) l) (mname x) (mpos x) ;;;
     verify_method d x).
Proof.
  rewrite each_fresh_app. simpl. destruct (each_fresh _ _ _ _ _ l) as [[]| | |]; simpl; auto.
  destruct (check_fresh _ _ _ _) as [[]| | |]; simpl; auto. apply seq_unit.
Qed.


Lemma action_extended l x x' : act_name x' = act_name x -> act_pos x' = act_pos x ->
  starts (verify_action d x') (verify_action d x) ->
  starts (fresh_actions [] (l ++ [x'])) (fresh_actions [] (l ++ [x])).
Proof. intros E1 E2 Hs. rewrite !actions_snoc, E1, E2. do 2 apply starts_after. exact Hs. Qed.
Lemma method_extended l x x' : m_name x' = m_name x ->
  starts (verify_method d x') (verify_method d x) ->
  starts (fresh_methods [] (l ++ [x'])) (fresh_methods [] (l ++ [x])).
Proof. intros E Hs. rewrite !methods_snoc, E. do 2 apply starts_after. exact Hs. Qed.
Lemma snoc_start {A} mk (name : A -> string) pos body l x r :
  starts (each_fresh mk name pos body [] (l ++ [x])) (each_fresh mk name pos body [] (l ++ x :: r)).
Proof. change (x :: r) with ([x] ++ r). rewrite app_assoc. apply starts_each_fresh. Qed.

(** The whole check begins with the check of the first parts. *)
Lemma grows_beginning d1 d2 : grows d d1 d2 -> starts (check_domain d2) (check_domain d).
Proof.
  rewrite check_whole.
  intros [| |l x r E|l x r E|l x r E|l x r E|l x r E|l x r E|l x r k s q E Es|l x r E].
  - rewrite part_reqs. apply starts_here.
  - rewrite part_types. apply starts_after, starts_here.
  - rewrite part_preds, E. do 2 apply starts_after. eapply starts_trans; [apply snoc_start|apply starts_here].
  - rewrite part_tasks, E. do 3 apply starts_after. eapply starts_trans; [apply snoc_start|apply starts_here].
  - rewrite part_actions, E. do 4 apply starts_after. eapply starts_trans; [|apply starts_here].
    eapply starts_trans; [|apply snoc_start]. apply action_extended; auto. unfold verify_action. cbn -[check_params_fresh verify_formula].
    apply starts_after. eexists. reflexivity.
  - rewrite part_actions, E. do 4 apply starts_after. eapply starts_trans; [|apply starts_here].
    eapply starts_trans; [|apply snoc_start]. apply action_extended; auto. unfold verify_action. cbn -[check_params_fresh verify_formula].
    do 2 apply starts_after. eexists. reflexivity.
  - rewrite part_actions, E. do 4 apply starts_after. eapply starts_trans; [|apply starts_here].
    apply snoc_start.
  - rewrite part_methods, E. do 5 apply starts_after. eapply starts_trans; [|apply snoc_start].
    apply method_extended; auto. unfold verify_method. cbn -[check_params_fresh verify_formula is_task_consistent verify_ordering].
    do 4 apply starts_after. eexists. reflexivity.
  - rewrite part_methods, E. do 5 apply starts_after. eapply starts_trans; [|apply snoc_start].
    apply method_extended; auto. unfold verify_method. cbn -[check_params_fresh verify_formula is_task_consistent verify_ordering].
    do 4 apply starts_after. unfold verify_ordering at 1. cbn [is_acyclic htn_orderings]. rewrite seq_unit, Es.
    change (s :: q) with ([s] ++ q). rewrite (app_assoc k), (for_each_app _ (k ++ [s])), seq_assoc. apply starts_here.
  - rewrite part_methods, E. do 5 apply starts_after. apply snoc_start.
Qed.

Lemma whole_part : part d (d_reqs d) (d_types d) (d_preds d) (d_tasks d) (d_actions d) (d_methods d) = d.
Proof. destruct d. reflexivity. Qed.

Lemma first_part : ~ domain_ok d -> exists d1 d2, grows d d1 d2 /\ domain_ok d1 /\ ~ domain_ok d2.
Proof.
  intros Hn. assert (domain_ok (part d [] None [] [] [] [])) as H0 by (apply check_domain_ok; reflexivity).
  destruct (domain_ok_dec (part d (d_reqs d) None [] [] [] [])) as [H1|H1]; [|found gr_requirements].
  destruct (domain_ok_dec (part d (d_reqs d) (d_types d) [] [] [] [])) as [H2|H2]; [|found gr_types].
  destruct (domain_ok_dec (part d (d_reqs d) (d_types d) (d_preds d) [] [] [])) as [H3|H3].
  2: { destruct (first_spoiler (fun l => domain_ok (part d (d_reqs d) (d_types d) l [] [] []))
                   (fun l => domain_ok_dec _) _ [] H2 H3) as (l & x & r & E & Hl & Hx). found gr_predicate. }
  destruct (domain_ok_dec (part d (d_reqs d) (d_types d) (d_preds d) (d_tasks d) [] [])) as [H4|H4].
  2: { destruct (first_spoiler (fun l => domain_ok (part d (d_reqs d) (d_types d) (d_preds d) l [] []))
                   (fun l => domain_ok_dec _) _ [] H3 H4) as (l & x & r & E & Hl & Hx). found gr_task. }
  destruct (domain_ok_dec (part d (d_reqs d) (d_types d) (d_preds d) (d_tasks d) (d_actions d) [])) as [H5|H5].
  { rewrite <- whole_part in Hn.
    destruct (first_spoiler (fun l => domain_ok (part d (d_reqs d) (d_types d) (d_preds d) (d_tasks d) (d_actions d) l))
                   (fun l => domain_ok_dec _) _ [] H5 Hn) as (l & x & r & E & Hl & Hx). cbn [app] in *.
    set (Q k := domain_ok (part d (d_reqs d) (d_types d) (d_preds d) (d_tasks d) (d_actions d) (l ++ [with_network x k Total]))).
    destruct (domain_ok_dec (part d (d_reqs d) (d_types d) (d_preds d) (d_tasks d) (d_actions d) (l ++ [with_network x [] Total])))
      as [H6|H6]; [|found gr_method].
    destruct (domain_ok_dec (part d (d_reqs d) (d_types d) (d_preds d) (d_tasks d) (d_actions d)
                               (l ++ [with_network x (htn_subtasks (m_tn x)) Total]))) as [H7|H7]; [found gr_ordering|].
    destruct (first_spoiler Q (fun l => domain_ok_dec _) _ [] H6 H7) as (k & s & q & Es & Hk & Hs). found gr_subtask. }
  destruct (first_spoiler (fun l => domain_ok (part d (d_reqs d) (d_types d) (d_preds d) (d_tasks d) l []))
                   (fun l => domain_ok_dec _) _ [] H4 H5) as (l & x & r & E & Hl & Hx). cbn [app] in *.
  destruct (domain_ok_dec (part d (d_reqs d) (d_types d) (d_preds d) (d_tasks d) (l ++ [without_formulas x]) []))
    as [H6|H6]; [|found gr_action].
  destruct (domain_ok_dec (part d (d_reqs d) (d_types d) (d_preds d) (d_tasks d) (l ++ [without_effect x]) []))
    as [H7|H7]; [|found gr_precondition].
  found gr_effect.
Qed.

Lemma first_part_decides d1 d2 : grows d d1 d2 -> ~ domain_ok d2 -> check_domain d = check_domain d2.
Proof.
  intros Hg Hn. apply starts_fails; [eapply grows_beginning; eauto|]. intros E. apply Hn, check_domain_ok; auto.
Qed.
End Domain.

Section Problem.
Variable d : domain_ast.
Hypothesis Hok : domain_ok d.
Variable ws : list warning.
Variable p : problem_ast.
Notation tb := (table ws d).

Lemma problem_ok_dec q : problem_ok d q \/ ~ problem_ok d q.
Proof.
  destruct (accepted_nodup d Hok) as (N1 & N2 & N3).
  destruct (check_problem d [] q) as [[]|e|r|] eqn:E; [left; eapply (check_problem_ok d N1 N2 N3); eauto|right..];
    intros H; apply (check_problem_ok d N1 N2 N3 []) in H; congruence.
Qed.

Lemma pgrows_beginning p1 p2 : pgrows p p1 p2 -> starts (check_problem d ws p2) (check_problem d ws p).
Proof.
  unfold check_problem.
  intros [|l x r E|t E|t k s q E Es|];
    cbn -[check_type_declarations each_fresh check_predicate_instantiation check_subtask_instantiation verify_ordering for_each].
  - do 2 apply starts_after. eexists. reflexivity.
  - do 2 apply starts_after. rewrite seq_unit, E. change (x :: r) with ([x] ++ r).
    rewrite (app_assoc l), (for_each_app _ (l ++ [x])), seq_assoc. apply starts_here.
  - do 3 apply starts_after. rewrite E. rewrite !seq_assoc. rewrite seq_unit. apply starts_here.
  - do 3 apply starts_after. rewrite E. rewrite seq_unit, seq_assoc. apply starts_after. rewrite Es.
    change (s :: q) with ([s] ++ q). rewrite (app_assoc k), (for_each_app _ (k ++ [s])), seq_assoc. apply starts_here.
  - apply starts_refl.
Qed.

Lemma first_problem_part : ~ problem_ok d p -> exists p1 p2, pgrows p p1 p2 /\ problem_ok d p1 /\ ~ problem_ok d p2.
Proof.
  intros Hn. destruct (accepted_nodup d Hok) as (N1 & N2 & N3).
  assert (problem_ok d (ppart p [] [] None None)) as H0 by (apply (check_problem_ok d N1 N2 N3 []); reflexivity).
  destruct (problem_ok_dec (ppart p (p_objects p) [] None None)) as [H1|H1]; [|found pg_objects].
  destruct (problem_ok_dec (ppart p (p_objects p) (p_init p) None None)) as [H2|H2].
  2: { destruct (first_spoiler (fun l => problem_ok d (ppart p (p_objects p) l None None))
                   (fun l => problem_ok_dec _) _ [] H1 H2) as (l & x & r & E & Hl & Hx). found pg_fact. }
  destruct (problem_ok_dec (ppart p (p_objects p) (p_init p) (p_init_tn p) None)) as [H3|H3]; [found pg_goal|].
  destruct (p_init_tn p) as [t|] eqn:E; [|tauto].
  destruct (problem_ok_dec (ppart p (p_objects p) (p_init p) (Some (tn_upto t [])) None)) as [H4|H4]; [|found pg_ordering].
  assert (t = tn_upto t (htn_subtasks (itn_tn t))) as Et by (destruct t as [ps [a b c e]]; reflexivity).
  rewrite Et in H3.
  destruct (first_spoiler (fun l => problem_ok d (ppart p (p_objects p) (p_init p) (Some (tn_upto t l)) None))
                   (fun l => problem_ok_dec _) _ [] H4 H3) as (l & x & r & El & Hl & Hx). found pg_subtask.
Qed.
Lemma first_problem_part_decides p1 p2 : pgrows p p1 p2 -> ~ problem_ok d p2 -> check_problem d ws p = check_problem d ws p2.
Proof.
  destruct (accepted_nodup d Hok) as (N1 & N2 & N3).
  intros Hg Hn. apply starts_fails; [eapply pgrows_beginning; eauto|]. intros E. apply Hn.
  apply (check_problem_ok d N1 N2 N3) in E. auto.
Qed.
End Problem.

Section S.
Context `{Unicode}.
Variable he : hash_env.
Hypothesis Hhe : hash_env_ok he.

(** ** C56: domains *)

(** A faulty domain has a first faulty part ... *)
Theorem C56_first_faulty_part : forall d, ~ domain_ok d ->
  exists d1 d2, grows d d1 d2 /\ domain_ok d1 /\ ~ domain_ok d2.
Proof. exact first_part. Qed.

(** ... the error is about that part ... *)
Theorem C56_error_of_first_part : forall n dom d prob e d1 d2,
  parse n dom = Ok (ADomain d) -> grows d d1 d2 -> domain_ok d1 -> ~ domain_ok d2 ->
  verify he n dom prob = Err e ->
  exists s, e = ESem s /\ domain_violation d2 s /\ ~ domain_violation d1 s.
Proof.
  intros n dom d prob e d1 d2 Ep Hg H1 Hn E.
  assert (~ domain_ok d) as Hd.
  { intros Hk. apply check_domain_ok in Hk. rewrite (first_part_decides d d1 d2 Hg Hn) in Hk. apply check_domain_ok in Hk. auto. }
  apply verify_err_inv in E as [E|[(d' & E & Ec)|(d' & x & E & Hk & _)]]; auto; try congruence.
  - assert (d' = d) as -> by congruence. rewrite (first_part_decides d d1 d2 Hg Hn) in Ec.
    apply check_domain_err in Ec as (s & -> & Hv). exists s. split; auto. split; auto. apply ok_no_violation; auto.
Qed.

(** ... and nothing else matters: the document that ends with the first faulty
    part has the same result. *)
Theorem C56_rest_irrelevant : forall n dom d prob m dom2 prob2 d1 d2,
  parse n dom = Ok (ADomain d) -> parse m dom2 = Ok (ADomain d2) -> grows d d1 d2 -> ~ domain_ok d2 ->
  forall r, settles (fun k => verify he k dom prob) r <-> settles (fun k => verify he k dom2 prob2) r.
Proof.
  intros n dom d prob m dom2 prob2 d1 d2 Ed Ed2 Hg Hn.
  assert (check_domain d = check_domain d2) as Ec by (eapply first_part_decides; eauto).
  assert (check_domain d2 <> Ok tt) as Hc by (intros E; apply Hn, check_domain_ok; auto).
  assert (forall k, n + m <= k -> verify he k dom prob = verify he k dom2 prob2) as Hv.
  { intros k Hk. unfold verify, parse_as_domain.
    rewrite (parse_mono n k dom), (parse_mono m k dom2) by (try lia; congruence). rewrite Ed, Ed2. cbn [obind].
    unfold verify_domain. rewrite Ec. destruct (check_domain d2) as [[]| | |]; try reflexivity. congruence. }
  intros r. split; intros [Hr (k0 & Hk0)]; split; auto; exists (n + m + k0); intros k Hk.
  - rewrite <- Hv by lia. apply Hk0. lia.
  - rewrite Hv by lia. apply Hk0. lia.
Qed.

(** ** C56: problems of accepted domains *)
Theorem C56_problem_first_faulty_part : forall d p, domain_ok d -> ~ problem_ok d p ->
  exists p1 p2, pgrows p p1 p2 /\ problem_ok d p1 /\ ~ problem_ok d p2.
Proof. intros d p Hd. apply first_problem_part; auto. Qed.

Theorem C56_problem_error_of_first_part : forall n dom d prob p e p1 p2,
  parse n dom = Ok (ADomain d) -> domain_ok d -> parse n prob = Ok (AProblem p) ->
  pgrows p p1 p2 -> problem_ok d p1 -> ~ problem_ok d p2 ->
  verify he n dom (Some prob) = Err e ->
  exists s, e = ESem s /\ problem_violation d p2 s /\ ~ problem_violation d p1 s.
Proof.
  intros n dom d prob p e p1 p2 Ed Hd Ep Hg H1 Hn E.
  destruct (accepted_nodup d Hd) as (N1 & N2 & N3).
  apply verify_err_inv in E as [E|[(d' & E & Ec)|(d' & s' & E & _ & Es & [E'|(p' & ws & E' & Ec)])]]; auto; try congruence.
  - assert (d' = d) as -> by congruence. apply check_domain_ok in Hd. congruence.
  - assert (d' = d) as -> by congruence. injection Es as <-. assert (p' = p) as -> by congruence.
    rewrite (first_problem_part_decides d Hd ws p p1 p2 Hg Hn) in Ec.
    apply check_problem_err in Ec as (x & -> & Hv); auto. exists x. split; auto. split; auto.
    apply ok_no_problem_violation; auto.
Qed.

Theorem C56_problem_rest_irrelevant : forall n dom d prob p m prob2 p1 p2,
  parse n dom = Ok (ADomain d) -> domain_ok d ->
  parse n prob = Ok (AProblem p) -> parse m prob2 = Ok (AProblem p2) -> pgrows p p1 p2 -> ~ problem_ok d p2 ->
  forall r, settles (fun k => verify he k dom (Some prob)) r <-> settles (fun k => verify he k dom (Some prob2)) r.
Proof.
  intros n dom d prob p m prob2 p1 p2 Ed Hd Ep Ep2 Hg Hn.
  assert (forall k, n + m <= k -> verify he k dom (Some prob) = verify he k dom (Some prob2)) as Hv.
  { intros k Hk. unfold verify, parse_as_domain, parse_as_problem.
    rewrite (parse_mono n k dom), (parse_mono n k prob), (parse_mono m k prob2) by (try lia; congruence).
    rewrite Ed, Ep, Ep2. cbn [obind]. destruct (verify_domain he k d) as [tb| | |] eqn:Ev; try reflexivity. cbn [obind].
    destruct (verify_domain_sound he d k tb Ev) as (_ & ws & ->). rewrite !verify_problem_check.
    rewrite (first_problem_part_decides d Hd ws p p1 p2 Hg Hn). reflexivity. }
  intros r. split; intros [Hr (k0 & Hk0)]; split; auto; exists (n + m + k0); intros k Hk.
  - rewrite <- Hv by lia. apply Hk0. lia.
  - rewrite Hv by lia. apply Hk0. lia.
Qed.
End S.

(** An undeclared subtask in a method and, further down, an undeclared type in a
    predicate: the predicate is reported, and the method alone is reported when
    the predicate is repaired. *)
Definition two_faults (t : string) : string :=
  ("(define (domain d) (:types a)
(:task t :parameters ())
(:method m :parameters () :task (t) :subtasks (and (nothing)))
(:action x :parameters (?v - a) :precondition (p ?v) :effect (and (q)))
(:predicates (p ?v - " ++ t ++ ") (q)))")%string.
Example C56_example :
  run (two_faults "b") None = Err (ESem (UndefinedType (mkUndef "b" 5)))
  /\ run (two_faults "a") None = Err (ESem (UndefinedSubtask (mkUndef "nothing" 3)))
  /\ exists d d1 d2, @parse uni0 300 (two_faults "b") = Ok (ADomain d) /\ grows d d1 d2
       /\ domain_ok d1 /\ ~ domain_ok d2 /\ length (d_preds d1) = 0 /\ length (d_preds d2) = 1.
Proof.
  split; [vm_compute; reflexivity|]. split; [vm_compute; reflexivity|].
  destruct (is_ok_ex (@parse uni0 300 (two_faults "b"))) as ([d|p] & E);
    [vm_compute; reflexivity| |vm_compute in E; discriminate].
  vm_compute in E. injection E as <-. eexists.
  do 2 eexists. split; [vm_compute; reflexivity|]. split.
  { eapply gr_predicate with (l := []). cbn [d_preds app]. reflexivity. }
  split; [apply check_domain_ok; vm_compute; reflexivity|].
  split; [intros Hd; apply check_domain_ok in Hd; vm_compute in Hd; discriminate|].
  split; reflexivity.
Qed.

Definition first_theorems := (@C56_first_faulty_part, @C56_error_of_first_part, @C56_rest_irrelevant,
  @C56_problem_first_faulty_part, @C56_problem_error_of_first_part, @C56_problem_rest_irrelevant, C56_example).
