(** One relational pass over the parser.  Two runs from related tokenizer
    states, the second with at least as much fuel, give related results.
    Instances: fuel monotonicity, invariance under change of layout, tree
    invariants and positions, absence of panics. *)
From Coq Require Import String Ascii NArith ZArith Bool List Lia PeanoNat.
From Verif Require Import Base Token Lexer Errors Ast Parser AstRel.
Import ListNotations.
Open Scope list_scope.
Open Scope nat_scope.

Section Pass.
Context `{Unicode}.
Variable RL : N -> N -> Prop.
Variable Sim : lstate -> lstate -> Prop.
Variable PanicOK : panic_site -> Prop.

Definition rel_res {A} (R : A -> A -> Prop) (r r' : presult A) : Prop :=
  match r, r' with
  | PFuel, _ => True
  | POk a st, POk a' st' => R a a' /\ Sim st st'
  | PErr e, PErr e' => err_rel RL e e'
  | PPanic p, PPanic p' => p = p' /\ PanicOK p
  | _, _ => False
  end.

Definition rp {A} (R : A -> A -> Prop) (m m' : P A) : Prop :=
  forall st st', Sim st st' -> rel_res R (m st) (m' st').

Hypothesis Sim_line : forall st st', Sim st st' -> RL (line st) (line st').
Hypothesis Sim_get : rp eq get get.
Hypothesis Sim_peek : rp eq peek peek.
Hypothesis Panic_problem : PanicOK PanicProblemToken.

Lemma rp_bind {A B} (R : A -> A -> Prop) (Q : B -> B -> Prop) m m' k k' :
  rp R m m' -> (forall a a', R a a' -> rp Q (k a) (k' a')) -> rp Q (bind m k) (bind m' k').
Proof.
  intros Hm Hk st st' Hs. unfold bind. specialize (Hm st st' Hs).
  destruct (m st), (m' st'); simpl in Hm; try tauto; auto; simpl.
  destruct Hm as [Ha Hs']. exact (Hk _ _ Ha _ _ Hs').
Qed.

Lemma rp_get {B} (Q : B -> B -> Prop) k k' :
  (forall t, rp Q (k t) (k' t)) -> rp Q (bind get k) (bind get k').
Proof. intros Hk. eapply rp_bind; [exact Sim_get|]. intros a a' ->. auto. Qed.

Lemma rp_peek {B} (Q : B -> B -> Prop) k k' :
  (forall t, rp Q (k t) (k' t)) -> rp Q (bind peek k) (bind peek k').
Proof. intros Hk. eapply rp_bind; [exact Sim_peek|]. intros a a' ->. auto. Qed.

Lemma rp_pos {B} (Q : B -> B -> Prop) k k' :
  (forall p p', RL p p' -> rp Q (k p) (k' p')) -> rp Q (bind pos k) (bind pos k').
Proof.
  intros Hk st st' Hs. unfold bind, pos. apply Hk; auto.
Qed.

Lemma rp_ret {A} (R : A -> A -> Prop) a a' : R a a' -> rp R (ret a) (ret a').
Proof. intros Ha st st' Hs. simpl. auto. Qed.

Lemma rp_syn {A} (R : A -> A -> Prop) x t : rp R (syn x t) (syn x t).
Proof. intros st st' Hs. simpl. constructor. auto. Qed.

Lemma rp_fuel {A} (R : A -> A -> Prop) m' : rp R pfuel m'.
Proof. intros st st' Hs. simpl. exact I. Qed.

Lemma rp_panic {A} (R : A -> A -> Prop) p : PanicOK p -> rp R (ppanic p) (ppanic p).
Proof. intros Hp st st' Hs. simpl. auto. Qed.

Lemma Forall2_snoc {A B} (R : A -> B -> Prop) l l' a b :
  Forall2 R l l' -> R a b -> Forall2 R (l ++ [a]) (l' ++ [b]).
Proof. intros Hl Hr. apply Forall2_app; auto. Qed.

(** Case analysis on the tokens inspected by both sides. *)
Ltac tok :=
  repeat match goal with
  | |- rp _ (match ?x with _ => _ end) _ => is_var x; destruct x
  end.

Ltac step :=
  match goal with
  | |- rp _ (bind get _) (bind get _) => apply rp_get; intro
  | |- rp _ (bind peek _) (bind peek _) => apply rp_peek; intro
  | |- rp _ (bind pos _) (bind pos _) => apply rp_pos; intros ?p ?p' ?Hp
  | |- rp _ (syn _ _) (syn _ _) => apply rp_syn
  | |- rp _ pfuel _ => apply rp_fuel
  | |- rp _ (match ?x with _ => _ end) _ => is_var x; destruct x
  end.

Definition name_rel (x y : string * N) : Prop := fst x = fst y /\ RL (snd x) (snd y).

Lemma plain_names l l' : Forall2 name_rel l l' -> syms_rel RL (map plain l) (map plain l').
Proof.
  induction 1 as [|[n p] [n' p'] l l' [E Hr] _ IH]; simpl in *; constructor; auto.
  subst. constructor; auto.
Qed.

Lemma typed_names t q q' l l' :
  RL q q' -> Forall2 name_rel l l' -> syms_rel RL (map (typed t q) l) (map (typed t q') l').
Proof.
  intros Hq. induction 1 as [|[n p] [n' p'] l l' [E Hr] _ IH]; simpl in *; constructor; auto.
  subst. constructor; auto.
Qed.

Lemma plain_name s p p' : RL p p' -> plain_rel RL (plain (s, p)) (plain (s, p')).
Proof. intros. constructor; auto. Qed.

Lemma args_loop_rp : forall n n' o o' r r' t,
  n <= n' -> Forall2 name_rel o o' -> syms_rel RL r r' ->
  rp (syms_rel RL) (args_loop n o r t) (args_loop n' o' r' t).
Proof.
  induction n as [|n IH]; intros n' o o' r r' t Hn Ho Hr; [apply rp_fuel|].
  destruct n' as [|n']; [lia|]. cbn [args_loop].
  repeat step; try (apply rp_ret; apply Forall2_app; [auto|apply plain_names; auto]).
  - apply IH; [lia| |auto]. apply Forall2_snoc; auto. split; auto.
  - apply IH; [lia|constructor|]. apply Forall2_app; [auto|apply typed_names; auto].
Qed.

Lemma parse_args_rp n n' : n <= n' -> rp (syms_rel RL) (parse_args n) (parse_args n').
Proof.
  intros Hn. unfold parse_args. step. apply args_loop_rp; auto; constructor.
Qed.

Lemma parse_requirements_rp : forall n n' acc,
  n <= n' -> rp eq (parse_requirements n acc) (parse_requirements n' acc).
Proof.
  induction n as [|n IH]; intros n' acc Hn; [apply rp_fuel|].
  destruct n' as [|n']; [lia|]. cbn [parse_requirements].
  repeat step; try (apply rp_ret; reflexivity). apply IH. lia.
Qed.

Lemma parse_predicate_definition_rp n n' :
  n <= n' -> rp (pred_rel RL) (parse_predicate_definition n) (parse_predicate_definition n').
Proof.
  intros Hn. unfold parse_predicate_definition. repeat step.
  eapply rp_bind; [apply parse_args_rp; auto|]. intros l l' Hl. apply rp_ret. constructor; auto.
Qed.

Lemma parse_predicates_rp fuel fuel' : fuel <= fuel' -> forall n n' acc acc',
  n <= n' -> Forall2 (pred_rel RL) acc acc' ->
  rp (Forall2 (pred_rel RL)) (parse_predicates fuel n acc) (parse_predicates fuel' n' acc').
Proof.
  intros Hf. induction n as [|n IH]; intros n' acc acc' Hn Ha; [apply rp_fuel|].
  destruct n' as [|n']; [lia|]. cbn [parse_predicates].
  repeat step; try (apply rp_ret; assumption).
  eapply rp_bind; [apply parse_predicate_definition_rp; auto|]. intros l l' Hl.
  apply IH; [lia|]. apply Forall2_snoc; auto.
Qed.

Lemma parse_function_definition_rp n n' :
  n <= n' -> rp (func_rel RL) (parse_function_definition n) (parse_function_definition n').
Proof.
  intros Hn. unfold parse_function_definition. repeat step.
  eapply rp_bind; [apply parse_args_rp; auto|]. intros l l' Hl. apply rp_ret. constructor; auto.
Qed.

Lemma parse_functions_rp fuel fuel' : fuel <= fuel' -> forall n n' acc acc',
  n <= n' -> Forall2 (func_rel RL) acc acc' ->
  rp (Forall2 (func_rel RL)) (parse_functions fuel n acc) (parse_functions fuel' n' acc').
Proof.
  intros Hf. induction n as [|n IH]; intros n' acc acc' Hn Ha; [apply rp_fuel|].
  destruct n' as [|n']; [lia|]. cbn [parse_functions].
  repeat step; try (apply rp_ret; assumption).
  eapply rp_bind; [apply parse_function_definition_rp; auto|]. intros l l' Hl.
  apply IH; [lia|]. apply Forall2_snoc; auto.
Qed.

Lemma formulas_snoc l l' f f' :
  formulas_rel RL l l' -> formula_rel RL f f' -> f <> FEmpty ->
  formulas_rel RL (l ++ [f]) (l' ++ [f']).
Proof. induction 1; intros; simpl; constructor; auto. constructor. Qed.

Lemma parse_formula_rp fuel fuel' : fuel <= fuel' -> forall n n',
  n <= n' ->
  rp (formula_rel RL) (parse_formula fuel n) (parse_formula fuel' n')
  /\ (forall acc acc', formulas_rel RL acc acc' ->
       rp (formulas_rel RL) (connective fuel n acc) (connective fuel' n' acc'))
  /\ (forall acc acc', formulas_rel RL acc acc' ->
       rp (formulas_rel RL) (branches fuel n acc) (branches fuel' n' acc')).
Proof.
  intros Hf. induction n as [|n IH]; intros n' Hn.
  { repeat split; intros; apply rp_fuel. }
  destruct n' as [|n']; [lia|]. destruct (IH n') as (IHf & IHc & IHb); [lia|].
  repeat split.
  - cbn [parse_formula]. step. step; try apply rp_syn. step; [apply rp_syn| |apply rp_ret; constructor].
    step. step; try apply rp_syn.
    + step. eapply rp_bind; [apply parse_args_rp; auto|]. intros l l' Hl. apply rp_ret.
      constructor. constructor; auto.
    + step; try apply rp_syn.
      * eapply rp_bind; [apply IHc; constructor|]. intros l l' Hl. apply rp_ret. constructor; auto.
      * eapply rp_bind; [apply IHf|]. intros l l' Hl. repeat step. apply rp_ret. constructor; auto.
      * eapply rp_bind; [apply IHc; constructor|]. intros l l' Hl. apply rp_ret. constructor; auto.
      * eapply rp_bind; [apply IHc; constructor|]. intros l l' Hl. apply rp_ret. constructor; auto.
      * repeat step. eapply rp_bind; [apply parse_args_rp; auto|]. intros v v' Hv.
        eapply rp_bind; [apply IHf|]. intros l l' Hl. repeat step. apply rp_ret. constructor; auto.
      * repeat step. eapply rp_bind; [apply parse_args_rp; auto|]. intros v v' Hv.
        eapply rp_bind; [apply IHf|]. intros l l' Hl. repeat step. apply rp_ret. constructor; auto.
      * eapply rp_bind; [apply IHb; constructor|]. intros l l' Hl. apply rp_ret. constructor; auto.
      * repeat step. apply rp_ret. constructor.
    + step; try apply rp_syn. apply rp_ret. constructor.
  - intros acc acc' Ha. cbn [connective]. eapply rp_bind; [apply IHf|]. intros f f' Hr.
    pose proof Hr as Hr'.
    destruct Hr'; try (apply IHc; apply formulas_snoc; auto; discriminate).
    apply rp_ret. auto.
  - intros acc acc' Ha. cbn [branches]. step. step; try apply rp_syn.
    + eapply rp_bind; [apply IHf|]. intros f f' Hr.
      pose proof Hr as Hr'.
      destruct Hr'; try apply rp_syn; apply IHb; apply formulas_snoc; auto; try discriminate;
        constructor; auto; discriminate.
    + step; try apply rp_syn. apply rp_ret. auto.
Qed.

Lemma formula_rp n n' : n <= n' -> rp (formula_rel RL) (parse_formula n n) (parse_formula n' n').
Proof. intros Hn. apply parse_formula_rp; auto. Qed.

Lemma parse_task_rp n n' : n <= n' -> rp (task_rel RL) (parse_task n) (parse_task n').
Proof.
  intros Hn. unfold parse_task. repeat step.
  eapply rp_bind; [apply parse_args_rp; auto|]. intros l l' Hl. apply rp_ret. constructor; auto.
Qed.

Lemma parse_action_rp n n' : n <= n' -> rp (action_rel RL) (parse_action n) (parse_action n').
Proof.
  intros Hn. unfold parse_action. eapply rp_bind; [apply parse_task_rp; auto|].
  intros tk tk' [nm p p' l l' Hp Hl]. cbn [task_name task_pos task_params].
  step. eapply (rp_bind (opt_rel (formula_rel RL))).
  { repeat step; try (apply rp_ret; constructor).
    eapply rp_bind; [apply formula_rp; auto|]. intros f f' Hf. apply rp_ret. constructor; auto. }
  intros pre pre' Hpre. step. eapply (rp_bind (opt_rel (formula_rel RL))).
  { repeat step; try (apply rp_ret; constructor).
    eapply rp_bind; [apply formula_rp; auto|]. intros f f' Hf. apply rp_ret. constructor; auto. }
  intros eff eff' Heff. repeat step. apply rp_ret. constructor; auto.
Qed.

Lemma ordering_ids_rp msg t1 : forall n n' acc,
  n <= n' -> rp eq (ordering_ids msg t1 n acc) (ordering_ids msg t1 n' acc).
Proof.
  induction n as [|n IH]; intros n' acc Hn; [apply rp_fuel|].
  destruct n' as [|n']; [lia|]. cbn [ordering_ids].
  repeat step; try (apply rp_ret; reflexivity). apply IH. lia.
Qed.

Lemma parse_ordering_rp n n' : n <= n' -> rp eq (parse_ordering n) (parse_ordering n').
Proof. intros Hn. unfold parse_ordering. repeat step. apply ordering_ids_rp; auto. Qed.

Lemma ordering_conj_rp fuel fuel' : fuel <= fuel' -> forall n n' acc,
  n <= n' -> rp eq (ordering_conj fuel n acc) (ordering_conj fuel' n' acc).
Proof.
  intros Hf. induction n as [|n IH]; intros n' acc Hn; [apply rp_fuel|].
  destruct n' as [|n']; [lia|]. cbn [ordering_conj].
  repeat step; try (apply rp_ret; reflexivity).
  eapply rp_bind; [apply parse_ordering_rp; auto|]. intros a a' ->. apply IH. lia.
Qed.

Lemma parse_orderings_rp n n' acc : n <= n' -> rp eq (parse_orderings n acc) (parse_orderings n' acc).
Proof.
  intros Hn. unfold parse_orderings. repeat step; try (apply rp_ret; reflexivity).
  - apply ordering_conj_rp; auto.
  - apply ordering_ids_rp; auto.
Qed.

Lemma id_subtask_terms_rp i i' k k' : plain_rel RL i i' -> plain_rel RL k k' -> forall n n' acc acc',
  n <= n' -> Forall2 (plain_rel RL) acc acc' ->
  rp (subtask_rel RL) (id_subtask_terms i k n acc) (id_subtask_terms i' k' n' acc').
Proof.
  intros Hi Hk. induction n as [|n IH]; intros n' acc acc' Hn Ha; [apply rp_fuel|].
  destruct n' as [|n']; [lia|]. cbn [id_subtask_terms].
  assert (sym_name k = sym_name k') as -> by (destruct Hk; reflexivity).
  repeat step.
  - apply IH; [lia|]. apply Forall2_snoc; auto using plain_name.
  - apply rp_ret. constructor; auto. constructor; auto.
Qed.

Lemma plain_subtask_terms_rp k k' x : plain_rel RL k k' -> forall n n' acc acc',
  n <= n' -> Forall2 (plain_rel RL) acc acc' ->
  rp (subtask_rel RL) (plain_subtask_terms k x n acc) (plain_subtask_terms k' x n' acc').
Proof.
  intros Hk. induction n as [|n IH]; intros n' acc acc' Hn Ha; [apply rp_fuel|].
  destruct n' as [|n']; [lia|]. cbn [plain_subtask_terms].
  repeat step.
  - apply IH; [lia|]. apply Forall2_snoc; auto using plain_name.
  - apply rp_ret. constructor; auto. constructor; auto.
Qed.

Lemma parse_subtask_rp n n' : n <= n' -> rp (subtask_rel RL) (parse_subtask n) (parse_subtask n').
Proof.
  intros Hn. unfold parse_subtask. repeat step.
  - apply plain_subtask_terms_rp; auto using plain_name.
  - apply id_subtask_terms_rp; auto using plain_name.
  - apply rp_ret. constructor; auto using plain_name. constructor.
Qed.

Lemma subtasks_loop_rp fuel fuel' : fuel <= fuel' -> forall n n' acc acc',
  n <= n' -> Forall2 (subtask_rel RL) acc acc' ->
  rp (Forall2 (subtask_rel RL)) (subtasks_loop fuel n acc) (subtasks_loop fuel' n' acc').
Proof.
  intros Hf. induction n as [|n IH]; intros n' acc acc' Hn Ha; [apply rp_fuel|].
  destruct n' as [|n']; [lia|]. cbn [subtasks_loop].
  repeat step; try (apply rp_ret; assumption).
  eapply rp_bind; [apply parse_subtask_rp; auto|]. intros a a' Hr.
  apply IH; [lia|]. apply Forall2_snoc; auto.
Qed.

Lemma parse_subtasks_rp n n' :
  n <= n' -> rp (Forall2 (subtask_rel RL)) (parse_subtasks n) (parse_subtasks n').
Proof.
  intros Hn. unfold parse_subtasks. repeat step; try (apply rp_ret; constructor).
  - eapply rp_bind; [apply parse_subtask_rp; auto|]. intros a a' Hr. apply rp_ret; auto.
  - apply subtasks_loop_rp; auto.
Qed.

Lemma parse_constraint_rp : rp eq parse_constraint parse_constraint.
Proof. unfold parse_constraint. repeat step; apply rp_ret; reflexivity. Qed.

Lemma constraints_loop_rp : forall n n' acc,
  n <= n' -> rp eq (constraints_loop n acc) (constraints_loop n' acc).
Proof.
  induction n as [|n IH]; intros n' acc Hn; [apply rp_fuel|].
  destruct n' as [|n']; [lia|]. cbn [constraints_loop].
  repeat step; try (apply rp_ret; reflexivity).
  eapply rp_bind; [apply parse_constraint_rp|]. intros a a' ->. apply IH. lia.
Qed.

Lemma parse_constraints_rp n n' : n <= n' -> rp eq (parse_constraints n) (parse_constraints n').
Proof.
  intros Hn. unfold parse_constraints. repeat step; try (apply rp_ret; reflexivity).
  - eapply rp_bind; [apply parse_constraint_rp|]. intros a a' ->. apply rp_ret; reflexivity.
  - apply constraints_loop_rp; auto.
  - eapply rp_bind; [apply parse_constraint_rp|]. intros a a' ->. apply rp_ret; reflexivity.
Qed.

Lemma htn_loop_rp fuel fuel' : fuel <= fuel' -> forall n n' s s' o o' l c,
  n <= n' -> Forall2 (subtask_rel RL) s s' -> opt_rel RL o o' -> (o = None -> l = []) ->
  rp (htn_rel RL) (htn_loop fuel n s o l c) (htn_loop fuel' n' s' o' l c).
Proof.
  intros Hf. induction n as [|n IH]; intros n' s s' o o' l c Hn Hs Ho Hl; [apply rp_fuel|].
  destruct n' as [|n']; [lia|]. cbn [htn_loop].
  repeat step.
  - eapply rp_bind; [apply parse_orderings_rp; auto|]. intros a a' ->.
    apply IH; auto; [lia|constructor; auto|discriminate].
  - eapply rp_bind; [apply parse_constraints_rp; auto|]. intros a a' ->. apply IH; auto. lia.
  - apply rp_ret. constructor; auto.
Qed.

Lemma parse_htn_rp n n' : n <= n' -> rp (htn_rel RL) (parse_htn n) (parse_htn n').
Proof.
  intros Hn. unfold parse_htn. apply rp_peek. intros la.
  assert (rp (htn_rel RL)
    (bind get (fun t => match t with
      | TKeyword KSubtasks =>
        bind (parse_subtasks n) (fun subtasks => htn_loop n n subtasks None [] None)
      | TKeyword KOrderedSubtasks =>
        bind (parse_subtasks n) (fun subtasks => bind get (fun u =>
        match u with
        | TKeyword KConstraints =>
          bind (parse_constraints n) (fun c => ret (mkHtn subtasks None Total (Some c)))
        | TPunct RParen => ret (mkHtn subtasks None Total None)
        | other => syn "closing ')' after task network definition" other
        end))
      | other => syn ":subtasks or :ordered-subtasks keyword" other
      end))
    (bind get (fun t => match t with
      | TKeyword KSubtasks =>
        bind (parse_subtasks n') (fun subtasks => htn_loop n' n' subtasks None [] None)
      | TKeyword KOrderedSubtasks =>
        bind (parse_subtasks n') (fun subtasks => bind get (fun u =>
        match u with
        | TKeyword KConstraints =>
          bind (parse_constraints n') (fun c => ret (mkHtn subtasks None Total (Some c)))
        | TPunct RParen => ret (mkHtn subtasks None Total None)
        | other => syn "closing ')' after task network definition" other
        end))
      | other => syn ":subtasks or :ordered-subtasks keyword" other
      end))) as Hrest.
  { repeat step.
    - eapply rp_bind; [apply parse_subtasks_rp; auto|]. intros a a' Hr.
      apply htn_loop_rp; auto. constructor.
    - eapply rp_bind; [apply parse_subtasks_rp; auto|]. intros a a' Hr. repeat step.
      + eapply rp_bind; [apply parse_constraints_rp; auto|]. intros c c' ->.
        apply rp_ret. constructor; auto.
      + apply rp_ret. constructor; auto. }
  destruct la as [| | | |p| |]; try exact Hrest. destruct p; try exact Hrest.
  apply rp_ret. constructor; auto. constructor.
Qed.

Lemma parse_initial_tn_rp n n' :
  n <= n' -> rp (init_rel RL) (parse_initial_tn n) (parse_initial_tn n').
Proof.
  intros Hn. unfold parse_initial_tn. repeat step.
  - eapply rp_bind; [apply parse_args_rp; auto|]. intros l l' Hl.
    eapply rp_bind; [apply parse_htn_rp; auto|]. intros tn tn' Ht.
    apply rp_ret. constructor; auto. constructor; auto.
  - eapply rp_bind; [apply parse_htn_rp; auto|]. intros tn tn' Ht.
    apply rp_ret. constructor; auto. constructor.
  - eapply rp_bind; [apply parse_htn_rp; auto|]. intros tn tn' Ht.
    apply rp_ret. constructor; auto. constructor.
  - apply rp_ret. constructor; constructor; auto. constructor.
Qed.

Lemma parse_method_rp n n' : n <= n' -> rp (method_rel RL) (parse_method n) (parse_method n').
Proof.
  intros Hn. unfold parse_method. repeat step.
  eapply rp_bind; [apply parse_args_rp; auto|]. intros l l' Hl. repeat step.
  eapply rp_bind; [apply parse_args_rp; auto|]. intros v v' Hv. repeat step.
  - eapply rp_bind; [apply formula_rp; auto|]. intros f f' Hr.
    eapply rp_bind; [apply parse_htn_rp; auto|]. intros tn tn' Ht.
    apply rp_ret. constructor; auto using plain_name. constructor; auto.
  - eapply rp_bind; [apply parse_htn_rp; auto|]. intros tn tn' Ht.
    apply rp_ret. constructor; auto using plain_name. constructor.
  - eapply rp_bind; [apply parse_htn_rp; auto|]. intros tn tn' Ht.
    apply rp_ret. constructor; auto using plain_name. constructor.
Qed.

Lemma push_opt_rel {A} (R : A -> A -> Prop) o o' l l' :
  opt_rel (Forall2 R) o o' -> Forall2 R l l' -> opt_rel (Forall2 R) (push_opt o l) (push_opt o' l').
Proof.
  intros Ho Hl. destruct Hl; simpl; auto.
  destruct Ho; constructor; [constructor; auto|]. apply Forall2_app; auto.
Qed.

Lemma parse_domain_rp fuel fuel' : fuel <= fuel' -> forall n n' d d',
  n <= n' -> domain_rel RL d d' ->
  rp (domain_rel RL) (parse_domain fuel n d) (parse_domain fuel' n' d').
Proof.
  intros Hf. induction n as [|n IH]; intros n' d d' Hn Hd; [apply rp_fuel|].
  destruct n' as [|n']; [lia|]. cbn [parse_domain].
  assert (d_name d = d_name d') as -> by (destruct Hd; reflexivity).
  repeat step; try (apply rp_ret; assumption).
  - eapply rp_bind; [apply parse_requirements_rp; auto|]. intros a a' ->. apply IH; [lia|].
    destruct Hd; constructor; cbn; auto.
  - eapply rp_bind; [apply parse_args_rp; auto|]. intros a a' Hr. apply IH; [lia|].
    destruct Hd; constructor; cbn; auto. apply push_opt_rel; auto.
  - eapply rp_bind; [apply parse_task_rp; auto|]. intros a a' Hr.
    assert (task_name a = task_name a') as -> by (destruct Hr; reflexivity).
    repeat step. apply IH; [lia|].
    destruct Hd; constructor; cbn; auto. apply Forall2_snoc; auto.
  - eapply rp_bind; [apply parse_args_rp; auto|]. intros a a' Hr. apply IH; [lia|].
    destruct Hd; constructor; cbn; auto. apply push_opt_rel; auto.
  - eapply rp_bind; [apply parse_predicates_rp; auto|]. intros a a' Hr. apply IH; [lia|].
    destruct Hd; constructor; cbn; auto. apply Forall2_app; auto.
  - eapply rp_bind; [apply parse_functions_rp; auto|]. intros a a' Hr. apply IH; [lia|].
    destruct Hd; constructor; cbn; auto. apply Forall2_app; auto.
  - eapply rp_bind; [apply parse_action_rp; auto|]. intros a a' Hr. apply IH; [lia|].
    destruct Hd; constructor; cbn; auto. apply Forall2_snoc; auto.
  - eapply rp_bind; [apply parse_method_rp; auto|]. intros a a' Hr. apply IH; [lia|].
    destruct Hd; constructor; cbn; auto. apply Forall2_snoc; auto.
Qed.

Lemma rebuild_rel l l' : syms_rel RL l l' ->
  rebuild_objects l = Some l /\ rebuild_objects l' = Some l'.
Proof.
  induction 1 as [|s s' l l' Hs _ [IH IH']]; [auto|].
  destruct Hs; simpl; rewrite IH, IH'; auto.
Qed.

Lemma parse_problem_rp fuel fuel' : fuel <= fuel' -> forall n n' d d',
  n <= n' -> problem_rel RL d d' ->
  rp (problem_rel RL) (parse_problem fuel n d) (parse_problem fuel' n' d').
Proof.
  intros Hf. induction n as [|n IH]; intros n' d d' Hn Hd; [apply rp_fuel|].
  destruct n' as [|n']; [lia|]. cbn [parse_problem].
  repeat step; try (apply rp_ret; assumption); try (apply rp_panic; apply Panic_problem).
  - eapply rp_bind; [apply parse_requirements_rp; auto|]. intros a a' ->. apply IH; [lia|].
    destruct Hd; constructor; cbn; auto.
  - eapply rp_bind; [apply parse_args_rp; auto|]. intros a a' Hr.
    destruct (rebuild_rel _ _ Hr) as [-> ->]. apply IH; [lia|].
    destruct Hd; constructor; cbn; auto. apply Forall2_app; auto.
  - eapply rp_bind; [apply parse_predicates_rp; auto|]. intros a a' Hr. apply IH; [lia|].
    destruct Hd; constructor; cbn; auto.
  - eapply rp_bind; [apply parse_initial_tn_rp; auto|]. intros a a' Hr. apply IH; [lia|].
    destruct Hd; constructor; cbn; auto. constructor; auto.
  - eapply rp_bind; [apply formula_rp; auto|]. intros a a' Hr. apply IH; [lia|].
    destruct Hd; constructor; cbn; auto. constructor; auto.
Qed.

Lemma parse_document_type_rp : rp eq parse_document_type parse_document_type.
Proof.
  unfold parse_document_type. repeat step.
  - unfold parse_domain_header. repeat step. apply rp_ret; reflexivity.
  - unfold parse_problem_header. repeat step. apply rp_ret; reflexivity.
Qed.

Theorem parse_doc_rp n n' : n <= n' -> rp (ast_rel RL) (parse_doc n) (parse_doc n').
Proof.
  intros Hn. unfold parse_doc. repeat step.
  eapply rp_bind; [apply parse_document_type_rp|]. intros a a' ->.
  destruct a' as [nm|pn dn].
  - eapply rp_bind.
    + apply parse_domain_rp; auto. constructor; constructor.
    + intros x x' Hr. apply rp_ret. constructor; auto.
  - eapply rp_bind.
    + apply parse_problem_rp; auto. constructor; constructor.
    + intros x x' Hr. apply rp_ret. constructor; auto.
Qed.

End Pass.
