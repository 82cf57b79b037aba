(** Proofs for C42-C44: whole domains, whole documents, and the three sources
    of similarity (layout, renaming, equal JSON). *)
From Coq Require Import String NArith Bool List Permutation PeanoNat Lia.
From Verif Require Import Base Token Lexer Errors Ast AstRel ParserRel Parser ParserProofs ParserStream Graph Semantic Tdg Api TdgGraph TdgNull
  FormulaInd Json SpecIo SpecSim SimSem SimTdg.
Import ListNotations.
Open Scope list_scope.
Open Scope nat_scope.
Open Scope outcome_scope.

Section Top.
Variable rn : renaming.
Variable RL : N -> N -> Prop.
Hypothesis Hrn : renaming_ok rn.
Variable he : hash_env.
Hypothesis Hhe : hash_env_ok he.

Lemma reachable_calm fuel g n : In n (map fst (tg_tasks g)) ->
  reachable he fuel g n = OutOfFuel \/ exists r, reachable he fuel g n = Ok r.
Proof.
  intros Hn. unfold reachable. destruct (index_first_some _ _ Hn) as (i & ->).
  destruct (nth i (tg_tasks g) (""%string, false)) as [m [|]]; eauto.
  assert (forall fuel q v r, bfs he fuel g q v r = OutOfFuel \/ exists r', bfs he fuel g q v r = Ok r') as Hb.
  { induction fuel0 as [|f IH]; intros [|x q] v r; simpl; eauto. destruct (mem_nat _ _); apply IH. }
  destruct (Hb fuel [i] [] [i]) as [->|(r & ->)]; cbn [obind]; auto.
  unfold compute_nullables. destruct (null_loop_calm he g fuel (null_init he g)) as [C1 C2].
  destruct (null_loop he fuel g (null_init he g)); cbn [obind]; eauto; exfalso; [eapply C1|eapply C2]; reflexivity.
Qed.
Lemma refinement_calm fuel g : forall ts, (forall t, In t ts -> In (task_name t) (map fst (tg_tasks g))) ->
  refinement_warnings he fuel g ts = OutOfFuel \/ exists ws, refinement_warnings he fuel g ts = Ok ws.
Proof.
  induction ts as [|t ts IH]; intros H; simpl; eauto.
  destruct (reachable_calm fuel g (task_name t)) as [->|(r & ->)]; [apply H; simpl; auto| |]; cbn [obind]; auto.
  destruct IH as [->|(ws & ->)]; [intros; apply H; simpl; auto| |]; cbn [obind]; eauto.
Qed.

Section Tables.
Variables (d d' : domain_ast) (fuel : nat).
Hypothesis H : domain_sim rn RL d d'.

(** The tables differ in the warnings only. *)
Lemma verify_domain_with (W : list warning -> list warning -> Prop) :
  (forall g g', tdg_new d = Ok g -> tdg_new d' = Ok g' -> tdg_sim rn RL g g' ->
     result_sim rn RL W (refinement_warnings he fuel g (ho_decl he (d_tasks d)))
                        (refinement_warnings he fuel g' (ho_decl he (d_tasks d')))) ->
  result_sim rn RL (table_sim rn RL W) (verify_domain he fuel d) (verify_domain he fuel d').
Proof.
  intros HW. unfold verify_domain. apply seq_sim; [apply check_domain_sim; auto|].
  pose proof (tdg_new_sim rn RL Hrn d d' H) as Ht.
  remember (tdg_new d) as x eqn:Ex. remember (tdg_new d') as y eqn:Ey. symmetry in Ex, Ey.
  destruct Ht as [g g' Hg|e e' He|p|]; cbn [obind]; try (constructor; auto; fail).
  eapply bind_sim; [apply HW; auto|]. intros ws ws' Hws. constructor.
  constructor; cbn [st_warnings st_constants st_predicates st_tasks st_actions st_types]; auto; try apply H.
  apply constants_sim; auto.
Qed.

Theorem verify_domain_sim :
  result_sim rn RL (table_sim rn RL (warnings_sim rn RL)) (verify_domain he fuel d) (verify_domain he fuel d').
Proof.
  apply verify_domain_with. intros g g' Ex Ey Hg.
  assert (forall d g, tdg_new d = Ok g -> forall ts, Permutation ts (d_tasks d) ->
    forall t, In t ts -> In (task_name t) (map fst (tg_tasks g))) as Hin.
  { intros d0 g0 E ts P t Hts. rewrite (tdg_tasks _ _ E). unfold task_list. rewrite map_app, map_map.
    apply in_or_app. left. apply in_map_iff. exists t. split; auto. eapply Permutation_in; eauto. }
  destruct (perm_sim (task_sim rn RL) (d_tasks d) (ho_decl he (d_tasks d)) (Permutation_sym (ho_decl_ok _ Hhe _))
             (d_tasks d') (ds_tasks _ _ _ _ H)) as (k & Pk & Hk).
  assert (Permutation k (ho_decl he (d_tasks d'))) as Pk'.
  { eapply perm_trans; [apply Permutation_sym, Pk|]. apply Permutation_sym, (ho_decl_ok _ Hhe). }
  pose proof (refinement_sim rn RL Hrn he Hhe d g g' Ex Hg fuel _ _ Hk) as Hr.
  destruct (refinement_calm fuel g' (ho_decl he (d_tasks d'))) as [E|(ws & E)].
  { apply (Hin d' g' Ey). apply (ho_decl_ok _ Hhe). }
  - rewrite E. assert (refinement_warnings he fuel g' k = OutOfFuel) as Ek.
    { destruct (refinement_calm fuel g' k) as [Ek|(ws & Ek)]; auto.
      { apply (Hin d' g' Ey). apply Permutation_sym; auto. }
      destruct (refinement_perm he fuel g' _ _ Pk' _ Ek) as (ws' & E' & _). congruence. }
    rewrite Ek in Hr. inversion Hr; subst. constructor.
  - rewrite E. destruct (refinement_perm he fuel g' _ _ (Permutation_sym Pk') _ E) as (ws' & E' & Pw).
    rewrite E' in Hr. inversion Hr; subst. constructor. exists ws'. split; auto. apply Permutation_sym; auto.
Qed.
Theorem verify_domain_list_sim : Forall2 (task_sim rn RL) (ho_decl he (d_tasks d)) (ho_decl he (d_tasks d')) ->
  result_sim rn RL (table_sim rn RL (Forall2 (warning_sim rn RL))) (verify_domain he fuel d) (verify_domain he fuel d').
Proof.
  intros Hk. apply verify_domain_with. intros g g' Ex Ey Hg.
  apply (refinement_sim rn RL Hrn he Hhe d g g' Ex Hg fuel _ _ Hk).
Qed.

Theorem domain_metadata_sim lfuel : (forall x, fI rn x = x) ->
  result_sim rn RL (fun m m' => metadata_sim rn m m' /\
      exists nulls, md_nullables m = ho_names he nulls /\ md_nullables m' = ho_names he (map (fA rn) nulls))
    (domain_metadata he fuel lfuel d) (domain_metadata he fuel lfuel d').
Proof.
  intros Hids. unfold domain_metadata. pose proof (tdg_new_sim rn RL Hrn d d' H) as Ht.
  remember (tdg_new d) as x eqn:Ex. remember (tdg_new d') as y eqn:Ey. symmetry in Ex, Ey.
  destruct Ht as [g g' Hg|e e' He|p|]; cbn [obind]; try (constructor; auto; fail).
  eapply bind_sim; [apply (compute_nullables_sim rn RL Hrn he Hhe d g g' Ex Hg)|]. intros nulls ? ->.
  eapply bind_sim; [apply (get_recursion_type_sim rn RL Hrn he Hhe d g g' Ex Hg Hids)|]. intros r ? ->.
  constructor. split; [constructor; cbn|cbn; eauto]; auto.
  - eapply perm_trans; [apply (ho_names_ok _ Hhe)|]. apply Permutation_map. apply Permutation_sym, (ho_names_ok _ Hhe).
  - rewrite (opt_rel_map _ _ _ (ds_actions _ _ _ _ H)), (opt_rel_map _ _ _ (ds_tasks _ _ _ _ H)),
      (opt_rel_map _ _ _ (ds_methods _ _ _ _ H)). reflexivity.
Qed.
End Tables.

(** ** Documents *)
Inductive ast_sim : ast -> ast -> Prop :=
| at_domain d d' : domain_sim rn RL d d' -> ast_sim (ADomain d) (ADomain d')
| at_problem p p' : problem_sim rn RL p p' -> ast_sim (AProblem p) (AProblem p').

Section Docs.
Context `{Unicode}.
Definition doc_sim (n : nat) (s s' : string) : Prop := result_sim rn RL ast_sim (parse n s) (parse n s').

Lemma parse_as_domain_sim n s s' : doc_sim n s s' ->
  result_sim rn RL (domain_sim rn RL) (parse_as_domain n s) (parse_as_domain n s').
Proof.
  intros Hs. unfold parse_as_domain. eapply bind_sim; [apply Hs|]. intros a b [d d' Hd|p p' Hp]; constructor; auto.
Qed.
Lemma parse_as_problem_sim n s s' : doc_sim n s s' ->
  result_sim rn RL (problem_sim rn RL) (parse_as_problem n s) (parse_as_problem n s').
Proof.
  intros Hs. unfold parse_as_problem. eapply bind_sim; [apply Hs|]. intros a b [d d' Hd|p p' Hp]; constructor; auto.
Qed.

Theorem verify_sim n dom dom' prob prob' : doc_sim n dom dom' -> opt_rel (doc_sim n) prob prob' ->
  result_sim rn RL (warnings_sim rn RL) (verify he n dom prob) (verify he n dom' prob').
Proof.
  intros Hd Hp. unfold verify. eapply bind_sim; [apply parse_as_domain_sim, Hd|]. intros d d' Hdd.
  eapply bind_sim; [apply verify_domain_sim, Hdd|]. intros tb tb' Ht.
  destruct Hp as [|p p' Hp]; [constructor; apply Ht|].
  eapply bind_sim; [apply parse_as_problem_sim, Hp|]. intros a b Hab. apply verify_problem_sim; auto.
Qed.
Theorem get_metadata_sim n l dom dom' : doc_sim n dom dom' -> (forall x, fI rn x = x) ->
  result_sim rn RL (fun m m' => metadata_sim rn m m' /\
      exists nulls, md_nullables m = ho_names he nulls /\ md_nullables m' = ho_names he (map (fA rn) nulls))
    (get_metadata he n l dom) (get_metadata he n l dom').
Proof.
  intros Hd Hids. unfold get_metadata. eapply bind_sim; [apply parse_as_domain_sim, Hd|]. intros d d' Hdd.
  apply domain_metadata_sim; auto.
Qed.
End Docs.
End Top.

Lemma ren_id_ok : renaming_ok ren_id.
Proof. constructor; intros x y E; exact E. Qed.

(** ** Layout *)
Section Layout.
Variable RL : N -> N -> Prop.
Lemma opt_map_id {A} (o : option A) : option_map (fun x => x) o = o.
Proof. destruct o; auto. Qed.
Lemma sym_layout s s' : sym_rel RL s s' -> forall f, (forall x, f x = x) -> sym_sim ren_id RL f s s'.
Proof. intros [n p p' Hp|n p p' t q q' Hp Hq] f Hf; constructor; simpl; rewrite ?Hf; auto; constructor; auto. Qed.
Lemma plain_layout s s' : plain_rel RL s s' -> forall f, (forall x, f x = x) -> sym_sim ren_id RL f s s'.
Proof. intros [n p p' Hp] f Hf; constructor; simpl; rewrite ?Hf; auto; constructor; auto. Qed.
Lemma Forall2_impl {A B} (R S : A -> B -> Prop) l l' : Forall2 R l l' -> (forall a b, R a b -> S a b) -> Forall2 S l l'.
Proof. induction 1; constructor; auto. Qed.
Lemma opt_impl {A B} (R S : A -> B -> Prop) l l' : opt_rel R l l' -> (forall a b, R a b -> S a b) -> opt_rel S l l'.
Proof. intros [|a b Hab] Hi; constructor; auto. Qed.
Lemma vars_layout l l' : syms_rel RL l l' -> vars_sim ren_id RL l l'.
Proof. intros Hl. eapply Forall2_impl; [apply Hl|]. intros. apply sym_layout; auto. Qed.
Lemma plains_layout l l' : Forall2 (plain_rel RL) l l' -> vars_sim ren_id RL l l'.
Proof. intros Hl. eapply Forall2_impl; [apply Hl|]. intros. apply plain_layout; auto. Qed.
Lemma pred_layout p p' : pred_rel RL p p' -> pred_sim ren_id RL p p'.
Proof. intros [n a a' l l' Ha Hl]. constructor; auto. apply vars_layout; auto. Qed.
Lemma formula_layout f f' : formula_rel RL f f' -> formula_sim ren_id RL f f'.
Proof.
  revert f f'. apply (formula_rel_mut RL (fun f f' _ => formula_sim ren_id RL f f') (fun l l' _ => formulas_sim ren_id RL l l'));
    intros; constructor; auto. apply pred_layout; auto.
Qed.
Lemma task_layout t t' : task_rel RL t t' -> task_sim ren_id RL t t'.
Proof. intros [n a a' l l' Ha Hl]. constructor; auto. apply vars_layout; auto. Qed.
Lemma formulas_layout o o' : opt_rel (formula_rel RL) o o' -> opt_rel (formula_sim ren_id RL) o o'.
Proof. intros Ho. eapply opt_impl; [apply Ho|]. apply formula_layout. Qed.
Lemma action_layout t t' : action_rel RL t t' -> action_sim ren_id RL t t'.
Proof.
  intros [n a a' l l' pre pre' eff eff' Ha Hl Hp He]. constructor; auto; try apply vars_layout; try apply formulas_layout; auto.
Qed.
Lemma subtask_layout s s' : subtask_rel RL s s' -> subtask_sim ren_id RL s s'.
Proof.
  intros [i i' t t' l l' Hi Ht Hl]. constructor; simpl.
  - eapply opt_impl; [apply Hi|]. intros a b [n p p' _]. reflexivity.
  - destruct Ht; reflexivity.
  - destruct Ht; auto.
  - apply plains_layout; auto.
Qed.
Lemma htn_layout t t' : htn_rel RL t t' -> htn_sim ren_id RL t t'.
Proof.
  intros [s s' c Hs|s s' o o' l c Hs Ho _]; constructor; simpl; auto; try constructor;
    try (eapply Forall2_impl; [apply Hs|apply subtask_layout]).
  rewrite <- (map_id l) at 1. apply map_ext. intros [a b]. reflexivity.
Qed.
Lemma method_layout m m' : method_rel RL m m' -> method_sim ren_id RL m m'.
Proof.
  intros [n n' t t' l l' p p' pre pre' tn tn' Hn Ht Hl Hp Hpre Htn]. constructor; simpl.
  - destruct Hn; auto.
  - destruct Hn; auto.
  - destruct Ht; auto.
  - destruct Ht; auto.
  - apply vars_layout; auto.
  - apply vars_layout; auto.
  - apply formulas_layout; auto.
  - apply htn_layout; auto.
Qed.
Lemma domain_layout d d' : domain_rel RL d d' -> domain_sim ren_id RL d d'.
Proof.
  intros [n ty ty' c c' r p p' t t' m m' a a' f f' Hty Hc Hp Ht Hm Ha Hf]. constructor; simpl; auto.
  - eapply opt_impl; [apply Hty|]. intros x y Hxy. eapply Forall2_impl; [apply Hxy|]. intros. apply sym_layout; auto.
  - eapply opt_impl; [apply Hc|]. apply vars_layout.
  - eapply Forall2_impl; [apply Hp|]. apply pred_layout.
  - eapply Forall2_impl; [apply Ht|]. apply task_layout.
  - eapply Forall2_impl; [apply Hm|]. apply method_layout.
  - eapply Forall2_impl; [apply Ha|]. apply action_layout.
Qed.
Lemma problem_layout p p' : problem_rel RL p p' -> problem_sim ren_id RL p p'.
Proof.
  intros [r tn tn' i i' g g' o o' Ht Hi Hg Ho]. constructor; simpl.
  - eapply opt_impl; [apply Ht|]. intros a b [q q' t t' Hq Htt]. constructor; simpl; [|apply htn_layout; auto].
    eapply opt_impl; [apply Hq|]. apply vars_layout.
  - eapply Forall2_impl; [apply Hi|]. apply pred_layout.
  - apply formulas_layout; auto.
  - apply vars_layout; auto.
Qed.
Lemma doc_layout `{Unicode} n s s' : outcome_rel RL (ast_rel RL) (parse n s) (parse n s') -> doc_sim ren_id RL n s s'.
Proof.
  unfold doc_sim. intros [a a' [d d' Hd|p p' Hp]|e e' [t l q q' Hq|x t q q' Hq]|p|]; try (constructor; constructor; auto; fail).
  - apply ok_sim, at_domain, domain_layout; auto.
  - apply ok_sim, at_problem, problem_layout; auto.
Qed.
End Layout.

(** ** Renaming *)
Section Renamed.
Variable rn : renaming.
Lemma Forall2_map_same {A} (R : A -> A -> Prop) (f : A -> A) l : (forall x, R x (f x)) -> Forall2 R l (map f l).
Proof. intros Hf. induction l; simpl; constructor; auto. Qed.
Lemma opt_map_same {A} (R : A -> A -> Prop) (f : A -> A) o : (forall x, R x (f x)) -> opt_rel R o (option_map f o).
Proof. intros Hf. destruct o; simpl; constructor; auto. Qed.
Lemma opt_refl {A} (o : option A) : opt_rel eq o o.
Proof. destruct o; constructor; auto. Qed.
Lemma ren_sym_sim f s : sym_sim rn eq f s (ren_sym rn f s).
Proof. constructor; simpl; auto. apply opt_refl. Qed.
Lemma ren_vars_sim l : vars_sim rn eq l (ren_vars rn l).
Proof. apply Forall2_map_same. apply ren_sym_sim. Qed.
Lemma ren_pred_sim p : pred_sim rn eq p (ren_pred rn p).
Proof. constructor; simpl; auto. apply ren_vars_sim. Qed.
Lemma ren_formula_sim f : formula_sim rn eq f (ren_formula rn f).
Proof.
  induction f using formula_nested_ind;
    simpl; constructor; auto; try apply ren_pred_sim;
    match goal with IH : Forall _ ?l |- formulas_sim _ _ ?l _ => induction IH; simpl; constructor; auto end.
Qed.
Lemma ren_htn_sim t : htn_sim rn eq t (ren_htn rn t).
Proof.
  constructor; simpl.
  - apply Forall2_map_same. intros s. constructor; simpl; auto; [|apply ren_vars_sim].
    apply opt_map_same. intros i. reflexivity.
  - apply opt_refl.
  - destruct (htn_orderings t); simpl; auto.
Qed.
Lemma ren_domain_sim d : domain_sim rn eq d (ren_domain rn d).
Proof.
  constructor; simpl; auto.
  - apply opt_map_same. intros l. apply Forall2_map_same. apply ren_sym_sim.
  - apply opt_map_same. apply ren_vars_sim.
  - apply Forall2_map_same. apply ren_pred_sim.
  - apply Forall2_map_same. intros t. constructor; simpl; auto. apply ren_vars_sim.
  - apply Forall2_map_same. intros m. constructor; simpl; auto; try apply ren_vars_sim; [|apply ren_htn_sim].
    apply opt_map_same. apply ren_formula_sim.
  - apply Forall2_map_same. intros a. constructor; simpl; auto; try apply ren_vars_sim;
      apply opt_map_same; apply ren_formula_sim.
Qed.
Lemma ren_problem_sim p : problem_sim rn eq p (ren_problem rn p).
Proof.
  constructor; simpl.
  - apply opt_map_same. intros t. constructor; simpl; [|apply ren_htn_sim]. apply opt_map_same, ren_vars_sim.
  - apply Forall2_map_same. apply ren_pred_sim.
  - apply opt_map_same. apply ren_formula_sim.
  - apply ren_vars_sim.
Qed.
End Renamed.

(** ** Equal values *)
Section Values.
Context `{Floats}.
Lemma sym_refl s : forall f, (forall x, f x = x) -> sym_sim ren_id eq f s s.
Proof. intros f Hf. constructor; auto; [rewrite opt_map_id; auto|apply opt_refl]. Qed.
Lemma Forall2_refl' {A} (R : A -> A -> Prop) l : (forall x, R x x) -> Forall2 R l l.
Proof. intros. induction l; constructor; auto. Qed.
Lemma vars_refl l : vars_sim ren_id eq l l.
Proof. apply Forall2_refl'. intros. apply sym_refl; auto. Qed.
Lemma pred_refl p : pred_sim ren_id eq p p.
Proof. constructor; auto. apply vars_refl. Qed.
Lemma formulas_value_sim l : Forall (fun f => forall f', formula_value f = formula_value f' -> formula_sim ren_id eq f f') l ->
  forall l', map formula_value l = map formula_value l' -> formulas_sim ren_id eq l l'.
Proof. induction 1 as [|f l Hf _ IH]; intros [|f' l'] E; simpl in E; try discriminate; constructor; injection E; auto. Qed.
Lemma formula_value_sim f : forall f', formula_value f = formula_value f' -> formula_sim ren_id eq f f'.
Proof.
  induction f using formula_nested_ind; intros f' E; destruct f'; simpl in E; try discriminate;
    try (injection E; intros; subst); constructor; auto using formulas_value_sim, pred_refl.
Qed.
Lemma opt_value_sim o o' : option_map formula_value o = option_map formula_value o' -> opt_rel (formula_sim ren_id eq) o o'.
Proof. destruct o, o'; simpl; intros E; try discriminate; constructor. apply formula_value_sim. congruence. Qed.
Lemma map_eq_Forall2 {A B} (R : A -> A -> Prop) (f : A -> B) : (forall a b, f a = f b -> R a b) ->
  forall l l', map f l = map f l' -> Forall2 R l l'.
Proof. intros Hf. induction l as [|a l IH]; intros [|b l'] E; simpl in E; try discriminate; constructor; injection E; auto. Qed.
Lemma htn_refl t : htn_sim ren_id eq t t.
Proof.
  constructor.
  - apply Forall2_refl'. intros s. constructor; auto; [|apply vars_refl]. destruct (sub_id s); constructor; auto.
  - apply opt_refl.
  - destruct (htn_orderings t) as [|l]; simpl; auto. rewrite <- (map_id l) at 1. apply map_ext. intros [a b]; auto.
Qed.
Lemma domain_value_sim d d' : domain_value d = domain_value d' -> domain_sim ren_id eq d d' /\ d_tasks d = d_tasks d'.
Proof.
  destruct d as [n ty c r p t m a f], d' as [n' ty' c' r' p' t' m' a' f']. unfold domain_value. simpl.
  intros E. injection E as <- <- <- <- <- <- Em Ea <-. split; auto. constructor; simpl; auto.
  - destruct ty; constructor. apply Forall2_refl'. intros. apply sym_refl; auto.
  - destruct c; constructor. apply vars_refl.
  - apply Forall2_refl', pred_refl.
  - apply Forall2_refl'. intros. constructor; auto. apply vars_refl.
  - revert Em. apply map_eq_Forall2. intros [x1 x2 x3 x4 x5 x6] [y1 y2 y3 y4 y5 y6] E. unfold method_value in E.
    simpl in E. injection E as <- <- <- <- E <-. constructor; simpl; auto; try apply vars_refl; try apply htn_refl.
    apply opt_value_sim; auto.
  - revert Ea. apply map_eq_Forall2. intros [x1 x2 x3 x4 x5] [y1 y2 y3 y4 y5] E. unfold action_value in E.
    simpl in E. injection E as <- <- <- E1 E2. constructor; simpl; auto; try apply vars_refl; apply opt_value_sim; auto.
Qed.
Lemma problem_value_sim p p' : problem_value p = problem_value p' -> problem_sim ren_id eq p p'.
Proof.
  destruct p as [r t i g o], p' as [r' t' i' g' o']. unfold problem_value. simpl. intros E. injection E as <- <- <- E <-.
  constructor; simpl.
  - destruct t as [t|]; constructor. constructor; [|apply htn_refl]. destruct (itn_params t); constructor. apply vars_refl.
  - apply Forall2_refl', pred_refl.
  - apply opt_value_sim; auto.
  - apply vars_refl.
Qed.
End Values.

(** Without renaming and with equal lines, similar is equal. *)
Lemma dup_eq e e' : dup_sim eq (fun x => x) e e' -> e = e'.
Proof. intros [s a a' b b' -> ->]; auto. Qed.
Lemma undef_eq e e' : undef_sim eq (fun x => x) e e' -> e = e'.
Proof. intros [s a a' ->]; auto. Qed.
Lemma arity_eq e e' : arity_sim eq (fun x => x) e e' -> e = e'.
Proof. intros [s x y a a' ->]; auto. Qed.
Lemma type_eq e e' : type_sim ren_id eq e e' -> e = e'.
Proof. intros [f e0 x s a a' Hf ->]. simpl in *. rewrite !opt_map_id. destruct Hf as [<-|[<-|[<-|[]]]]; auto. Qed.
Lemma error_eq e e' : error_sim ren_id eq e e' -> e = e'.
Proof.
  intros [t l a a' ->|x t a a' ->|e0 e1 He]; auto. f_equal.
  destruct He; simpl in *; f_equal; auto using dup_eq, undef_eq, arity_eq, type_eq.
Qed.
Lemma warnings_eq ws ws' : Forall2 (warning_sim ren_id eq) ws ws' -> ws = ws'.
Proof. induction 1 as [|w w' l l' Hw _ IH]; auto. destruct Hw as [s a a' ->]. simpl. f_equal; auto. Qed.
Lemma result_eq {A} (R : A -> A -> Prop) o o' : (forall a b, R a b -> a = b) -> result_sim ren_id eq R o o' -> o = o'.
Proof. intros HR [a b Hab|e e' He|p|]; auto; f_equal; auto using error_eq. Qed.
Lemma recursion_id r : ren_recursion ren_id r = r.
Proof.
  assert (forall c, ren_cycle ren_id c = c) as Hc.
  { intros c. unfold ren_cycle. rewrite <- (map_id c) at 2. apply map_ext. intros [a b]; auto. }
  destruct r; simpl; rewrite ?Hc; auto.
Qed.
