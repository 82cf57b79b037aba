(** Proofs for C42-C44: verification of similar trees gives similar results. *)
From Coq Require Import String NArith Bool List Permutation PeanoNat.
From Verif Require Import Base Token Lexer Errors Ast AstRel Graph Semantic Tdg SpecSim.
Import ListNotations.
Open Scope list_scope.
Open Scope outcome_scope.

(** ** Names *)
Section Inj.
Variable f : string -> string.
Hypothesis Hf : injective f.

Lemma eqb_inj x y : String.eqb (f x) (f y) = String.eqb x y.
Proof.
  destruct (String.eqb_spec x y) as [->|N]; [apply String.eqb_refl|].
  apply String.eqb_neq. intros E. apply N, Hf, E.
Qed.
Lemma mem_str_map x l : mem_str (f x) (map f l) = mem_str x l.
Proof. unfold mem_str. induction l; simpl; auto. rewrite eqb_inj, IHl. auto. Qed.

Definition map_edge (e : string * string) := (f (fst e), f (snd e)).
Lemma expand_map es : forall seen, expand (map map_edge es) (map f seen) = map f (expand es seen).
Proof.
  unfold expand. induction es as [|[a b] es IH]; intros seen; simpl; auto.
  rewrite <- IH. f_equal. rewrite !mem_str_map. destruct (_ && _); auto.
Qed.
Lemma expand_n_map es : forall n seen, expand_n n (map map_edge es) (map f seen) = map f (expand_n n es seen).
Proof. induction n; intros; simpl; auto. rewrite expand_map. apply IHn. Qed.
Lemma has_path_map es a b : has_path (map map_edge es) (f a) (f b) = has_path es a b.
Proof.
  unfold has_path, reach_list. rewrite map_length.
  change [f a] with (map f [a]). rewrite expand_n_map. apply mem_str_map.
Qed.
Lemma acyclicb_map es : acyclicb (map map_edge es) = acyclicb es.
Proof.
  unfold acyclicb.
  assert (forall fs, forallb (fun e => negb (has_path (map map_edge es) (snd e) (fst e))) (map map_edge fs)
                     = forallb (fun e => negb (has_path es (snd e) (fst e))) fs) as H; auto.
  induction fs as [|[a b] fs IH]; cbn [map forallb]; auto.
  rewrite IH. unfold map_edge at 2 3. cbn [fst snd]. rewrite has_path_map. reflexivity.
Qed.
End Inj.

Lemma opt_rel_map {A B} (R : A -> B -> Prop) (l : list A) (l' : list B) :
  Forall2 R l l' -> length l' = length l.
Proof. induction 1; simpl; congruence. Qed.

Lemma Forall2_find {A B} (R : A -> B -> Prop) (p : A -> bool) (q : B -> bool) l l' :
  Forall2 R l l' -> (forall a b, R a b -> q b = p a) -> opt_rel R (find p l) (find q l').
Proof.
  intros H Hpq. induction H as [|a b l l' Hab _ IH]; simpl; [constructor|].
  rewrite (Hpq _ _ Hab). destruct (p a); auto. constructor; auto.
Qed.
Lemma Forall2_rev' {A B} (R : A -> B -> Prop) l l' : Forall2 R l l' -> Forall2 R (rev l) (rev l').
Proof. induction 1; simpl; auto. apply Forall2_app; auto. Qed.
Lemma Forall2_map_eq {A B C} (R : A -> B -> Prop) (g : A -> C) (g' : B -> C) l l' :
  Forall2 R l l' -> (forall a b, R a b -> g' b = g a) -> map g' l' = map g l.
Proof. induction 1; simpl; intros; auto. f_equal; auto. Qed.

Section Lift.
Variable rn : renaming.
Variable RL : N -> N -> Prop.
Hypothesis Hrn : renaming_ok rn.
Let HT := fT_inj _ Hrn.
Let HP := fP_inj _ Hrn.
Let HA := fA_inj _ Hrn.
Let HM := fM_inj _ Hrn.
Let HV := fV_inj _ Hrn.
Let HI := fI_inj _ Hrn.

Notation rsim := (@result_sim rn RL _ _).
Notation usim := (@result_sim rn RL unit unit eq).

Lemma bind_sim {A B C D} (R : A -> B -> Prop) (S : C -> D -> Prop) x y k k' :
  result_sim rn RL R x y -> (forall a b, R a b -> result_sim rn RL S (k a) (k' b)) ->
  result_sim rn RL S (obind x k) (obind y k').
Proof. intros [a b H|e e' H|p|] Hk; simpl; auto; constructor; auto. Qed.
Lemma seq_sim {C D} (S : C -> D -> Prop) (x y : outcome unit) k k' :
  usim x y -> result_sim rn RL S k k' -> result_sim rn RL S (x ;;; k) (y ;;; k').
Proof. intros H Hk. eapply bind_sim; eauto. Qed.
Lemma ok_tt : usim (Ok tt) (Ok tt).
Proof. constructor; auto. Qed.
Lemma sem_sim_err {A B} (R : A -> B -> Prop) e e' : sem_sim rn RL e e' -> result_sim rn RL R (sem e) (sem e').
Proof. intros. constructor. constructor. auto. Qed.
Lemma for_each_sim {A B} (R : A -> B -> Prop) f g l l' :
  Forall2 R l l' -> (forall a b, R a b -> usim (f a) (g b)) -> usim (for_each f l) (for_each g l').
Proof.
  intros H Hfg. induction H; simpl; [apply ok_tt|]. apply seq_sim; auto.
Qed.
Hint Resolve ok_tt : core.

(** ** Lookups *)
Lemma find_symbol_sim f n l l' : injective f -> Forall2 (sym_sim rn RL f) l l' ->
  opt_rel (sym_sim rn RL f) (find_symbol n l) (find_symbol (f n) l').
Proof.
  intros Hf H. apply Forall2_find; auto. intros a b Hab. rewrite (ss_name _ _ _ _ _ Hab). apply eqb_inj; auto.
Qed.
Lemma find_symbol_last_sim f n l l' : injective f -> Forall2 (sym_sim rn RL f) l l' ->
  opt_rel (sym_sim rn RL f) (find_symbol_last n l) (find_symbol_last (f n) l').
Proof. intros. apply find_symbol_sim; auto. apply Forall2_rev'; auto. Qed.
Lemma find_predicate_sim n l l' : Forall2 (pred_sim rn RL) l l' ->
  opt_rel (pred_sim rn RL) (find_predicate n l) (find_predicate (fP rn n) l').
Proof.
  intros H. apply Forall2_find; auto. intros a b Hab. rewrite (ps_name _ _ _ _ Hab). apply eqb_inj; auto.
Qed.
Lemma find_task_sim n l l' : Forall2 (task_sim rn RL) l l' ->
  opt_rel (task_sim rn RL) (find_task n l) (find_task (fA rn n) l').
Proof.
  intros H. apply Forall2_find; auto. intros a b Hab. rewrite (ts_name _ _ _ _ Hab). apply eqb_inj; auto.
Qed.
Lemma find_action_sim n l l' : Forall2 (action_sim rn RL) l l' ->
  opt_rel (action_sim rn RL) (find_action n l) (find_action (fA rn n) l').
Proof.
  intros H. apply Forall2_find; auto. intros a b Hab. rewrite (as_name _ _ _ _ Hab). apply eqb_inj; auto.
Qed.
Lemma vars_types l l' : vars_sim rn RL l l' -> map sym_type l' = map (option_map (fT rn)) (map sym_type l).
Proof. rewrite map_map. intros H. eapply Forall2_map_eq; eauto. intros a b Hab. apply (ss_type _ _ _ _ _ Hab). Qed.
Lemma vars_length l l' : vars_sim rn RL l l' -> length l' = length l.
Proof. apply opt_rel_map. Qed.

(** ** Types *)
Definition types_sim := opt_rel (Forall2 (sym_sim rn RL (fT rn))).
Lemma type_edges_sim t t' : types_sim t t' -> type_edges t' = map (map_edge (fT rn)) (type_edges t).
Proof.
  intros [|l l' H]; auto. simpl. induction H as [|a b l l' Hab _ IH]; cbn [flat_map]; auto.
  rewrite IH, map_app. f_equal. rewrite (ss_type _ _ _ _ _ Hab), (ss_name _ _ _ _ _ Hab).
  destruct (sym_type a); auto.
Qed.
Lemma type_nodes_sim t t' : types_sim t t' -> type_nodes t' = map (fT rn) (type_nodes t).
Proof.
  intros [|l l' H]; auto. simpl. induction H as [|a b l l' Hab _ IH]; cbn [flat_map]; auto.
  rewrite IH, map_app. f_equal. rewrite (ss_type _ _ _ _ _ Hab), (ss_name _ _ _ _ _ Hab).
  destruct (sym_type a); auto.
Qed.
Lemma hierarchy_sim t t' : types_sim t t' -> usim (verify_type_hierarchy t) (verify_type_hierarchy t').
Proof.
  intros H. unfold verify_type_hierarchy. rewrite (type_edges_sim _ _ H), acyclicb_map; auto.
  destruct (acyclicb _); auto. apply sem_sim_err. constructor.
Qed.
Lemma declared_sim f t t' l l' : types_sim t t' -> Forall2 (sym_sim rn RL f) l l' ->
  usim (check_type_declarations t l) (check_type_declarations t' l').
Proof.
  intros Ht H. apply (for_each_sim _ _ _ _ _ H). intros a b Hab.
  rewrite (ss_type _ _ _ _ _ Hab). destruct (sym_type a) as [x|]; simpl; auto.
  rewrite (type_nodes_sim _ _ Ht), mem_str_map; auto. destruct (mem_str _ _); auto.
  destruct (ss_tpos _ _ _ _ _ Hab); [constructor|]. apply sem_sim_err. constructor. constructor; auto.
Qed.
Lemma consistent_sim t t' x y : types_sim t t' ->
  is_var_type_consistent t' (option_map (fT rn) x) (option_map (fT rn) y) = is_var_type_consistent t x y.
Proof.
  intros H. destruct x, y; simpl; auto. rewrite (type_edges_sim _ _ H), has_path_map, eqb_inj; auto.
Qed.

(** ** Formulas *)
Lemma check_predicate_declarations_sim ps ps' : Forall2 (pred_sim rn RL) ps ps' ->
  forall f f', formula_sim rn RL f f' ->
  usim (check_predicate_declarations ps f) (check_predicate_declarations ps' f').
Proof.
  intros Hps.
  apply (formula_sim_mut rn RL
    (fun f f' _ => usim (check_predicate_declarations ps f) (check_predicate_declarations ps' f'))
    (fun l l' _ =>
       usim ((fix check_all (fs : list formula) : outcome unit :=
               match fs with [] => Ok tt
               | g :: fs' => check_predicate_declarations ps g ;;; check_all fs' end) l)
            ((fix check_all (fs : list formula) : outcome unit :=
               match fs with [] => Ok tt
               | g :: fs' => check_predicate_declarations ps' g ;;; check_all fs' end) l'))).
  - apply ok_tt.
  - intros p p' Hp. cbn [check_predicate_declarations]. rewrite (ps_name _ _ _ _ Hp).
    pose proof (find_predicate_sim (pred_name p) _ _ Hps) as Hd.
    destruct Hd as [|d d' Hd].
    + apply sem_sim_err. constructor. constructor. apply (ps_pos _ _ _ _ Hp).
    + rewrite (vars_length _ _ (ps_vars _ _ _ _ Hp)), (vars_length _ _ (ps_vars _ _ _ _ Hd)).
      destruct (Nat.eqb _ _); auto. apply sem_sim_err. constructor. constructor. apply (ps_pos _ _ _ _ Hp).
  - intros f f' _ IH. exact IH.
  - intros l l' _ IH. exact IH.
  - intros l l' _ IH. exact IH.
  - intros l l' _ IH. exact IH.
  - intros. constructor.
  - intros. constructor.
  - intros v v' f f' _ IH. exact IH.
  - intros w w' f f' _ IH. exact IH.
  - intros. apply ok_tt.
  - apply ok_tt.
  - intros f f' l l' _ IH _ IHl. apply seq_sim; auto.
Qed.
Lemma prop_preds_sim f f' : formula_sim rn RL f f' -> Forall2 (pred_sim rn RL) (prop_preds f) (prop_preds f').
Proof.
  revert f f'. apply (formula_sim_mut rn RL
    (fun f f' _ => Forall2 (pred_sim rn RL) (prop_preds f) (prop_preds f'))
    (fun l l' _ => Forall2 (pred_sim rn RL) (flat_map prop_preds l) (flat_map prop_preds l')));
    intros; simpl; auto using Forall2_app.
Qed.

(** ** Arguments *)
Definition inst_sim (x y : symbol * option string) : Prop :=
  sym_sim rn RL (fV rn) (fst x) (fst y) /\ snd y = option_map (fT rn) (snd x).
Lemma arg_types_sim ps ps' cs cs' : vars_sim rn RL ps ps' -> vars_sim rn RL cs cs' ->
  forall l l', vars_sim rn RL l l' ->
  result_sim rn RL (Forall2 inst_sim) (arg_types ps cs l) (arg_types ps' cs' l').
Proof.
  intros Hp Hc l l' H. induction H as [|a b l l' Hab _ IH]; simpl; [constructor; auto|].
  rewrite (ss_name _ _ _ _ _ Hab).
  destruct (find_symbol_last_sim _ (sym_name a) _ _ HV Hp) as [|p p' Hpp].
  - destruct (find_symbol_sim _ (sym_name a) _ _ HV Hc) as [|p p' Hpp].
    + apply sem_sim_err. constructor. constructor. apply (ss_pos _ _ _ _ _ Hab).
    + eapply bind_sim; [apply IH|]. intros. constructor. constructor; auto.
      split; auto. apply (ss_type _ _ _ _ _ Hpp).
  - eapply bind_sim; [apply IH|]. intros. constructor. constructor; auto.
    split; auto. apply (ss_type _ _ _ _ _ Hpp).
Qed.
Lemma check_arg_types_sim t t' mk : types_sim t t' ->
  (forall e e', type_sim rn RL e e' -> sem_sim rn RL (mk e) (mk e')) ->
  forall l l', Forall2 inst_sim l l' -> forall es,
  usim (check_arg_types t mk l es) (check_arg_types t' mk l' (map (option_map (fT rn)) es)).
Proof.
  intros Ht Hmk l l' H. induction H as [|[v x] [v' x'] l l' [Hv Hx] _ IH]; intros [|e es]; simpl; auto.
  simpl in *. subst x'. rewrite (consistent_sim _ _ _ _ Ht). destruct (is_var_type_consistent t x e); auto.
  apply sem_sim_err, Hmk. rewrite (ss_name _ _ _ _ _ Hv). constructor; [simpl; auto|apply (ss_pos _ _ _ _ _ Hv)].
Qed.
Lemma check_atom_sim t t' ps ps' cs cs' ds ds' p p' :
  types_sim t t' -> vars_sim rn RL ps ps' -> vars_sim rn RL cs cs' -> Forall2 (pred_sim rn RL) ds ds' ->
  pred_sim rn RL p p' -> usim (check_atom t ps cs ds p) (check_atom t' ps' cs' ds' p').
Proof.
  intros Ht Hp Hc Hd Hpp. unfold check_atom. rewrite (ps_name _ _ _ _ Hpp).
  destruct (find_predicate_sim (pred_name p) _ _ Hd) as [|d d' Hdd].
  - apply sem_sim_err. constructor. constructor. apply (ps_pos _ _ _ _ Hpp).
  - eapply bind_sim; [apply arg_types_sim; eauto; apply (ps_vars _ _ _ _ Hpp)|].
    intros i i' Hi. rewrite (opt_rel_map _ _ _ Hi), (vars_types _ _ (ps_vars _ _ _ _ Hdd)), !map_length.
    destruct (negb _).
    + apply sem_sim_err. constructor. constructor. apply (ps_pos _ _ _ _ Hpp).
    + eapply check_arg_types_sim; eauto. intros; constructor; auto.
Qed.
Lemma check_formula_sim t t' ps ps' cs cs' ds ds' l l' :
  types_sim t t' -> vars_sim rn RL ps ps' -> vars_sim rn RL cs cs' -> Forall2 (pred_sim rn RL) ds ds' ->
  Forall2 (pred_sim rn RL) l l' -> usim (check_formula t l ps cs ds) (check_formula t' l' ps' cs' ds').
Proof.
  intros. unfold check_formula. apply seq_sim; [eapply declared_sim; eauto|].
  eapply for_each_sim; eauto. intros. apply check_atom_sim; auto.
Qed.
Lemma is_task_consistent_sim t t' (k k' : symbol) l l' ps ps' cs cs' ts ts' acts acts' :
  types_sim t t' -> sym_name k' = fA rn (sym_name k) -> RL (sym_pos k) (sym_pos k') ->
  vars_sim rn RL l l' -> vars_sim rn RL ps ps' -> vars_sim rn RL cs cs' ->
  Forall2 (task_sim rn RL) ts ts' -> Forall2 (action_sim rn RL) acts acts' ->
  usim (is_task_consistent t k l ps cs ts acts) (is_task_consistent t' k' l' ps' cs' ts' acts').
Proof.
  intros Ht Hk Hpos Hl Hp Hc Hts Ha. unfold is_task_consistent.
  eapply bind_sim; [apply arg_types_sim; eauto|]. intros i i' Hi. rewrite Hk.
  rewrite (vars_length _ _ Hl), (opt_rel_map _ _ _ Hi).
  destruct (find_action_sim (sym_name k) _ _ Ha) as [|d d' Hdd].
  - destruct (find_task_sim (sym_name k) _ _ Hts) as [|d d' Hdd].
    + apply sem_sim_err. constructor. constructor. auto.
    + rewrite (vars_types _ _ (ts_params _ _ _ _ Hdd)), !map_length. destruct (negb _).
      * apply sem_sim_err. constructor. constructor. auto.
      * eapply check_arg_types_sim; eauto. intros; constructor; auto.
  - rewrite (vars_types _ _ (as_params _ _ _ _ Hdd)), !map_length. destruct (negb _).
    + apply sem_sim_err. constructor. constructor. auto.
    + eapply check_arg_types_sim; eauto. intros; constructor; auto.
Qed.

(** ** Duplicates *)
Lemma position_of_sim f : injective f -> forall (l : list (string * N)) l' x,
  Forall2 (fun a b => fst b = f (fst a) /\ RL (snd a) (snd b)) l l' ->
  result_sim rn RL RL (position_of x l) (position_of (f x) l').
Proof.
  intros Hf l l' x H. induction H as [|[n p] [n' p'] l l' [Hn Hp] _ IH]; simpl in *; [constructor|].
  subst n'. rewrite eqb_inj; auto. destruct (String.eqb n x); auto. constructor; auto.
Qed.
Lemma check_fresh_sim f mk : injective f ->
  (forall e e', dup_sim RL f e e' -> sem_sim rn RL (mk e) (mk e')) ->
  forall (l : list (string * N)) l' x p p',
  Forall2 (fun a b => fst b = f (fst a) /\ RL (snd a) (snd b)) l l' -> RL p p' ->
  usim (check_fresh mk l x p) (check_fresh mk l' (f x) p').
Proof.
  intros Hf Hmk l l' x p p' H Hp. unfold check_fresh.
  replace (map fst l') with (map f (map fst l)).
  2:{ rewrite map_map. symmetry. eapply Forall2_map_eq; eauto. intros a b [E _]; auto. }
  rewrite mem_str_map; auto. destruct (mem_str _ _); auto.
  eapply bind_sim; [apply position_of_sim; eauto|]. intros a b Hab.
  apply sem_sim_err, Hmk. constructor; auto.
Qed.
Lemma each_fresh_sim {A} (R : A -> A -> Prop) f mk name pos body body' : injective f ->
  (forall e e', dup_sim RL f e e' -> sem_sim rn RL (mk e) (mk e')) ->
  (forall a b, R a b -> name b = f (name a) /\ RL (pos a) (pos b)) ->
  forall l l', Forall2 R l l' ->
  (forall bs bs' a b, R a b -> In a l -> usim (body bs a) (body' bs' b)) ->
  forall bs bs', Forall2 R bs bs' ->
  usim (each_fresh mk name pos body bs l) (each_fresh mk name pos body' bs' l').
Proof.
  intros Hf Hmk HR l l' H. induction H as [|a b l l' Hab _ IH]; intros Hb bs bs' Hbs; simpl; auto.
  destruct (HR _ _ Hab) as [En Hp].
  apply seq_sim.
  - rewrite En. apply check_fresh_sim; auto.
    clear - Hbs HR. induction Hbs; simpl; constructor; auto. apply HR; auto.
  - apply seq_sim; [apply Hb; simpl; auto|]. apply IH; [simpl in *; auto|]. apply Forall2_app; auto.
Qed.

Lemma params_fresh_sim l l' : vars_sim rn RL l l' -> usim (check_params_fresh l) (check_params_fresh l').
Proof.
  intros H. unfold check_params_fresh. eapply each_fresh_sim with (R := sym_sim rn RL (fV rn)) (f := fV rn); eauto.
  - intros; constructor; auto.
  - intros a b Hab. split; apply Hab.
Qed.
Lemma requirements_sim : forall l seen, usim (check_duplicate_requirements seen l) (check_duplicate_requirements seen l).
Proof.
  induction l; intros; simpl; auto. destruct (existsb _ _); auto. apply sem_sim_err. constructor.
Qed.

(** ** Domains *)
Section Domain.
Variables d d' : domain_ast.
Hypothesis Hd : domain_sim rn RL d d'.
Lemma constants_sim : vars_sim rn RL (declared_constants d) (declared_constants d').
Proof. unfold declared_constants. destruct (ds_constants _ _ _ _ Hd); auto. constructor. Qed.
Lemma verify_formula_sim ps ps' f f' : vars_sim rn RL ps ps' -> opt_rel (formula_sim rn RL) f f' ->
  usim (verify_formula d ps f) (verify_formula d' ps' f').
Proof.
  intros Hp [|g g' Hg]; simpl; auto. apply seq_sim.
  - apply check_predicate_declarations_sim; auto. apply (ds_preds _ _ _ _ Hd).
  - apply check_formula_sim; auto; try apply Hd. apply constants_sim. apply prop_preds_sim; auto.
Qed.
Lemma verify_action_sim a a' : action_sim rn RL a a' -> usim (verify_action d a) (verify_action d' a').
Proof.
  intros H. unfold verify_action. apply seq_sim; [apply params_fresh_sim, H|].
  apply seq_sim; apply verify_formula_sim; apply H.
Qed.
Lemma verify_ordering_sim t t' : htn_sim rn RL t t' -> usim (verify_ordering t) (verify_ordering t').
Proof.
  intros H. unfold verify_ordering. replace (is_acyclic (htn_orderings t')) with (is_acyclic (htn_orderings t)).
  - destruct (is_acyclic _); auto. destruct (hs_pos _ _ _ _ H); [constructor|]. apply sem_sim_err. constructor; auto.
  - pose proof (hs_orderings _ _ _ _ H) as Ho. destruct (htn_orderings t), (htn_orderings t'); simpl in Ho; try tauto.
    subst. simpl. symmetry. apply (acyclicb_map _ HI).
Qed.
Lemma verify_method_task_sim m m' : method_sim rn RL m m' -> usim (verify_method_task d m) (verify_method_task d' m').
Proof.
  intros H. unfold verify_method_task. rewrite (ms_task _ _ _ _ H).
  destruct (find_task_sim (sym_name (m_task m)) _ _ (ds_tasks _ _ _ _ Hd)) as [|t t' Ht].
  - apply sem_sim_err. constructor. constructor. apply H.
  - rewrite (vars_length _ _ (ms_terms _ _ _ _ H)), (vars_length _ _ (ts_params _ _ _ _ Ht)).
    destruct (Nat.eqb _ _); auto. apply sem_sim_err. constructor. constructor. apply H.
Qed.
Lemma verify_method_sim m m' : method_sim rn RL m m' -> usim (verify_method d m) (verify_method d' m').
Proof.
  intros H. unfold verify_method. apply seq_sim; [apply params_fresh_sim, H|].
  apply seq_sim; [apply verify_formula_sim; apply H|].
  apply seq_sim; [apply verify_method_task_sim, H|].
  apply seq_sim. { apply is_task_consistent_sim; try apply H; try apply Hd. apply constants_sim. constructor. }
  apply seq_sim; [|apply verify_ordering_sim, H].
  eapply for_each_sim; [apply (hs_subtasks _ _ _ _ (ms_tn _ _ _ _ H))|].
  intros s s' Hs. apply is_task_consistent_sim; try apply Hs; try apply Hd; [apply H|apply constants_sim].
Qed.
Theorem check_domain_sim : usim (check_domain d) (check_domain d').
Proof.
  unfold check_domain. rewrite (ds_reqs _ _ _ _ Hd). apply seq_sim; [apply requirements_sim|].
  apply seq_sim; [apply hierarchy_sim, Hd|].
  apply seq_sim.
  { unfold verify_predicates. eapply each_fresh_sim with (R := pred_sim rn RL) (f := fP rn); auto; try apply Hd.
    - intros; constructor; auto.
    - intros a b Hab. split; apply Hab.
    - intros _ _ a b Hab _. eapply declared_sim; [apply Hd|apply Hab]. }
  apply seq_sim.
  { unfold verify_compound_tasks. eapply each_fresh_sim with (R := task_sim rn RL) (f := fA rn); auto; try apply Hd.
    - intros; constructor; auto.
    - intros a b Hab. split; apply Hab.
    - intros _ _ a b Hab _. eapply declared_sim; [apply Hd|apply Hab]. }
  apply seq_sim.
  { eapply each_fresh_sim with (R := action_sim rn RL) (f := fA rn); auto; try apply Hd.
    - intros; constructor; auto.
    - intros a b Hab. split; apply Hab.
    - intros _ _ a b Hab _. apply verify_action_sim; auto. }
  { eapply each_fresh_sim with (R := method_sim rn RL) (f := fM rn); auto; try apply Hd.
    - intros; constructor; auto.
    - intros a b Hab. split; apply Hab.
    - intros _ _ a b Hab _. apply verify_method_sim; auto. }
Qed.
End Domain.

(** ** Problems: [W] compares the warnings of the domain. *)
Variable W : list warning -> list warning -> Prop.
Record table_sim (t t' : symbol_table) : Prop := mkTableSim {
  tbs_warnings : W (st_warnings t) (st_warnings t');
  tbs_constants : vars_sim rn RL (st_constants t) (st_constants t');
  tbs_preds : Forall2 (pred_sim rn RL) (st_predicates t) (st_predicates t');
  tbs_tasks : Forall2 (task_sim rn RL) (st_tasks t) (st_tasks t');
  tbs_actions : Forall2 (action_sim rn RL) (st_actions t) (st_actions t');
  tbs_types : types_sim (st_types t) (st_types t')
}.
Section Problem.
Variables tb tb' : symbol_table.
Hypothesis Htb : table_sim tb tb'.
Variables os os' : list symbol.
Hypothesis Hos : vars_sim rn RL os os'.

Lemma Forall2_combine {A B C D} (R : A -> B -> Prop) (S : C -> D -> Prop) l l' : Forall2 R l l' ->
  forall k k', Forall2 S k k' ->
  Forall2 (fun x y => R (fst x) (fst y) /\ S (snd x) (snd y)) (combine l k) (combine l' k').
Proof. induction 1; intros k k' Hk; destruct Hk; simpl; constructor; auto. Qed.

Lemma check_pred_arg_sim n e e' x x' : sym_sim rn RL (fV rn) e e' -> sym_sim rn RL (fV rn) x x' ->
  usim (check_pred_arg tb os n e x) (check_pred_arg tb' os' (fP rn n) e' x').
Proof.
  intros He Hx. unfold check_pred_arg. rewrite (ss_name _ _ _ _ _ Hx), (ss_type _ _ _ _ _ He), (ss_type _ _ _ _ _ Hx).
  destruct (find_symbol_last_sim _ (sym_name x) _ _ HV Hos) as [|o o' Ho].
  - destruct (find_symbol_sim _ (sym_name x) _ _ HV (tbs_constants _ _ Htb)) as [|o o' Ho].
    + apply sem_sim_err. constructor. constructor. apply Hx.
    + rewrite (ss_type _ _ _ _ _ Ho), (consistent_sim _ _ _ _ (tbs_types _ _ Htb)).
      destruct (is_var_type_consistent _ _ _); auto.
      apply sem_sim_err. constructor. constructor; [simpl; auto|apply Hx].
  - rewrite (ss_type _ _ _ _ _ Ho), (consistent_sim _ _ _ _ (tbs_types _ _ Htb)).
    destruct (is_var_type_consistent _ _ _); auto.
    apply sem_sim_err. constructor. constructor; [simpl; auto|apply Hx].
Qed.
Lemma check_predicate_instantiation_sim p p' : pred_sim rn RL p p' ->
  usim (check_predicate_instantiation tb os p) (check_predicate_instantiation tb' os' p').
Proof.
  intros H. unfold check_predicate_instantiation. rewrite (ps_name _ _ _ _ H).
  destruct (find_predicate_sim (pred_name p) _ _ (tbs_preds _ _ Htb)) as [|e e' He].
  - apply sem_sim_err. constructor. constructor. apply H.
  - rewrite (vars_length _ _ (ps_vars _ _ _ _ H)), (vars_length _ _ (ps_vars _ _ _ _ He)).
    destruct (negb _).
    + apply sem_sim_err. constructor. constructor. apply H.
    + eapply for_each_sim; [eapply Forall2_combine; [apply He|apply H]|].
      intros [a b] [a' b'] [Ha Hb]. apply check_pred_arg_sim; auto.
Qed.
Lemma check_subtask_arg_sim ps ps' n e e' x x' : opt_rel (vars_sim rn RL) ps ps' ->
  sym_sim rn RL (fV rn) e e' -> sym_sim rn RL (fV rn) x x' ->
  usim (check_subtask_arg tb os ps n e x) (check_subtask_arg tb' os' ps' (fA rn n) e' x').
Proof.
  intros Hps He Hx. unfold check_subtask_arg. rewrite (ss_name _ _ _ _ _ Hx), (ss_type _ _ _ _ _ He).
  destruct (find_symbol_last_sim _ (sym_name x) _ _ HV Hos) as [|o o' Ho].
  - assert (opt_rel (sym_sim rn RL (fV rn))
      (match ps with Some ps => find_symbol (sym_name x) ps | None => None end)
      (match ps' with Some ps => find_symbol (fV rn (sym_name x)) ps | None => None end)) as Hq.
    { destruct Hps as [|q q' Hq]; [constructor|]. apply find_symbol_sim; auto. }
    destruct Hq as [|o o' Ho].
    + destruct (find_symbol_sim _ (sym_name x) _ _ HV (tbs_constants _ _ Htb)) as [|o o' Ho].
      * apply sem_sim_err. constructor. constructor. apply Hx.
      * rewrite (ss_type _ _ _ _ _ Ho), (consistent_sim _ _ _ _ (tbs_types _ _ Htb)).
        destruct (is_var_type_consistent _ _ _); auto.
        apply sem_sim_err. constructor. constructor; [simpl; auto|apply Hx].
    + rewrite (ss_type _ _ _ _ _ Ho), (consistent_sim _ _ _ _ (tbs_types _ _ Htb)).
      destruct (is_var_type_consistent _ _ _); auto.
      apply sem_sim_err. constructor. constructor; [simpl; auto|apply Hx].
  - rewrite (ss_type _ _ _ _ _ Ho), (consistent_sim _ _ _ _ (tbs_types _ _ Htb)).
    destruct (is_var_type_consistent _ _ _); auto.
    apply sem_sim_err. constructor. constructor; [simpl; auto|apply Hx].
Qed.
Lemma check_subtask_instantiation_sim ps ps' s s' : opt_rel (vars_sim rn RL) ps ps' -> subtask_sim rn RL s s' ->
  usim (check_subtask_instantiation tb os ps s) (check_subtask_instantiation tb' os' ps' s').
Proof.
  intros Hps H. unfold check_subtask_instantiation. rewrite (us_task _ _ _ _ H).
  assert (forall fs fs', vars_sim rn RL fs fs' ->
    usim (if negb (Nat.eqb (length fs) (length (sub_terms s)))
          then sem (InconsistentTaskArity (mkArity (sym_name (sub_task s)) (length fs) (length (sub_terms s)) (sym_pos (sub_task s))))
          else for_each (fun ef => check_subtask_arg tb os ps (sym_name (sub_task s)) (fst ef) (snd ef)) (combine fs (sub_terms s)))
         (if negb (Nat.eqb (length fs') (length (sub_terms s')))
          then sem (InconsistentTaskArity (mkArity (fA rn (sym_name (sub_task s))) (length fs') (length (sub_terms s')) (sym_pos (sub_task s'))))
          else for_each (fun ef => check_subtask_arg tb' os' ps' (fA rn (sym_name (sub_task s))) (fst ef) (snd ef)) (combine fs' (sub_terms s')))) as Hc.
  { intros fs fs' Hf. rewrite (vars_length _ _ Hf), (vars_length _ _ (us_terms _ _ _ _ H)). destruct (negb _).
    - apply sem_sim_err. constructor. constructor. apply H.
    - eapply for_each_sim; [eapply Forall2_combine; [apply Hf|apply H]|].
      intros [a b] [a' b'] [Ha Hb]. apply check_subtask_arg_sim; auto. }
  destruct (find_action_sim (sym_name (sub_task s)) _ _ (tbs_actions _ _ Htb)) as [|a a' Ha].
  - destruct (find_task_sim (sym_name (sub_task s)) _ _ (tbs_tasks _ _ Htb)) as [|a a' Ha].
    + apply sem_sim_err. constructor. constructor. apply H.
    + apply Hc, Ha.
  - apply Hc, Ha.
Qed.
End Problem.

Theorem verify_problem_sim tb tb' p p' : table_sim tb tb' -> problem_sim rn RL p p' ->
  result_sim rn RL W (verify_problem tb p) (verify_problem tb' p').
Proof.
  intros Htb H. pose proof (prs_objects _ _ _ _ H) as Ho. unfold verify_problem.
  apply seq_sim; [eapply declared_sim; [apply Htb|apply Ho]|].
  apply seq_sim.
  { eapply each_fresh_sim with (R := sym_sim rn RL (fV rn)) (f := fV rn); auto.
    - intros; constructor; auto.
    - intros a b Hab. split; apply Hab. }
  apply seq_sim.
  { eapply for_each_sim; [apply (prs_init _ _ _ _ H)|]. intros. apply check_predicate_instantiation_sim; auto. }
  apply seq_sim.
  { destruct (prs_tn _ _ _ _ H) as [|t t' Ht]; auto. apply seq_sim; [apply verify_ordering_sim, Ht|].
    eapply for_each_sim; [apply (hs_subtasks _ _ _ _ (is_tn _ _ _ _ Ht))|].
    intros. apply check_subtask_instantiation_sim; auto. apply Ht. }
  apply seq_sim.
  { destruct (prs_goal _ _ _ _ H) as [|g g' Hg]; auto.
    eapply for_each_sim; [apply prop_preds_sim, Hg|]. intros. apply check_predicate_instantiation_sim; auto. }
  constructor. apply Htb.
Qed.
End Lift.
