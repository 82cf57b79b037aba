(** C72: what warnings and reachability say about plans.  Specification: SpecPlan.v. *)
From Coq Require Import String NArith Bool List Lia PeanoNat Permutation Relations Operators_Properties.
From Verif Require Import Base Token Lexer Errors Ast Parser Graph Semantic Tdg Api GraphProofs TdgGraph TdgReach SpecTdg SpecSem SpecExec
  TdgTop VerifyTop TdgSound SpecUnused SpecPlan PropsLex PropsSem PropsTdg PropsExec PropsUnused.
Import ListNotations.
Open Scope string_scope.
Open Scope list_scope.
Open Scope nat_scope.

Section Facts.
Variable d : domain_ast.
Variable p : problem_ast.
Notation step := (SpecExec.step d p).

(** ** Tasks that are done can be refined *)
Lemma refinable_all l : Forall (refinable d) l -> exists w, expands d l w /\ Forall (primitive d) w.
Proof.
  induction 1 as [|x l (v & Hv & Pv) _ (w & Hw & Pw)]; [exists []; split; [apply rt_refl|constructor]|].
  exists (v ++ w). split; [|apply Forall_app; auto]. eapply rt_trans.
  - pose proof (expands_context d [] l [x] v Hv) as Hc. simpl in Hc. exact Hc.
  - pose proof (expands_context d v [] l w Hw) as Hc. rewrite !app_nil_r in Hc. exact Hc.
Qed.
Lemma method_refinable m : In m (d_methods d) -> Forall (refinable d) (subtask_names m) -> refinable d (sym_name (m_task m)).
Proof.
  intros Hm Hf. destruct (refinable_all _ Hf) as (w & Hw & Pw). exists w. split; auto. eapply rt_trans; [|exact Hw].
  apply rt_step. pose proof (ex_method d [] m [] Hm) as Hx. simpl in Hx. rewrite app_nil_r in Hx. exact Hx.
Qed.
Lemma inst_names b params l : map fst (map (inst_task b params) l) = map (fun s => sym_name (sub_task s)) l.
Proof. rewrite map_map. reflexivity. Qed.

Lemma done_refinable c c' : clos_refl_trans config step c c' -> snd c' = [] -> Forall (fun g => refinable d (fst g)) (snd c).
Proof.
  intros Hc. apply clos_rt_rt1n in Hc. induction Hc as [c|c c1 c' Hs _ IH]; intros E; [rewrite E; constructor|].
  specialize (IH E). destruct Hs as [m b facts w1 w2 Hm Hr|a b facts facts' w1 w2 Ha Hx]; cbn [snd] in *.
  - rewrite !Forall_app in IH. destruct IH as (I1 & I2 & I3). apply Forall_app. split; auto. constructor; auto. cbn [fst].
    apply method_refinable; auto. unfold subtask_names. rewrite <- (inst_names b (m_params m)). rewrite Forall_map. exact I2.
  - rewrite Forall_app in IH. destruct IH as (I1 & I2). apply Forall_app. split; auto. constructor; auto. cbn [fst].
    exists [act_name a]. split; [apply rt_refl|]. constructor; [apply in_map; auto|constructor].
Qed.

(** ** Tasks that have to be done are reached *)
Definition needed (x : string) : Prop := exists s, In s (initial_names p) /\ reaches d s x.
Lemma initial_needed c : initial d p c -> Forall (fun g => needed (fst g)) (snd c).
Proof.
  intros [E|t b E Hr]; [constructor|]. cbn [snd]. apply Forall_forall. intros g Hg. exists (fst g). split; [|apply rt_refl].
  unfold initial_names. rewrite E, <- (inst_names b (visible p t)). apply in_map; auto.
Qed.
Lemma method_needed m x : In m (d_methods d) -> needed (sym_name (m_task m)) -> In x (subtask_names m) -> needed x.
Proof. intros Hm (s & Hs & Hr) Hx. exists s. split; auto. eapply rt_trans; [exact Hr|]. apply rt_step. exists m. auto. Qed.
Lemma step_needed c c' : step c c' -> Forall (fun g => needed (fst g)) (snd c) -> Forall (fun g => needed (fst g)) (snd c').
Proof.
  intros [m b facts w1 w2 Hm Hr|a b facts facts' w1 w2 Ha Hx]; cbn [snd]; rewrite !Forall_app.
  - intros [I1 I2]. inversion I2 as [|x y I3 I4]; subst. cbn [fst] in I3. repeat split; auto.
    apply Forall_forall. intros g Hg. eapply method_needed; eauto. unfold subtask_names.
    rewrite <- (inst_names b (m_params m)). apply in_map; auto.
  - intros [I1 I2]. inversion I2; subst. auto.
Qed.
Lemma reachable_needed c : SpecExec.reachable d p c -> Forall (fun g => needed (fst g)) (snd c).
Proof.
  intros (c0 & Hi & Hc). apply initial_needed in Hi. induction Hc as [c0 c Hs|c0|c0 c1 c2 _ IH1 _ IH2]; auto.
  eapply step_needed; eauto.
Qed.

(** ** Without the other tasks, actions and methods *)
Section Restricted.
Variable keep : string -> bool.
Variable d' : domain_ast.
Hypothesis Hr : restricted keep d d'.
Hypothesis Hk : forall x, needed x -> keep x = true.

Lemma same_value o f : value d' p o f <-> value d p o f.
Proof.
  destruct Hr as (E1 & E2 & _). unfold value. assert (forall t, object_denotes d' p o t <-> object_denotes d p o t) as Ho.
  { intros t. assert (constants_of d' = constants_of d) as Ec by (unfold constants_of; rewrite E2; reflexivity).
    split; (intros [q Hq Eq Et|q Hu Hf Et]; [eapply od_object; eauto|eapply od_const; eauto]); [rewrite <- Ec|rewrite Ec]; auto. }
  split; intros (t & H1 & H2); exists t; rewrite E1 in *; (split; [apply Ho; auto|auto]).
Qed.
Lemma same_respects b params : respects d' p b params <-> respects d p b params.
Proof. unfold respects. split; intros H n q Hq; apply same_value; auto. Qed.
Lemma same_mentions b params f x : SpecExec.mentions d' p b params f x <-> SpecExec.mentions d p b params f x.
Proof.
  split; (induction 1 as [b params q|b params g f x Hc _ IH|b b' params vs f x Hb Hv _ IH|b b' params vs f x Hb Hv _ IH];
    [apply me_atom|eapply me_child; eauto|eapply me_forall|eapply me_exists]); eauto; apply same_respects; auto.
Qed.
Lemma same_initial c : initial d' p c <-> initial d p c.
Proof. split; (intros [E|t b E Hb]; [apply in_none|apply in_tn]; auto; apply same_respects; auto). Qed.
Lemma same_step c c' : Forall (fun g => needed (fst g)) (snd c) -> (SpecExec.step d' p c c' <-> step c c').
Proof.
  destruct Hr as (_ & _ & _ & _ & _ & Ea & Em). intros Hn. split; intros Hs; destruct Hs as [m b facts w1 w2 Hm Hb|a b facts facts' w1 w2 Ha Hx].
  - rewrite Em in Hm. apply filter_In in Hm as [Hm _]. apply st_method; auto. apply same_respects; auto.
  - rewrite Ea in Ha. apply filter_In in Ha as [Ha _]. eapply st_action; eauto. intros x Hi. destruct (Hx x Hi) as [|(f & Ef & Hf)]; auto.
    right. exists f. split; auto. apply same_mentions; auto.
  - cbn [snd] in Hn. apply Forall_app in Hn as [_ Hn]. inversion Hn as [|y z I1 _]; subst. apply st_method; [|apply same_respects; auto].
    rewrite Em. apply filter_In. auto.
  - cbn [snd] in Hn. apply Forall_app in Hn as [_ Hn]. inversion Hn as [|y z I1 _]; subst. eapply st_action.
    + rewrite Ea. apply filter_In. auto.
    + intros x Hi. destruct (Hx x Hi) as [|(f & Ef & Hf)]; auto. right. exists f. split; auto. apply same_mentions; auto.
Qed.
Lemma same_executions c c' : Forall (fun g => needed (fst g)) (snd c) ->
  (clos_refl_trans config (SpecExec.step d' p) c c' <-> clos_refl_trans config step c c').
Proof.
  intros Hn. split; intros Hc; apply clos_rt_rt1n in Hc; revert Hn; induction Hc as [c|c c1 c' Hs _ IH]; intros Hn; try apply rt_refl.
  - apply (same_step c c1 Hn) in Hs. eapply rt_trans; [apply rt_step; exact Hs|]. apply IH. eapply step_needed; eauto.
  - eapply rt_trans; [apply rt_step; apply (same_step c c1 Hn); exact Hs|]. apply IH. eapply step_needed; eauto.
Qed.
Lemma same_reachable c : SpecExec.reachable d' p c <-> SpecExec.reachable d p c.
Proof.
  split; intros (c0 & Hi & Hc); exists c0.
  - apply same_initial in Hi. split; auto. apply (same_executions c0 c (initial_needed _ Hi)). auto.
  - split; [apply same_initial; auto|]. apply (same_executions c0 c (initial_needed _ Hi)). auto.
Qed.
End Restricted.
End Facts.

Lemma combine_snds {A B} (l : list A) (k : list B) : length l = length k -> map snd (combine l k) = k.
Proof. revert k. induction l as [|x l IH]; intros [|y k]; simpl; intros E; try discriminate; auto. f_equal. apply IH. lia. Qed.
Lemma forget_initial d p c : oinitial d p c -> initial d p (forget c).
Proof.
  intros [E|t b ids E Hr Hn Hl]; unfold forget; simpl; [apply in_none; auto|].
  rewrite combine_snds by (rewrite map_length; exact Hl). apply in_tn; auto.
Qed.
Lemma forget_steps d p c c' : clos_refl_trans oconfig (ostep d p) c c' -> clos_refl_trans config (step d p) (forget c) (forget c').
Proof.
  induction 1; [apply rt_step; apply forget_step; auto|apply rt_refl|eapply rt_trans; eauto].
Qed.
Lemma filter_interleaved {A} (f : A -> bool) l : interleaved (filter f l) (filter (fun x => negb (f x)) l) l.
Proof. induction l as [|x l IH]; simpl; [constructor|]. destruct (f x); simpl; constructor; auto. Qed.
Lemma interleaved_all {A} (l : list A) : interleaved l [] l.
Proof. induction l; constructor; auto. Qed.

Section Props.
Context `{Unicode}.
Variable he : hash_env.
Hypothesis Hhe : hash_env_ok he.
Variable n : nat.
Variables dom prob : string.
Variable ws : list warning.
Variable d : domain_ast.
Variable p : problem_ast.
Hypothesis Hv : verify he n dom (Some prob) = Ok ws.
Hypothesis Ed : parse n dom = Ok (ADomain d).
Hypothesis Ep : parse n prob = Ok (AProblem p).
Hypothesis Hd : distinct_names d.

(** C72: while a task with a warning is left to do, there is no way to finish. *)
Theorem C72_warned_never_done : forall x l c, In (NoPrimitiveRefinement x l) ws ->
  In x (map fst (snd c)) -> ~ completes d p c.
Proof.
  intros x l c Hw Hx (facts & Hc). apply done_refinable in Hc; [|reflexivity].
  destruct (C23_warning_true he Hhe n dom (Some prob) ws d x l Hv Ed Hd Hw) as [_ Hn]. apply Hn.
  apply in_map_iff in Hx as (g & <- & Hg). rewrite Forall_forall in Hc. auto.
Qed.
(** A problem with such a task has no plan at all, ordered or not. *)
Theorem C72_warned_unsolvable : forall x l, In (NoPrimitiveRefinement x l) ws -> In x (initial_names p) ->
  (forall c, initial d p c -> ~ completes d p c) /\ (forall c, oinitial d p c -> ~ ocompletes d p c).
Proof.
  intros x l Hw Hx. assert (forall c, initial d p c -> ~ completes d p c) as H1.
  { intros c Hi. apply (C72_warned_never_done x l); auto.
    unfold initial_names in Hx. destruct Hi as [E|t b E Hr]; rewrite E in Hx; [destruct Hx|]. cbn [snd]. rewrite inst_names. exact Hx. }
  split; auto. intros c Hi (c' & Hc & En). apply (H1 (forget c) (forget_initial _ _ _ Hi)).
  assert (clos_refl_trans config (step d p) (forget c) (forget c')) as Hc' by (apply forget_steps; auto).
  exists (fst c'). replace (fst c', []) with (forget c'); auto. unfold forget. rewrite En. reflexivity.
Qed.

(** The initial tasks and the graph. *)
Lemma initial_declared x : In x (initial_names p) -> compound d x \/ primitive d x.
Proof.
  destruct (both_ok he n dom prob ws d p Hv Ed Ep) as [_ (_ & _ & _ & Ht & _)]. unfold initial_names.
  destruct (p_init_tn p) as [t|]; [|intros []]. destruct Ht as [_ Ht]. intros Hx. apply in_map_iff in Hx as (s & <- & Hs).
  rewrite Forall_forall in Ht. destruct (Ht s Hs) as (formals & Hc & _). inversion Hc; subst; [right|left]; apply in_map; auto.
Qed.
Lemma heads_compound m : In m (d_methods d) -> compound d (sym_name (m_task m)).
Proof.
  destruct (both_ok he n dom prob ws d p Hv Ed Ep) as [(_ & _ & _ & _ & _ & _ & _ & _ & _ & Hm) _]. rewrite Forall_forall in Hm.
  intros Hi. destruct (Hm m Hi) as (_ & _ & (formals & Hc & _) & _). inversion Hc; subst. apply in_map; auto.
Qed.
Lemma subtasks_declared m x : In m (d_methods d) -> In x (subtask_names m) -> compound d x \/ primitive d x.
Proof.
  destruct (both_ok he n dom prob ws d p Hv Ed Ep) as [(_ & _ & _ & _ & _ & _ & _ & _ & _ & Hm) _]. rewrite Forall_forall in Hm.
  intros Hi Hx. destruct (Hm m Hi) as (_ & _ & _ & Hf & _). rewrite Forall_forall in Hf. apply in_map_iff in Hx as (s & <- & Hs).
  destruct (Hf s Hs) as (formals & Hc & _). inversion Hc; subst; [right|left]; apply in_map; auto.
Qed.
Lemma reached_declared x y : reaches d x y -> compound d x \/ primitive d x -> compound d y \/ primitive d y.
Proof.
  intros Hr. apply clos_rt_rt1n in Hr. induction Hr as [x|x z y (m & Hm & _ & Hz) _ IH]; auto.
  intros _. apply IH. eapply subtasks_declared; eauto.
Qed.
Lemma primitive_end x y : reaches d x y -> primitive d x -> y = x.
Proof.
  intros Hr. apply clos_rt_rt1n in Hr. destruct Hr as [|z y (m & Hm & Eh & _) _]; auto. intros Hp. exfalso.
  apply heads_compound in Hm. rewrite Eh in Hm. unfold distinct_names in Hd.
  revert Hm Hp. unfold compound, primitive. revert Hd. generalize (map task_name (d_tasks d)) (map act_name (d_actions d)). clear.
  induction l as [|y l IH]; simpl; intros k Hn Hi Hk; [auto|]. inversion Hn as [|u v H1 H2]; subst. destruct Hi as [->|Hi].
  - apply H1. apply in_or_app. auto.
  - eapply IH; eauto.
Qed.

Section Graph.
Variable g : tdg.
Hypothesis Eg : tdg_new d = Ok g.
Variable k : nat.
(** What [reachable] lists for the initial tasks. *)
Definition listed (x : string) : Prop :=
  exists s r, In s (initial_names p) /\ Tdg.reachable he k g s = Ok r /\ (In x (rs_primitives r) \/ In x (rs_compounds r)).
Hypothesis Hk : forall s, In s (initial_names p) -> exists r, Tdg.reachable he k g s = Ok r.

Lemma listed_needed x : listed x <-> needed d p x.
Proof.
  split.
  - intros (s & r & Hs & Er & Hx). exists s. split; auto. destruct (initial_declared s Hs) as [Hc|Hc].
    + destruct (C25_reachable_exact he Hhe k d g s r Eg Hd Hc Er) as [I1 I2]. destruct Hx as [Hx|Hx]; [apply I1 in Hx|apply I2 in Hx]; apply Hx.
    + rewrite (C25_action_reaches_itself he d g s Eg Hd Hc k) in Er. injection Er as <-. simpl in Hx.
      destruct Hx as [[<-|[]]|[]]. apply rt_refl.
  - intros (s & Hs & Hr). destruct (Hk s Hs) as (r & Er). exists s, r. split; auto. split; auto. pose proof (initial_declared s Hs) as Hi.
    destruct Hi as [Hc|Hc].
    + destruct (C25_reachable_exact he Hhe k d g s r Eg Hd Hc Er) as [I1 I2].
      destruct (reached_declared s x Hr (or_introl Hc)) as [Hy|Hy]; [right; apply I2|left; apply I1]; auto.
    + rewrite (C25_action_reaches_itself he d g s Eg Hd Hc k) in Er. injection Er as <-. simpl. left. left.
      symmetry. apply primitive_end; auto.
Qed.

(** Every task that ever has to be done, and so every action that is ever
    performed, is listed for an initial task. *)
Theorem C72_only_reachable : forall c x, SpecExec.reachable d p c -> In x (map fst (snd c)) -> listed x.
Proof.
  intros c x Hc Hx. apply listed_needed. apply reachable_needed in Hc. rewrite Forall_forall in Hc.
  apply in_map_iff in Hx as (y & <- & Hy). auto.
Qed.

(** Everything that is not listed can be removed from the domain: the documents
    are accepted without it and the executions are the same. *)
Theorem C72_restriction : forall keep d' dom', (forall x, keep x = true <-> listed x) -> restricted keep d d' ->
  parse n dom' = Ok (ADomain d') ->
  (exists ws', settles (fun i => verify he i dom' (Some prob)) (Ok ws'))
  /\ (forall c, SpecExec.reachable d' p c <-> SpecExec.reachable d p c)
  /\ (forall c, SpecExec.reachable d p c -> (completes d' p c <-> completes d p c)).
Proof.
  intros keep d' dom' Hkeep Hr Ed'. assert (forall x, needed d p x -> keep x = true) as Hn by (intros x Hx; apply Hkeep, listed_needed; auto).
  split; [|split].
  - pose proof Hr as (E1 & E2 & E3 & E4 & E5 & E6 & E7).
    assert (constants_of d' = constants_of d) as Ec by (unfold constants_of; rewrite E2; reflexivity).
    assert (pruned d d' [] [] [] (filter (fun t => negb (keep (task_name t))) (d_tasks d))
      (filter (fun a => negb (keep (act_name a))) (d_actions d)) (filter (fun m => negb (keep (sym_name (m_task m)))) (d_methods d))) as Hp.
    { apply mkPruned; [auto|rewrite E1; apply interleaved_all|rewrite Ec; apply interleaved_all|rewrite E4; apply interleaved_all| | |];
        [rewrite E5|rewrite E6|rewrite E7]; apply filter_interleaved. }
    assert (forall h params task terms, dom_call d' h params task terms -> keep (sym_name task) = true) as Hc.
    { intros h params task terms Hc. destruct Hc as [m Hm|m s Hm Hs]; rewrite E7 in Hm; apply filter_In in Hm as [Hm Hh]; auto.
      apply Hn. apply (method_needed d p m); auto; [apply listed_needed, Hkeep; auto|]. apply (in_map (fun s => sym_name (sub_task s))). auto. }
    assert (forall t task terms, prob_call p t task terms -> keep (sym_name task) = true) as Hq.
    { intros t task terms [t' s Et Hs]. apply Hn. exists (sym_name (sub_task s)). split; [|apply rt_refl].
      unfold initial_names. rewrite Et. apply (in_map (fun s => sym_name (sub_task s))). auto. }
    destruct (both_ok he n dom prob ws d p Hv Ed Ep) as [Hok Hpok].
    refine (proj1 (C61_problem he Hhe n dom dom' d d' _ _ _ _ _ _ prob p Ed Ed' Ep Hp _ _ _) _).
    + apply mkUnused; try (intros; contradiction); try (intros s Hs; contradiction).
      * intros t h params task terms Ht Hd'. apply filter_In in Ht as [_ Ht]. apply Hc in Hd'. intros E. rewrite E, Hd' in Ht. discriminate.
      * intros a params task terms Ht Hd'. apply filter_In in Ht as [_ Ht]. apply Hc in Hd'. intros E. rewrite E, Hd' in Ht. discriminate.
    + apply mkProbUnused; try (intros; contradiction); try (intros s Hs; contradiction).
      * intros x t task terms Ht Hd'. apply filter_In in Ht as [_ Ht]. apply Hq in Hd'. intros E. rewrite E, Hd' in Ht. discriminate.
      * intros a t task terms Ht Hd'. apply filter_In in Ht as [_ Ht]. apply Hq in Hd'. intros E. rewrite E, Hd' in Ht. discriminate.
    + apply (domain_verdict he Hhe n dom d Ed). auto.
    + apply (C22_problem_decided he Hhe n dom d prob p Ed Hok Ep). auto.
  - intros c. apply (same_reachable d p keep d' Hr Hn).
  - intros c Hc. apply reachable_needed in Hc. split; intros (facts & Hf); exists facts; apply (same_executions d p keep d' Hr Hn c _ Hc); auto.
Qed.
End Graph.
(** There always is such a list. *)
Theorem C72_listed_terminates : exists g k, tdg_new d = Ok g
  /\ forall j, k <= j -> forall s, In s (initial_names p) -> exists r, Tdg.reachable he j g s = Ok r.
Proof.
  pose proof Hv as Hv'. apply verify_ok_inv in Hv' as (d' & E1 & Ev & _); auto. assert (d' = d) as -> by congruence.
  assert (exists g, tdg_new d = Ok g) as (g & Eg).
  { destruct (verify_domain_list he n d _ Ev) as (g & Eg & _). exists g. auto. }
  exists g. pose proof initial_declared as Hi. revert Hi. generalize (initial_names p). induction l as [|s l IH]; intros Hi.
  - exists 0. split; auto. intros j _ s [].
  - destruct IH as (k & _ & Hk); [intros x Hx; apply Hi; simpl; auto|].
    assert (exists k', forall j, k' <= j -> exists r, Tdg.reachable he j g s = Ok r) as (k' & Hk').
    { destruct (Hi s) as [Hc|Hc]; [simpl; auto|apply (C25_reachable_terminates he Hhe d g s Eg Hc)|].
      exists 0. intros j _. exists (mkReach [s] [] false). apply (C25_action_reaches_itself he d g s Eg Hd Hc). }
    exists (k + k'). split; auto. intros j Hj x [<-|Hx]; [apply Hk'|apply Hk; auto]; lia.
Qed.
End Props.

(** ** Examples *)
Definition useful : string := dm [tk "t"; tk "u"; ac "a"; ac "b"; me "m" "t" (tot ["a"]); me "n" "u" (tot ["u"])].
Definition used : string := dm [tk "t"; ac "a"; me "m" "t" (tot ["a"])].
Definition todo (x : string) : string := prob_with ("(:objects) (:htn :ordered-subtasks (and (" ++ x ++ "))) (:init)").
Definition keeps (x : string) : bool := String.eqb x "t" || String.eqb x "a".

(** A task that only leads back to itself: warned about, and there is a state to
    start from. *)
Example C72_warned_example : exists d p c,
  run useful (Some (todo "u")) = Ok [NoPrimitiveRefinement "u" 1] /\ @parse uni0 300 useful = Ok (ADomain d)
  /\ @parse uni0 300 (todo "u") = Ok (AProblem p) /\ distinct_names d /\ In "u" (initial_names p) /\ initial d p c.
Proof.
  do 3 eexists. split; [vm_compute; reflexivity|]. split; [vm_compute; reflexivity|]. split; [vm_compute; reflexivity|].
  split; [unfold distinct_names; simpl; nodup|]. split; [left; reflexivity|].
  eapply in_tn with (b := fun x => x); [reflexivity|]. apply respects_all. constructor.
Qed.
(** The same warning does not concern the problem with the other task, which can
    be done; [u], [b] and the method for [u] do not matter for it. *)
Example C72_restriction_example : exists d p g d' c,
  run useful (Some (todo "t")) = Ok [NoPrimitiveRefinement "u" 1] /\ @parse uni0 300 useful = Ok (ADomain d)
  /\ @parse uni0 300 (todo "t") = Ok (AProblem p) /\ distinct_names d /\ tdg_new d = Ok g
  /\ Tdg.reachable env_id 300 g "t" = Ok (mkReach ["a"] ["t"] false)
  /\ (forall x, keeps x = true <-> listed env_id p g 300 x)
  /\ @parse uni0 300 used = Ok (ADomain d') /\ restricted keeps d d'
  /\ initial d p c /\ snd c = [("t", [])] /\ completes d p c.
Proof.
  do 5 eexists. split; [vm_compute; reflexivity|]. split; [vm_compute; reflexivity|]. split; [vm_compute; reflexivity|].
  split; [unfold distinct_names; simpl; nodup|]. split; [vm_compute; reflexivity|]. split; [vm_compute; reflexivity|].
  split; [|split; [vm_compute; reflexivity|split; [repeat (split; [reflexivity|]); reflexivity|]]].
  - intros x. unfold listed. split.
    + intros Hx. exists "t". eexists. split; [left; reflexivity|]. split; [vm_compute; reflexivity|]. unfold keeps in Hx.
      apply orb_true_iff in Hx as [Hx|Hx]; apply String.eqb_eq in Hx as ->; simpl; auto.
    + intros (s & r & [<-|[]] & Er & Hx). vm_compute in Er. injection Er as <-. simpl in Hx. destruct Hx as [[<-|[]]|[<-|[]]]; reflexivity.
  - split; [eapply in_tn with (b := fun x => x); [reflexivity|apply respects_all; constructor]|]. split; [reflexivity|].
    eexists. eapply rt_trans; apply rt_step.
    + eapply st_method_eq with (w1 := []) (w2 := []) (b := fun x => x); [reflexivity|left; reflexivity|reflexivity|reflexivity|apply respects_all; constructor].
    + eapply st_action_eq with (w1 := []) (w2 := []) (b := fun x => x); [reflexivity|reflexivity|left; reflexivity|reflexivity|intros x Hx; left; exact Hx].
Qed.

(** No warning does not mean that there is a plan, even without preconditions. *)
Theorem C72_silence_refuted : exists dom prob d p, run dom (Some prob) = Ok [] /\ @parse uni0 300 dom = Ok (ADomain d)
  /\ @parse uni0 300 prob = Ok (AProblem p) /\ distinct_names d /\ (exists c, initial d p c) /\ forall c, initial d p c -> ~ completes d p c.
Proof.
  exists recursing, (todo "t"). do 2 eexists. split; [vm_compute; reflexivity|]. split; [vm_compute; reflexivity|]. split; [vm_compute; reflexivity|].
  split; [unfold distinct_names; simpl; nodup|]. split.
  - eexists. eapply in_tn with (b := fun x => x); [reflexivity|]. apply respects_all. constructor.
  - intros c Hi (facts & Hc). apply done_refinable in Hc; [|reflexivity]. destruct Hi as [E|t b E Hr]; [discriminate|].
    injection E as <-. cbn in Hc. inversion Hc as [|y z Hx _]; subst. destruct Hx as (w & Hw & Pw). 
    assert (exists y, In y w /\ y = "t") as (y & Hy & ->).
    { refine (expand_keeps _ (fun l => exists y, In y l /\ y = "t") _ _ _ Hw _).
      - intros l l' Hs (y & Hy & ->). destruct Hs as [l1 m l2 Hm]. exists "t". split; [|reflexivity].
        apply in_app_or in Hy as [Hy|[Hy|Hy]]; rewrite !in_app_iff; auto. destruct Hm as [<-|[]]. right. left. left. reflexivity.
      - exists "t". simpl. auto. }
    rewrite Forall_forall in Pw. specialize (Pw _ Hy). revert Pw. unfold primitive. by_cases.
Qed.

Definition plan_theorems := (@C72_warned_never_done, @C72_warned_unsolvable, @C72_only_reachable, @C72_restriction,
  @C72_listed_terminates, @C72_silence_refuted).
