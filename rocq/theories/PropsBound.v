(** C82: how large the plans of a domain reported as non-recursive can be. *)
From Coq Require Import String NArith Bool List Lia PeanoNat Permutation Relations Operators_Properties.
From Verif Require Import Base Token Lexer Errors Ast Parser Graph Semantic Tdg Api GraphProofs TdgGraph TdgReach TdgNull SpecTdg SpecRec SpecExec SpecSem TdgTop TdgRecTop VerifyTop TdgSound SpecMeaning TdgUpper TdgMeaning
  SpecBound TdgBound PropsLex PropsSem PropsTdg.
Import ListNotations.
Open Scope string_scope.
Open Scope list_scope.
Open Scope nat_scope.

Section S.
Context `{Unicode}.
Variable he : hash_env.
Hypothesis Hhe : hash_env_ok he.

Lemma no_long_path : forall n lf dom md d,
  get_metadata he n lf dom = Ok md -> parse n dom = Ok (ADomain d) -> distinct_names d -> md_recursion md = NonRecursive ->
  (forall a, ~ path d a (S (md_methods md)))
  /\ ((forall m, In m (d_methods d) -> compound d (sym_name (m_task m))) -> forall a, ~ path d a (S (md_tasks md))).
Proof.
  intros n lf dom md d E Ep Hd Hr. pose proof (proj1 (C26_non_recursive_iff he Hhe n lf dom md d E Ep Hd) Hr) as Ha.
  assert (md_tasks md = length (d_tasks d) /\ md_methods md = length (d_methods d)) as (-> & ->).
  { destruct (metadata_inv he Hhe n lf dom md d E Ep) as (g & nulls & _ & _ & _ & _ & _ & Hm). exact Hm. }
  split.
  - intros a. rewrite <- (map_length SpecRec.head (d_methods d)). apply short_paths; auto. intros m Hm. apply in_map. exact Hm.
  - intros Hh a. rewrite <- (map_length task_name (d_tasks d)). apply short_paths; auto.
Qed.

(** From [l] tasks at most [l * (1 + b + ... + b^t)] steps can be taken, where no
    method has more than [b] subtasks and [t] is the reported number of methods,
    or of abstract tasks if only those have methods. *)
Theorem C82_steps : forall n lf dom md d b,
  get_metadata he n lf dom = Ok md -> parse n dom = Ok (ADomain d) -> distinct_names d -> at_most b d ->
  md_recursion md = NonRecursive -> forall p k c c', steps (step d p) k c c' ->
  k <= length (snd c) * powers b (md_methods md)
  /\ ((forall m, In m (d_methods d) -> compound d (sym_name (m_task m))) -> k <= length (snd c) * powers b (md_tasks md)).
Proof.
  intros n lf dom md d b E Ep Hd Hb Hr p k c c' Hs. destruct (no_long_path n lf dom md d E Ep Hd Hr) as [H1 H2]. split.
  - apply (steps_bounded d b Hb _ p H1 k c c' Hs).
  - intros Hh. apply (steps_bounded d b Hb _ p (H2 Hh) k c c' Hs).
Qed.
(** The executions of a problem. *)
Theorem C82_problem_steps : forall n lf dom md d b,
  get_metadata he n lf dom = Ok md -> parse n dom = Ok (ADomain d) -> distinct_names d -> at_most b d ->
  (forall m, In m (d_methods d) -> compound d (sym_name (m_task m))) ->
  md_recursion md = NonRecursive -> forall p t k c c', p_init_tn p = Some t -> initial d p c -> steps (step d p) k c c' ->
  k <= length (htn_subtasks (itn_tn t)) * powers b (md_tasks md).
Proof.
  intros n lf dom md d b E Ep Hd Hb Hh Hr p t k c c' Et Hi Hs.
  pose proof (proj2 (C82_steps n lf dom md d b E Ep Hd Hb Hr p k c c' Hs) Hh) as Hk.
  inversion Hi as [En|t' v Et' Hv]; subst; [congruence|]. replace t with t' by congruence. cbn [snd] in Hk. rewrite map_length in Hk. exact Hk.
Qed.
(** No task network that [l] tasks can be turned into has more than [l * b^t] tasks. *)
Theorem C82_size : forall n lf dom md d b,
  get_metadata he n lf dom = Ok md -> parse n dom = Ok (ADomain d) -> distinct_names d -> at_most b d ->
  md_recursion md = NonRecursive -> forall l w, expands d l w ->
  length w <= length l * Nat.max 1 b ^ md_methods md
  /\ ((forall m, In m (d_methods d) -> compound d (sym_name (m_task m))) -> length w <= length l * Nat.max 1 b ^ md_tasks md).
Proof.
  intros n lf dom md d b E Ep Hd Hb Hr l w He. destruct (no_long_path n lf dom md d E Ep Hd Hr) as [H1 H2]. split.
  - apply (size_bounded d b Hb _ H1 l w He).
  - intros Hh. apply (size_bounded d b Hb _ (H2 Hh) l w He).
Qed.
(** In all other domains some task can be decomposed any number of times. *)
Theorem C82_bounded_iff : forall n lf dom md d,
  get_metadata he n lf dom = Ok md -> parse n dom = Ok (ADomain d) -> distinct_names d ->
  (md_recursion md = NonRecursive <-> forall a, exists most, forall k w, steps (expand d) k [a] w -> k <= most).
Proof.
  intros n lf dom md d E Ep Hd. split.
  - intros Hr a. destruct (no_long_path n lf dom md d E Ep Hd Hr) as [H1 _].
    set (b := list_max (map (fun m => length (htn_subtasks (m_tn m))) (d_methods d))).
    assert (at_most b d) as Hb. { intros m Hm. apply list_max_ge, in_map_iff. exists m. auto. }
    exists (1 * powers b (md_methods md)). intros k w Hs. apply (expand_bounded d b Hb _ H1 k [a] w Hs).
  - intros Hm. apply (C26_non_recursive_iff he Hhe n lf dom md d E Ep Hd). intros x Hx. destruct (Hm x) as (most & Hk).
    destruct (path_expand d (S most) x [] [] (cycle_paths d x Hx (S most))) as (w & Hw). specialize (Hk _ _ Hw). lia.
Qed.
End S.

Definition bound_theorems := (@C82_steps, @C82_problem_steps, @C82_size, @C82_bounded_iff).

(** ** Concrete cases *)
(** Two abstract tasks and methods with two subtasks: both bounds are reached. *)
Definition doubling : string := dm [tk "t"; tk "u"; ac "a"; me "m" "t" (tot ["u"; "u"]); me "n" "u" (tot ["a"; "a"])].
Lemma do_method d p i m : nth_error (d_methods d) i = Some m -> m_params m = [] -> m_task_terms m = [] ->
  (forall s, In s (htn_subtasks (m_tn m)) -> sub_terms s = []) -> forall w1 w2,
  step d p ([], w1 ++ (sym_name (m_task m), []) :: w2) ([], w1 ++ map (fun x => (x, [])) (subtask_names m) ++ w2).
Proof.
  intros Em Ep Et Hs w1 w2. apply nth_error_In in Em.
  pose proof (st_method d p m (fun _ => "") [] w1 w2 Em) as Hst. rewrite Ep, Et in Hst.
  assert (map (inst_task (fun _ => "") []) (htn_subtasks (m_tn m)) = map (fun x => (x, [])) (subtask_names m)) as Es.
  { unfold subtask_names. rewrite map_map. apply map_ext_in. intros s Hi. unfold inst_task. rewrite (Hs s Hi). reflexivity. }
  rewrite Es in Hst. apply Hst. intros x q Hf. inversion Hf.
Qed.
Lemma do_action d p i a : nth_error (d_actions d) i = Some a -> act_params a = [] -> forall w1 w2,
  step d p ([], w1 ++ (act_name a, []) :: w2) ([], w1 ++ w2).
Proof.
  intros Ea Ep w1 w2. apply nth_error_In in Ea. pose proof (st_action d p a (fun _ => "") [] [] w1 w2 Ea) as Hst. rewrite Ep in Hst.
  apply Hst. intros x [].
Qed.
Lemma use_method d i m : nth_error (d_methods d) i = Some m -> forall l1 l2 l, expands d (l1 ++ subtask_names m ++ l2) l ->
  expands d (l1 ++ sym_name (m_task m) :: l2) l.
Proof. intros Em l1 l2 l He. apply nth_error_In in Em. eapply rt_trans; [apply rt_step, ex_method; exact Em|exact He]. Qed.
Example C82_example : exists d md, @parse uni0 300 doubling = Ok (ADomain d)
  /\ @get_metadata uni0 env_id 300 50 doubling = Ok md /\ distinct_names d /\ at_most 2 d
  /\ (forall m, In m (d_methods d) -> compound d (sym_name (m_task m)))
  /\ md_recursion md = NonRecursive /\ md_tasks md = 2
  /\ expands d ["t"] ["a"; "a"; "a"; "a"] /\ 1 * Nat.max 1 2 ^ 2 = 4
  /\ (forall p, steps (step d p) 7 ([], [("t", [])]) ([], [])) /\ 1 * powers 2 2 = 7.
Proof.
  eexists. eexists. split; [vm_compute; reflexivity|]. split; [vm_compute; reflexivity|].
  split; [unfold distinct_names; simpl; nodup|].
  split; [intros m Hm; simpl in Hm; destruct Hm as [<-|[<-|[]]]; simpl; lia|].
  split; [unfold compound; intros m Hm; simpl in Hm; destruct Hm as [<-|[<-|[]]]; simpl; auto|].
  split; [reflexivity|]. split; [reflexivity|]. split; [|split; [reflexivity|split; [|reflexivity]]].
  - match goal with |- expands ?d _ _ => remember d as D eqn:ED end.
    assert (exists a b, nth_error (d_methods D) 0 = Some a /\ nth_error (d_methods D) 1 = Some b /\ sym_name (m_task a) = "t" /\ sym_name (m_task b) = "u"
      /\ subtask_names a = ["u"; "u"] /\ subtask_names b = ["a"; "a"]) as (a & b & Ea & Eb & Na & Nb & Sa & Sb).
    { subst D. eexists. eexists. split; [reflexivity|]. split; [reflexivity|]. repeat split. }
    pose proof (use_method D 0 a Ea [] []) as Ua. pose proof (use_method D 1 b Eb) as Ub. rewrite Na, Sa in Ua. rewrite Nb, Sb in Ub.
    apply Ua. apply (Ub [] ["u"]). apply (Ub ["a"; "a"] []). apply rt_refl.
  - intros p. match goal with |- steps (step ?d _) _ _ _ => pose (D := d) end.
    assert (forall s (l : list subtask), In s l -> forallb (fun s => match sub_terms s with [] => true | _ => false end) l = true -> sub_terms s = []) as Hn.
    { intros s l Hs Hf. rewrite forallb_forall in Hf. specialize (Hf s Hs). destruct (sub_terms s); congruence. }
    econstructor; [apply (do_method D p 0 _ eq_refl eq_refl eq_refl (fun s Hs => Hn s _ Hs eq_refl) [] [])|].
    econstructor; [apply (do_method D p 1 _ eq_refl eq_refl eq_refl (fun s Hs => Hn s _ Hs eq_refl) [] [("u", [])])|].
    econstructor; [apply (do_method D p 1 _ eq_refl eq_refl eq_refl (fun s Hs => Hn s _ Hs eq_refl) [("a", []); ("a", [])] [])|].
    econstructor; [apply (do_action D p 0 _ eq_refl eq_refl [] [("a", []); ("a", []); ("a", [])])|].
    econstructor; [apply (do_action D p 0 _ eq_refl eq_refl [] [("a", []); ("a", [])])|].
    econstructor; [apply (do_action D p 0 _ eq_refl eq_refl [] [("a", [])])|].
    econstructor; [apply (do_action D p 0 _ eq_refl eq_refl [] [])|]. apply ss_0.
Qed.
