(** Proofs for C42-C44: the task decomposition graph of similar domains. *)
From Coq Require Import String NArith Bool List Permutation PeanoNat Lia.
From Verif Require Import Base Token Lexer Errors Ast AstRel Graph Semantic Tdg TdgGraph TdgNull SpecSim SimSem.
Import ListNotations.
Open Scope list_scope.
Open Scope nat_scope.
Open Scope outcome_scope.

Section Graph.
Variable rn : renaming.
Variable RL : N -> N -> Prop.
Hypothesis Hrn : renaming_ok rn.
Let HA := fA_inj _ Hrn.
Variable he : hash_env.
Hypothesis Hhe : hash_env_ok he.

Definition ren_entry (x : string * bool) : string * bool := (fA rn (fst x), snd x).
Definition meth_sim (x y : string * htn) : Prop := fst y = fM rn (fst x) /\ htn_sim rn RL (snd x) (snd y).
Inductive tdg_sim : tdg -> tdg -> Prop :=
| tsim ts ms ms' fr to : Forall2 meth_sim ms ms' ->
    tdg_sim (mkTdg ts ms fr to) (mkTdg (map ren_entry ts) ms' fr to).

Lemma index_first_ren n l : index_first (fA rn n) (map ren_entry l) = index_first n l.
Proof. induction l as [|[m c] l IH]; simpl; auto. rewrite eqb_inj, IH; auto. Qed.
Lemma index_last_ren n l : index_last (fA rn n) (map ren_entry l) = index_last n l.
Proof. induction l as [|[m c] l IH]; simpl; auto. rewrite eqb_inj, IH; auto. Qed.

Lemma task_list_sim d d' : domain_sim rn RL d d' -> task_list d' = map ren_entry (task_list d).
Proof.
  intros H. unfold task_list. rewrite map_app, !map_map. f_equal.
  - eapply Forall2_map_eq; [apply H|]. intros a b Hab. unfold ren_entry. simpl. f_equal. apply Hab.
  - eapply Forall2_map_eq; [apply H|]. intros a b Hab. unfold ren_entry. simpl. f_equal. apply Hab.
Qed.
Lemma tdg_new_sim d d' : domain_sim rn RL d d' ->
  result_sim rn RL tdg_sim (tdg_new d) (tdg_new d').
Proof.
  intros H. rewrite !tdg_new_unfold, (task_list_sim _ _ H), map_length.
  replace (map (fun m => index_last (sym_name (m_task m)) (map ren_entry (task_list d))) (d_methods d'))
    with (map (fun m => index_last (sym_name (m_task m)) (task_list d)) (d_methods d)).
  2:{ symmetry. eapply Forall2_map_eq; [apply H|]. intros a b Hab. rewrite (ms_task _ _ _ _ Hab). apply index_last_ren. }
  replace (each_to (map ren_entry (task_list d)) (d_methods d')) with (each_to (task_list d) (d_methods d)).
  2:{ pose proof (ds_methods _ _ _ _ H) as Hm. induction Hm as [|m m' l l' Hmm _ IH]; simpl; auto.
      replace (map (fun s => index_last (sym_name (sub_task s)) (map ren_entry (task_list d))) (htn_subtasks (m_tn m')))
        with (map (fun s => index_last (sym_name (sub_task s)) (task_list d)) (htn_subtasks (m_tn m))).
      - rewrite IH. reflexivity.
      - symmetry. eapply Forall2_map_eq; [apply (hs_subtasks _ _ _ _ (ms_tn _ _ _ _ Hmm))|].
        intros a b Hab. rewrite (us_task _ _ _ _ Hab). apply index_last_ren. }
  destruct (all_some_calm (map (fun m => index_last (sym_name (m_task m)) (task_list d)) (d_methods d))) as [C1 C2].
  destruct (all_some _) as [heads|e|p|]; cbn [obind]; [|exfalso; eapply C1; reflexivity|constructor|congruence].
  destruct (each_to_calm (task_list d) (d_methods d)) as [C3 C4].
  destruct (each_to _ _) as [to|e|p|]; cbn [obind]; [|exfalso; eapply C3; reflexivity|constructor|congruence].
  constructor. constructor.
  pose proof (ds_methods _ _ _ _ H) as Hm. induction Hm as [|m m' l l' Hmm _ IH]; simpl; constructor; auto.
  split; simpl; apply Hmm.
Qed.

Section Fixed.
Variables g g' : tdg.
Hypothesis Hg : tdg_sim g g'.

Lemma from_sim t : from_set g' t = from_set g t.
Proof. destruct Hg. reflexivity. Qed.
Lemma to_sim m : to_set g' m = to_set g m.
Proof. destruct Hg. reflexivity. Qed.
Lemma tasks_sim : tg_tasks g' = map ren_entry (tg_tasks g).
Proof. destruct Hg. reflexivity. Qed.
Lemma tasks_length : length (tg_tasks g') = length (tg_tasks g).
Proof. rewrite tasks_sim, map_length. reflexivity. Qed.
Lemma it_methods_sim t : it_methods he g' t = it_methods he g t.
Proof. destruct Hg. reflexivity. Qed.
Lemma it_tasks_sim m : it_tasks he g' m = it_tasks he g m.
Proof. destruct Hg. reflexivity. Qed.
Lemma it_keys_sim : it_keys he g' = it_keys he g.
Proof. unfold it_keys, tdg_keys. rewrite tasks_length. reflexivity. Qed.
Lemma name_sim i : i < length (tg_tasks g) -> name_of g' i = fA rn (name_of g i).
Proof.
  intros Hi. unfold name_of. rewrite tasks_sim.
  rewrite (nth_indep _ (""%string, false) (ren_entry (""%string, false))) by (rewrite map_length; auto).
  rewrite map_nth. reflexivity.
Qed.

Lemma bfs_sim : forall fuel q v r, bfs he fuel g' q v r = bfs he fuel g q v r.
Proof.
  induction fuel as [|f IH]; intros [|t q] v r; simpl; auto.
  destruct (mem_nat t v); auto. rewrite it_methods_sim, IH.
  rewrite (flat_map_ext (it_tasks he g') (it_tasks he g)) by apply it_tasks_sim. reflexivity.
Qed.

Lemma existsb_ext' {A} (f h : A -> bool) l : (forall x, f x = h x) -> existsb f l = existsb h l.
Proof. intros E. induction l; simpl; auto. rewrite E, IHl. reflexivity. Qed.
Lemma forallb_ext' {A} (f h : A -> bool) l : (forall x, f x = h x) -> forallb f l = forallb h l.
Proof. intros E. induction l; simpl; auto. rewrite E, IHl. reflexivity. Qed.
Lemma fold_ext {A B} (f h : A -> B -> A) l : (forall a b, f a b = h a b) -> forall a, fold_left f l a = fold_left h l a.
Proof. intros E. induction l; simpl; auto. intros. rewrite E. auto. Qed.
Lemma fold_map {A B C} (f : A -> C -> A) (h : B -> C) l : forall a, fold_left f (map h l) a = fold_left (fun a b => f a (h b)) l a.
Proof. induction l; simpl; auto. Qed.

Lemma null_init_sim : null_init he g' = null_init he g.
Proof.
  unfold null_init. f_equal.
  - unfold null_base. rewrite it_keys_sim. apply filter_ext. intros t. rewrite it_methods_sim.
    apply existsb_ext'. intros m. rewrite to_sim. reflexivity.
  - unfold unit_base. rewrite tasks_sim, fold_map. apply fold_ext. intros acc [n c]. simpl. destruct c; auto.
    rewrite index_first_ren. destruct (index_first n (tg_tasks g)); auto. rewrite it_methods_sim. f_equal.
    apply fold_ext. intros v m. rewrite to_sim. reflexivity.
Qed.
Lemma null_step_sim st : null_step he g' st = null_step he g st.
Proof.
  assert (new_nullables he g' st = new_nullables he g st) as E1.
  { unfold new_nullables. rewrite it_keys_sim. apply fold_ext. intros acc t. rewrite it_methods_sim.
    erewrite existsb_ext'; [reflexivity|]. intros m. rewrite it_tasks_sim. reflexivity. }
  assert (forall c p, unit_change he g' st c p = unit_change he g st c p) as E2.
  { intros c p. unfold unit_change. rewrite it_methods_sim. apply fold_ext. intros acc m. unfold not_nullable.
    rewrite it_tasks_sim. reflexivity. }
  unfold null_step. rewrite E1.
  rewrite (map_ext (fun cp => (fst cp, snd cp, unit_change he g' st (fst cp) (snd cp)))
                   (fun cp => (fst cp, snd cp, unit_change he g st (fst cp) (snd cp)))); [reflexivity|].
  intros cp. rewrite E2. reflexivity.
Qed.
Lemma null_loop_sim : forall fuel st, null_loop he fuel g' st = null_loop he fuel g st.
Proof.
  induction fuel as [|f IH]; intros st; simpl; destruct (_ || _); auto. rewrite null_step_sim. apply IH.
Qed.
End Fixed.

Section Domain.
Variables d : domain_ast.
Variables g g' : tdg.
Hypothesis Hd : tdg_new d = Ok g.
Hypothesis Hg : tdg_sim g g'.

Lemma add_str_ren x l : add_str (fA rn x) (map (fA rn) l) = map (fA rn) (add_str x l).
Proof. unfold add_str. rewrite mem_str_map; auto. destruct (mem_str x l); auto. rewrite map_app. reflexivity. Qed.

Lemma from_bound t m : In m (from_set g t) -> t < length (tg_tasks g) /\ m < length (tg_methods g).
Proof.
  intros H. split; [apply (from_set_lt d _ Hd t m); auto|].
  apply (from_set_In d _ Hd) in H as (md & E & _). rewrite (tdg_methods d _ Hd), map_length.
  apply nth_error_Some. congruence.
Qed.

Lemma null_members fuel l : null_loop he fuel g (null_init he g) = Ok l -> Forall (fun i => i < length (tg_tasks g)) l.
Proof.
  intros E. apply Forall_forall. intros t Ht.
  destruct (nullables_method he Hhe g
    (fun t m => from_set_lt d _ Hd t m) (fun t m => to_set_lt d _ Hd t m) fuel l E t Ht) as (m & Hm).
  apply from_bound in Hm. tauto.
Qed.
Lemma compute_nullables_sim fuel :
  result_sim rn RL (fun l l' => l' = map (fA rn) l) (compute_nullables he fuel g) (compute_nullables he fuel g').
Proof.
  unfold compute_nullables. rewrite (null_init_sim _ _ Hg), (null_loop_sim _ _ Hg).
  destruct (null_loop_calm he g fuel (null_init he g)) as [C1 C2].
  destruct (null_loop he fuel g (null_init he g)) as [l|e|p|] eqn:E; cbn [obind].
  - constructor. apply null_members in E.
    assert (forall acc, fold_left (fun acc i => add_str (name_of g' i) acc) l (map (fA rn) acc)
                        = map (fA rn) (fold_left (fun acc i => add_str (name_of g i) acc) l acc)) as H.
    { clear C1 C2. induction E as [|i l Hi _ IH]; intros acc; simpl; auto.
      rewrite (name_sim _ _ Hg) by auto. rewrite add_str_ren. apply IH. }
    apply (H []).
  - exfalso; eapply C1; reflexivity.
  - exfalso; eapply C2; reflexivity.
  - constructor.
Qed.

Definition reach_sim (r r' : reachable_set) : Prop :=
  rs_primitives r' = map (fA rn) (rs_primitives r) /\ rs_compounds r' = map (fA rn) (rs_compounds r)
  /\ rs_nullable r' = rs_nullable r.
Lemma reached_names_ren c reach : forall l k,
  reached_names c k (map ren_entry l) reach = map (fA rn) (reached_names c k l reach).
Proof.
  induction l as [|[n b] l IH]; intros k; cbn [reached_names map]; auto. cbn [ren_entry fst snd].
  rewrite map_app, IH. destruct (_ && _); reflexivity.
Qed.
Lemma reachable_sim fuel n : result_sim rn RL reach_sim (reachable he fuel g n) (reachable he fuel g' (fA rn n)).
Proof.
  unfold reachable. rewrite (tasks_sim _ _ Hg), index_first_ren.
  destruct (index_first n (tg_tasks g)) as [i|] eqn:Ei; [|constructor].
  assert (i < length (tg_tasks g)) as Hi.
  { apply index_first_nth in Ei. rewrite <- (map_length fst). apply nth_error_Some. congruence. }
  rewrite (nth_indep (map ren_entry _) (""%string, false) (ren_entry (""%string, false))) by (rewrite map_length; auto).
  rewrite map_nth. destruct (nth i (tg_tasks g) (""%string, false)) as [m [|]]; cbn [ren_entry fst snd].
  - rewrite (bfs_sim _ _ Hg). eapply bind_sim with (R := eq).
    + destruct (bfs he fuel g [i] [] [i]) as [r|e|p|] eqn:Eb; try (constructor; auto; fail).
      exfalso. assert (forall fuel q v r, bfs he fuel g q v r <> Err e) as Hb; [|eapply Hb; eauto].
      induction fuel0 as [|f IH]; intros [|x q] v r; simpl; try discriminate. destruct (mem_nat _ _); apply IH.
    + intros r ? <-. eapply bind_sim; [apply compute_nullables_sim|]. intros nulls ? ->. constructor.
      repeat split; simpl; [apply reached_names_ren|apply reached_names_ren|]. apply mem_str_map; auto.
  - constructor. repeat split.
Qed.

Lemma refinement_sim fuel : forall ts ts', Forall2 (task_sim rn RL) ts ts' ->
  result_sim rn RL (Forall2 (warning_sim rn RL)) (refinement_warnings he fuel g ts) (refinement_warnings he fuel g' ts').
Proof.
  intros ts ts' H. induction H as [|t t' ts ts' Ht _ IH]; simpl; [constructor; constructor|].
  rewrite (ts_name _ _ _ _ Ht). eapply bind_sim; [apply reachable_sim|]. intros r r' (E1 & _ & E3).
  eapply bind_sim; [apply IH|]. intros ws ws' Hws. constructor. rewrite E1, E3.
  destruct (rs_primitives r); simpl; auto. destruct (rs_nullable r); auto. constructor; auto. constructor. apply Ht.
Qed.

(** ** The recursion search *)
Lemma get_task_index_sim n : get_task_index g' (fA rn n) = get_task_index g n.
Proof. unfold get_task_index. rewrite (tasks_sim _ _ Hg), index_first_ren. reflexivity. Qed.
Lemma get_task_indices_sim l : get_task_indices g' (map (fA rn) l) = get_task_indices g l.
Proof. induction l as [|n l IH]; simpl; auto. rewrite get_task_index_sim, IH. reflexivity. Qed.
Lemma get_task_indices_calm l : (forall e, get_task_indices g l <> Err e).
Proof.
  induction l as [|n l IH]; intros e; simpl; [discriminate|]. unfold get_task_index.
  destruct (index_first _ _); simpl; [|discriminate]. destruct (get_task_indices g l); simpl; try discriminate. congruence.
Qed.
Lemma split_at_sim n l l' : Forall2 (subtask_sim rn RL) l l' ->
  match split_at n l, split_at (fA rn n) l' with
  | None, None => True
  | Some (a, b), Some (a', b') => Forall2 (subtask_sim rn RL) a a' /\ Forall2 (subtask_sim rn RL) b b'
  | _, _ => False
  end.
Proof.
  induction 1 as [|s s' l l' Hs Hl IH]; simpl; auto. rewrite (us_task _ _ _ _ Hs), eqb_inj; auto.
  destruct (String.eqb _ _); auto.
  destruct (split_at n l) as [[a b]|], (split_at (fA rn n) l') as [[a' b']|]; auto. destruct IH; auto.
Qed.
Lemma names_sim l l' : Forall2 (subtask_sim rn RL) l l' ->
  map (fun s => sym_name (sub_task s)) l' = map (fA rn) (map (fun s => sym_name (sub_task s)) l).
Proof. rewrite map_map. intros H. eapply Forall2_map_eq; eauto. intros a b Hab. apply Hab. Qed.

(** Subtask ids are compared by inclusion of their texts, so they stay. *)
Hypothesis Hids : forall x, fI rn x = x.

Lemma id_to_task_sim l l' id : Forall2 (subtask_sim rn RL) l l' ->
  id_to_task l' id = option_map (fA rn) (id_to_task l id).
Proof.
  intros H. unfold id_to_task.
  pose proof (Forall2_find (subtask_sim rn RL)
    (fun s => match sub_id s with Some i => String.eqb (sym_name i) id | None => false end)
    (fun s => match sub_id s with Some i => String.eqb (sym_name i) id | None => false end) _ _ (Forall2_rev' _ _ _ H)) as Hf.
  destruct Hf as [|s s' Hs]; auto.
  - intros a b Hab. destruct (us_id _ _ _ _ Hab) as [|i i' E]; auto. rewrite E, Hids. reflexivity.
  - simpl. f_equal. apply Hs.
Qed.
Lemma occurrences_sim l l' n : Forall2 (subtask_sim rn RL) l l' ->
  occurrences l' (fA rn n) = occurrences l n.
Proof.
  intros H. unfold occurrences. generalize (@nil string) as acc.
  induction H as [|s s' l l' Hs _ IH]; intros acc; simpl; auto.
  rewrite IH. f_equal. rewrite (us_task _ _ _ _ Hs), eqb_inj; auto.
  destruct (us_id _ _ _ _ Hs) as [|i i' E]; auto. rewrite E, Hids. reflexivity.
Qed.
Lemma map_ids_sim l l' : Forall2 (subtask_sim rn RL) l l' -> forall ids, map_ids g' l' ids = map_ids g l ids.
Proof.
  intros H ids. induction ids as [|i ids IH]; simpl; auto. rewrite (id_to_task_sim _ _ _ H).
  destruct (id_to_task l i); simpl; auto. rewrite get_task_index_sim, IH. reflexivity.
Qed.

(** A hit pushes the same id again: the loop only stops without a hit. *)
Definition hits_of (ords : list (string * string)) (occ : list string) (t : string) : list string :=
  flat_map (fun out => filter (fun o => str_contains out o) (ho_ids he occ)) (ho_ids he (adjacent ords t)).
Lemma prefix_loop_hit subs ords occ : forall fuel t stack prefix l, hits_of ords occ t <> [] ->
  prefix_loop he fuel subs ords occ (t :: stack) prefix <> Ok l.
Proof.
  induction fuel as [|f IH]; intros t stack prefix l Hh; cbn [prefix_loop]; [discriminate|].
  fold (hits_of ords occ t). destruct (hits_of ords occ t) as [|h hs] eqn:Eh; [congruence|].
  destruct (id_to_task subs t); [|discriminate]. cbn [map app]. apply IH. congruence.
Qed.
Lemma prefix_loop_ok subs ords occ : forall fuel stack prefix l,
  prefix_loop he fuel subs ords occ stack prefix = Ok l -> l = prefix.
Proof.
  induction fuel as [|f IH]; intros [|t stack] prefix l; cbn [prefix_loop]; try congruence.
  fold (hits_of ords occ t). destruct (hits_of ords occ t) as [|h hs] eqn:Eh; [apply IH|].
  destruct (id_to_task subs t); [|discriminate]. cbn [map app]. intros E. exfalso.
  eapply prefix_loop_hit; [|exact E]. congruence.
Qed.
Lemma prefix_loop_sim subs subs' ords occ : Forall2 (subtask_sim rn RL) subs subs' ->
  forall fuel stack prefix prefix',
  result_sim rn RL (fun _ _ => True) (prefix_loop he fuel subs ords occ stack prefix)
                                     (prefix_loop he fuel subs' ords occ stack prefix').
Proof.
  intros H. induction fuel as [|f IH]; intros [|t stack] prefix prefix'; cbn [prefix_loop]; try (constructor; auto; fail).
  fold (hits_of ords occ t). destruct (hits_of ords occ t) as [|h hs]; [apply IH|].
  rewrite (id_to_task_sim _ _ _ H). destruct (id_to_task subs t); simpl; [apply IH|constructor].
Qed.

Lemma nth_meth m : htn_sim rn RL (snd (nth m (tg_methods g) (""%string, mkHtn [] None Total None)))
                            (snd (nth m (tg_methods g') (""%string, mkHtn [] None Total None))).
Proof.
  destruct Hg as [ts ms ms' fr to Hm]. cbn [tg_methods]. clear Hg Hd. revert m.
  induction Hm as [|x y l l' Hxy _ IH]; intros [|m]; simpl; auto; try apply Hxy;
    (apply mkHtnSim; [apply Forall2_nil|apply or_none|exact I]).
Qed.
Lemma eq_sim {A} (o : outcome A) : (forall e, o <> Err e) -> result_sim rn RL eq o o.
Proof. destruct o; intros H; try constructor; auto. exfalso; eapply H; reflexivity. Qed.
Lemma map_ids_calm subs : forall ids e, map_ids g subs ids <> Err e.
Proof.
  induction ids as [|i ids IH]; intros e; simpl; [discriminate|]. destruct (id_to_task subs i); [|discriminate].
  unfold get_task_index. destruct (index_first _ _); simpl; [|discriminate].
  destruct (map_ids g subs ids); simpl; try discriminate. intros E. eapply IH; eauto.
Qed.
Lemma ordering_sim_id o o' : ordering_sim rn o o' -> o' = o.
Proof.
  destruct o as [|l], o' as [|l']; simpl; try tauto. intros ->. f_equal.
  rewrite <- (map_id l) at 2. apply map_ext. intros [a b]. rewrite !Hids. reflexivity.
Qed.

Lemma get_prefix_sim fuel t m : t < length (tg_tasks g) ->
  result_sim rn RL eq (get_prefix he fuel g t m) (get_prefix he fuel g' t m).
Proof.
  intros Ht. unfold get_prefix. rewrite (name_sim _ _ Hg) by auto.
  destruct (nth_meth m) as [Hs _ Ho]. apply ordering_sim_id in Ho.
  set (tn := snd (nth m (tg_methods g) _)) in *. set (tn' := snd (nth m (tg_methods g') _)) in *.
  rewrite Ho. destruct (htn_orderings tn) as [|ords].
  - pose proof (split_at_sim (name_of g t) _ _ Hs) as H.
    destruct (split_at _ (htn_subtasks tn)) as [[a b]|], (split_at _ (htn_subtasks tn')) as [[a' b']|];
      try tauto; [|constructor]. destruct H as [Ha _]. rewrite (names_sim _ _ Ha), get_task_indices_sim.
    apply eq_sim, get_task_indices_calm.
  - rewrite (opt_rel_map _ _ _ Hs), (occurrences_sim _ _ _ Hs). destruct (negb _); [constructor|].
    pose proof (prefix_loop_sim _ _ ords (occurrences (htn_subtasks tn) (name_of g t)) Hs fuel
      (rev (ho_ids he (occurrences (htn_subtasks tn) (name_of g t)))) [] []) as Hp.
    remember (prefix_loop he fuel (htn_subtasks tn) _ _ _ _) as x eqn:Ex.
    remember (prefix_loop he fuel (htn_subtasks tn') _ _ _ _) as y eqn:Ey.
    destruct Hp as [a b _| | |]; cbn [obind]; try (constructor; auto; fail).
    symmetry in Ex, Ey. apply prefix_loop_ok in Ex, Ey. subst. simpl. constructor. reflexivity.
Qed.
Lemma suffix_loop_calm ords : forall fuel stack s e, suffix_loop he fuel ords stack s <> Err e.
Proof. induction fuel; intros [|x stack] s e; simpl; try discriminate. apply IHfuel. Qed.
Lemma get_suffix_sim fuel t m : t < length (tg_tasks g) ->
  result_sim rn RL eq (get_suffix he fuel g t m) (get_suffix he fuel g' t m).
Proof.
  intros Ht. unfold get_suffix. rewrite (name_sim _ _ Hg) by auto.
  destruct (nth_meth m) as [Hs _ Ho]. apply ordering_sim_id in Ho.
  set (tn := snd (nth m (tg_methods g) _)) in *. set (tn' := snd (nth m (tg_methods g') _)) in *.
  rewrite Ho. destruct (htn_orderings tn) as [|ords].
  - pose proof (split_at_sim (name_of g t) _ _ Hs) as H.
    destruct (split_at _ (htn_subtasks tn)) as [[a b]|], (split_at _ (htn_subtasks tn')) as [[a' b']|];
      try tauto; [|constructor]. destruct H as [_ Ha]. rewrite (names_sim _ _ Ha), get_task_indices_sim.
    apply eq_sim, get_task_indices_calm.
  - rewrite (opt_rel_map _ _ _ Hs), (occurrences_sim _ _ _ Hs). destruct (negb _); [constructor|].
    eapply bind_sim with (R := eq); [apply eq_sim; intros; apply suffix_loop_calm|].
    intros ids ? <-. rewrite (map_ids_sim _ _ Hs). apply eq_sim. intros. apply map_ids_calm.
Qed.

Definition ok_path (p : path) : Prop :=
  Forall (fun x => fst x < length (tg_tasks g) /\ snd x < length (tg_methods g)) p.
Lemma cycle_context_sim fuel null nt : forall rest m eps suf, ok_path rest ->
  result_sim rn RL eq (cycle_context he fuel g null nt m rest eps suf) (cycle_context he fuel g' null nt m rest eps suf).
Proof.
  induction rest as [|[t m'] rest IH]; intros m eps suf Hp; cbn [cycle_context]; [constructor; auto|].
  inversion Hp as [|? ? [Ht _] Hr]; subst. simpl in Ht.
  eapply bind_sim; [apply get_prefix_sim; auto|]. intros pre ? <-.
  eapply bind_sim; [apply get_suffix_sim; auto|]. intros s ? <-. apply IH; auto.
Qed.
Lemma cycle_names_sim c : ok_path c -> cycle_names g' c = ren_cycle rn (cycle_names g c).
Proof.
  intros H. unfold cycle_names, ren_cycle. rewrite map_map. induction H as [|[t m] c [Ht Hm] _ IH]; simpl; auto.
  simpl in Ht, Hm. rewrite IH, (name_sim _ _ Hg) by auto. do 2 f_equal.
  destruct Hg as [ts ms ms' fr to Hms]. cbn [tg_methods] in *. clear - Hms Hm. revert m Hm.
  induction Hms as [|x y l l' Hxy _ IH]; intros [|m]; simpl; try lia; [intros; apply Hxy|]. intros. apply IH. lia.
Qed.
Lemma update_recursion_ren null eps suf names r :
  update_recursion null eps suf (ren_cycle rn names) (ren_recursion rn r) = ren_recursion rn (update_recursion null eps suf names r).
Proof. unfold update_recursion. destruct eps, suf, r; simpl; auto; destruct (_ && _); reflexivity. Qed.

Definition visit_rel (x y : list path * recursion) : Prop :=
  fst y = fst x /\ snd y = ren_recursion rn (snd x) /\ Forall ok_path (fst x).
Lemma visit_tasks_sim fuel null p m : ok_path p -> m < length (tg_methods g) ->
  forall tasks stack r, Forall (fun t => t < length (tg_tasks g)) tasks -> Forall ok_path stack ->
  result_sim rn RL visit_rel (visit_tasks he fuel g null p m tasks stack r)
                             (visit_tasks he fuel g' null p m tasks stack (ren_recursion rn r)).
Proof.
  intros Hp Hm. induction tasks as [|t tasks IH]; intros stack r Ht Hs; cbn [visit_tasks].
  - constructor. repeat split; auto.
  - inversion Ht as [|? ? Ht1 Ht2]; subst. destruct (cycle_from t p) as [c|] eqn:Ec.
    + assert (ok_path (c ++ [(t, m)])) as Hc.
      { apply Forall_app. split; [|repeat constructor; auto].
        clear - Hp Ec. induction p as [|[t' m'] p IH]; simpl in Ec; [discriminate|].
        destruct (Nat.eqb t' t); [injection Ec as <-; auto|]. inversion Hp; auto. }
      destruct (c ++ [(t, m)]) as [|[t0 m0] rest] eqn:Ecc; [apply IH; auto|].
      eapply bind_sim; [apply cycle_context_sim; inversion Hc; auto|]. intros es ? <-.
      rewrite cycle_names_sim by auto. rewrite update_recursion_ren. apply IH; auto.
    + rewrite (it_methods_sim _ _ Hg). apply IH; auto.
      assert (incl (it_methods he g t) (from_set g t)) as Hi.
      { intros x Hx. eapply Permutation_in; [apply (ho_methods_ok _ Hhe)|exact Hx]. }
      clear - Hs Hp Hi Hd. revert stack Hs. induction (it_methods he g t) as [|x l IH]; intros stack Hs; simpl; auto.
      apply IH; [intros y Hy; apply Hi; simpl; auto|]. constructor; auto.
      apply Forall_app. split; auto. constructor; auto. simpl. apply from_bound. apply Hi. simpl; auto.
Qed.
Lemma recursion_loop_sim fuel lfuel null : forall stack r, Forall ok_path stack -> Forall (fun p => p <> []) stack ->
  result_sim rn RL (fun x y => y = ren_recursion rn x)
    (recursion_loop he fuel lfuel g null stack r) (recursion_loop he fuel lfuel g' null stack (ren_recursion rn r)).
Proof.
  induction fuel as [|f IH]; intros [|p stack] r Hs Hn; cbn [recursion_loop]; try (constructor; auto; fail).
  inversion Hs as [|? ? Hp Hs']; subst. inversion Hn as [|? ? Hp0 Hn']; subst. rewrite (it_tasks_sim _ _ Hg).
  assert (snd (last p (0, 0)) < length (tg_methods g)) as Hm.
  { destruct (exists_last Hp0) as (q & x & ->). rewrite last_last. apply Forall_app in Hp as [_ Hx].
    inversion Hx as [|? ? [_ Hx'] _]; auto. }
  assert (Forall (fun t => t < length (tg_tasks g)) (it_tasks he g (snd (last p (0, 0))))) as Ht.
  { apply Forall_forall. intros t Ht. eapply (to_set_lt d _ Hd). eapply Permutation_in; [apply (ho_tasks_ok _ Hhe)|exact Ht]. }
  pose proof (visit_tasks_sim lfuel null p _ Hp Hm _ stack r Ht Hs') as Hv.
  remember (visit_tasks he lfuel g _ _ _ _ _ _) as x eqn:Ex.
  destruct Hv as [a b (E1 & E2 & E3)|e e' He|q|]; cbn [obind]; try (constructor; auto; fail).
  rewrite E1, E2. apply IH; auto. symmetry in Ex. clear - Ex Hn'. destruct a as [st r1]. simpl.
  revert stack r Ex Hn'. generalize (snd (last p (0, 0))) at 1 as m. intros m.
  generalize (it_tasks he g (snd (last p (0, 0)))) as tasks.
  induction tasks as [|t tasks IHt]; intros stack r; cbn [visit_tasks].
  - intros E. injection E as <- <-. auto.
  - destruct (cycle_from t p) as [c|].
    + destruct (c ++ [(t, m)]) as [|[t0 m0] rest]; [apply IHt|].
      destruct (cycle_context _ _ _ _ _ _ _ _ _) as [es| | |]; cbn [obind]; try discriminate. apply IHt.
    + intros E Hn. eapply IHt; [exact E|]. clear - Hn. revert stack Hn.
      induction (it_methods he g t) as [|x l IH]; intros; simpl; auto. apply IH. constructor; auto.
      destruct p; discriminate.
Qed.

Lemma initial_stack_sim : initial_stack he g' = initial_stack he g.
Proof.
  unfold initial_stack. rewrite (it_keys_sim _ _ Hg). apply fold_ext. intros st t. rewrite (it_methods_sim _ _ Hg). reflexivity.
Qed.
Lemma initial_stack_ok : Forall ok_path (initial_stack he g) /\ Forall (fun p => p <> []) (initial_stack he g).
Proof.
  assert (forall st, Forall ok_path st /\ Forall (fun p : path => p <> []) st ->
    forall keys, let r := fold_left (fun st t => fold_left (fun st m => [(t, m)] :: st) (it_methods he g t) st) keys st in
    Forall ok_path r /\ Forall (fun p : path => p <> []) r) as H.
  { intros st Hst keys. revert st Hst. induction keys as [|t keys IH]; intros st Hst; simpl; auto. apply IH. clear IH.
    assert (incl (it_methods he g t) (from_set g t)) as Hi.
    { intros x Hx. eapply Permutation_in; [apply (ho_methods_ok _ Hhe)|exact Hx]. }
    revert st Hst Hi. induction (it_methods he g t) as [|x l IH]; intros st Hst Hi; simpl; auto.
    apply IH; [|intros y Hy; apply Hi; simpl; auto]. destruct Hst as [H1 H2]. split; constructor; auto; [|discriminate].
    repeat constructor; simpl; apply (from_bound t x); apply Hi; simpl; auto. }
  apply (H []). split; constructor.
Qed.
Lemma get_recursion_type_sim fuel lfuel nulls :
  result_sim rn RL (fun x y => y = ren_recursion rn x)
    (get_recursion_type he fuel lfuel g nulls) (get_recursion_type he fuel lfuel g' (map (fA rn) nulls)).
Proof.
  unfold get_recursion_type. rewrite get_task_indices_sim.
  eapply bind_sim with (R := eq); [apply eq_sim, get_task_indices_calm|]. intros null ? <-.
  rewrite initial_stack_sim. change NonRecursive with (ren_recursion rn NonRecursive) at 2.
  apply recursion_loop_sim; apply initial_stack_ok.
Qed.
End Domain.

(** ** Whole domains *)
Lemma perm_sim {A} (R : A -> A -> Prop) (l1 l2 : list A) : Permutation l1 l2 ->
  forall k, Forall2 R l1 k -> exists k', Permutation k k' /\ Forall2 R l2 k'.
Proof.
  induction 1 as [|x l1 l2 _ IH|x y l|l1 l2 l3 _ IH1 _ IH2]; intros k Hk.
  - inversion Hk; subst. exists []. auto.
  - inversion Hk as [|? b ? k1 Hb Hk1]; subst. destruct (IH _ Hk1) as (k' & P & H'). exists (b :: k'). auto.
  - inversion Hk as [|? b ? k1 Hb Hk1]; subst. inversion Hk1 as [|? c ? k2 Hc Hk2]; subst.
    exists (c :: b :: k2). split; auto. constructor.
  - destruct (IH1 _ Hk) as (k1 & P1 & H1). destruct (IH2 _ H1) as (k2 & P2 & H2). exists k2. split; auto.
    eapply perm_trans; eauto.
Qed.
Lemma refinement_perm fuel g : forall ts ts', Permutation ts ts' -> forall ws,
  refinement_warnings he fuel g ts = Ok ws -> exists ws', refinement_warnings he fuel g ts' = Ok ws' /\ Permutation ws ws'.
Proof.
  induction 1 as [|x l1 l2 _ IH|x y l|l1 l2 l3 _ IH1 _ IH2]; intros ws; simpl.
  - eauto.
  - destruct (reachable he fuel g (task_name x)) as [r| | |]; cbn [obind]; try discriminate.
    destruct (refinement_warnings he fuel g l1) as [w1| | |]; cbn [obind]; try discriminate.
    intros E. injection E as <-. destruct (IH _ eq_refl) as (w2 & -> & P). cbn [obind]. eexists. split; [reflexivity|].
    destruct (rs_primitives r); auto. destruct (rs_nullable r); auto.
  - destruct (reachable he fuel g (task_name y)) as [r| | |]; cbn [obind]; try discriminate.
    destruct (reachable he fuel g (task_name x)) as [r2| | |]; cbn [obind]; try discriminate.
    destruct (refinement_warnings he fuel g l) as [w1| | |]; cbn [obind]; try discriminate.
    intros E. injection E as <-. eexists. split; [reflexivity|].
    destruct (rs_primitives r), (rs_primitives r2); auto; destruct (rs_nullable r), (rs_nullable r2); auto. constructor.
  - intros E. destruct (IH1 _ E) as (w1 & E1 & P1). destruct (IH2 _ E1) as (w2 & E2 & P2). exists w2. split; auto.
    eapply perm_trans; eauto.
Qed.
End Graph.
