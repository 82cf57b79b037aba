(** Nullable tasks: nothing but vanishing tasks is found if the rule for unit
    methods (tdg.rs 476-488) cannot be misled. *)
From Coq Require Import String NArith Bool List Lia PeanoNat Permutation Relations.
From Verif Require Import Base Token Errors Ast Tdg GraphProofs TdgGraph TdgReach TdgNull SpecTdg TdgTop.
Import ListNotations.
Open Scope list_scope.
Open Scope nat_scope.
Open Scope outcome_scope.

Section Ix.
Variable he : hash_env.
Hypothesis Hhe : hash_env_ok he.
Variable g : tdg.
Notation n := (length (tg_tasks g)).
Hypothesis Hfrom : forall t m, In m (from_set g t) -> t < n.
Notation nullable := (nullable_ix g).
Hypothesis Htame : forall t m x, In m (from_set g t) -> In x (to_set g m) -> nullable x ->
  nullable t \/ exists m', In m' (from_set g x) /\ to_set g m' = [].

Definition unit_ok (kv : nat * list nat) : Prop := forall y, In y (snd kv) -> nullable y -> nullable (fst kv).
Record sinv (st : nstate) : Prop := mkSinv {
  sv_null : Forall nullable (ns_null st);
  sv_new : Forall nullable (ns_new st);
  sv_unit : Forall unit_ok (ns_unit st);
  sv_newunit : Forall unit_ok (ns_newunit st);
  sv_base : incl (null_base he g) (ns_null st)
}.

Lemma base_nullable : Forall nullable (null_base he g).
Proof.
  apply Forall_forall. intros x Hx. apply (null_base_In he Hhe g Hfrom) in Hx as (m & Hm & E).
  apply (ni g x m Hm). rewrite E. intros y [].
Qed.
Lemma unit_value_ok i : forall ms v, (forall m, In m ms -> In m (from_set g i)) -> unit_ok (i, v) ->
  unit_ok (i, fold_left (fun v m => match to_set g m with [y] => add_nat y v | _ => v end) ms v).
Proof.
  induction ms as [|m ms IH]; intros v Hms Hv; simpl; auto. apply IH; [intros; apply Hms; right; auto|].
  destruct (to_set g m) as [|y [|]] eqn:E; auto. intros z Hz Hn. cbn [fst snd] in *.
  apply add_nat_In in Hz as [->|Hz]; [|apply (Hv z); auto].
  apply (ni g i m); [apply Hms; left; auto|]. rewrite E. intros x [<-|[]]. auto.
Qed.
Lemma unit_base_ok : Forall unit_ok (unit_base he g).
Proof.
  rewrite unit_base_fold. assert (Forall unit_ok []) as H0 by constructor. revert H0. generalize (@nil (nat * list nat)).
  induction (tg_tasks g) as [|x l IH] in |- *; intros acc Ha; cbn [fold_left]; auto. apply IH.
  unfold unit_step. destruct (snd x); auto. destruct (index_first _ _) as [i|]; auto.
  apply insert_Forall; auto. apply unit_value_ok.
  - intros m Hm. apply it_methods_In in Hm; auto.
  - intros y [<-|[]]; auto.
Qed.
Lemma sinv_init : sinv (null_init he g).
Proof.
  apply mkSinv; simpl; [apply base_nullable|constructor|apply unit_base_ok|constructor|intros x; auto].
Qed.

Lemma new_ok st : sinv st -> Forall nullable (new_nullables he g st).
Proof.
  intros [H1 H2 H3 _ _]. rewrite Forall_forall in *. intros t Ht.
  apply (new_nullables_In he Hhe g Hfrom) in Ht as [Ht|(m & Hm & Hx)]; auto.
  apply (ni g t m Hm). intros x Hxm. destruct (Hx x Hxm) as (s & y & E & Hy & Hn). apply assoc_in in E.
  apply (H3 _ E y); auto.
Qed.
Lemma change_ok st c prev : sinv st -> unit_ok (c, prev) -> unit_ok (c, unit_change he g st c prev).
Proof.
  intros [H1 _ H3 _ H5] Hp. unfold unit_change.
  rewrite (fold_left_ext (fun acc m => match not_nullable he g (ns_null st) m with Some x => add_nat x acc | None => acc end) (fun acc m => union_nat acc (match not_nullable he g (ns_null st) m with Some x => [x] | None => [] end)))
    by (intros a b; destruct (not_nullable _ _ _ _); reflexivity).
  rewrite (fold_left_ext (fun acc r => match assoc_nat r (ns_unit st) with Some s => union_nat acc s | None => acc end) (fun acc r => union_nat acc (match assoc_nat r (ns_unit st) with Some s => s | None => [] end)))
    by (intros a b; destruct (assoc_nat _ _); reflexivity).
  intros y Hy Hn. cbn [fst snd] in *. apply (proj1 (change_fold _ _ _)) in Hy as [Hy|(m & Hm & Hy)].
  - apply (proj1 (change_fold _ _ _)) in Hy as [Hy|(r & Hr & Hy)]; [apply (Hp y); auto|].
    destruct (assoc_nat r (ns_unit st)) as [s|] eqn:E; [|destruct Hy]. apply assoc_in in E.
    rewrite Forall_forall in H3. apply (Hp r); auto. apply (H3 _ E y); auto.
  - destruct (not_nullable he g (ns_null st) m) as [x|] eqn:E; [|destruct Hy]. destruct Hy as [<-|[]].
    apply find_some in E as [E1 E2]. apply it_tasks_In in E1; auto. apply it_methods_In in Hm; auto.
    destruct (Htame c m x Hm E1 Hn) as [?|Hb]; auto. apply (null_base_In he Hhe g Hfrom) in Hb. apply H5 in Hb.
    apply mem_nat_In in Hb. rewrite Hb in E2. discriminate.
Qed.
Lemma newunit_ok st l : sinv st -> incl l (ns_unit st) -> forall acc, Forall unit_ok acc ->
  Forall unit_ok
    (fold_left (fun acc x => if seteq_nat (snd x) (snd (fst x)) then acc
                            else insert_nat (fst (fst x)) (snd x) acc)
       (map (fun cp => (fst cp, snd cp, unit_change he g st (fst cp) (snd cp))) l) acc).
Proof.
  intros Hs. induction l as [|cp l IH]; intros Hl acc Ha; simpl; auto. apply IH.
  - intros x Hx. apply Hl. right; auto.
  - destruct (seteq_nat _ _); auto. apply insert_Forall; auto. apply change_ok; auto.
    pose proof (sv_unit _ Hs) as Hu. rewrite Forall_forall in Hu. specialize (Hu cp (Hl _ (or_introl eq_refl))).
    destruct cp; auto.
Qed.
Lemma sinv_step st : sinv st -> sinv (null_step he g st).
Proof.
  intros Hs. pose proof Hs as [H1 H2 H3 H4 H5].
  assert (Hnu : Forall unit_ok (ns_newunit (null_step he g st))) by (apply newunit_ok; auto; intros x; auto).
  pose proof (new_ok st Hs) as Hn.
  apply mkSinv.
  - simpl. destruct (Nat.eqb _ _); auto. rewrite Forall_forall in *. intros x Hx. apply union_nat_In in Hx as []; auto.
  - simpl. auto.
  - simpl in *. rewrite Forall_forall in *. intros kv Hkv. apply in_map_iff in Hkv as (cp & <- & Hcp).
    intros y Hy Hny. cbn [fst snd] in *.
    destruct (assoc_nat (fst cp) _) as [s|] eqn:E; [|apply (H3 cp Hcp y); auto]. apply assoc_in, Hnu in E.
    apply union_nat_In in Hy as [Hy|Hy]; [apply (H3 cp Hcp y)|apply (E y)]; auto.
  - exact Hnu.
  - intros x Hx. apply H5 in Hx. simpl. destruct (Nat.eqb _ _); auto. apply union_nat_In; auto.
Qed.
Theorem nullables_sound : forall fuel st l, sinv st -> null_loop he fuel g st = Ok l -> Forall nullable l.
Proof.
  induction fuel as [|f IH]; intros st l Hs; simpl; destruct (ns_cn st || ns_cu st); try discriminate.
  - intros E. injection E as <-. apply sv_null; auto.
  - apply IH, sinv_step; auto.
  - intros E. injection E as <-. apply sv_null; auto.
Qed.
End Ix.

(** ** Names *)
Section Names.
Variable d : domain_ast.
Variable g : tdg.
Hypothesis Hg : tdg_new d = Ok g.
Hypothesis Hd : distinct_names d.

Lemma expand_context l1 l2 a b : expand d a b -> expand d (l1 ++ a ++ l2) (l1 ++ b ++ l2).
Proof.
  intros [x m y Hm].
  replace (l1 ++ (x ++ sym_name (m_task m) :: y) ++ l2) with ((l1 ++ x) ++ sym_name (m_task m) :: (y ++ l2)) by (rewrite <- !app_assoc; reflexivity).
  replace (l1 ++ (x ++ subtask_names m ++ y) ++ l2) with ((l1 ++ x) ++ subtask_names m ++ (y ++ l2)) by (rewrite <- !app_assoc; reflexivity).
  apply ex_method; auto.
Qed.
Lemma expands_context l1 l2 a b : expands d a b -> expands d (l1 ++ a ++ l2) (l1 ++ b ++ l2).
Proof.
  intros He. induction He as [a b Hs|a|a b c _ IH1 _ IH2].
  - apply rt_step, expand_context; auto.
  - apply rt_refl.
  - eapply rt_trans; eauto.
Qed.
Lemma vanish_list l : Forall (vanishes d) l -> expands d l [].
Proof.
  induction 1 as [|x l Hx _ IH]; [apply rt_refl|]. eapply rt_trans; [|exact IH].
  exact (expands_context [] l [x] [] Hx).
Qed.
Lemma vanishes_by m : In m (d_methods d) -> Forall (vanishes d) (subtask_names m) -> vanishes d (sym_name (m_task m)).
Proof.
  intros Hm Hs. eapply rt_trans; [apply rt_step, (ex_method d [] m [] Hm)|]. simpl. rewrite app_nil_r. apply vanish_list; auto.
Qed.

Lemma nullable_vanishes : forall i, nullable_ix g i -> forall a, name_at d i a -> vanishes d a.
Proof.
  fix IH 2. intros i [m Hm Hx] a Ha. apply (from_set_In d g Hg) in Hm as (md & E1 & E2).
  apply (index_at d Hd) in E2. assert (sym_name (m_task md) = a) as <- by (unfold name_at in *; congruence).
  apply vanishes_by; [eapply nth_error_In; eauto|]. apply Forall_forall. intros b Hb.
  unfold subtask_names in Hb. apply in_map_iff in Hb as (s & <- & Hs).
  destruct (to_set_spec d g Hg m md E1) as (ids & Ei & Et).
  destruct (In_nth_error _ _ Hs) as (k & Ek). destruct (map_nth_some _ _ _ _ _ Ei Ek) as (j & Ej & Hj).
  apply (IH j); [|apply (index_at d Hd); auto]. apply Hx. apply (to_set_In d g Hg). eauto 6.
Qed.
Lemma vanishes_nullable_at i a : name_at d i a -> vanishes d a -> nullable_ix g i.
Proof.
  intros Hi Hv. destruct (vanishes_nullable d g Hg Hd a Hv) as (j & Hj & Hn).
  rewrite (name_at_inj d Hd i j a); auto.
Qed.

(** Whenever a vanishing task is a subtask of a method, the head of the method
    vanishes too or the subtask has a method without subtasks. *)
Hypothesis Htame : forall m x, In m (d_methods d) -> In x (subtask_names m) -> vanishes d x ->
  vanishes d (sym_name (m_task m))
  \/ exists m', In m' (d_methods d) /\ sym_name (m_task m') = x /\ htn_subtasks (m_tn m') = [].
Lemma tame_ix : forall t m x, In m (from_set g t) -> In x (to_set g m) -> nullable_ix g x ->
  nullable_ix g t \/ exists m', In m' (from_set g x) /\ to_set g m' = [].
Proof.
  intros t m x Hm Hx Hn. apply (from_set_In d g Hg) in Hm as (md & E1 & E2).
  apply (to_set_In d g Hg) in Hx as (md' & s & E3 & Hs & E4). assert (md' = md) as -> by congruence.
  apply (index_at d Hd) in E2. pose proof E4 as E5. apply (index_at d Hd) in E4.
  destruct (Htame md (sym_name (sub_task s))) as [Hv|(m' & Hm' & Eh & Es)].
  - eapply nth_error_In; eauto.
  - unfold subtask_names. apply in_map_iff. eauto.
  - eapply nullable_vanishes; eauto.
  - left. eapply vanishes_nullable_at; eauto.
  - right. destruct (In_nth_error _ _ Hm') as (k & Ek). exists k. split.
    + apply (from_set_In d g Hg). exists m'. split; auto. rewrite Eh. auto.
    + destruct (to_set_spec d g Hg k m' Ek) as (ids & Ei & Et). rewrite Es in Ei. destruct ids; [exact Et|discriminate].
Qed.
Theorem nullables_vanish he (Hhe : hash_env_ok he) fuel nulls : compute_nullables he fuel g = Ok nulls ->
  forall a, In a nulls -> vanishes d a.
Proof.
  unfold compute_nullables. destruct (null_loop he fuel g (null_init he g)) as [l| | |] eqn:E; simpl; try discriminate.
  intros En. injection En as <-. intros a Ha. apply fold_add_str in Ha as [[]|(i & Hi & <-)].
  pose proof (nullables_sound he Hhe g (from_lt d g Hg) tame_ix fuel _ l (sinv_init he Hhe g (from_lt d g Hg)) E) as Hl.
  rewrite Forall_forall in Hl. specialize (Hl i Hi).
  apply nullable_vanishes with (i := i); auto. destruct Hl as [m Hm _].
  apply (from_set_In d g Hg) in Hm as (md & _ & E2). apply (index_at d Hd) in E2.
  rewrite (name_of_at d g Hg i _ E2). auto.
Qed.
End Names.
