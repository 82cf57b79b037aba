(** Nullable tasks: an upper bound that holds in every domain and for every
    iteration order (tdg.rs 403-518). *)
From Coq Require Import String NArith Bool List Lia PeanoNat Permutation Relations.
From Verif Require Import Base Token Errors Ast Tdg GraphProofs TdgGraph TdgReach TdgNull SpecTdg SpecMeaning TdgTop.
Import ListNotations.
Open Scope list_scope.
Open Scope nat_scope.
Open Scope outcome_scope.

Section Ix.
Variable he : hash_env.
Hypothesis Hhe : hash_env_ok he.
Variable g : tdg.
Notation n := (length (tg_tasks g)).
Hypothesis Hfrom : forall t m, In m (from_set g t) -> t < n.
Definition edge_ix (t x : nat) : Prop := exists m, In m (from_set g t) /\ In x (to_set g m).
Notation reach := (clos_refl_trans nat edge_ix).
Inductive dissolves_ix (t : nat) : Prop :=
| di m : In m (from_set g t) -> (forall x, In x (to_set g m) -> exists y, reach x y /\ dissolves_ix y) -> dissolves_ix t.

Definition unit_sub (kv : nat * list nat) : Prop := forall y, In y (snd kv) -> reach (fst kv) y.
Record uinv (st : nstate) : Prop := mkUinv {
  uv_null : Forall dissolves_ix (ns_null st);
  uv_new : Forall dissolves_ix (ns_new st);
  uv_unit : Forall unit_sub (ns_unit st);
  uv_newunit : Forall unit_sub (ns_newunit st)
}.

Lemma base_dissolves : Forall dissolves_ix (null_base he g).
Proof.
  apply Forall_forall. intros x Hx. apply (null_base_In he Hhe g Hfrom) in Hx as (m & Hm & E).
  apply (di x m Hm). rewrite E. intros y [].
Qed.
Lemma unit_value_sub i : forall ms v, (forall m, In m ms -> In m (from_set g i)) -> unit_sub (i, v) ->
  unit_sub (i, fold_left (fun v m => match to_set g m with [y] => add_nat y v | _ => v end) ms v).
Proof.
  induction ms as [|m ms IH]; intros v Hms Hv; simpl; auto. apply IH; [intros; apply Hms; right; auto|].
  destruct (to_set g m) as [|y [|]] eqn:E; auto. intros z Hz. cbn [fst snd] in *.
  apply add_nat_In in Hz as [->|Hz]; [|apply (Hv z); auto].
  apply rt_step. exists m. split; [apply Hms; left; auto|]. rewrite E. left; auto.
Qed.
Lemma unit_base_sub : Forall unit_sub (unit_base he g).
Proof.
  rewrite unit_base_fold. assert (Forall unit_sub []) as H0 by constructor. revert H0. generalize (@nil (nat * list nat)).
  induction (tg_tasks g) as [|x l IH] in |- *; intros acc Ha; cbn [fold_left]; auto. apply IH.
  unfold unit_step. destruct (snd x); auto. destruct (index_first _ _) as [i|]; auto.
  apply insert_Forall; auto. apply unit_value_sub.
  - intros m Hm. apply it_methods_In in Hm; auto.
  - intros y [<-|[]]. apply rt_refl.
Qed.
Lemma uinv_init : uinv (null_init he g).
Proof. apply mkUinv; simpl; [apply base_dissolves|constructor|apply unit_base_sub|constructor]. Qed.

Lemma new_dissolves st : uinv st -> Forall dissolves_ix (new_nullables he g st).
Proof.
  intros [H1 H2 H3 _]. rewrite Forall_forall in *. intros t Ht.
  apply (new_nullables_In he Hhe g Hfrom) in Ht as [Ht|(m & Hm & Hx)]; auto.
  apply (di t m Hm). intros x Hxm. destruct (Hx x Hxm) as (s & y & E & Hy & Hn). apply assoc_in in E.
  exists y. split; auto. apply (H3 _ E y); auto.
Qed.
Lemma change_sub st c prev : uinv st -> unit_sub (c, prev) -> unit_sub (c, unit_change he g st c prev).
Proof.
  intros [_ _ H3 _] Hp. unfold unit_change.
  rewrite (fold_left_ext (fun acc m => match not_nullable he g (ns_null st) m with Some x => add_nat x acc | None => acc end) (fun acc m => union_nat acc (match not_nullable he g (ns_null st) m with Some x => [x] | None => [] end)))
    by (intros a b; destruct (not_nullable _ _ _ _); reflexivity).
  rewrite (fold_left_ext (fun acc r => match assoc_nat r (ns_unit st) with Some s => union_nat acc s | None => acc end) (fun acc r => union_nat acc (match assoc_nat r (ns_unit st) with Some s => s | None => [] end)))
    by (intros a b; destruct (assoc_nat _ _); reflexivity).
  intros y Hy. cbn [fst snd] in *. apply (proj1 (change_fold _ _ _)) in Hy as [Hy|(m & Hm & Hy)].
  - apply (proj1 (change_fold _ _ _)) in Hy as [Hy|(r & Hr & Hy)]; [apply (Hp y); auto|].
    destruct (assoc_nat r (ns_unit st)) as [s|] eqn:E; [|destruct Hy]. apply assoc_in in E.
    rewrite Forall_forall in H3. eapply rt_trans; [apply (Hp r); auto|]. apply (H3 _ E y); auto.
  - destruct (not_nullable he g (ns_null st) m) as [x|] eqn:E; [|destruct Hy]. destruct Hy as [<-|[]].
    apply find_some in E as [E1 _]. apply it_tasks_In in E1; auto. apply it_methods_In in Hm; auto.
    apply rt_step. exists m. auto.
Qed.
Lemma newunit_sub st l : uinv st -> incl l (ns_unit st) -> forall acc, Forall unit_sub acc ->
  Forall unit_sub
    (fold_left (fun acc x => if seteq_nat (snd x) (snd (fst x)) then acc
                            else insert_nat (fst (fst x)) (snd x) acc)
       (map (fun cp => (fst cp, snd cp, unit_change he g st (fst cp) (snd cp))) l) acc).
Proof.
  intros Hs. induction l as [|cp l IH]; intros Hl acc Ha; simpl; auto. apply IH.
  - intros x Hx. apply Hl. right; auto.
  - destruct (seteq_nat _ _); auto. apply insert_Forall; auto. apply change_sub; auto.
    pose proof (uv_unit _ Hs) as Hu. rewrite Forall_forall in Hu. specialize (Hu cp (Hl _ (or_introl eq_refl))).
    destruct cp; auto.
Qed.
Lemma uinv_step st : uinv st -> uinv (null_step he g st).
Proof.
  intros Hs. pose proof Hs as [H1 H2 H3 H4].
  assert (Hnu : Forall unit_sub (ns_newunit (null_step he g st))) by (apply newunit_sub; auto; intros x; auto).
  pose proof (new_dissolves st Hs) as Hn.
  apply mkUinv.
  - simpl. destruct (Nat.eqb _ _); auto. rewrite Forall_forall in *. intros x Hx. apply union_nat_In in Hx as []; auto.
  - simpl. auto.
  - simpl in *. rewrite Forall_forall in *. intros kv Hkv. apply in_map_iff in Hkv as (cp & <- & Hcp).
    intros y Hy. cbn [fst snd] in *.
    destruct (assoc_nat (fst cp) _) as [s|] eqn:E; [|apply (H3 cp Hcp y); auto]. apply assoc_in, Hnu in E.
    apply union_nat_In in Hy as [Hy|Hy]; [apply (H3 cp Hcp y)|apply (E y)]; auto.
  - exact Hnu.
Qed.
Theorem nullables_dissolve : forall fuel st l, uinv st -> null_loop he fuel g st = Ok l -> Forall dissolves_ix l.
Proof.
  induction fuel as [|f IH]; intros st l Hs; simpl; destruct (ns_cn st || ns_cu st); try discriminate.
  - intros E. injection E as <-. apply uv_null; auto.
  - apply IH, uinv_step; auto.
  - intros E. injection E as <-. apply uv_null; auto.
Qed.
End Ix.


(** ** Names *)
Section Names.
Variable d : domain_ast.
Variable g : tdg.
Hypothesis Hg : tdg_new d = Ok g.
Hypothesis Hd : distinct_names d.

Lemma edge_names i j : edge_ix g i j -> exists a b, name_at d i a /\ name_at d j b /\ decomposes d a b.
Proof.
  intros (m & Hm & Hx). apply (from_set_In d g Hg) in Hm as (md & E1 & E2).
  apply (to_set_In d g Hg) in Hx as (md' & s & E3 & Hs & E4). assert (md' = md) as -> by congruence.
  apply (index_at d Hd) in E2. apply (index_at d Hd) in E4. exists (sym_name (m_task md)), (sym_name (sub_task s)).
  split; auto. split; auto. exists md. split; [eapply nth_error_In; eauto|]. split; auto.
  unfold subtask_names. apply in_map_iff. eauto.
Qed.
Lemma reach_names i j : clos_refl_trans nat (edge_ix g) i j -> forall a b, name_at d i a -> name_at d j b -> reaches d a b.
Proof.
  intros Hr. apply Operators_Properties.clos_rt_rt1n in Hr. induction Hr as [i|i k j He _ IH]; intros a b Ha Hb.
  - assert (a = b) as -> by (unfold name_at in *; congruence). apply rt_refl.
  - destruct (edge_names _ _ He) as (a' & c & Ha' & Hc & Hs). assert (a' = a) as -> by (unfold name_at in *; congruence).
    eapply rt_trans; [apply rt_step; exact Hs|]. apply IH; auto.
Qed.
Lemma dissolves_named i : dissolves_ix g i -> exists a, name_at d i a.
Proof. intros [m Hm _]. apply (from_set_In d g Hg) in Hm as (md & _ & E). apply (index_at d Hd) in E. eauto. Qed.
Lemma dissolves_names : forall i, dissolves_ix g i -> forall a, name_at d i a -> dissolves d a.
Proof.
  fix IH 2. intros i [m Hm Hx] a Ha. apply (from_set_In d g Hg) in Hm as (md & E1 & E2).
  apply (index_at d Hd) in E2. assert (sym_name (m_task md) = a) as <- by (unfold name_at in *; congruence).
  apply ds_method; [eapply nth_error_In; eauto|]. intros b Hb.
  unfold subtask_names in Hb. apply in_map_iff in Hb as (s & <- & Hs).
  destruct (to_set_spec d g Hg m md E1) as (ids & Ei & Et).
  destruct (In_nth_error _ _ Hs) as (k & Ek). destruct (map_nth_some _ _ _ _ _ Ei Ek) as (j & Ej & Hj).
  assert (In j (to_set g m)) as Hjm by (apply (to_set_In d g Hg); eauto 6).
  destruct (Hx j Hjm) as (y & Hy & Hdy). destruct (dissolves_named y Hdy) as (c & Hc).
  exists c. split; [eapply reach_names; eauto; apply (index_at d Hd); auto|]. apply (IH y); auto.
Qed.
Theorem nullables_bound he (Hhe : hash_env_ok he) fuel nulls : compute_nullables he fuel g = Ok nulls ->
  forall a, In a nulls -> dissolves d a.
Proof.
  unfold compute_nullables. destruct (null_loop he fuel g (null_init he g)) as [l| | |] eqn:E; simpl; try discriminate.
  intros En. injection En as <-. intros a Ha. apply fold_add_str in Ha as [[]|(i & Hi & <-)].
  pose proof (nullables_dissolve he Hhe g (from_lt d g Hg) fuel _ l (uinv_init he Hhe g (from_lt d g Hg)) E) as Hl.
  rewrite Forall_forall in Hl. specialize (Hl i Hi).
  apply dissolves_names with (i := i); auto. destruct Hl as [m Hm _].
  apply (from_set_In d g Hg) in Hm as (md & _ & E2). apply (index_at d Hd) in E2.
  rewrite (name_of_at d g Hg i _ E2). auto.
Qed.
End Names.
