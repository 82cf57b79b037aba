(** Reachability, nullable tasks and warnings in terms of names. *)
From Coq Require Import String NArith Bool List Lia PeanoNat Permutation Relations.
From Verif Require Import Base Token Lexer Errors Ast Graph Semantic GraphProofs Tdg SpecSem SpecTdg SemProofs SemDomain SemProblem TdgGraph TdgReach TdgNull.
Import ListNotations.
Open Scope list_scope.
Open Scope nat_scope.
Open Scope outcome_scope.

Section Names.
Variable d : domain_ast.
Variable g : tdg.
Hypothesis Hg : tdg_new d = Ok g.

Definition name_at (i : nat) (a : string) : Prop := nth_error (task_names d) i = Some a.

Lemma from_lt t m : In m (from_set g t) -> t < length (tg_tasks g).
Proof. eapply from_set_lt; eauto. Qed.
Lemma to_lt t m : In t (to_set g m) -> t < length (tg_tasks g).
Proof. eapply to_set_lt; eauto. Qed.
Lemma name_of_at i a : name_at i a -> name_of g i = a.
Proof.
  unfold name_at, name_of, task_names. rewrite (tdg_tasks d g Hg). intros E.
  destruct (nth_error (task_list d) i) as [x|] eqn:Ex.
  - rewrite (nth_error_nth _ _ _ Ex). apply (map_nth_error fst) in Ex. congruence.
  - apply nth_error_None in Ex. rewrite <- (map_length fst) in Ex. apply nth_error_None in Ex. congruence.
Qed.

(** ** Declared tasks *)
Lemma task_list_app : task_list d = map (fun t => (task_name t, true)) (d_tasks d) ++ map (fun a => (act_name a, false)) (d_actions d).
Proof. reflexivity. Qed.
Lemma index_first_front n l1 l2 : In n (map fst l1) ->
  exists i, index_first n (l1 ++ l2) = Some i /\ i < length l1.
Proof.
  induction l1 as [|[m c] l1 IH]; simpl; [tauto|]. intros Hi. destruct (String.eqb m n) eqn:E.
  - exists 0. split; auto; lia.
  - apply String.eqb_neq in E. destruct IH as (i & -> & Hl); [tauto|]. exists (S i). split; auto; lia.
Qed.
Lemma compound_index n : compound d n -> exists i, index_first n (tg_tasks g) = Some i
  /\ nth i (tg_tasks g) (""%string, false) = (n, true).
Proof.
  intros Hc. rewrite (tdg_tasks d g Hg), task_list_app.
  destruct (index_first_front n (map (fun t => (task_name t, true)) (d_tasks d)) (map (fun a => (act_name a, false)) (d_actions d)))
    as (i & Ei & Hl).
  { rewrite map_map. exact Hc. }
  exists i. split; auto. rewrite app_nth1 by auto. apply index_first_nth in Ei. rewrite map_app in Ei.
  rewrite nth_error_app1 in Ei by (rewrite map_length; auto). rewrite map_map in Ei. simpl in Ei.
  rewrite nth_error_map in Ei. destruct (nth_error (d_tasks d) i) as [t|] eqn:Et; [|discriminate].
  injection Ei as <-. apply nth_error_nth. rewrite nth_error_map, Et. auto.
Qed.
Lemma compound_key n : compound d n -> exists k, key g k.
Proof.
  intros Hc. destruct (compound_index n Hc) as (i & Ei & En). exists i. exists (n, true). split; auto.
  rewrite <- En. apply nth_In. apply index_first_nth in Ei. rewrite <- (map_length fst). apply nth_error_Some. congruence.
Qed.
Lemma no_compound_no_key : d_tasks d = [] -> forall k, ~ key g k.
Proof.
  intros E k (x & Hx & Es & _). rewrite (tdg_tasks d g Hg), task_list_app, E in Hx. simpl in Hx.
  apply in_map_iff in Hx as (a & <- & _). discriminate.
Qed.

(** ** Totality *)
Section Total.
Variable he : hash_env.
Hypothesis Hhe : hash_env_ok he.
Definition tdg_bound : nat := bfs_bound g + (2 * length (tg_tasks g) + 2).

Lemma nullables_ok fuel : (exists n, compound d n) -> tdg_bound <= fuel ->
  exists l, null_loop he fuel g (null_init he g) = Ok l
    /\ compute_nullables he fuel g = Ok (fold_left (fun acc i => add_str (name_of g i) acc) l []).
Proof.
  intros (n & Hc) Hf. apply compound_key in Hc.
  destruct (nullables_total he Hhe g from_lt to_lt fuel Hc) as (l & El); [unfold tdg_bound in Hf; lia|].
  exists l. split; auto. unfold compute_nullables. rewrite El. auto.
Qed.

Lemma reachable_compound fuel n : compound d n -> tdg_bound <= fuel ->
  exists i r nulls,
    index_first n (tg_tasks g) = Some i
    /\ (forall x, In x r <-> reach_ix g i x)
    /\ compute_nullables he fuel g = Ok nulls
    /\ reachable he fuel g n =
       Ok (mkReach (reached_names false 0 (tg_tasks g) r) (reached_names true 0 (tg_tasks g) r) (mem_str n nulls)).
Proof.
  intros Hc Hf. destruct (compound_index n Hc) as (i & Ei & En).
  destruct (bfs_exact he Hhe g from_lt fuel i) as (r & Er & Hr); [unfold tdg_bound in Hf; lia|].
  destruct (nullables_ok fuel (ex_intro _ n Hc) Hf) as (l & _ & El).
  eexists i, r, _. split; auto. split; auto. split; [exact El|]. unfold reachable. rewrite Ei, En, Er. simpl. rewrite El. auto.
Qed.

Definition warns (fuel : nat) (t : task) : bool :=
  match reachable he fuel g (task_name t) with
  | Ok r => match rs_primitives r with [] => negb (rs_nullable r) | _ => false end
  | _ => false
  end.
Lemma refinement_total fuel : tdg_bound <= fuel -> forall ts, incl ts (d_tasks d) ->
  refinement_warnings he fuel g ts
  = Ok (map (fun t => NoPrimitiveRefinement (task_name t) (task_pos t)) (filter (warns fuel) ts)).
Proof.
  intros Hf. induction ts as [|t ts IH]; intros Hi; simpl; auto.
  destruct (reachable_compound fuel (task_name t)) as (i & r & nulls & _ & _ & _ & E); auto.
  { apply in_map. apply Hi. left; auto. }
  assert (Ew : warns fuel t = match reached_names false 0 (tg_tasks g) r with [] => negb (mem_str (task_name t) nulls) | _ => false end).
  { unfold warns. rewrite E. auto. }
  rewrite E. simpl. rewrite IH by (intros x Hx; apply Hi; right; auto). simpl. rewrite Ew.
  destruct (reached_names false 0 (tg_tasks g) r); auto. destruct (mem_str _ _); auto.
Qed.
End Total.

(** ** Names and indices *)
Hypothesis Hd : distinct_names d.
Lemma names_NoDup : NoDup (map fst (task_list d)).
Proof. change (NoDup (task_names d)). rewrite task_names_eq. exact Hd. Qed.
Lemma index_at n i : index_last n (task_list d) = Some i <-> name_at i n.
Proof. apply index_last_iff, names_NoDup. Qed.
Lemma first_at n i : index_first n (tg_tasks g) = Some i <-> name_at i n.
Proof. rewrite (tdg_tasks d g Hg). apply index_first_iff, names_NoDup. Qed.
Lemma name_at_inj i j n : name_at i n -> name_at j n -> i = j.
Proof. apply nodup_nth, names_NoDup. Qed.

Lemma succ_name i j a b : name_at i a -> name_at j b -> (succ g i j <-> decomposes d a b).
Proof.
  intros Ha Hb. unfold succ, decomposes, subtask_names. split.
  - intros (m & Hm & Hj). apply (from_set_In d g Hg) in Hm as (md & E1 & E2). apply index_at in E2.
    apply (to_set_In d g Hg) in Hj as (md' & s & E3 & Hs & E4). apply index_at in E4.
    assert (md' = md) as -> by congruence. exists md. split; [eapply nth_error_In; eauto|].
    unfold name_at in *. split; [congruence|]. apply in_map_iff. exists s. split; auto. congruence.
  - intros (md & Hm & Eh & Hi). apply in_map_iff in Hi as (s & Es & Hs). apply In_nth_error in Hm as (m & Em).
    exists m. split.
    + apply (from_set_In d g Hg). exists md. split; auto. apply index_at. congruence.
    + apply (to_set_In d g Hg). exists md, s. split; auto. split; auto. apply index_at. congruence.
Qed.
Lemma succ_named i j : succ g i j -> exists a b, name_at i a /\ name_at j b.
Proof.
  intros (m & Hm & Hj). apply (from_set_In d g Hg) in Hm as (md & E1 & E2). apply index_at in E2.
  apply (to_set_In d g Hg) in Hj as (md' & s & E3 & Hs & E4). apply index_at in E4. eauto.
Qed.
Lemma decomposes_named a b : decomposes d a b -> exists i j, name_at i a /\ name_at j b.
Proof.
  intros (md & Hm & Eh & Hi). apply in_map_iff in Hi as (s & Es & Hs). apply In_nth_error in Hm as (m & Em).
  destruct (to_set_spec d g Hg m md Em) as (ids & E1 & _).
  destruct (tdg_inv d g Hg) as (heads & to & Eh' & _ & _).
  destruct (map_nth_some _ _ _ _ _ Eh' Em) as (i & Ei & _). apply In_nth_error in Hs as (k & Ek).
  destruct (map_nth_some _ _ _ _ _ E1 Ek) as (j & Ej & _). apply index_at in Ei, Ej. exists i, j. split; congruence.
Qed.

Lemma reach_name i a : name_at i a -> forall j, reach_ix g i j -> exists b, name_at j b /\ reaches d a b.
Proof.
  intros Ha j Hr. apply clos_rt_rtn1 in Hr. induction Hr as [|j k Hs _ (b & Hb & Hab)].
  - exists a. split; auto. apply rt_refl.
  - destruct (succ_named _ _ Hs) as (b' & c & Hb' & Hc). exists c. split; auto.
    eapply rt_trans; eauto. apply rt_step. apply (succ_name j k b c); auto.
Qed.
Lemma name_reach i a b : name_at i a -> reaches d a b -> exists j, name_at j b /\ reach_ix g i j.
Proof.
  intros Ha Hr. apply clos_rt_rtn1 in Hr. induction Hr as [|b c Hs _ (j & Hj & Hij)].
  - exists i. split; auto. apply rt_refl.
  - destruct (decomposes_named _ _ Hs) as (j' & k & Hj' & Hk). exists k. split; auto.
    eapply rt_trans; eauto. apply rt_step. apply (succ_name j k b c); auto.
Qed.

Lemma reached_In c : forall l k reach n, In n (reached_names c k l reach) <->
  exists i, nth_error l i = Some (n, c) /\ In (k + i) reach.
Proof.
  induction l as [|[m b] l IH]; intros k reach n; simpl.
  - split; [tauto|]. intros ([|i] & E & _); discriminate.
  - rewrite in_app_iff, IH. split.
    + intros [Hi|(i & E & Hi)].
      * destruct (mem_nat k reach && Bool.eqb b c) eqn:E; [|destruct Hi]. apply andb_true_iff in E as [E1 E2].
        apply mem_nat_In in E1. apply eqb_prop in E2 as ->. destruct Hi as [->|[]]. exists 0. rewrite Nat.add_0_r. auto.
      * exists (S i). rewrite Nat.add_succ_r. auto.
    + intros ([|i] & E & Hi); simpl in E.
      * injection E as -> ->. left. rewrite Nat.add_0_r in Hi. apply mem_nat_In in Hi. rewrite Hi, eqb_reflx. left; auto.
      * right. exists i. rewrite Nat.add_succ_r in Hi. auto.
Qed.
Lemma kind_at n c i : nth_error (task_list d) i = Some (n, c) <->
  name_at i n /\ (if c then compound d n else primitive d n).
Proof.
  rewrite task_list_app. unfold name_at. rewrite task_names_eq. pose proof Hd as Hd'. unfold distinct_names in Hd'. split.
  - intros E. split.
    + apply (map_nth_error fst) in E. rewrite map_app, !map_map in E. exact E.
    + apply nth_error_In, in_app_or in E as [E|E]; apply in_map_iff in E as (x & E & Hx); injection E as <- <-;
        apply in_map; auto.
  - intros [E Hk]. destruct (nth_error (map (fun t => (task_name t, true)) (d_tasks d) ++ map (fun a => (act_name a, false)) (d_actions d)) i)
      as [[n' c']|] eqn:Ex.
    + assert (n' = n) as ->.
      { pose proof (map_nth_error fst _ _ Ex) as Ef. rewrite map_app, !map_map in Ef. cbn [fst] in Ef.
        assert (Some n' = Some n) as Es by (rewrite <- E; symmetry; exact Ef). congruence. }
      destruct (bool_dec c' c) as [->|Hne]; auto. exfalso.
      assert (In n (map task_name (d_tasks d)) /\ In n (map act_name (d_actions d))) as [H1 H2].
      { apply nth_error_In, in_app_or in Ex as [Ex|Ex]; apply in_map_iff in Ex as (x & Ex & Hx); injection Ex as <- <-;
          destruct c; try congruence; split; auto; apply in_map; auto. }
      clear - Hd' H1 H2. induction (map task_name (d_tasks d)) as [|y l IH]; [destruct H1|].
      simpl in Hd'. inversion Hd' as [|? ? Hy Hl]; subst. destruct H1 as [->|H1]; auto. apply Hy. apply in_or_app; auto.
    + exfalso. apply nth_error_None in Ex. rewrite app_length, !map_length in Ex.
      assert (i < length (map task_name (d_tasks d) ++ map act_name (d_actions d))) as Hl by (apply nth_error_Some; congruence).
      rewrite app_length, !map_length in Hl. lia.
Qed.

(** ** Nullable names *)
Lemma vanish_all : forall l l', expands d l l' -> l' = [] -> forall a, In a l -> exists i, name_at i a /\ nullable_ix g i.
Proof.
  intros l l' He. apply clos_rt_rt1n in He. induction He as [l|l y l' Hs _ IH]; intros E a Ha.
  - subst. destruct Ha.
  - specialize (IH E). destruct Hs as [l1 md l2 Hm].
    apply in_app_or in Ha as [Ha|[<-|Ha]]; [apply IH, in_or_app; auto| |apply IH, in_or_app; right; apply in_or_app; auto].
    apply In_nth_error in Hm as (m & Em). destruct (tdg_inv d g Hg) as (heads & to & Eh' & _ & _).
    destruct (map_nth_some _ _ _ _ _ Eh' Em) as (i & Ei & _). exists i. pose proof Ei as Ea. apply index_at in Ea. split; auto.
    apply (ni g i m).
    + apply (from_set_In d g Hg). eauto.
    + intros x Hx. apply (to_set_In d g Hg) in Hx as (md' & s & E3 & Hs & E4). assert (md' = md) as -> by congruence.
      apply index_at in E4. destruct (IH (sym_name (sub_task s))) as (j & Hj & Hn).
      * apply in_or_app. right. apply in_or_app. left. unfold subtask_names. apply in_map_iff. eauto.
      * rewrite (name_at_inj _ _ _ E4 Hj). auto.
Qed.
Lemma vanishes_nullable a : vanishes d a -> exists i, name_at i a /\ nullable_ix g i.
Proof. intros Hv. eapply vanish_all; eauto. left; auto. Qed.

(** Everything in a network derived from [t] is reachable from [t]. *)
Lemma expands_reach t : forall l, expands d [t] l -> forall a, In a l -> reaches d t a.
Proof.
  intros l He. apply clos_rt_rtn1 in He. induction He as [|l l' Hs _ IH]; intros a Ha.
  - destruct Ha as [<-|[]]. apply rt_refl.
  - destruct Hs as [l1 md l2 Hm]. apply in_app_or in Ha as [Ha|Ha]; [apply IH, in_or_app; auto|].
    apply in_app_or in Ha as [Ha|Ha]; [|apply IH, in_or_app; right; right; auto].
    eapply rt_trans; [apply IH, in_or_app; right; left; reflexivity|]. apply rt_step. exists md. auto.
Qed.

Section Spec.
Variable he : hash_env.
Hypothesis Hhe : hash_env_ok he.
(** Method heads are compound tasks. *)
Hypothesis Hheads : forall m, In m (d_methods d) -> compound d (sym_name (m_task m)).

Lemma heads_key t m : In m (from_set g t) -> key g t.
Proof.
  intros Hm. apply (from_set_In d g Hg) in Hm as (md & E1 & E2). apply index_at in E2.
  assert (compound d (sym_name (m_task md))) as Hc by (apply Hheads; eapply nth_error_In; eauto).
  destruct (compound_index _ Hc) as (i & Ei & En). exists (sym_name (m_task md), true).
  split; [|split; auto].
  - rewrite <- En. apply nth_In. apply index_first_nth in Ei. rewrite <- (map_length fst). apply nth_error_Some. congruence.
  - simpl. apply first_at; auto.
Qed.

Theorem nullables_names fuel nulls : compute_nullables he fuel g = Ok nulls ->
  forall a, vanishes d a -> In a nulls.
Proof.
  unfold compute_nullables. destruct (null_loop he fuel g (null_init he g)) as [l| | |] eqn:E; simpl; try discriminate.
  intros En. injection En as <-. intros a Ha. apply vanishes_nullable in Ha as (i & Hi & Hn).
  apply fold_add_str. right. exists i. split; [|apply name_of_at; auto].
  eapply (nullables_complete he Hhe g from_lt to_lt heads_key); eauto.
Qed.
Lemma nullables_compound fuel nulls : compute_nullables he fuel g = Ok nulls ->
  forall a, In a nulls -> compound d a.
Proof.
  unfold compute_nullables. destruct (null_loop he fuel g (null_init he g)) as [l| | |] eqn:E; simpl; try discriminate.
  intros En. injection En as <-. intros a Ha. apply fold_add_str in Ha as [[]|(i & Hi & <-)].
  destruct (nullables_method he Hhe g from_lt to_lt fuel l E i Hi) as (m & Hm).
  apply (from_set_In d g Hg) in Hm as (md & E1 & E2). apply index_at in E2.
  rewrite (name_of_at _ _ E2). apply Hheads. eapply nth_error_In; eauto.
Qed.
End Spec.

Theorem reachable_names he (Hhe : hash_env_ok he) fuel n r : compound d n ->
  reachable he fuel g n = Ok r ->
  (forall a, In a (rs_primitives r) <-> primitive d a /\ reaches d n a)
  /\ (forall a, In a (rs_compounds r) <-> compound d a /\ reaches d n a)
  /\ (exists nulls, compute_nullables he fuel g = Ok nulls /\ (rs_nullable r = true <-> In n nulls)).
Proof.
  intros Hc. destruct (compound_index n Hc) as (i & Ei & En). unfold reachable. rewrite Ei, En.
  destruct (bfs he fuel g [i] [] [i]) as [rs| | |] eqn:Er; simpl; try discriminate.
  pose proof (bfs_sound he Hhe g fuel i rs Er) as Hr.
  destruct (compute_nullables he fuel g) as [nulls| | |] eqn:El; simpl; try discriminate.
  intros E. injection E as <-. cbn [rs_primitives rs_compounds rs_nullable]. apply first_at in Ei.
  assert (forall c a, In a (reached_names c 0 (tg_tasks g) rs) <-> (if c : bool then compound d a else primitive d a) /\ reaches d n a) as Hk.
  { intros c a. rewrite reached_In, (tdg_tasks d g Hg). simpl. split.
    - intros (j & Ej & Hj). apply Hr in Hj. apply kind_at in Ej as [Ea Hk]. split; auto.
      destruct (reach_name i n Ei j Hj) as (b & Hb & Hab). unfold name_at in *. assert (b = a) as -> by congruence. auto.
    - intros [Hk Ha]. destruct (name_reach i n a Ei Ha) as (j & Hj & Hij). exists j. split; [apply kind_at; auto|apply Hr; auto]. }
  split; [apply (Hk false)|]. split; [apply (Hk true)|]. exists nulls. split; auto. rewrite mem_str_In. tauto.
Qed.
End Names.
