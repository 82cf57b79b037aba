(** Quantitative version of the weights of TdgMeaning.v. *)
From Coq Require Import String NArith Bool List Lia PeanoNat Permutation Relations Operators_Properties.
From Verif Require Import Base Token Errors Ast Tdg GraphProofs TdgGraph TdgReach TdgNull SpecTdg SpecRec SpecExec TdgTop TdgRecTop TdgSound SpecMeaning
  SpecBound TdgMeaning.
Import ListNotations.
Open Scope list_scope.
Open Scope nat_scope.

Lemma powers_succ b t : powers b (S t) = 1 + b * powers b t.
Proof.
  induction t as [|t IH]; [cbn; lia|]. change (powers b (S (S t))) with (powers b (S t) + b ^ S (S t)).
  rewrite IH at 1. change (powers b (S t)) with (powers b t + b ^ S t). cbn [Nat.pow]. lia.
Qed.
Lemma list_sum_cons a l : list_sum (a :: l) = a + list_sum l. Proof. reflexivity. Qed.
Lemma sum_le {A} (f : A -> nat) c l : (forall x, In x l -> f x <= c) -> list_sum (map f l) <= length l * c.
Proof.
  induction l as [|x l IH]; intros Hf; [cbn; lia|]. cbn [map length Nat.mul]. rewrite ?list_sum_cons.
  apply Nat.add_le_mono; [apply Hf; left; auto|apply IH; intros; apply Hf; right; auto].
Qed.

Section B.
Variable d : domain_ast.
Variable b : nat.
Hypothesis Hb : at_most b d.
Hypothesis Ha : forall x, ~ clos_trans string (decomposes d) x x.
Lemma names_le m : In m (d_methods d) -> length (subtask_names m) <= b.
Proof. intros Hm. unfold subtask_names. rewrite map_length. apply Hb, Hm. Qed.

(** A path visits the head of a method at most once. *)
Lemma short_paths (names : list string) : (forall m, In m (d_methods d) -> In (head m) names) -> forall a, ~ path d a (S (length names)).
Proof.
  intros Hn a Hp. apply path_nodes in Hp as (l & El & _ & Hi & [Hl|(x & Hx)]); [|apply (Ha x Hx)].
  assert (incl l names) as Hi'.
  { intros y Hy. apply Hi, in_map_iff in Hy as (m & <- & Hm). auto. }
  apply NoDup_incl_length in Hi'; auto. lia.
Qed.

(** Steps. *)
Lemma weight_le : forall k a, weight d (S k) a <= powers b k.
Proof.
  induction k as [|k IH]; intros a.
  - cbn [weight powers]. apply le_n_S. apply list_max_le, Forall_forall. intros x Hx. apply in_map_iff in Hx as (m & <- & _).
    destruct (String.eqb _ _); auto. clear. induction (subtask_names m); auto.
  - rewrite powers_succ. change (weight d (S (S k)) a) with
      (S (list_max (map (fun m => if String.eqb (head m) a then list_sum (map (weight d (S k)) (subtask_names m)) else 0) (d_methods d)))).
    apply le_n_S. apply list_max_le, Forall_forall. intros x Hx. apply in_map_iff in Hx as (m & <- & Hm).
    destruct (String.eqb _ _); [|lia]. eapply Nat.le_trans; [apply (sum_le _ (powers b k)); intros; apply IH|].
    apply Nat.mul_le_mono_r, names_le, Hm.
Qed.
Lemma weights_bounded t : (forall a, ~ path d a (S t)) -> exists W : string -> nat,
  (forall a, 1 <= W a <= powers b t) /\ forall m, In m (d_methods d) -> list_sum (map W (subtask_names m)) < W (head m).
Proof.
  intros Hn. exists (weight d (S t)). split; [intros a; split; [cbn [weight]; lia|apply weight_le]|]. intros m Hm.
  rewrite (weight_stable d (S t) (head m) (Hn _) (S t) (S (S t))) by lia.
  change (weight d (S (S t)) (head m)) with
      (S (list_max (map (fun m' => if String.eqb (head m') (head m) then list_sum (map (weight d (S t)) (subtask_names m')) else 0) (d_methods d)))).
  apply le_n_S, list_max_ge, in_map_iff. exists m. rewrite String.eqb_refl. auto.
Qed.
Lemma measure_bound {A} (R : A -> A -> Prop) (f : A -> nat) : (forall x y, R x y -> f y < f x) -> forall k x y, steps R k x y -> k <= f x.
Proof. intros Hf k x y Hs. induction Hs as [|k x y z Hr _ IH]; [lia|]. apply Hf in Hr. lia. Qed.
Lemma steps_bounded t p : (forall a, ~ path d a (S t)) -> forall k c c', steps (step d p) k c c' -> k <= length (snd c) * powers b t.
Proof.
  intros Hn k c c' Hs. destruct (weights_bounded t Hn) as (W & W1 & HW).
  apply Nat.le_trans with (m := list_sum (map (fun t => W (fst t)) (snd c))); [|apply sum_le; intros; apply W1].
  revert Hs. apply (measure_bound (step d p) (fun c => list_sum (map (fun t => W (fst t)) (snd c)))).
  intros x y Hs. destruct Hs as [m v facts w1 w2 Hm Hv|a v facts facts' w1 w2 Hact Hf]; cbn [snd]; rewrite !map_app; cbn [map fst];
    rewrite ?list_sum_app, ?list_sum_cons.
  - rewrite map_map. specialize (HW m Hm). unfold head in HW.
    assert (list_sum (map (fun s => W (fst (inst_task v (m_params m) s))) (htn_subtasks (m_tn m))) = list_sum (map W (subtask_names m))) as Es.
    { unfold subtask_names. rewrite map_map. reflexivity. }
    unfold inst_task in Es |- *. rewrite Es. apply Nat.add_lt_mono_l, Nat.add_lt_mono_r; exact HW.
  - specialize (W1 (act_name a)). lia.
Qed.

(** Tasks. *)
Fixpoint leaves (k : nat) (a : string) : nat :=
  match k with
  | 0 => 1
  | S k' => Nat.max 1 (list_max (map (fun m => if String.eqb (head m) a then list_sum (map (leaves k') (subtask_names m)) else 0) (d_methods d)))
  end.
Lemma leaves_le : forall k a, leaves k a <= Nat.max 1 b ^ k.
Proof.
  induction k as [|k IH]; intros a; cbn [leaves Nat.pow]; [lia|].
  assert (1 <= Nat.max 1 b ^ k) as Hp by (apply Nat.neq_0_lt_0, Nat.pow_nonzero; lia).
  apply Nat.max_lub; [nia|]. apply list_max_le, Forall_forall. intros x Hx. apply in_map_iff in Hx as (m & <- & Hm).
  destruct (String.eqb _ _); [|lia]. eapply Nat.le_trans; [apply (sum_le _ (Nat.max 1 b ^ k)); intros; apply IH|].
  apply Nat.mul_le_mono_r. pose proof (names_le m Hm). lia.
Qed.
Lemma leaves_stable : forall n a, ~ path d a (S n) -> forall k k', n <= k -> n <= k' -> leaves k a = leaves k' a.
Proof.
  assert (forall a, ~ path d a 1 -> forall k, leaves k a = 1) as H0.
  { intros a Hn [|k]; auto. cbn [leaves]. enough (list_max (map (fun m => if String.eqb (head m) a then list_sum (map (leaves k) (subtask_names m)) else 0) (d_methods d)) <= 0) by lia.
    apply list_max_le, Forall_forall. intros x Hx. apply in_map_iff in Hx as (m & <- & Hm).
    destruct (String.eqb (head m) a) eqn:E; auto. apply String.eqb_eq in E.
    destruct (subtask_names m) as [|y l] eqn:Es; [cbn; lia|]. exfalso. apply Hn. apply (pa_S d a y 0); [|constructor]. exists m. split; auto. split; auto.
    rewrite Es. left. auto. }
  induction n as [|n IH]; intros a Hn k k' Hk Hk'; [rewrite !H0; auto|].
  destruct k as [|k]; [lia|]. destruct k' as [|k']; [lia|]. cbn [leaves]. f_equal. f_equal.
  apply map_ext_in. intros m Hm. destruct (String.eqb (head m) a) eqn:E; auto. apply String.eqb_eq in E. f_equal.
  apply map_ext_in. intros y Hy. apply IH; try lia. intros Hp. apply Hn. econstructor; [|exact Hp]. exists m. auto.
Qed.
Lemma size_bounded t : (forall a, ~ path d a (S t)) -> forall l w, expands d l w -> length w <= length l * Nat.max 1 b ^ t.
Proof.
  intros Hn l w He.
  assert (list_sum (map (leaves t) w) <= list_sum (map (leaves t) l)) as Hs.
  { induction He as [l w [l1 m l2 Hm]|l|l w' w _ IH1 _ IH2]; [|lia|lia].
    rewrite !map_app. cbn [map]. rewrite !list_sum_app. rewrite ?list_sum_cons.
    enough (list_sum (map (leaves t) (subtask_names m)) <= leaves t (sym_name (m_task m))) by lia.
    rewrite (leaves_stable t (sym_name (m_task m)) (Hn _) t (S t)) by lia. cbn [leaves]. eapply Nat.le_trans; [|apply Nat.le_max_r].
    apply list_max_ge, in_map_iff. exists m. unfold head. rewrite String.eqb_refl. auto. }
  apply Nat.le_trans with (m := list_sum (map (leaves t) w)).
  - clear. induction w as [|x w IH]; [cbn; lia|]. cbn [map length]. rewrite ?list_sum_cons.
    assert (1 <= leaves t x) by (destruct t; cbn [leaves]; lia). lia.
  - eapply Nat.le_trans; [exact Hs|]. apply sum_le. intros. apply leaves_le.
Qed.
Lemma expand_bounded t : (forall a, ~ path d a (S t)) -> forall k l w, steps (expand d) k l w -> k <= length l * powers b t.
Proof.
  intros Hn k l w Hs. destruct (weights_bounded t Hn) as (W & W1 & HW).
  apply Nat.le_trans with (m := list_sum (map W l)); [|apply sum_le; intros; apply W1].
  revert Hs. apply (measure_bound (expand d) (fun l => list_sum (map W l))).
  intros x y [l1 m l2 Hm]. rewrite !map_app. cbn [map]. rewrite !list_sum_app. rewrite ?list_sum_cons.
  specialize (HW m Hm). unfold head in HW. lia.
Qed.
End B.

(** With a cycle nothing bounds the unfolding. *)
Lemma trans_path d x y : clos_trans string (decomposes d) x y -> forall k, path d y k -> path d x (S k).
Proof.
  intros Ht. apply clos_trans_t1n in Ht. induction Ht as [x y Hr|x y z Hr _ IH]; intros k Hp; [econstructor; eauto|].
  econstructor; [exact Hr|]. assert (path d z k -> path d y k) as Hw.
  { clear -IH. intros Hp. specialize (IH k Hp). clear -IH. revert y IH.
    induction k as [|k IHk]; intros y Hp; [constructor|]. inversion Hp; subst. econstructor; eauto. }
  auto.
Qed.
Lemma cycle_paths d x : clos_trans string (decomposes d) x x -> forall k, path d x k.
Proof. intros Hc. induction k as [|k IH]; [constructor|]. eapply trans_path; eauto. Qed.
Lemma path_expand d : forall k a l1 l2, path d a k -> exists w, steps (expand d) k (l1 ++ a :: l2) w.
Proof.
  induction k as [|k IH]; intros a l1 l2 Hp; [eexists; constructor|]. inversion Hp as [|a' y k' (m & Hm & <- & Hy) Hp']; subst.
  apply in_split in Hy as (s1 & s2 & Es). destruct (IH y (l1 ++ s1) (s2 ++ l2) Hp') as (w & Hw). exists w.
  econstructor; [apply ex_method; exact Hm|]. rewrite Es. rewrite <- !app_assoc in Hw |- *. exact Hw.
Qed.
