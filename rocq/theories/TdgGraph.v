(** The graph built from a domain. *)
From Coq Require Import String NArith Bool List Lia PeanoNat Permutation.
From Verif Require Import Base Token Lexer Errors Ast Graph Semantic GraphProofs Tdg SpecSem SemProofs SemDomain.
Import ListNotations.
Open Scope list_scope.
Open Scope nat_scope.
Open Scope outcome_scope.

(** ** Sets of indices *)
Lemma mem_nat_In x l : mem_nat x l = true <-> In x l.
Proof.
  unfold mem_nat. rewrite existsb_exists. split.
  - intros (y & Hy & E). apply Nat.eqb_eq in E as ->. auto.
  - intros Hi. exists x. split; auto. apply Nat.eqb_refl.
Qed.
Lemma mem_nat_false x l : mem_nat x l = false <-> ~ In x l.
Proof. rewrite <- mem_nat_In. destruct (mem_nat x l); split; congruence. Qed.
Lemma add_nat_In x y l : In y (add_nat x l) <-> y = x \/ In y l.
Proof.
  unfold add_nat. destruct (mem_nat x l) eqn:E.
  - apply mem_nat_In in E. split; auto. intros [->|]; auto.
  - rewrite in_app_iff. simpl. intuition.
Qed.
Lemma nodup_app_snoc {A} (l : list A) x : NoDup l -> ~ In x l -> NoDup (l ++ [x]).
Proof.
  intros Hn Hx. apply NoDup_Add with (a := x) (l := l); auto.
  rewrite <- (app_nil_r l) at 1. apply Add_app.
Qed.
Lemma add_nat_NoDup x l : NoDup l -> NoDup (add_nat x l).
Proof.
  intros Hn. unfold add_nat. destruct (mem_nat x l) eqn:E; auto. apply mem_nat_false in E. apply nodup_app_snoc; auto.
Qed.
Lemma union_nat_In : forall t s y, In y (union_nat s t) <-> In y s \/ In y t.
Proof.
  unfold union_nat. induction t as [|x t IH]; intros s y; simpl; [tauto|].
  rewrite IH, add_nat_In. intuition.
Qed.
Lemma union_nat_NoDup : forall t s, NoDup s -> NoDup (union_nat s t).
Proof.
  unfold union_nat. induction t as [|x t IH]; intros s Hn; simpl; auto. apply IH, add_nat_NoDup; auto.
Qed.
Lemma of_list_In l y : In y (of_list_nat l) <-> In y l.
Proof. unfold of_list_nat. rewrite union_nat_In. simpl. tauto. Qed.
Lemma of_list_NoDup l : NoDup (of_list_nat l).
Proof. apply union_nat_NoDup. constructor. Qed.
Lemma subset_nat_spec s t : subset_nat s t = true <-> incl s t.
Proof.
  unfold subset_nat, incl. rewrite forallb_forall. split; intros Hx x Hi; apply mem_nat_In; auto.
Qed.
Lemma seteq_nat_spec s t : seteq_nat s t = true <-> (forall x, In x s <-> In x t).
Proof.
  unfold seteq_nat. rewrite andb_true_iff, !subset_nat_spec. unfold incl. split.
  - intros [H1 H2] x. split; auto.
  - intros Hx. split; intros x; apply Hx.
Qed.
Lemma add_str_In x y l : In y (add_str x l) <-> y = x \/ In y l.
Proof.
  unfold add_str. destruct (mem_str x l) eqn:E.
  - apply mem_str_In in E. split; auto. intros [->|]; auto.
  - rewrite in_app_iff. simpl. intuition.
Qed.
Lemma fold_add_str {A} (f : A -> string) : forall l acc y,
  In y (fold_left (fun acc i => add_str (f i) acc) l acc) <-> In y acc \/ exists i, In i l /\ f i = y.
Proof.
  induction l as [|i l IH]; intros acc y; simpl.
  - split; auto. intros [|(i & [] & _)]; auto.
  - rewrite IH, add_str_In. split.
    + intros [[->|Ha]|(j & Hj & Ej)]; eauto.
    + intros [Ha|(j & [->|Hj] & <-)]; eauto.
Qed.
Lemma nodup_le (s t : list nat) : NoDup s -> incl s t -> length s <= length t.
Proof. apply NoDup_incl_length. Qed.

(** ** Indices of names *)
Lemma index_first_nth n : forall l i, index_first n l = Some i -> nth_error (map fst l) i = Some n.
Proof.
  induction l as [|[m c] l IH]; intros i; simpl; [discriminate|].
  destruct (String.eqb m n) eqn:E.
  - apply String.eqb_eq in E as ->. intros Ei. injection Ei as <-. auto.
  - destruct (index_first n l) as [j|] eqn:Ej; simpl; [|discriminate]. intros Ei. injection Ei as <-. simpl. auto.
Qed.
Lemma index_last_nth n : forall l i, index_last n l = Some i -> nth_error (map fst l) i = Some n.
Proof.
  induction l as [|[m c] l IH]; intros i; simpl; [discriminate|].
  destruct (index_last n l) as [j|] eqn:Ej.
  - intros Ei. injection Ei as <-. simpl. auto.
  - destruct (String.eqb m n) eqn:E; [|discriminate]. apply String.eqb_eq in E as ->.
    intros Ei. injection Ei as <-. auto.
Qed.
Lemma index_first_some n : forall l, In n (map fst l) -> exists i, index_first n l = Some i.
Proof.
  induction l as [|[m c] l IH]; simpl; [tauto|]. intros Hi. destruct (String.eqb m n) eqn:E; [eauto|].
  apply String.eqb_neq in E. destruct IH as (i & ->); [tauto|]. simpl. eauto.
Qed.
Lemma index_last_some n : forall l, In n (map fst l) -> exists i, index_last n l = Some i.
Proof.
  induction l as [|[m c] l IH]; simpl; [tauto|]. intros Hi.
  destruct (index_last n l) as [j|]; [eauto|]. destruct Hi as [->|Hi].
  - rewrite String.eqb_refl. eauto.
  - destruct (IH Hi) as (i & ?). discriminate.
Qed.
Lemma index_last_none n : forall l, ~ In n (map fst l) -> index_last n l = None.
Proof.
  intros l Hn. destruct (index_last n l) as [i|] eqn:E; auto. apply index_last_nth, nth_error_In in E. tauto.
Qed.
Lemma nodup_nth {A} (l : list A) i j x : NoDup l -> nth_error l i = Some x -> nth_error l j = Some x -> i = j.
Proof.
  intros Hn Ei Ej. eapply NoDup_nth_error; eauto; [|congruence]. apply nth_error_Some. congruence.
Qed.
Lemma index_last_iff n l i : NoDup (map fst l) -> index_last n l = Some i <-> nth_error (map fst l) i = Some n.
Proof.
  intros Hn. split; [apply index_last_nth|]. intros E. destruct (index_last_some n l) as (j & Ej).
  { eapply nth_error_In; eauto. }
  rewrite Ej. f_equal. eapply nodup_nth; eauto. apply index_last_nth; auto.
Qed.
Lemma index_first_iff n l i : NoDup (map fst l) -> index_first n l = Some i <-> nth_error (map fst l) i = Some n.
Proof.
  intros Hn. split; [apply index_first_nth|]. intros E. destruct (index_first_some n l) as (j & Ej).
  { eapply nth_error_In; eauto. }
  rewrite Ej. f_equal. eapply nodup_nth; eauto. apply index_first_nth; auto.
Qed.

(** ** Building *)
Lemma all_some_ok {A} : forall (l : list (option A)) r, all_some l = Ok r <-> l = map Some r.
Proof.
  induction l as [|[x|] l IH]; intros r; simpl.
  - split; [intros E; injection E as <-; auto|]. destruct r; [auto|discriminate].
  - destruct (all_some l) as [r'| | |] eqn:E; simpl.
    + assert (l = map Some r') as -> by (apply IH; auto). split.
      * intros Er. injection Er as <-. auto.
      * destruct r as [|y r]; [discriminate|]. simpl. intros Er. injection Er as -> Er. f_equal. f_equal.
        apply IH in Er. congruence.
    + split; [discriminate|]. destruct r as [|y r]; [discriminate|]. intros Er. injection Er as -> Er. apply IH in Er. discriminate.
    + split; [discriminate|]. destruct r as [|y r]; [discriminate|]. intros Er. injection Er as -> Er. apply IH in Er. discriminate.
    + split; [discriminate|]. destruct r as [|y r]; [discriminate|]. intros Er. injection Er as -> Er. apply IH in Er. discriminate.
  - split; [discriminate|]. destruct r; discriminate.
Qed.
Lemma all_some_total {A} (l : list (option A)) : (forall x, In x l -> x <> None) -> exists r, all_some l = Ok r.
Proof.
  induction l as [|[x|] l IH]; intros Hl; simpl.
  - eauto.
  - destruct IH as (r & ->); [intros y Hy; apply Hl; right; auto|]. simpl. eauto.
  - exfalso. apply (Hl None); auto. left; auto.
Qed.
Lemma all_some_calm {A} (l : list (option A)) : (forall e, all_some l <> Err e) /\ all_some l <> OutOfFuel.
Proof.
  induction l as [|[x|] l [IH1 IH2]]; simpl; try (split; discriminate).
  destruct (all_some l); simpl; split; congruence.
Qed.

Definition each_to (tasks : list (string * bool)) : list method -> outcome (list (list nat)) :=
  fix each (ms : list method) : outcome (list (list nat)) :=
    match ms with
    | [] => Ok []
    | m :: ms' =>
      ids <-- all_some (map (fun s => index_last (sym_name (sub_task s)) tasks)
                            (htn_subtasks (m_tn m))) ;;
      r <-- each ms' ;; Ok (of_list_nat ids :: r)
    end.

Lemma each_to_ok tasks : forall ms to, each_to tasks ms = Ok to ->
  length to = length ms /\
  forall i md, nth_error ms i = Some md -> exists ids,
    map (fun s => index_last (sym_name (sub_task s)) tasks) (htn_subtasks (m_tn md)) = map Some ids
    /\ nth_error to i = Some (of_list_nat ids).
Proof.
  induction ms as [|m ms IH]; intros to; simpl.
  - intros E. injection E as <-. split; auto. intros [|i] md; discriminate.
  - destruct (all_some _) as [ids| | |] eqn:E; simpl; try discriminate. apply all_some_ok in E.
    destruct (each_to tasks ms) as [r| | |] eqn:Er; simpl; try discriminate. intros Et. injection Et as <-.
    destruct (IH r eq_refl) as [Hl Hi]. split; [simpl; auto|]. intros [|i] md; simpl; auto.
    intros Em. injection Em as <-. eauto.
Qed.
Lemma each_to_total tasks : forall ms,
  (forall m s, In m ms -> In s (htn_subtasks (m_tn m)) -> In (sym_name (sub_task s)) (map fst tasks)) ->
  exists to, each_to tasks ms = Ok to.
Proof.
  induction ms as [|m ms IH]; intros Hm; simpl; [eauto|].
  destruct (all_some_total (map (fun s => index_last (sym_name (sub_task s)) tasks) (htn_subtasks (m_tn m)))) as (r & ->).
  { intros x Hx. apply in_map_iff in Hx as (s & <- & Hs). destruct (index_last_some (sym_name (sub_task s)) tasks) as (i & ->).
    - eapply Hm; eauto. left; auto.
    - discriminate. }
  simpl. destruct IH as (to & ->); [intros; eapply Hm; eauto; right; auto|]. simpl. eauto.
Qed.
Lemma each_to_calm tasks : forall ms, (forall e, each_to tasks ms <> Err e) /\ each_to tasks ms <> OutOfFuel.
Proof.
  induction ms as [|m ms [IH1 IH2]]; simpl; [split; discriminate|].
  destruct (all_some_calm (map (fun s => index_last (sym_name (sub_task s)) tasks) (htn_subtasks (m_tn m)))) as [C1 C2].
  destruct (all_some _); simpl; try (split; congruence). destruct (each_to tasks ms); simpl; split; congruence.
Qed.

Lemma positions_In x : forall l k i, In i (positions k x l) <-> exists j, i = k + j /\ nth_error l j = Some x.
Proof.
  induction l as [|y l IH]; intros k i; simpl.
  - split; [tauto|]. intros ([|j] & _ & E); discriminate.
  - rewrite in_app_iff, IH. split.
    + intros [Hi|(j & -> & Ej)].
      * destruct (Nat.eqb x y) eqn:E; [|destruct Hi]. apply Nat.eqb_eq in E as ->. destruct Hi as [<-|[]].
        exists 0. split; auto; lia.
      * exists (S j). split; auto; lia.
    + intros ([|j] & -> & Ej); simpl in Ej.
      * left. injection Ej as ->. rewrite Nat.eqb_refl. left; lia.
      * right. exists j. split; auto; lia.
Qed.
Lemma positions_NoDup x : forall l k, NoDup (positions k x l).
Proof.
  induction l as [|y l IH]; intros k; simpl; [constructor|].
  destruct (Nat.eqb x y); simpl; auto. constructor; auto. rewrite positions_In. intros (j & E & _). lia.
Qed.

Section New.
Variable d : domain_ast.

Definition task_names : list string := map fst (task_list d).
Lemma task_names_eq : task_names = map task_name (d_tasks d) ++ map act_name (d_actions d).
Proof. unfold task_names, task_list. rewrite map_app, !map_map. reflexivity. Qed.

Lemma tdg_new_unfold : tdg_new d =
  (heads <-- all_some (map (fun m => index_last (sym_name (m_task m)) (task_list d)) (d_methods d)) ;;
   to <-- each_to (task_list d) (d_methods d) ;;
   Ok (mkTdg (task_list d) (map (fun m => (sym_name (m_name m), m_tn m)) (d_methods d))
             (map (fun i => positions 0 i heads) (seq 0 (length (task_list d)))) to)).
Proof. reflexivity. Qed.

Lemma tdg_new_calm : (forall e, tdg_new d <> Err e) /\ tdg_new d <> OutOfFuel.
Proof.
  rewrite tdg_new_unfold.
  destruct (all_some_calm (map (fun m => index_last (sym_name (m_task m)) (task_list d)) (d_methods d))) as [C1 C2].
  destruct (all_some _); simpl; try (split; congruence).
  destruct (each_to_calm (task_list d) (d_methods d)) as [C3 C4].
  destruct (each_to _ _); simpl; split; congruence.
Qed.

(** Every head and subtask names a declared task or action. *)
Definition closed_names : Prop :=
  forall m, In m (d_methods d) ->
    In (sym_name (m_task m)) task_names
    /\ forall s, In s (htn_subtasks (m_tn m)) -> In (sym_name (sub_task s)) task_names.

Lemma tdg_new_total : closed_names -> exists g, tdg_new d = Ok g.
Proof.
  intros Hc. rewrite tdg_new_unfold.
  destruct (all_some_total (map (fun m => index_last (sym_name (m_task m)) (task_list d)) (d_methods d))) as (r & ->).
  { intros x Hx. apply in_map_iff in Hx as (m & <- & Hm). destruct (index_last_some (sym_name (m_task m)) (task_list d)) as (i & ->).
    - apply Hc; auto.
    - discriminate. }
  simpl. destruct (each_to_total (task_list d) (d_methods d)) as (to & ->).
  { intros m s Hm Hs. eapply Hc; eauto. }
  simpl. eauto.
Qed.

Variable g : tdg.
Hypothesis Hg : tdg_new d = Ok g.

Lemma tdg_inv : exists heads to,
  map (fun m => index_last (sym_name (m_task m)) (task_list d)) (d_methods d) = map Some heads
  /\ each_to (task_list d) (d_methods d) = Ok to
  /\ g = mkTdg (task_list d) (map (fun m => (sym_name (m_name m), m_tn m)) (d_methods d))
             (map (fun i => positions 0 i heads) (seq 0 (length (task_list d)))) to.
Proof.
  rewrite tdg_new_unfold in Hg. destruct (all_some _) as [heads| | |] eqn:E; simpl in Hg; try discriminate.
  apply all_some_ok in E. destruct (each_to _ _) as [to| | |] eqn:Et; simpl in Hg; try discriminate.
  injection Hg as <-. eauto 6.
Qed.
Lemma tdg_tasks : tg_tasks g = task_list d.
Proof. destruct tdg_inv as (h & to & _ & _ & ->). auto. Qed.
Lemma tdg_methods : tg_methods g = map (fun m => (sym_name (m_name m), m_tn m)) (d_methods d).
Proof. destruct tdg_inv as (h & to & _ & _ & ->). auto. Qed.

Lemma map_nth_some {A B} (f : A -> option B) : forall l r i x, map f l = map Some r -> nth_error l i = Some x ->
  exists y, f x = Some y /\ nth_error r i = Some y.
Proof.
  induction l as [|a l IH]; intros [|b r] [|i] x; simpl; try discriminate.
  - intros E Ex. injection E as E _. injection Ex as ->. eauto.
  - intros E Ex. injection E as _ E. eauto.
Qed.
Lemma map_nth_some_r {A B} (f : A -> option B) : forall l r i y, map f l = map Some r -> nth_error r i = Some y ->
  exists x, f x = Some y /\ nth_error l i = Some x.
Proof.
  induction l as [|a l IH]; intros [|b r] [|i] x; simpl; try discriminate.
  - intros E Ex. injection E as E _. injection Ex as ->. eauto.
  - intros E Ex. injection E as _ E. eauto.
Qed.

Lemma from_set_In t m : In m (from_set g t) <->
  exists md, nth_error (d_methods d) m = Some md /\ index_last (sym_name (m_task md)) (task_list d) = Some t.
Proof.
  destruct tdg_inv as (heads & to & Eh & _ & ->). unfold from_set. cbn [tg_from].
  assert (forall md, index_last (sym_name (m_task md)) (task_list d) = Some t -> t < length (task_list d)) as Hlt.
  { intros md E. apply index_last_nth in E. rewrite <- (map_length fst). apply nth_error_Some. congruence. }
  destruct (Nat.lt_ge_cases t (length (task_list d))) as [Hl|Hl].
  - rewrite nth_indep with (d' := positions 0 0 heads) by (rewrite map_length, seq_length; auto).
    rewrite (map_nth (fun i => positions 0 i heads) (seq 0 (length (task_list d))) 0 t), seq_nth by auto.
    simpl. rewrite positions_In. split.
    + intros (j & -> & Ej). destruct (map_nth_some_r _ _ _ _ _ Eh Ej) as (md & E1 & E2). exists md. auto.
    + intros (md & E1 & E2). exists m. split; auto. destruct (map_nth_some _ _ _ _ _ Eh E1) as (y & E3 & E4). congruence.
  - rewrite nth_overflow by (rewrite map_length, seq_length; auto). split; [intros []|].
    intros (md & _ & E). apply Hlt in E. lia.
Qed.
Lemma from_set_NoDup t : NoDup (from_set g t).
Proof.
  destruct tdg_inv as (heads & to & Eh & _ & ->). unfold from_set. cbn [tg_from].
  destruct (Nat.lt_ge_cases t (length (task_list d))) as [Hl|Hl].
  - rewrite nth_indep with (d' := positions 0 0 heads) by (rewrite map_length, seq_length; auto).
    rewrite (map_nth (fun i => positions 0 i heads) (seq 0 (length (task_list d))) 0 t). apply positions_NoDup.
  - rewrite nth_overflow by (rewrite map_length, seq_length; auto). constructor.
Qed.

Lemma to_set_spec m md : nth_error (d_methods d) m = Some md -> exists ids,
  map (fun s => index_last (sym_name (sub_task s)) (task_list d)) (htn_subtasks (m_tn md)) = map Some ids
  /\ to_set g m = of_list_nat ids.
Proof.
  intros E. destruct tdg_inv as (heads & to & _ & Et & ->). apply each_to_ok in Et as [Hl Hi].
  destruct (Hi m md E) as (ids & E1 & E2). exists ids. split; auto. unfold to_set. cbn [tg_to].
  apply nth_error_nth; auto.
Qed.
Lemma to_set_In t m : In t (to_set g m) <->
  exists md s, nth_error (d_methods d) m = Some md /\ In s (htn_subtasks (m_tn md))
    /\ index_last (sym_name (sub_task s)) (task_list d) = Some t.
Proof.
  split.
  - intros Hi. destruct (nth_error (d_methods d) m) as [md|] eqn:E.
    + destruct (to_set_spec m md E) as (ids & E1 & E2). rewrite E2, of_list_In in Hi.
      apply In_nth_error in Hi as (j & Ej). destruct (map_nth_some_r _ _ _ _ _ E1 Ej) as (s & E3 & E4).
      exists md, s. repeat split; auto. apply nth_error_In with (n := j). exact E4.
    + exfalso. destruct tdg_inv as (heads & to & _ & Et & ->). apply each_to_ok in Et as [Hl _].
      unfold to_set in Hi. cbn [tg_to] in Hi. rewrite nth_overflow in Hi; [destruct Hi|].
      apply nth_error_None in E. lia.
  - intros (md & s & E & Hs & Ei). destruct (to_set_spec m md E) as (ids & E1 & E2). rewrite E2, of_list_In.
    apply In_nth_error in Hs as (j & Ej). destruct (map_nth_some _ _ _ _ _ E1 Ej) as (y & E3 & E4).
    rewrite Ei in E3. injection E3 as <-. eapply nth_error_In; eauto.
Qed.
Lemma to_set_NoDup m : NoDup (to_set g m).
Proof.
  destruct (nth_error (d_methods d) m) as [md|] eqn:E.
  - destruct (to_set_spec m md E) as (ids & E1 & ->). apply of_list_NoDup.
  - destruct tdg_inv as (heads & to & _ & Et & ->). apply each_to_ok in Et as [Hl _].
    unfold to_set. cbn [tg_to]. rewrite nth_overflow; [constructor|]. apply nth_error_None in E. lia.
Qed.
Lemma to_set_lt t m : In t (to_set g m) -> t < length (tg_tasks g).
Proof.
  intros Hi. apply to_set_In in Hi as (md & s & _ & _ & E). apply index_last_nth in E.
  rewrite tdg_tasks, <- (map_length fst). apply nth_error_Some. congruence.
Qed.
Lemma from_set_lt t m : In m (from_set g t) -> t < length (tg_tasks g).
Proof.
  intros Hi. apply from_set_In in Hi as (md & _ & E). apply index_last_nth in E.
  rewrite tdg_tasks, <- (map_length fst). apply nth_error_Some. congruence.
Qed.
End New.

(** Accepted domains give a graph. *)
Lemma accepted_closed d : domain_ok d -> closed_names d.
Proof.
  intros (_ & _ & _ & _ & _ & _ & _ & _ & _ & Hm) m Hi. rewrite Forall_forall in Hm.
  destruct (Hm m Hi) as (_ & _ & (f & Hc & _) & Hs & _). rewrite task_names_eq.
  assert (forall h n l, callable d h n l -> In n (map task_name (d_tasks d) ++ map act_name (d_actions d))) as Hcall.
  { intros h n l [a Ha|h' t Ht _]; apply in_or_app; [right|left]; apply in_map; auto. }
  split; [eapply Hcall; eauto|]. intros s His. rewrite Forall_forall in Hs. destruct (Hs s His) as (f' & Hc' & _).
  eapply Hcall; eauto.
Qed.
