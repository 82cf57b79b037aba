(** Nullable tasks: termination, divergence and completeness. *)
From Coq Require Import String NArith Bool List Lia PeanoNat Permutation.
From Verif Require Import Base Errors Ast Tdg GraphProofs TdgGraph TdgReach.
Import ListNotations.
Open Scope list_scope.
Open Scope nat_scope.
Open Scope outcome_scope.

(** [t] can be decomposed into nothing. *)
Inductive nullable_ix (g : tdg) (t : nat) : Prop :=
| ni m : In m (from_set g t) -> (forall x, In x (to_set g m) -> nullable_ix g x) -> nullable_ix g t.

(** ** Association lists *)
Lemma insert_fst k v l : map fst (insert_nat k v l) = if mem_nat k (map fst l) then map fst l else map fst l ++ [k].
Proof.
  induction l as [|[k' v'] l IH]; cbn [insert_nat map fst]; auto. rewrite mem_nat_cons. destruct (Nat.eqb k k') eqn:E; simpl.
  - apply Nat.eqb_eq in E as ->. auto.
  - rewrite IH. destruct (mem_nat k (map fst l)); auto.
Qed.
Lemma insert_keys k v l x : In x (map fst (insert_nat k v l)) <-> x = k \/ In x (map fst l).
Proof.
  rewrite insert_fst. destruct (mem_nat k (map fst l)) eqn:E.
  - apply mem_nat_In in E. split; auto. intros [->|]; auto.
  - rewrite in_app_iff. simpl. intuition.
Qed.
Lemma insert_NoDup k v l : NoDup (map fst l) -> NoDup (map fst (insert_nat k v l)).
Proof.
  rewrite insert_fst. intros Hn. destruct (mem_nat k (map fst l)) eqn:E; auto. apply mem_nat_false in E. apply nodup_app_snoc; auto.
Qed.
Lemma insert_Forall (P : nat * list nat -> Prop) k v l : Forall P l -> P (k, v) -> Forall P (insert_nat k v l).
Proof.
  induction 1 as [|[k' v'] l Hp Hl IH]; simpl; intros Hk; auto. destruct (Nat.eqb k k'); auto.
Qed.
Lemma assoc_insert k v l j : assoc_nat j (insert_nat k v l) = if Nat.eqb j k then Some v else assoc_nat j l.
Proof.
  induction l as [|[k' v'] l IH]; simpl; auto. destruct (Nat.eqb k k') eqn:E; simpl.
  - apply Nat.eqb_eq in E as <-. destruct (Nat.eqb j k); auto.
  - rewrite IH. destruct (Nat.eqb j k') eqn:E'; auto. apply Nat.eqb_eq in E' as ->.
    rewrite Nat.eqb_sym, E. auto.
Qed.
Lemma assoc_some k l : In k (map fst l) -> exists v, assoc_nat k l = Some v /\ In (k, v) l.
Proof.
  induction l as [|[k' v'] l IH]; simpl; [tauto|]. intros Hi. destruct (Nat.eqb k k') eqn:E.
  - apply Nat.eqb_eq in E as ->. eauto.
  - apply Nat.eqb_neq in E. destruct IH as (v & ? & ?); [destruct Hi; [congruence|auto]|]. eauto.
Qed.
Lemma assoc_in k v l : assoc_nat k l = Some v -> In (k, v) l.
Proof.
  induction l as [|[k' v'] l IH]; simpl; [discriminate|]. destruct (Nat.eqb k k') eqn:E.
  - apply Nat.eqb_eq in E as ->. intros Ev. injection Ev as ->. auto.
  - auto.
Qed.

Section Null.
Variable he : hash_env.
Hypothesis Hhe : hash_env_ok he.
Variable g : tdg.
Notation n := (length (tg_tasks g)).
Hypothesis Hfrom : forall t m, In m (from_set g t) -> t < n.
Hypothesis Hto : forall t m, In t (to_set g m) -> t < n.

Definition good (kv : nat * list nat) : Prop :=
  In (fst kv) (snd kv) /\ NoDup (snd kv) /\ Forall (fun x => x < n) (snd kv).

(** ** The initial tables *)
Lemma unit_value_good i : i < n -> forall ms v,
  In i v -> NoDup v -> Forall (fun x => x < n) v ->
  good (i, fold_left (fun v m => match to_set g m with [y] => add_nat y v | _ => v end) ms v).
Proof.
  intros Hi. unfold good. cbn [fst snd]. induction ms as [|m ms IH]; intros v H1 H2 H3; simpl; auto.
  destruct (to_set g m) as [|y [|z l]] eqn:E; auto. apply IH.
  - apply add_nat_In; auto.
  - apply add_nat_NoDup; auto.
  - rewrite Forall_forall in *. intros x Hx. apply add_nat_In in Hx as [->|Hx]; auto.
    apply (Hto y m). rewrite E. left; auto.
Qed.

Definition unit_step (acc : list (nat * list nat)) (x : string * bool) : list (nat * list nat) :=
  if snd x then
    match index_first (fst x) (tg_tasks g) with
    | Some i =>
      insert_nat i
        (fold_left (fun v m => match to_set g m with [y] => add_nat y v | _ => v end)
                   (it_methods he g i) [i]) acc
    | None => acc
    end
  else acc.
Lemma index_lt name i : index_first name (tg_tasks g) = Some i -> i < n.
Proof. intros E. apply index_first_nth in E. rewrite <- (map_length fst). apply nth_error_Some. congruence. Qed.
Lemma unit_step_good acc x : Forall good acc -> NoDup (map fst acc) ->
  Forall good (unit_step acc x) /\ NoDup (map fst (unit_step acc x)).
Proof.
  intros Hg Hn. unfold unit_step. destruct (snd x); auto.
  destruct (index_first (fst x) (tg_tasks g)) as [i|] eqn:E; auto. split.
  - apply insert_Forall; auto. apply index_lt in E. apply unit_value_good; auto; simpl; auto.
    constructor; [intros []|constructor].
  - apply insert_NoDup; auto.
Qed.
Lemma unit_fold_good : forall l acc, Forall good acc -> NoDup (map fst acc) ->
  Forall good (fold_left unit_step l acc) /\ NoDup (map fst (fold_left unit_step l acc)).
Proof.
  induction l as [|x l IH]; intros acc Hg Hn; simpl; auto. apply IH; apply unit_step_good; auto.
Qed.
Lemma unit_base_fold : unit_base he g = fold_left unit_step (tg_tasks g) [].
Proof. reflexivity. Qed.
Lemma unit_base_good : Forall good (unit_base he g) /\ NoDup (map fst (unit_base he g)).
Proof. rewrite unit_base_fold. apply unit_fold_good; constructor. Qed.

Lemma unit_step_key acc x k : In k (map fst (unit_step acc x)) <->
  In k (map fst acc) \/ (snd x = true /\ index_first (fst x) (tg_tasks g) = Some k).
Proof.
  unfold unit_step. destruct (snd x).
  - destruct (index_first (fst x) (tg_tasks g)) as [i|].
    + rewrite insert_keys. split; [intros [->|]; auto|]. intros [|[_ E]]; auto. left. congruence.
    + split; auto. intros [|[_ ?]]; [auto|discriminate].
  - split; auto. intros [|[? _]]; [auto|discriminate].
Qed.
Lemma unit_fold_key : forall l acc k, In k (map fst (fold_left unit_step l acc)) <->
  In k (map fst acc) \/ exists x, In x l /\ snd x = true /\ index_first (fst x) (tg_tasks g) = Some k.
Proof.
  induction l as [|x l IH]; intros acc k; simpl.
  - split; auto. intros [|(x & [] & _)]; auto.
  - rewrite IH, unit_step_key. split.
    + intros [[?|?]|(y & ? & ?)]; eauto.
    + intros [?|(y & [->|?] & ?)]; eauto.
Qed.
(** The keys: indices of the compound tasks. *)
Definition key (k : nat) : Prop :=
  exists x, In x (tg_tasks g) /\ snd x = true /\ index_first (fst x) (tg_tasks g) = Some k.
Lemma unit_base_key k : In k (map fst (unit_base he g)) <-> key k.
Proof. rewrite unit_base_fold, unit_fold_key. simpl. unfold key. tauto. Qed.

(** ** One iteration *)
Definition refines (st : nstate) (t : nat) : Prop :=
  exists m, In m (from_set g t) /\ forall x, In x (to_set g m) ->
    exists s y, assoc_nat x (ns_unit st) = Some s /\ In y s /\ In y (ns_null st).

Lemma new_fold (P : nat -> bool) : forall l acc,
  (forall t, In t (fold_left (fun acc t => if P t then add_nat t acc else acc) l acc) <->
     In t acc \/ (In t l /\ P t = true))
  /\ (NoDup acc -> NoDup (fold_left (fun acc t => if P t then add_nat t acc else acc) l acc)).
Proof.
  induction l as [|x l IH]; intros acc; simpl.
  - split; auto. intros t. split; auto. intros [|[[] _]]; auto.
  - split.
    + intros t. rewrite (proj1 (IH _)). destruct (P x) eqn:E.
      * rewrite add_nat_In. split; [intros [[->|]|[]]; auto|]. intros [|[[->|] ?]]; auto.
      * split; [intros [|[]]; auto|]. intros [|[[->|] ?]]; auto. congruence.
    + intros Hn. apply (proj2 (IH _)). destruct (P x); auto. apply add_nat_NoDup; auto.
Qed.
Lemma new_nullables_In st t : In t (new_nullables he g st) <-> In t (ns_new st) \/ refines st t.
Proof.
  unfold new_nullables. rewrite (proj1 (new_fold _ _ _)). rewrite it_keys_In by auto. unfold refines.
  assert (existsb (fun m => forallb (fun x => match assoc_nat x (ns_unit st) with
                           | Some s => existsb (fun y => mem_nat y (ns_null st)) s
                           | None => false end) (it_tasks he g m)) (it_methods he g t) = true <-> refines st t) as Hr.
  { unfold refines. rewrite existsb_exists. split; intros (m & Hm & Hx); exists m.
    - apply it_methods_In in Hm; auto. split; auto. intros x Hx'. rewrite forallb_forall in Hx.
      apply it_tasks_In with (he := he) in Hx'; auto. apply Hx in Hx'. destruct (assoc_nat x (ns_unit st)) as [s|]; [|discriminate].
      apply existsb_exists in Hx' as (y & Hy & Ey). apply mem_nat_In in Ey. eauto.
    - split; [apply it_methods_In; auto|]. rewrite forallb_forall. intros x Hx'. apply it_tasks_In in Hx'; auto.
      destruct (Hx x Hx') as (s & y & -> & Hy & Hy'). apply existsb_exists. exists y. split; auto. apply mem_nat_In; auto. }
  rewrite Hr. unfold refines. split; [tauto|]. intros [|(m & Hm & Hx)]; auto. right. split; eauto.
Qed.
Lemma new_nullables_NoDup st : NoDup (ns_new st) -> NoDup (new_nullables he g st).
Proof. apply (proj2 (new_fold _ _ _)). Qed.

Lemma change_fold {A} (f : A -> list nat) : forall l acc,
  (forall y, In y (fold_left (fun acc r => union_nat acc (f r)) l acc) <-> In y acc \/ exists r, In r l /\ In y (f r))
  /\ (NoDup acc -> NoDup (fold_left (fun acc r => union_nat acc (f r)) l acc)).
Proof.
  induction l as [|x l IH]; intros acc; simpl.
  - split; auto. intros y. split; auto. intros [|(r & [] & _)]; auto.
  - split.
    + intros y. rewrite (proj1 (IH _)), union_nat_In. split.
      * intros [[?|?]|(r & ? & ?)]; eauto.
      * intros [?|(r & [->|?] & ?)]; eauto.
    + intros Hn. apply (proj2 (IH _)), union_nat_NoDup; auto.
Qed.
Lemma fold_left_ext {A B} (f h : A -> B -> A) : (forall a b, f a b = h a b) ->
  forall l a, fold_left f l a = fold_left h l a.
Proof. intros Hf. induction l; intros; simpl; auto. rewrite Hf. auto. Qed.

Lemma unit_change_spec st c prev : NoDup prev -> Forall (fun x => x < n) prev ->
  Forall good (ns_unit st) ->
  incl prev (unit_change he g st c prev) /\ NoDup (unit_change he g st c prev)
  /\ Forall (fun x => x < n) (unit_change he g st c prev).
Proof.
  intros Hn Hp Hg. unfold unit_change.
  rewrite (fold_left_ext (fun acc m => match not_nullable he g (ns_null st) m with Some x => add_nat x acc | None => acc end) (fun acc m => union_nat acc (match not_nullable he g (ns_null st) m with Some x => [x] | None => [] end)))
    by (intros a b; destruct (not_nullable _ _ _ _); reflexivity).
  rewrite (fold_left_ext (fun acc r => match assoc_nat r (ns_unit st) with Some s => union_nat acc s | None => acc end) (fun acc r => union_nat acc (match assoc_nat r (ns_unit st) with Some s => s | None => [] end)))
    by (intros a b; destruct (assoc_nat _ _); reflexivity).
  destruct (change_fold (fun r => match assoc_nat r (ns_unit st) with Some s => s | None => [] end) prev prev) as [C1 C2].
  destruct (change_fold (fun m => match not_nullable he g (ns_null st) m with Some x => [x] | None => [] end) (it_methods he g c)
     (fold_left (fun acc r => union_nat acc (match assoc_nat r (ns_unit st) with Some s => s | None => [] end)) prev prev)) as [D1 D2].
  split; [|split].
  - intros y Hy. apply D1. left. apply C1. auto.
  - auto.
  - rewrite Forall_forall in *. intros y Hy. apply D1 in Hy as [Hy|(m & Hm & Hy)].
    + apply C1 in Hy as [Hy|(r & Hr & Hy)]; auto. destruct (assoc_nat r (ns_unit st)) as [s|] eqn:E; [|destruct Hy].
      apply assoc_in, Hg in E. destruct E as (_ & _ & E). simpl in E. rewrite Forall_forall in E. auto.
    + destruct (not_nullable he g (ns_null st) m) as [x|] eqn:E; [|destruct Hy]. destruct Hy as [<-|[]].
      apply find_some in E as [E _]. apply it_tasks_In in E; auto. eapply Hto; eauto.
Qed.

(** ** Invariant of the loop *)
Record ninv (st : nstate) : Prop := mkNinv {
  nv_keys : map fst (ns_unit st) = map fst (unit_base he g);
  nv_good : Forall good (ns_unit st);
  nv_newunit : Forall (fun kv => Forall (fun x => x < n) (snd kv)) (ns_newunit st);
  nv_null : NoDup (ns_null st);
  nv_new : NoDup (ns_new st);
  nv_lt : Forall (fun x => x < n) (new_nullables he g st);
  nv_incl : incl (ns_null st) (new_nullables he g st);
  nv_method : forall x, In x (new_nullables he g st) -> exists m, In m (from_set g x)
}.

Lemma null_base_In t : In t (null_base he g) <-> exists m, In m (from_set g t) /\ to_set g m = [].
Proof.
  unfold null_base. rewrite filter_In, existsb_exists, it_keys_In by auto. split.
  - intros (_ & m & Hm & E). exists m. apply it_methods_In in Hm; auto. split; auto. destruct (to_set g m); auto; discriminate.
  - intros (m & Hm & E). split; eauto. exists m. split; [apply it_methods_In; auto|]. rewrite E. auto.
Qed.
Lemma filter_NoDup {A} (f : A -> bool) l : NoDup l -> NoDup (filter f l).
Proof.
  induction 1 as [|x l Hx Hl IH]; simpl; [constructor|]. destruct (f x); auto. constructor; auto.
  rewrite filter_In. tauto.
Qed.
Lemma new_lt st : Forall (fun x => x < n) (ns_new st) -> Forall (fun x => x < n) (new_nullables he g st).
Proof.
  rewrite !Forall_forall. intros Hn x Hx. apply new_nullables_In in Hx as [Hx|(m & Hm & _)]; eauto.
Qed.

Lemma ninv_init : ninv (null_init he g).
Proof.
  destruct unit_base_good as [G1 G2]. constructor; simpl; auto.
  - unfold null_base. apply filter_NoDup. unfold it_keys. apply Permutation_NoDup with (l := tdg_keys g).
    + apply Permutation_sym, ho_keys_ok; auto.
    + apply seq_NoDup.
  - constructor.
  - apply new_lt. constructor.
  - intros t Ht. apply null_base_In in Ht as (m & Hm & E). apply new_nullables_In. right. exists m. split; auto.
    rewrite E. intros x [].
  - intros x Hx. apply new_nullables_In in Hx as [[]|(m & Hm & _)]. eauto.
Qed.

Lemma newunit_good st l : Forall good (ns_unit st) -> incl l (ns_unit st) -> forall acc,
  Forall (fun kv => Forall (fun x => x < n) (snd kv)) acc ->
  Forall (fun kv => Forall (fun x => x < n) (snd kv))
    (fold_left (fun acc x => if seteq_nat (snd x) (snd (fst x)) then acc
                            else insert_nat (fst (fst x)) (snd x) acc)
       (map (fun cp => (fst cp, snd cp, unit_change he g st (fst cp) (snd cp))) l) acc).
Proof.
  intros Hg. induction l as [|cp l IH]; intros Hl acc Ha; simpl; auto. apply IH.
  - intros x Hx. apply Hl. right; auto.
  - destruct (seteq_nat _ _); auto. apply insert_Forall; auto. cbn [snd].
    assert (good cp) as (_ & H1 & H2). { rewrite Forall_forall in Hg. apply Hg, Hl. left; auto. }
    apply unit_change_spec; auto.
Qed.

Lemma ninv_step st : ninv st -> ninv (null_step he g st).
Proof.
  intros [K G NU N W LT I M].
  assert (ninv_new : ns_new (null_step he g st) = new_nullables he g st) by reflexivity.
  assert (Hnu : Forall (fun kv => Forall (fun x => x < n) (snd kv)) (ns_newunit (null_step he g st))).
  { apply newunit_good; auto. intros x; auto. }
  constructor.
  - simpl. rewrite map_map. simpl. auto.
  - simpl in *. rewrite Forall_forall in *. intros kv Hkv. apply in_map_iff in Hkv as (cp & <- & Hcp).
    destruct (G cp Hcp) as (G1 & G2 & G3). cbn [fst snd].
    destruct (assoc_nat (fst cp) _) as [s|] eqn:E; [|repeat split; auto]. apply assoc_in, Hnu in E. cbn [snd] in E.
    repeat split; cbn [fst snd].
    + apply union_nat_In; auto.
    + apply union_nat_NoDup; auto.
    + rewrite Forall_forall in *. intros x Hx. apply union_nat_In in Hx as []; auto.
  - exact Hnu.
  - simpl. destruct (Nat.eqb _ _); auto. apply union_nat_NoDup; auto.
  - rewrite ninv_new. apply new_nullables_NoDup; auto.
  - apply new_lt. rewrite ninv_new. auto.
  - intros x Hx. apply new_nullables_In. left. rewrite ninv_new. simpl in Hx. destruct (Nat.eqb _ _); auto.
    apply union_nat_In in Hx as []; auto.
  - intros x Hx. apply new_nullables_In in Hx as [Hx|(m & Hm & _)]; eauto.
Qed.

(** ** Completeness *)
Hypothesis Hkey : forall t m, In m (from_set g t) -> key t.

Lemma same_closed st : ninv st -> length (new_nullables he g st) = length (ns_null st) ->
  forall t, nullable_ix g t -> In t (ns_null st).
Proof.
  intros Hi El. assert (incl (new_nullables he g st) (ns_null st)) as Hincl.
  { apply NoDup_length_incl; [apply nv_null; auto|lia|apply nv_incl; auto]. }
  fix IH 2. intros t [m Hm Hx]. apply Hincl. apply new_nullables_In. right. exists m. split; auto.
  intros x Hx'. assert (In x (ns_null st)) as Hin by (apply IH; auto).
  destruct (nv_method _ Hi x (nv_incl _ Hi x Hin)) as (mx & Hmx). apply Hkey in Hmx. apply unit_base_key in Hmx.
  rewrite <- (nv_keys _ Hi) in Hmx. apply assoc_some in Hmx as (v & Ev & Hv). exists v, x. split; auto. split; auto.
  pose proof (nv_good _ Hi) as Hg. rewrite Forall_forall in Hg. apply Hg in Hv as [Hv _]. auto.
Qed.

Lemma null_mono st x : In x (ns_null st) -> In x (ns_null (null_step he g st)).
Proof. simpl. destruct (Nat.eqb _ _); auto. intros Hx. apply union_nat_In; auto. Qed.

Lemma loop_complete : forall fuel st l, ninv st ->
  (ns_cn st = false -> forall t, nullable_ix g t -> In t (ns_null st)) ->
  null_loop he fuel g st = Ok l -> forall t, nullable_ix g t -> In t l.
Proof.
  induction fuel as [|f IH]; intros st l Hi Hc; simpl; destruct (ns_cn st || ns_cu st) eqn:E; try discriminate.
  - intros El. injection El as <-. apply orb_false_iff in E as [E _]. auto.
  - apply IH; [apply ninv_step; auto|]. intros Ec t Ht. simpl in Ec.
    destruct (Nat.eqb (length (new_nullables he g st)) (length (ns_null st))) eqn:En.
    + apply null_mono. apply Nat.eqb_eq in En. eapply same_closed; eauto.
    + apply null_mono; auto.
  - intros El. injection El as <-. apply orb_false_iff in E as [E _]. auto.
Qed.
Theorem nullables_complete fuel l : null_loop he fuel g (null_init he g) = Ok l -> forall t, nullable_ix g t -> In t l.
Proof. apply loop_complete; [apply ninv_init|discriminate]. Qed.

(** ** Termination *)
Definition mu_null (st : nstate) : nat := if ns_cn st then S (n - length (ns_null st)) else 0.
Definition mu_unit (st : nstate) : nat :=
  if ns_cu st then S (n - match ns_unit st with [] => 0 | kv :: _ => length (snd kv) end) else 0.

Lemma lt_length (l : list nat) : NoDup l -> Forall (fun x => x < n) l -> length l <= n.
Proof.
  intros Hn Hl. rewrite <- (seq_length n 0). apply NoDup_incl_length; auto. intros x Hx. rewrite Forall_forall in Hl.
  apply in_seq. apply Hl in Hx. lia.
Qed.
Lemma null_lt st : ninv st -> length (ns_null st) <= n.
Proof.
  intros Hi. apply lt_length; [apply nv_null; auto|]. pose proof (nv_lt _ Hi) as Hl. rewrite Forall_forall in *.
  intros x Hx. apply Hl, (nv_incl _ Hi); auto.
Qed.

Lemma mu_null_step st : ninv st ->
  (ns_cn st = true -> mu_null (null_step he g st) < mu_null st) /\ (ns_cn st = false -> mu_null (null_step he g st) = 0).
Proof.
  intros Hi. pose proof (null_lt _ (ninv_step _ Hi)) as Hl'. pose proof (null_lt _ Hi) as Hl.
  unfold mu_null in *. simpl in *. destruct (Nat.eqb (length (new_nullables he g st)) (length (ns_null st))) eqn:En.
  - split; intros Ec; rewrite ?Ec; lia.
  - split; intros ->; auto. apply Nat.eqb_neq in En.
    assert (length (new_nullables he g st) <= length (union_nat (ns_null st) (new_nullables he g st))) as H1.
    { apply NoDup_incl_length; [apply new_nullables_NoDup, nv_new; auto|]. intros x Hx. apply union_nat_In; auto. }
    assert (length (ns_null st) <= length (new_nullables he g st)) as H2.
    { apply NoDup_incl_length; [apply nv_null; auto|apply nv_incl; auto]. }
    lia.
Qed.

Lemma assoc_fold_other k : forall (changes : list (nat * list nat * list nat)) acc,
  ~ In k (map (fun x => fst (fst x)) changes) ->
  assoc_nat k (fold_left (fun acc x => if seteq_nat (snd x) (snd (fst x)) then acc
                            else insert_nat (fst (fst x)) (snd x) acc) changes acc) = assoc_nat k acc.
Proof.
  induction changes as [|x l IH]; intros acc Hn; simpl; auto. simpl in Hn. rewrite IH by tauto.
  destruct (seteq_nat _ _); auto. rewrite assoc_insert. destruct (Nat.eqb k (fst (fst x))) eqn:E; auto.
  apply Nat.eqb_eq in E. exfalso. apply Hn. auto.
Qed.

Lemma mu_unit_step st : ninv st -> ns_unit st <> [] ->
  (ns_cu st = true -> mu_unit (null_step he g st) < mu_unit st) /\ (ns_cu st = false -> mu_unit (null_step he g st) = 0).
Proof.
  intros Hi Hne. pose proof (nv_good _ (ninv_step _ Hi)) as Hg'. pose proof (nv_good _ Hi) as Hg.
  assert (Hkeys : NoDup (map fst (ns_unit st))) by (rewrite (nv_keys _ Hi); apply unit_base_good).
  unfold mu_unit, null_step in *. cbn [ns_cu ns_unit] in *.
  destruct (ns_unit st) as [|[k v] u] eqn:Eu; [congruence|]. clear Hne.
  cbn [map fst snd fold_left existsb] in *.
  destruct (seteq_nat (unit_change he g st k v) v) eqn:Eq; cbn [orb].
  - split; intros Ec; rewrite ?Ec; lia.
  - inversion Hg as [|? ? (G1 & G2 & G3) Hgu]; subst. cbn [fst snd] in *. inversion Hkeys as [|? ? Hk Hku]; subst.
    rewrite <- Eu in Hg.
    destruct (unit_change_spec st k v G2 G3 Hg) as (C1 & C2 & C3).
    rewrite assoc_fold_other in * by (rewrite map_map; cbn [fst]; auto).
    rewrite assoc_insert, Nat.eqb_refl in *.
    assert (length v < length (union_nat v (unit_change he g st k v))) as Hlen.
    { assert (exists x, In x (unit_change he g st k v) /\ ~ In x v) as (x & Hx & Hnx).
      { destruct (subset_nat (unit_change he g st k v) v) eqn:Es.
        - apply subset_nat_spec in Es. exfalso. assert (seteq_nat (unit_change he g st k v) v = true); [|congruence].
          apply seteq_nat_spec. intros y. split; auto.
        - clear - Es. unfold subset_nat in Es. induction (unit_change he g st k v) as [|y l IH]; simpl in Es; [discriminate|].
          apply andb_false_iff in Es as [Es|Es].
          + apply mem_nat_false in Es. exists y. split; auto. left; auto.
          + destruct (IH Es) as (x & ? & ?). exists x. split; auto. right; auto. }
      apply (NoDup_incl_length (l := x :: v)); [constructor; auto|].
      intros y [<-|Hy]; apply union_nat_In; auto. }
    inversion Hg' as [|? ? (G1' & G2' & G3') _]; subst. cbn [fst snd] in *.
    apply lt_length in G3'; auto.
    split.
    + intros ->. destruct (existsb _ _); lia.
    + intros ->. destruct (existsb _ _); auto.
Qed.

Lemma unit_nonempty st : ninv st -> (exists k, key k) -> ns_unit st <> [].
Proof.
  intros Hi (k & Hk) E. apply unit_base_key in Hk. rewrite <- (nv_keys _ Hi), E in Hk. destruct Hk.
Qed.

Lemma loop_total : (exists k, key k) -> forall fuel st, ninv st -> mu_null st + mu_unit st <= fuel ->
  exists l, null_loop he fuel g st = Ok l.
Proof.
  intros Hk. induction fuel as [|f IH]; intros st Hi Hf; simpl; destruct (ns_cn st || ns_cu st) eqn:E; eauto.
  - unfold mu_null, mu_unit in Hf. apply orb_true_iff in E as [E|E]; rewrite E in Hf; lia.
  - apply IH; [apply ninv_step; auto|]. destruct (mu_null_step st Hi) as [A1 A2].
    destruct (mu_unit_step st Hi (unit_nonempty st Hi Hk)) as [B1 B2].
    destruct (ns_cn st), (ns_cu st); try discriminate E;
      repeat match goal with H : ?b = ?b -> _ |- _ => specialize (H eq_refl) end; lia.
Qed.
Theorem nullables_total fuel : (exists k, key k) -> 2 * n + 2 <= fuel ->
  exists l, null_loop he fuel g (null_init he g) = Ok l.
Proof.
  intros Hk Hf. apply loop_total; auto; [apply ninv_init|]. unfold mu_null, mu_unit. simpl. lia.
Qed.

(** ** Divergence *)
Lemma loop_diverges : forall fuel st, ns_unit st = [] -> ns_cu st = true -> null_loop he fuel g st = OutOfFuel.
Proof.
  induction fuel as [|f IH]; intros st Hu Hc; simpl; rewrite Hc, orb_true_r; auto. apply IH.
  - simpl. rewrite Hu. auto.
  - simpl. rewrite Hu. auto.
Qed.
Theorem nullables_diverge fuel : (forall k, ~ key k) -> null_loop he fuel g (null_init he g) = OutOfFuel.
Proof.
  intros Hk. apply loop_diverges; auto. simpl. destruct (unit_base he g) as [|[k v] l] eqn:E; auto. exfalso.
  apply (Hk k). apply unit_base_key. rewrite E. left; auto.
Qed.

(** Members have a method. *)
Lemma loop_method : forall fuel st l, ninv st -> null_loop he fuel g st = Ok l ->
  forall t, In t l -> exists m, In m (from_set g t).
Proof.
  induction fuel as [|f IH]; intros st l Hi; simpl; destruct (ns_cn st || ns_cu st) eqn:E; try discriminate.
  - intros El. injection El as <-. intros t Ht. eapply nv_method; eauto. apply nv_incl; auto.
  - apply IH. apply ninv_step; auto.
  - intros El. injection El as <-. intros t Ht. eapply nv_method; eauto. apply nv_incl; auto.
Qed.
Lemma nullables_method fuel l : null_loop he fuel g (null_init he g) = Ok l ->
  forall t, In t l -> exists m, In m (from_set g t).
Proof. apply loop_method, ninv_init. Qed.

Lemma null_loop_calm : forall fuel st, (forall e, null_loop he fuel g st <> Err e) /\ (forall p, null_loop he fuel g st <> Panic p).
Proof.
  induction fuel as [|f IH]; intros st; simpl; destruct (_ || _); auto; split; discriminate.
Qed.
End Null.
