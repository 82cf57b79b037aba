(** Breadth-first search: termination and exactness. *)
From Coq Require Import String NArith Bool List Lia PeanoNat Permutation Relations.
From Verif Require Import Base Errors Ast Tdg GraphProofs TdgGraph.
Import ListNotations.
Open Scope list_scope.
Open Scope nat_scope.
Open Scope outcome_scope.

(** One decomposition step between task indices. *)
Definition succ (g : tdg) (t t' : nat) : Prop := exists m, In m (from_set g t) /\ In t' (to_set g m).
Definition reach_ix (g : tdg) : nat -> nat -> Prop := clos_refl_trans nat (succ g).

Definition weight (g : tdg) (t : nat) : nat := list_sum (map (fun m => length (to_set g m)) (from_set g t)).

Section Bfs.
Variable he : hash_env.
Hypothesis Hhe : hash_env_ok he.
Variable g : tdg.
Notation n := (length (tg_tasks g)).
Hypothesis Hlt : forall t m, In m (from_set g t) -> t < n.

Lemma it_methods_In t m : In m (it_methods he g t) <-> In m (from_set g t).
Proof.
  unfold it_methods. split; apply Permutation_in; [|apply Permutation_sym]; apply ho_methods_ok; auto.
Qed.
Lemma it_tasks_In m t : In t (it_tasks he g m) <-> In t (to_set g m).
Proof.
  unfold it_tasks. split; apply Permutation_in; [|apply Permutation_sym]; apply ho_tasks_ok; auto.
Qed.
Lemma it_keys_In t : In t (it_keys he g) <-> t < n.
Proof.
  unfold it_keys, tdg_keys.
  assert (In t (seq 0 n) <-> t < n) as Hs by (rewrite in_seq; lia). rewrite <- Hs.
  split; apply Permutation_in; [|apply Permutation_sym]; apply ho_keys_ok; auto.
Qed.

Definition news (t : nat) : list nat := flat_map (it_tasks he g) (it_methods he g t).
Lemma news_In t x : In x (news t) <-> succ g t x.
Proof.
  unfold news, succ. rewrite in_flat_map. split.
  - intros (m & Hm & Hx). exists m. rewrite <- it_methods_In, <- it_tasks_In. auto.
  - intros (m & Hm & Hx). exists m. rewrite it_methods_In, it_tasks_In. auto.
Qed.
Lemma list_sum_perm l l' : Permutation l l' -> list_sum l = list_sum l'.
Proof. induction 1; simpl; lia. Qed.
Lemma news_length t : length (news t) = weight g t.
Proof.
  unfold news, weight. rewrite flat_map_concat_map, <- (list_sum_perm (map (fun m => length (to_set g m)) (it_methods he g t))).
  - generalize (it_methods he g t). induction l as [|m l IH]; simpl; auto. rewrite app_length, IH. f_equal.
    unfold it_tasks. apply Permutation_length. apply ho_tasks_ok; auto.
  - apply Permutation_map. apply ho_methods_ok; auto.
Qed.
Lemma weight_out t : n <= t -> weight g t = 0.
Proof.
  intros Hn. unfold weight. destruct (from_set g t) as [|m l] eqn:E; auto. exfalso.
  assert (t < n); [|lia]. apply (Hlt t m). rewrite E. left; auto.
Qed.

Definition remaining (visited : list nat) (l : list nat) : nat :=
  list_sum (map (weight g) (filter (fun t => negb (mem_nat t visited)) l)).
Lemma remaining_cons v x l :
  remaining v (x :: l) = (if mem_nat x v then 0 else weight g x) + remaining v l.
Proof. unfold remaining. simpl. destruct (mem_nat x v); reflexivity. Qed.
Lemma mem_nat_cons x t v : mem_nat x (t :: v) = Nat.eqb x t || mem_nat x v.
Proof. reflexivity. Qed.
Lemma remaining_skip t visited : forall l, ~ In t l -> remaining (t :: visited) l = remaining visited l.
Proof.
  induction l as [|x l IH]; intros Hn; auto.
  assert (x <> t) as Hx by (intros ->; apply Hn; left; auto). apply Nat.eqb_neq in Hx.
  rewrite !remaining_cons, mem_nat_cons, Hx, IH; auto. intros Hi; apply Hn; right; auto.
Qed.
Lemma remaining_visit t visited : forall l, NoDup l -> In t l -> ~ In t visited ->
  remaining visited l = weight g t + remaining (t :: visited) l.
Proof.
  induction l as [|x l IH]; intros Hn Hi Hv; [destruct Hi|]. inversion Hn as [|? ? Hx Hl]; subst.
  rewrite !remaining_cons, mem_nat_cons. destruct (Nat.eqb x t) eqn:E.
  - apply Nat.eqb_eq in E as ->. apply mem_nat_false in Hv. rewrite Hv. simpl.
    rewrite <- (remaining_skip t visited l) by auto. auto.
  - apply Nat.eqb_neq in E. destruct Hi as [?|Hi]; [congruence|]. rewrite (IH Hl Hi Hv). simpl. lia.
Qed.

Lemma bfs_total : forall fuel queue visited reach,
  length queue + remaining visited (seq 0 n) <= fuel ->
  exists r, bfs he fuel g queue visited reach = Ok r.
Proof.
  induction fuel as [|f IH]; intros [|t q] visited reach Hf; simpl; eauto.
  - simpl in Hf. lia.
  - destruct (mem_nat t visited) eqn:E.
    + apply IH. simpl in Hf. lia.
    + apply mem_nat_false in E. apply IH. rewrite app_length. fold (news t). rewrite news_length.
      destruct (Nat.lt_ge_cases t n) as [Hl|Hl].
      * rewrite (remaining_visit t visited) in Hf; auto.
        -- simpl in Hf. lia.
        -- apply seq_NoDup.
        -- apply in_seq. lia.
      * rewrite weight_out by auto. rewrite remaining_skip; [simpl in Hf; lia|]. rewrite in_seq. lia.
Qed.

(** Search invariant for the start [i]. *)
Section Inv.
Variable i : nat.
Record inv (queue visited reach : list nat) : Prop := mkInv {
  inv_start : In i reach;
  inv_reach : forall x, In x reach <-> In x queue \/ In x visited;
  inv_sound : forall x, In x reach -> reach_ix g i x;
  inv_closed : forall x y, In x visited -> succ g x y -> In y reach
}.

Lemma inv_done visited reach : inv [] visited reach -> forall x, In x reach <-> reach_ix g i x.
Proof.
  intros Hi x. split; [apply inv_sound with (1 := Hi)|]. intros Hr.
  assert (forall a, reach_ix g a x -> In a reach -> In x reach) as Hcl.
  { intros a Ha. apply clos_rt_rt1n in Ha. induction Ha as [a|a b c Hab _ IHr]; auto.
    intros Hin. apply (IHr Hr). eapply inv_closed; eauto. apply (inv_reach _ _ _ Hi) in Hin as [[]|]; auto. }
  apply Hcl with i; auto. apply (inv_start _ _ _ Hi).
Qed.
Lemma bfs_spec : forall fuel queue visited reach r,
  inv queue visited reach -> bfs he fuel g queue visited reach = Ok r ->
  forall x, In x r <-> reach_ix g i x.
Proof.
  induction fuel as [|f IH]; intros [|t q] visited reach r Hi; simpl.
  1, 3: intros E; injection E as <-; eapply inv_done; eauto.
  - discriminate.
  - destruct (mem_nat t visited) eqn:E.
    + apply mem_nat_In in E. apply IH. destruct Hi as [H1 H2 H3 H4]. constructor; auto.
      intros x. rewrite H2. simpl. split; [|tauto]. intros [[->|]|]; auto.
    + fold (news t). apply IH. destruct Hi as [H1 H2 H3 H4].
      assert (In t reach) as Ht by (apply H2; simpl; auto). constructor.
      * apply union_nat_In. auto.
      * intros x. rewrite union_nat_In, H2, in_app_iff. simpl. tauto.
      * intros x. rewrite union_nat_In. intros [Hx|Hx]; auto. apply news_In in Hx.
        eapply rt_trans; [apply H3; exact Ht|]. apply rt_step; auto.
      * intros x y [<-|Hx] Hs; apply union_nat_In; [right; apply news_In; auto|left; eauto].
Qed.
End Inv.

Lemma bfs_init i : inv i [i] [] [i].
Proof.
  constructor.
  - left; auto.
  - intros x. simpl. tauto.
  - intros x [<-|[]]. apply rt_refl.
  - intros x y [].
Qed.

Definition bfs_bound : nat := 1 + list_sum (map (weight g) (seq 0 n)).
Lemma remaining_nil l : remaining [] l = list_sum (map (weight g) l).
Proof. unfold remaining. f_equal. f_equal. induction l; simpl; auto. f_equal; auto. Qed.

Theorem bfs_exact fuel i : bfs_bound <= fuel ->
  exists r, bfs he fuel g [i] [] [i] = Ok r /\ forall x, In x r <-> reach_ix g i x.
Proof.
  intros Hf. destruct (bfs_total fuel [i] [] [i]) as (r & E).
  - rewrite remaining_nil. exact Hf.
  - exists r. split; auto. eapply bfs_spec; eauto. apply bfs_init.
Qed.
Lemma bfs_sound fuel i r : bfs he fuel g [i] [] [i] = Ok r -> forall x, In x r <-> reach_ix g i x.
Proof. intros E. eapply bfs_spec; eauto. apply bfs_init. Qed.
Lemma bfs_calm : forall fuel q v r, (forall e, bfs he fuel g q v r <> Err e) /\ (forall p, bfs he fuel g q v r <> Panic p).
Proof.
  induction fuel as [|f IH]; intros [|t q] v r; simpl; try (split; discriminate).
  destruct (mem_nat t v); apply IH.
Qed.
End Bfs.
