(** The graph stand-ins of Graph.v compute reachability and acyclicity. *)
From Coq Require Import String Bool List Relations Lia Arith.
From Verif Require Import Graph.
Import ListNotations.
Open Scope list_scope.

(** One edge of the graph. *)
Definition edge (es : edges) (a b : string) : Prop := In (a, b) es.
(** A directed path of any length. *)
Definition path_to (es : edges) := clos_refl_trans string (edge es).
(** A directed path of at least one edge. *)
Definition path_plus (es : edges) := clos_trans string (edge es).
(** No directed cycle. *)
Definition acyclic (es : edges) : Prop := forall a, ~ path_plus es a a.

Lemma mem_str_In x l : mem_str x l = true <-> In x l.
Proof.
  unfold mem_str. rewrite existsb_exists. split.
  - intros (y & Hy & E). apply String.eqb_eq in E. subst; auto.
  - intros Hx. exists x. rewrite String.eqb_refl. auto.
Qed.

Lemma mem_str_false x l : mem_str x l = false <-> ~ In x l.
Proof. rewrite <- mem_str_In. destruct (mem_str x l); split; congruence. Qed.

Definition step_acc acc (e : string * string) :=
  if mem_str (fst e) acc && negb (mem_str (snd e) acc) then snd e :: acc else acc.

Lemma step_acc_incl acc e x : In x acc -> In x (step_acc acc e).
Proof. unfold step_acc. destruct (_ && _); simpl; auto. Qed.

Lemma fold_step_incl es : forall acc x, In x acc -> In x (fold_left step_acc es acc).
Proof. induction es; simpl; auto using step_acc_incl. Qed.

Lemma expand_fold es seen : expand es seen = fold_left step_acc es seen.
Proof. reflexivity. Qed.

Lemma fold_step_edge es : forall acc a b,
  In a acc -> In (a, b) es -> In b (fold_left step_acc es acc).
Proof.
  induction es as [|e es IH]; simpl; [tauto|]. intros acc a b Ha [->|Hab].
  - apply fold_step_incl. unfold step_acc; simpl.
    apply mem_str_In in Ha. rewrite Ha; simpl.
    destruct (mem_str b acc) eqn:Hb; simpl; [apply mem_str_In; auto|auto].
  - eapply IH; eauto using step_acc_incl.
Qed.

Lemma fold_step_sound es0 (P : string -> Prop) :
  (forall a b, P a -> In (a, b) es0 -> P b) ->
  forall es acc, incl es es0 -> Forall P acc -> Forall P (fold_left step_acc es acc).
Proof.
  intros HP es; induction es as [|[a b] es IH]; simpl; auto.
  intros acc Hi Hacc. apply IH; [intros x Hx; apply Hi; right; auto|].
  unfold step_acc; simpl. destruct (mem_str a acc) eqn:Ha; simpl; auto.
  destruct (mem_str b acc) eqn:Hb; simpl; auto.
  constructor; auto. eapply HP; [|apply Hi; left; reflexivity].
  rewrite Forall_forall in Hacc. apply Hacc, mem_str_In; auto.
Qed.

Lemma fold_step_nodup es : forall acc, NoDup acc -> NoDup (fold_left step_acc es acc).
Proof.
  induction es as [|[a b] es IH]; simpl; auto. intros acc Hn. apply IH.
  unfold step_acc; simpl. destruct (mem_str a acc); simpl; auto.
  destruct (mem_str b acc) eqn:Hb; simpl; auto.
  constructor; auto. apply mem_str_false; auto.
Qed.

Lemma fold_step_length es : forall acc, length acc <= length (fold_left step_acc es acc).
Proof.
  induction es as [|e es IH]; simpl; auto. intros acc.
  etransitivity; [|apply IH]. unfold step_acc. destruct (_ && _); simpl; lia.
Qed.

(** A round that adds nothing is a fixpoint, hence closed. *)
Lemma fold_step_same_length es : forall acc,
  length (fold_left step_acc es acc) = length acc -> fold_left step_acc es acc = acc.
Proof.
  induction es as [|e es IH]; simpl; auto. intros acc H.
  assert (step_acc acc e = acc) as E.
  { assert (Hl := fold_step_length es (step_acc acc e)).
    revert Hl; unfold step_acc in *; destruct (_ && _); auto.
    simpl in *; intros. lia. }
  rewrite E in *. auto.
Qed.

Lemma expand_n_fix n es seen : expand es seen = seen -> expand_n n es seen = seen.
Proof. intros E; induction n; simpl; auto. rewrite E; auto. Qed.

Lemma expand_n_length es : forall n seen,
  (exists k, k <= n /\ expand es (expand_n k es seen) = expand_n k es seen)
  \/ length seen + n <= length (expand_n n es seen).
Proof.
  induction n as [|n IH]; intros seen; simpl.
  - right; lia.
  - destruct (Nat.eq_dec (length (expand es seen)) (length seen)) as [E|E].
    + left; exists 0; split; [lia|]. simpl.
      apply fold_step_same_length; exact E.
    + destruct (IH (expand es seen)) as [(k & Hk & Ek)|Hl].
      * left; exists (S k); split; [lia|]. exact Ek.
      * right. assert (length seen <= length (expand es seen)) by apply fold_step_length. lia.
Qed.

Lemma expand_n_split n : forall k es seen,
  k <= n -> expand es (expand_n k es seen) = expand_n k es seen ->
  expand_n n es seen = expand_n k es seen.
Proof.
  induction n as [|n IH]; intros k es seen Hk E.
  - replace k with 0 by lia; reflexivity.
  - destruct k as [|k].
    + simpl in *. rewrite E. apply expand_n_fix; auto.
    + simpl in *. apply IH; auto; lia.
Qed.

Lemma expand_n_nodup n : forall es seen, NoDup seen -> NoDup (expand_n n es seen).
Proof. induction n; simpl; intros; auto. apply IHn, fold_step_nodup; auto. Qed.

Lemma expand_n_sound es (P : string -> Prop) :
  (forall a b, P a -> In (a, b) es -> P b) ->
  forall n seen, Forall P seen -> Forall P (expand_n n es seen).
Proof.
  intros HP n; induction n; simpl; auto. intros seen Hs. apply IHn.
  eapply fold_step_sound; eauto. apply incl_refl.
Qed.

Lemma expand_n_seen n : forall es seen x, In x seen -> In x (expand_n n es seen).
Proof. induction n; simpl; auto. intros. apply IHn. apply fold_step_incl; auto. Qed.

(** Everything in the list is the start or a target of an edge. *)
Lemma reach_list_incl es a : incl (reach_list es a) (a :: map snd es).
Proof.
  intros x Hx. unfold reach_list in Hx.
  assert (Forall (fun y => In y (a :: map snd es)) (expand_n (length es) es [a])) as F.
  { apply expand_n_sound.
    - intros u v _ Huv. right. apply (in_map snd) in Huv. exact Huv.
    - constructor; simpl; auto. }
  rewrite Forall_forall in F. auto.
Qed.

Lemma reach_list_closed es a :
  expand es (reach_list es a) = reach_list es a.
Proof.
  unfold reach_list.
  destruct (expand_n_length es (length es) [a]) as [(k & Hk & E)|Hl].
  - rewrite (expand_n_split _ k); auto.
  - simpl in Hl. apply fold_step_same_length.
    assert (NoDup (expand es (expand_n (length es) es [a]))) as Hn.
    { apply fold_step_nodup, expand_n_nodup. repeat constructor; auto. }
    assert (length (expand es (expand_n (length es) es [a])) <= S (length es)) as Hu.
    { replace (S (length es)) with (length (a :: map snd es))
        by (simpl; rewrite map_length; reflexivity).
      apply NoDup_incl_length; auto.
      intros x Hx.
      assert (Forall (fun y => In y (a :: map snd es))
                     (expand es (expand_n (length es) es [a]))) as F.
      { apply (expand_n_sound es (fun y => In y (a :: map snd es))
                 (fun u v _ Huv => or_intror (in_map snd _ _ Huv)) 1).
        apply expand_n_sound.
        - intros u v _ Huv. right. apply (in_map snd) in Huv. exact Huv.
        - constructor; simpl; auto. }
      rewrite Forall_forall in F. auto. }
    assert (length (expand_n (length es) es [a])
            <= length (expand es (expand_n (length es) es [a]))) by apply fold_step_length.
    unfold expand in *. change (fun (acc : list string) (e : string * string) => _) with step_acc in *.
    lia.
Qed.

Lemma has_path_spec es a b : has_path es a b = true <-> path_to es a b.
Proof.
  unfold has_path. rewrite mem_str_In. split.
  - intros H.
    assert (Forall (path_to es a) (reach_list es a)) as F.
    { apply expand_n_sound.
      - intros u v Hu Huv. eapply rt_trans; [exact Hu|]. apply rt_step; exact Huv.
      - constructor; auto. apply rt_refl. }
    rewrite Forall_forall in F. auto.
  - intros H. apply clos_rt_rtn1 in H. induction H as [|y z Hyz _ IH].
    + apply expand_n_seen. simpl; auto.
    + rewrite <- reach_list_closed. rewrite expand_fold.
      eapply fold_step_edge; eauto.
Qed.

Lemma path_plus_first es a b :
  path_plus es a b -> exists c, edge es a c /\ path_to es c b.
Proof.
  induction 1 as [x y H|x y z _ IH1 _ IH2].
  - exists y; split; auto. apply rt_refl.
  - destruct IH1 as (c & Hc & Hcy). exists c; split; auto.
    eapply rt_trans; [exact Hcy|].
    destruct IH2 as (e & He & Hez). eapply rt_trans; [apply rt_step; exact He|exact Hez].
Qed.

Lemma path_first_plus es a c b :
  edge es a c -> path_to es c b -> path_plus es a b.
Proof.
  intros He Hp. apply clos_rt_rt1n in Hp.
  revert a He. induction Hp as [x|x y z Hxy Hyz IH]; intros a He.
  - apply t_step; auto.
  - eapply t_trans; [apply t_step; exact He|]. apply IH; auto.
Qed.

Lemma acyclicb_spec es : acyclicb es = true <-> acyclic es.
Proof.
  unfold acyclicb, acyclic. rewrite forallb_forall. split.
  - intros H a Ha. apply path_plus_first in Ha as (c & Hac & Hca).
    specialize (H _ Hac). simpl in H.
    apply has_path_spec in Hca. rewrite Hca in H. discriminate.
  - intros H [a b] Hab. simpl.
    destruct (has_path es b a) eqn:E; auto.
    apply has_path_spec in E. exfalso. eapply H, path_first_plus; eauto.
Qed.

Lemma forallb_false {A} (f : A -> bool) l :
  forallb f l = false -> exists x, In x l /\ f x = false.
Proof.
  induction l as [|x l IH]; simpl; [discriminate|].
  destruct (f x) eqn:E; simpl.
  - intros H. destruct (IH H) as (y & ? & ?). exists y; auto.
  - intros _. exists x; auto.
Qed.

Lemma acyclicb_false es : acyclicb es = false <-> exists a, path_plus es a a.
Proof.
  split.
  - unfold acyclicb. intros H.
    apply forallb_false in H as ([a b] & Hi & Hp).
    simpl in Hp. apply negb_false_iff in Hp.
    apply has_path_spec in Hp. exists a. eapply path_first_plus; eauto.
  - intros (a & Ha). destruct (acyclicb es) eqn:E; auto.
    apply acyclicb_spec in E. exfalso; eapply E; eauto.
Qed.
