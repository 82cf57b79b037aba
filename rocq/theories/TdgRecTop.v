(** The recursion search in terms of names. *)
From Coq Require Import String NArith Bool List Lia PeanoNat Permutation Relations.
From Verif Require Import Base Token Errors Ast Graph Tdg GraphProofs TdgGraph TdgReach SpecTdg SpecRec TdgTop VerifyTop TdgRec.
Import ListNotations.
Open Scope list_scope.
Open Scope nat_scope.
Open Scope outcome_scope.

(** ** Lists of subtasks *)
Lemma split_at_names x : forall l a b, split_at x l = Some (a, b) ->
  before x (map (fun s => sym_name (sub_task s)) l) = map (fun s => sym_name (sub_task s)) a
  /\ after x (map (fun s => sym_name (sub_task s)) l) = map (fun s => sym_name (sub_task s)) b.
Proof.
  induction l as [|s l IH]; intros a b; simpl; [discriminate|].
  destruct (String.eqb (sym_name (sub_task s)) x).
  - intros E. injection E as <- <-. auto.
  - destruct (split_at x l) as [[a' b']|] eqn:E; [|discriminate]. intros E'. injection E' as <- <-.
    destruct (IH _ _ eq_refl) as [-> ->]. auto.
Qed.
Lemma split_at_some x : forall l, In x (map (fun s => sym_name (sub_task s)) l) -> exists a b, split_at x l = Some (a, b).
Proof.
  induction l as [|s l IH]; simpl; [intros []|]. destruct (String.eqb_spec (sym_name (sub_task s)) x) as [E|Hn]; [eauto|].
  intros [E|Hi]; [congruence|]. destruct (IH Hi) as (a & b & ->). eauto.
Qed.

(** ** Partially ordered methods *)
Lemma id_to_task_spec l i y : id_to_task l i = Some y <->
  exists l1 s l2, l = l1 ++ s :: l2 /\ id_of s = Some i /\ sym_name (sub_task s) = y /\ Forall (fun s' => id_of s' <> Some i) l2.
Proof.
  unfold id_to_task.
  assert (forall s, match sub_id s with Some j => String.eqb (sym_name j) i | None => false end = true <-> id_of s = Some i) as Hb.
  { intros s. unfold id_of. destruct (sub_id s) as [j|]; simpl; [|split; discriminate]. rewrite String.eqb_eq. split; congruence. }
  induction l as [|s l IH] using rev_ind.
  - simpl. split; [discriminate|]. intros (l1 & s & l2 & E & _). destruct l1; discriminate.
  - rewrite rev_unit. cbn [find]. destruct (match sub_id s with Some j => _ | None => _ end) eqn:E.
    + apply Hb in E. split.
      * intros Ey. injection Ey as <-. exists l, s, []. auto.
      * intros (l1 & s' & l2 & E1 & E2 & <- & Hf). destruct l2 as [|z l2 _] using rev_ind.
        -- apply app_inj_tail in E1 as [_ ->]. auto.
        -- rewrite app_comm_cons, app_assoc in E1. apply app_inj_tail in E1 as [_ ->]. apply Forall_app in Hf as [_ Hf].
           inversion Hf; subst. congruence.
    + assert (id_of s <> Some i) as Hn by (rewrite <- Hb; congruence). rewrite IH. split.
      * intros (l1 & s' & l2 & -> & E2 & E3 & Hf). exists l1, s', (l2 ++ [s]). rewrite <- app_assoc. split; auto.
        split; auto. split; auto. apply Forall_app. auto.
      * intros (l1 & s' & l2 & E1 & E2 & E3 & Hf). destruct l2 as [|z l2 _] using rev_ind.
        -- apply app_inj_tail in E1 as [_ ->]. congruence.
        -- rewrite app_comm_cons, app_assoc in E1. apply app_inj_tail in E1 as [-> ->]. apply Forall_app in Hf as [Hf _].
           eauto 8.
Qed.
Lemma occurrences_In l x i : In i (occurrences l x) <-> exists s, In s l /\ id_of s = Some i /\ sym_name (sub_task s) = x.
Proof.
  unfold occurrences.
  assert (forall acc, In i (fold_left (fun acc s => match sub_id s with
                          | Some i => if String.eqb (sym_name (sub_task s)) x then add_str (sym_name i) acc else acc
                          | None => acc end) l acc) <-> In i acc \/ exists s, In s l /\ id_of s = Some i /\ sym_name (sub_task s) = x) as Hf.
  { induction l as [|s l IH]; intros acc; simpl.
    - split; auto. intros [?|(s & [] & _)]; auto.
    - rewrite IH. unfold id_of in *. destruct (sub_id s) as [j|] eqn:Ej.
      + destruct (String.eqb_spec (sym_name (sub_task s)) x) as [Ex|Hx].
        * rewrite add_str_In. split.
          -- intros [[->|?]|(s' & Hs & Hr)]; auto; right; [exists s|exists s']; rewrite ?Ej; auto.
          -- intros [?|(s' & [<-|Hs] & E1 & E2)]; auto; [|right; eauto]. rewrite Ej in E1. injection E1 as <-. auto.
        * split.
          -- intros [?|(s' & Hs & Hr)]; auto. right. eauto.
          -- intros [?|(s' & [<-|Hs] & E1 & E2)]; auto; [congruence|right; eauto].
      + split.
        * intros [?|(s' & Hs & Hr)]; auto. right. eauto.
        * intros [?|(s' & [<-|Hs] & E1 & E2)]; auto; [rewrite Ej in E1; discriminate|right; eauto]. }
  rewrite Hf. simpl. tauto.
Qed.
Lemma adjacent_In ords i j : In j (adjacent ords i) <-> In (i, j) ords.
Proof.
  unfold adjacent.
  assert (forall acc, In j (fold_left (fun acc e => if String.eqb (fst e) i then add_str (snd e) acc else acc) ords acc) <->
    In j acc \/ In (i, j) ords) as Hf.
  { induction ords as [|[a b] ords IH]; intros acc; simpl; [tauto|]. rewrite IH.
    destruct (String.eqb_spec a i) as [->|Hn].
    - rewrite add_str_In. split; [intros [[->|?]|?]; auto|]. intros [?|[E|?]]; auto. injection E as ->. auto.
    - split; [intros [?|?]; auto|]. intros [?|[E|?]]; auto. congruence. }
  rewrite Hf. simpl. tauto.
Qed.

Section Env.
Variable he : hash_env.
Hypothesis Hhe : hash_env_ok he.
Lemma ids_In l i : In i (ho_ids he l) <-> In i l.
Proof. split; apply Permutation_in; [|apply Permutation_sym]; apply ho_ids_ok; auto. Qed.

(** An occurrence ordered before another occurrence is found again and again. *)
Definition hits (ords : list (string * string)) (occ : list string) (t : string) : list string :=
  flat_map (fun out => filter (fun o => str_contains out o) (ho_ids he occ)) (ho_ids he (adjacent ords t)).
Lemma prefix_loop_stuck subtasks ords occ t : hits ords occ t <> [] ->
  forall fuel stack prefix r, prefix_loop he fuel subtasks ords occ (t :: stack) prefix <> Ok r.
Proof.
  intros Hh. induction fuel as [|fuel IH]; intros stack prefix r; cbn [prefix_loop]; [discriminate|].
  fold (hits ords occ t). destruct (hits ords occ t) as [|h hs]; [congruence|].
  destruct (id_to_task subtasks t); [|discriminate]. simpl. apply IH.
Qed.
Lemma prefix_loop_ok subtasks ords occ : forall fuel stack prefix r,
  prefix_loop he fuel subtasks ords occ stack prefix = Ok r -> r = prefix /\ Forall (fun t => hits ords occ t = []) stack.
Proof.
  induction fuel as [|fuel IH]; intros stack prefix r E.
  - destruct stack; [|discriminate]. injection E as <-. auto.
  - destruct stack as [|t stack]; [injection E as <-; auto|].
    destruct (hits ords occ t) as [|h hs] eqn:Eh.
    + cbn [prefix_loop] in E. fold (hits ords occ t) in E. rewrite Eh in E. apply IH in E as [-> Hf]. auto.
    + exfalso. apply (prefix_loop_stuck subtasks ords occ t ltac:(rewrite Eh; discriminate) _ _ _ _ E).
Qed.
Lemma prefix_loop_total subtasks ords occ : forall stack fuel prefix, Forall (fun t => hits ords occ t = []) stack ->
  length stack <= fuel -> prefix_loop he fuel subtasks ords occ stack prefix = Ok prefix.
Proof.
  induction stack as [|t stack IH]; intros [|fuel] prefix Hf Hl; auto; [simpl in Hl; lia|].
  inversion Hf as [|? ? Ht Hf']; subst. cbn [prefix_loop]. fold (hits ords occ t). rewrite Ht. apply IH; auto. simpl in Hl; lia.
Qed.

Definition ordered (ords : list (string * string)) (a b : string) : Prop := In (a, b) ords.
Lemma suffix_loop_ok ords : forall fuel stack suffix r, suffix_loop he fuel ords stack suffix = Ok r ->
  forall j, In j r <-> In j suffix \/ exists i, In i stack /\ clos_trans string (fun a b => In (a, b) ords) i j.
Proof.
  induction fuel as [|fuel IH]; intros stack suffix r E j.
  - destruct stack; [|discriminate]. injection E as <-. split; auto. intros [?|(i & [] & _)]; auto.
  - destruct stack as [|t stack]; [injection E as <-; split; auto; intros [?|(i & [] & _)]; auto|].
    cbn [suffix_loop] in E. rewrite (IH _ _ _ E j), in_app_iff, ids_In, adjacent_In. split.
    + intros [[?|Ht]|(i & Hi & Hij)]; auto.
      * right. exists t. split; [left; auto|]. apply t_step; auto.
      * apply in_app_or in Hi as [Hi|Hi]; [|right; exists i; split; [right|]; auto].
        rewrite <- in_rev, ids_In, adjacent_In in Hi. right. exists t. split; [left; auto|].
        eapply t_trans; [apply t_step; eauto|auto].
    + intros [?|(i & [<-|Hi] & Hij)]; auto.
      * apply clos_trans_t1n in Hij. inversion Hij as [y Hy|y z Hy Hz]; subst; auto.
        right. exists y. split; [|apply clos_t1n_trans; auto]. apply in_or_app. left. rewrite <- in_rev, ids_In, adjacent_In. auto.
      * right. exists i. split; auto. apply in_or_app. auto.
Qed.
End Env.

Section Names.
Variable d : domain_ast.
Variable g : tdg.
Hypothesis Hg : tdg_new d = Ok g.
Hypothesis Hd : distinct_names d.
Notation name_at := (name_at d).

Lemma at_inj i a b : name_at i a -> name_at i b -> a = b.
Proof. unfold TdgTop.name_at. congruence. Qed.
Lemma index_ok x i : get_task_index g x = Ok i <-> name_at i x.
Proof.
  rewrite <- (first_at d g Hg Hd). unfold get_task_index. destruct (index_first x (tg_tasks g)); split; congruence.
Qed.
Lemma indices_ok : forall xs is, get_task_indices g xs = Ok is <-> Forall2 name_at is xs.
Proof.
  induction xs as [|x xs IH]; intros is; simpl.
  - split; [intros E; injection E as <-; constructor|]. intros Hf. inversion Hf. auto.
  - split.
    + intros E. apply bind_ok in E as (i & Ei & E). apply bind_ok in E as (r & Er & E). injection E as <-.
      constructor; [apply index_ok; auto|apply IH; auto].
    + intros Hf. inversion Hf as [|i ? r ? Hi Hr]; subst. apply index_ok in Hi. rewrite Hi. simpl.
      apply IH in Hr. rewrite Hr. auto.
Qed.
Lemma indices_total xs : (forall x, In x xs -> exists i, name_at i x) -> exists is, get_task_indices g xs = Ok is.
Proof.
  induction xs as [|x xs IH]; intros Hx; simpl; [eauto|]. destruct (Hx x (or_introl eq_refl)) as (i & Hi).
  apply index_ok in Hi. rewrite Hi. simpl. destruct IH as (is & ->); [intros y Hy; apply Hx; right; auto|]. simpl. eauto.
Qed.

(** A step of the search and a method with one of its subtasks. *)
Definition link_at (l : nat * nat) (k : method * string) : Prop :=
  nth_error (d_methods d) (snd l) = Some (fst k) /\ name_at (fst l) (snd k).

Lemma method_at m md : nth_error (d_methods d) m = Some md ->
  forall z, nth m (tg_methods g) z = (sym_name (m_name md), m_tn md).
Proof.
  intros E z. rewrite (tdg_methods d g Hg). apply nth_error_nth.
  apply (map_nth_error (fun m => (sym_name (m_name m), m_tn m))) in E. exact E.
Qed.

Lemma subtask_at m md s : nth_error (d_methods d) m = Some md -> In s (htn_subtasks (m_tn md)) ->
  exists i, name_at i (sym_name (sub_task s)).
Proof.
  intros E Hs. destruct (to_set_spec d g Hg m md E) as (ids & E1 & _). apply In_nth_error in Hs as (j & Ej).
  destruct (map_nth_some _ _ _ _ _ E1 Ej) as (i & Ei & _). exists i. apply (index_at d Hd). auto.
Qed.

Lemma map_ids_ok m subtasks : htn_subtasks (m_tn m) = subtasks -> forall ids is, map_ids g subtasks ids = Ok is ->
  forall j, In j is <-> exists i y, In i ids /\ denotes m i y /\ name_at j y.
Proof.
  intros Es. induction ids as [|id ids IH]; intros is E j; cbn [map_ids] in E.
  - injection E as <-. split; [intros []|]. intros (i & y & [] & _).
  - destruct (id_to_task subtasks id) as [name|] eqn:Ei; [|discriminate].
    pose proof Ei as Hden. apply id_to_task_spec in Hden. rewrite <- Es in Hden.
    apply bind_ok in E as (i0 & E0 & E). apply bind_ok in E as (r & Er & E). injection E as <-.
    apply index_ok in E0. simpl. rewrite (IH _ Er j). split.
    + intros [<-|(i & y & Hi & Hr)]; [exists id, name; auto|exists i, y; tauto].
    + intros (i & y & [<-|Hi] & Hden' & Hj); [|right; eauto]. left.
      assert (id_to_task subtasks id = Some y) as E2 by (apply id_to_task_spec; rewrite <- Es; exact Hden').
      assert (y = name) as -> by congruence. apply (name_at_inj d Hd _ _ _ E0 Hj).
Qed.

Section Parts.
Variable he : hash_env.
Hypothesis Hhe : hash_env_ok he.

Lemma prefix_ok lf l k pre : link_at l k -> get_prefix he lf g (fst l) (snd l) = Ok pre ->
  Forall2 name_at pre (prefix_names (fst k) (snd k)).
Proof.
  intros [Hm Hx] E. destruct l as [t m], k as [md x]. cbn [fst snd] in *. unfold get_prefix in E.
  rewrite (method_at m md Hm), (name_of_at d g Hg _ _ Hx) in E. cbn [snd] in E. unfold prefix_names.
  destruct (htn_orderings (m_tn md)) as [|ords].
  - destruct (split_at x (htn_subtasks (m_tn md))) as [[a b]|] eqn:Ea; [|discriminate].
    apply split_at_names in Ea as [Ea _]. apply indices_ok in E. unfold subtask_names. rewrite Ea. auto.
  - destruct (negb _); [discriminate|]. apply bind_ok in E as (ids & Ei & E). apply prefix_loop_ok in Ei as [-> _].
    injection E as <-. constructor.
Qed.
Lemma suffix_ok lf l k suf : link_at l k -> get_suffix he lf g (fst l) (snd l) = Ok suf ->
  forall j, In j suf <-> exists y, follows (fst k) (snd k) y /\ name_at j y.
Proof.
  intros [Hm Hx] E. destruct l as [t m], k as [md x]. cbn [fst snd] in *. unfold get_suffix in E.
  rewrite (method_at m md Hm), (name_of_at d g Hg _ _ Hx) in E. cbn [snd] in E. unfold follows.
  destruct (htn_orderings (m_tn md)) as [|ords].
  - destruct (split_at x (htn_subtasks (m_tn md))) as [[a b]|] eqn:Ea; [|discriminate].
    apply split_at_names in Ea as [_ Ea]. apply indices_ok in E. unfold subtask_names. rewrite Ea.
    clear - E Hd. intros j. induction E as [|i y is ys Hi _ IH]; simpl.
    + split; [intros []|]. intros (y & [] & _).
    + rewrite IH. split.
      * intros [<-|(z & Hz & Hr)]; eauto.
      * intros (z & [<-|Hz] & Hr); [|eauto]. left. eapply (name_at_inj d Hd); eauto.
  - destruct (negb _); [discriminate|]. apply bind_ok in E as (ids & Ei & E).
    intros j. rewrite (map_ids_ok md _ eq_refl _ _ E j). split.
    + intros (i & y & Hi & Hden & Hj). apply (suffix_loop_ok he Hhe _ _ _ _ _ Ei) in Hi as [[]|(i0 & Hi0 & Ht)].
      rewrite <- in_rev, (ids_In he Hhe), occurrences_In in Hi0. exists y. split; auto. exists i0, i. auto.
    + intros (y & (i0 & i & Hi0 & Ht & Hden) & Hj). exists i, y. split; auto.
      apply (suffix_loop_ok he Hhe _ _ _ _ _ Ei). right. exists i0. split; auto.
      rewrite <- in_rev, (ids_In he Hhe), occurrences_In. auto.
Qed.

(** With totally ordered methods both parts are always found. *)
Lemma parts_total lf l k : link_at l k -> In (snd k) (subtask_names (fst k)) -> htn_orderings (m_tn (fst k)) = Total ->
  (exists pre, get_prefix he lf g (fst l) (snd l) = Ok pre) /\ (exists suf, get_suffix he lf g (fst l) (snd l) = Ok suf).
Proof.
  intros [Hm Hx] Hi Ho. destruct l as [t m], k as [md x]. cbn [fst snd] in *. unfold get_prefix, get_suffix.
  rewrite (method_at m md Hm), (name_of_at d g Hg _ _ Hx). cbn [snd]. rewrite Ho.
  destruct (split_at_some x _ Hi) as (a & b & Ea). rewrite Ea.
  assert (forall s, In s (a ++ b) -> In s (htn_subtasks (m_tn md))) as Hsub.
  { clear - Ea. revert a b Ea. induction (htn_subtasks (m_tn md)) as [|s l IH]; intros a b; simpl; [discriminate|].
    destruct (String.eqb _ _); [intros E; injection E as <- <-; auto|].
    destruct (split_at x l) as [[a' b']|] eqn:E; [|discriminate]. intros E'. injection E' as <- <-.
    intros s' [<-|Hs]; auto. right. eapply IH; eauto. }
  split; apply indices_total; intros y Hy; apply in_map_iff in Hy as (s & <- & Hs);
    (eapply subtask_at; [eauto|]; apply Hsub, in_or_app; auto).
Qed.
(** A partially ordered method needs one ordering less than subtasks. *)
Lemma prefix_assert lf l k ords pre : link_at l k -> htn_orderings (m_tn (fst k)) = Partial ords ->
  get_prefix he lf g (fst l) (snd l) = Ok pre ->
  S (length ords) = length (htn_subtasks (m_tn (fst k)))
  /\ (forall i j o, (exists s, In s (htn_subtasks (m_tn (fst k))) /\ id_of s = Some i /\ sym_name (sub_task s) = snd k) ->
       In (i, j) ords -> (exists s, In s (htn_subtasks (m_tn (fst k))) /\ id_of s = Some o /\ sym_name (sub_task s) = snd k) ->
       str_contains j o = false).
Proof.
  intros [Hm Hx] Ho E. destruct l as [t m], k as [md x]. cbn [fst snd] in *. unfold get_prefix in E.
  rewrite (method_at m md Hm), (name_of_at d g Hg _ _ Hx) in E. cbn [snd] in E. rewrite Ho in E.
  destruct (Nat.eqb_spec (S (length ords)) (length (htn_subtasks (m_tn md)))) as [El|]; [|discriminate].
  cbn [negb] in E. apply bind_ok in E as (ids & Ei & _). apply prefix_loop_ok in Ei as [_ Hf].
  split; auto. intros i j o Hi Hij Hoc. rewrite <- occurrences_In in Hi, Hoc.
  rewrite Forall_forall in Hf. specialize (Hf i). rewrite <- in_rev, (ids_In he Hhe) in Hf. specialize (Hf Hi).
  destruct (str_contains j o) eqn:Ec; auto. exfalso.
  assert (In o (hits he ords (occurrences (htn_subtasks (m_tn md)) x) i)) as Hh; [|rewrite Hf in Hh; destruct Hh].
  unfold hits. apply in_flat_map. exists j. rewrite (ids_In he Hhe), adjacent_In. split; auto.
  apply filter_In. rewrite (ids_In he Hhe). auto.
Qed.
End Parts.

(** ** Cycles of indices and cycles of methods *)
Definition step_at (x : nat * nat) (md : method) : Prop :=
  nth_error (d_methods d) (snd x) = Some md /\ name_at (fst x) (head md).

Lemma from_step t m : In m (from_set g t) <-> exists md, step_at (t, m) md.
Proof.
  rewrite (from_set_In d g Hg). unfold step_at, head. cbn [fst snd].
  split; intros (md & E & Ei); exists md; split; auto; apply (index_at d Hd); auto.
Qed.
Lemma to_step t x m md : nth_error (d_methods d) m = Some md -> name_at t x ->
  (In t (to_set g m) <-> In x (subtask_names md)).
Proof.
  intros Em Ht. rewrite (to_set_In d g Hg). unfold subtask_names. rewrite in_map_iff. split.
  - intros (md' & s & E & Hs & Ei). assert (md' = md) as -> by congruence. apply (index_at d Hd) in Ei.
    exists s. split; auto. apply (at_inj _ _ _ Ei Ht).
  - intros (s & <- & Hs). exists md, s. split; auto. split; auto. apply (index_at d Hd); auto.
Qed.

Lemma path_methods c : Forall (fun x => In (snd x) (from_set g (fst x))) c -> exists ms, Forall2 step_at c ms.
Proof.
  induction 1 as [|[t m] c Hx _ (ms & IH)]; [exists []; constructor|]. apply from_step in Hx as (md & Hx).
  exists (md :: ms). constructor; auto.
Qed.
Lemma methods_path ms : incl ms (d_methods d) -> exists c, Forall2 step_at c ms.
Proof.
  induction ms as [|md ms IH]; intros Hi; [exists []; constructor|].
  destruct IH as (c & Hc); [intros x Hx; apply Hi; right; auto|].
  assert (In md (d_methods d)) as Hmd by (apply Hi; left; auto). apply In_nth_error in Hmd as (m & Em).
  destruct (tdg_inv d g Hg) as (heads & to & Eh & _ & _). destruct (map_nth_some _ _ _ _ _ Eh Em) as (t & Et & _).
  exists ((t, m) :: c). constructor; auto. split; auto. apply (index_at d Hd). exact Et.
Qed.

Lemma heads_nodup c ms : Forall2 step_at c ms -> (NoDup (map fst c) <-> NoDup (map head ms)).
Proof.
  induction 1 as [|x md c ms Hx Hc IH]; [split; constructor|].
  assert (In (fst x) (map fst c) <-> In (head md) (map head ms)) as Hi.
  { destruct Hx as [_ Hx]. clear IH. induction Hc as [|y md' c ms [_ Hy] _ IH]; simpl; [tauto|]. rewrite IH.
    assert (fst y = fst x <-> head md' = head md) as ->; [|tauto]. split; intros E.
    - rewrite E in Hy. apply (at_inj _ _ _ Hy Hx).
    - rewrite E in Hy. apply (name_at_inj d Hd _ _ _ Hy Hx). }
  simpl. rewrite !NoDup_cons_iff, Hi, IH. tauto.
Qed.

(** The steps of a cycle that starts (and ends) in [t], called [x]. *)
Lemma links_at t x z : name_at t x -> forall c ms t0 m md, step_at (t0, m) md -> Forall2 step_at c ms ->
  Forall2 link_at (links_ix m (c ++ [(t, z)])) (links x (md :: ms)).
Proof.
  intros Hx. induction c as [|[t1 m1] c IH]; intros ms t0 m md [Hm Ht0] Hc; inversion Hc as [|? md1 ? ms1 Hs Hc']; subst.
  - simpl. constructor; [|constructor]. split; auto.
  - cbn [app links_ix]. change (links x (md :: md1 :: ms1)) with ((md, head md1) :: links x (md1 :: ms1)).
    constructor; [|eapply IH; eauto]. destruct Hs as [_ Hs]. split; auto.
Qed.
Lemma chain_links t x z : name_at t x -> forall c ms t0 m md, step_at (t0, m) md -> Forall2 step_at c ms ->
  (chain g ((t0, m) :: c ++ [(t, z)]) <-> Forall (fun l => In (snd l) (subtask_names (fst l))) (links x (md :: ms))).
Proof.
  intros Hx. induction c as [|[t1 m1] c IH]; intros ms t0 m md [Hm Ht0] Hc; inversion Hc as [|? md1 ? ms1 Hs Hc']; subst.
  - simpl. cbn [fst snd] in *. rewrite (to_step t x m md Hm Hx). rewrite Forall_cons_iff. simpl. split.
    + intros [? _]. split; auto.
    + tauto.
  - change (links x (md :: md1 :: ms1)) with ((md, head md1) :: links x (md1 :: ms1)).
    change (chain g ((t0, m) :: ((t1, m1) :: c) ++ [(t, z)])) with
      (In t1 (to_set g m) /\ chain g ((t1, m1) :: c ++ [(t, z)])).
    rewrite Forall_cons_iff, (IH ms1 t1 m1 md1 Hs Hc'). cbn [fst snd] in *. destruct Hs as [_ Hs].
    rewrite (to_step t1 (head md1) m md Hm Hs). tauto.
Qed.

Lemma chain_end c t z : c <> [] -> (chain g (c ++ [(t, z)]) <-> chain g c /\ In t (to_set g (snd (last c (0, 0))))).
Proof.
  intros Hc. split.
  - intros H. split; [apply chain_app in H; tauto|]. apply (chain_mid g c (t, z) [] H Hc).
  - intros [H1 H2]. apply chain_snoc; auto.
Qed.

(** [c] and [ms] are the same cycle. *)
Lemma cycle_iff c ms t : Forall2 step_at c ms -> hd_error (map fst c) = Some t ->
  (icycle g c t <-> simple_cycle d ms).
Proof.
  intros Hc Hh. destruct Hc as [|[t0 m] md c ms Hs Hc]; [discriminate|]. injection Hh as ->.
  pose proof (heads_nodup _ _ (Forall2_cons (R := step_at) _ _ Hs Hc)) as Hn.
  pose proof (chain_links t (head md) 0 (proj2 Hs) c ms t m md Hs Hc) as Hl.
  pose proof (chain_end ((t, m) :: c) t 0 ltac:(discriminate)) as He. simpl app in He. rewrite He in Hl. clear He.
  assert (Forall (fun x => In (snd x) (from_set g (fst x))) ((t, m) :: c)) as Hf.
  { assert (Forall2 step_at ((t, m) :: c) (md :: ms)) as H2 by (constructor; auto). clear - H2 Hg Hd.
    induction H2 as [|[a b] y c' ms' H _ IH]; constructor; auto. apply from_step. eauto. }
  assert (incl (md :: ms) (d_methods d)) as Hi.
  { assert (Forall2 step_at ((t, m) :: c) (md :: ms)) as H2 by (constructor; auto). clear - H2. intros y Hy.
    induction H2 as [|[a b] y' c' ms' [H _] _ IH]; [destruct Hy|]. destruct Hy as [<-|Hy]; auto. eapply nth_error_In; eauto. }
  unfold icycle, simple_cycle, cycle_links. rewrite <- Hl, <- Hn. split.
  - intros [[H1 H2 H3 H4] [_ H6]]. repeat split; auto. discriminate.
  - intros (_ & _ & H3 & H4 & H5). split; [constructor; auto; discriminate|]. split; auto.
Qed.
Lemma cycle_methods c t : icycle g c t -> exists ms, Forall2 step_at c ms /\ simple_cycle d ms.
Proof.
  intros Hc. pose proof Hc as [[_ Hf _ _] [Hh _]]. destruct (path_methods c Hf) as (ms & Hms).
  exists ms. split; auto. eapply cycle_iff; eauto.
Qed.
Lemma methods_cycle ms : simple_cycle d ms -> exists c t, Forall2 step_at c ms /\ icycle g c t.
Proof.
  intros Hs. pose proof Hs as (Hne & Hi & _). destruct (methods_path ms Hi) as (c & Hc).
  destruct c as [|[t m] c]; [inversion Hc; subst; congruence|]. exists ((t, m) :: c), t. split; auto.
  eapply cycle_iff; eauto.
Qed.

(** ** The class of a cycle *)
Section Classes.
Variable he : hash_env.
Hypothesis Hhe : hash_env_ok he.
Variable lf : nat.
Variable nulls : list string.
Variable null : list nat.
Hypothesis Hnull : Forall2 name_at null nulls.

Lemma null_In i x : name_at i x -> (In i null <-> In x nulls).
Proof.
  intros Hx. assert (forall l l', Forall2 name_at l l' -> (In i l <-> In x l')) as Hall; [|apply Hall, Hnull].
  induction 1 as [|j y l l' Hj _ IH]; simpl; [tauto|]. rewrite IH.
  assert (j = i <-> y = x) as ->; [|tauto]. split; intros E; subst.
  - apply (at_inj _ _ _ Hj Hx).
  - apply (name_at_inj d Hd _ _ _ Hj Hx).
Qed.
Lemma all_null is xs : Forall2 name_at is xs -> (forallb (fun y => mem_nat y null) is = true <-> Forall (fun y => In y nulls) xs).
Proof.
  induction 1 as [|i x is xs Hi _ IH]; simpl; [split; auto|]. rewrite andb_true_iff, IH, Forall_cons_iff, mem_nat_In, (null_In i x Hi). tauto.
Qed.
Lemma calm_quiet t x l k pre : name_at t x -> link_at l k -> get_prefix he lf g (fst l) (snd l) = Ok pre ->
  (calm_prefix null t pre = true <-> quiet nulls x k).
Proof.
  intros Hx Hl E. pose proof (prefix_ok he lf l k pre Hl E) as Hp. unfold quiet.
  destruct Hp as [|i y is ys Hi Hp]; simpl; [split; auto|].
  destruct (Nat.eqb_spec i t) as [->|Hn].
  - split; auto. intros _. left. f_equal. apply (at_inj _ _ _ Hi Hx).
  - rewrite andb_true_iff, (all_null _ _ Hp), Forall_cons_iff, mem_nat_In, (null_In i y Hi). split; [tauto|].
    intros [E1|?]; auto. exfalso. apply Hn. injection E1 as ->. apply (name_at_inj d Hd _ _ _ Hi Hx).
Qed.

Lemma ctx_class c t ms es : icycle g c t -> Forall2 step_at c ms -> ctx he g null lf c t = Ok es ->
  cycle_class nulls ms (rank null es).
Proof.
  intros [Hp [Hh _]] Hc E. destruct Hc as [|[t0 m] md c ms Hs Hc]; [discriminate|]. injection Hh as ->.
  unfold ctx in E. cbn [app] in E. destruct es as [e s].
  apply context_ok in E as (fs & Hfs & -> & ->). cbn [andb app].
  pose proof (links_at t (head md) (snd (last ((t, m) :: c) (0, 0))) (proj2 Hs) c ms t m md Hs Hc) as Hl.
  set (z := snd (last ((t, m) :: c) (0, 0))) in *. clearbody z.
  assert (forallb (calm_prefix null t) (map fst fs) = true <-> silent nulls (md :: ms)) as Hsil.
  { unfold silent. cbn [cycle_links hd_error]. transitivity (Forall (quiet nulls (head md)) (links (head md) (md :: ms))).
    - destruct Hs as [_ Hs]. cbn [fst] in Hs. clear - Hfs Hl Hs Hnull Hg Hd Hhe. revert Hs. generalize (head md) at 1 2. intros x Hx.
      revert fs Hfs. induction Hl as [|l k ls ks Hk _ IH]; intros fs Hfs; inversion Hfs as [|? f ? fs' [H1 H2] Hf']; subst; simpl; [split; auto|].
      rewrite andb_true_iff, Forall_cons_iff, (IH _ Hf'), (calm_quiet t x l k _ Hx Hk H1). tauto.
    - split; intros Hq; [intros m0 E; injection E as <-; auto|apply Hq; auto]. }
  assert (forall j, In j (concat (map snd fs)) <-> exists y, trails (md :: ms) y /\ name_at j y) as Htr.
  { intros j. unfold trails. cbn [cycle_links]. clear - Hfs Hl Hg Hd Hhe. revert fs Hfs.
    induction Hl as [|l k ls ks Hk _ IH]; intros fs Hfs; inversion Hfs as [|? f ? fs' [H1 H2] Hf']; subst; simpl.
    - split; [intros []|]. intros (y & (l & [] & _) & _).
    - rewrite in_app_iff, (IH _ Hf'), (suffix_ok he Hhe lf l k _ Hk H2 j). split.
      + intros [(y & Hy & Hj)|(y & (l' & Hl' & Hy) & Hj)]; exists y; eauto.
      + intros (y & (l' & [<-|Hl'] & Hy) & Hj); [left|right]; eauto. }
  assert (forall y, trails (md :: ms) y -> exists j, name_at j y) as Hname.
  { intros y (l & Hl' & Hy). cbn [cycle_links] in Hl'. clear - Hl Hl' Hy Hg Hd.
    assert (exists m, nth_error (d_methods d) m = Some (fst l)) as (m' & Em).
    { induction Hl as [|k l' ls ks [Hk _] _ IH]; [destruct Hl'|]. destruct Hl' as [<-|Hl']; eauto. }
    unfold follows in Hy. destruct (htn_orderings (m_tn (fst l))) as [|ords].
    - assert (In y (subtask_names (fst l))) as Hin.
      { revert Hy. generalize (subtask_names (fst l)). induction l0 as [|a l0 IH]; simpl; auto.
        destruct (String.eqb a (snd l)); auto. }
      apply in_map_iff in Hin as (s & <- & Hs). eapply subtask_at; eauto.
    - destruct Hy as (i & j & _ & _ & (l1 & s & l2 & E & _ & <- & _)). eapply subtask_at; eauto. rewrite E.
      apply in_or_app. right. left. auto. }
  unfold rank. cbn [fst snd]. destruct (forallb (calm_prefix null t) (map fst fs)) eqn:Ee.
  - assert (silent nulls (md :: ms)) as Hsilent by (apply Hsil; auto).
    destruct (concat (map snd fs)) as [|j js] eqn:Es.
    + apply cc_empty; auto. intros y Hy. destruct (Hname y Hy) as (j & Hj). apply (Htr j). eauto.
    + destruct (forallb (fun x => mem_nat x null) (j :: js)) eqn:En.
      * destruct (proj1 (Htr j) (or_introl eq_refl)) as (y & Hy & _). apply cc_shrink with (y := y); auto.
        intros z' Hz. destruct (Hname z' Hz) as (j' & Hj'). rewrite forallb_forall in En.
        apply (null_In j' z' Hj'). apply mem_nat_In, En. apply Htr. eauto.
      * assert (exists j', In j' (j :: js) /\ ~ In j' null) as (j' & Hj & Hn).
        { clear - En. induction (j :: js) as [|a l IH]; simpl in En; [discriminate|]. apply andb_false_iff in En as [En|En].
          - exists a. split; [left; auto|]. apply mem_nat_false; auto.
          - destruct (IH En) as (j' & H1 & H2). exists j'. split; [right|]; auto. }
        apply Htr in Hj as (y & Hy & Hj). apply cc_growing with (y := y); auto. rewrite <- (null_In j' y Hj). auto.
  - apply cc_recursive. rewrite <- Hsil. congruence.
Qed.

Lemma report_names c t ms : icycle g c t -> Forall2 step_at c ms -> report g c t = cycle_report ms.
Proof.
  intros [Hp [Hh _]] Hc. destruct Hc as [|[t0 m] md c ms Hs Hc]; [discriminate|]. injection Hh as ->.
  unfold report, cycle_names, cycle_report. rewrite map_app.
  assert (forall y md', step_at y md' -> (name_of g (fst y), fst (nth (snd y) (tg_methods g) (""%string, mkHtn [] None Total None))) = (head md', sym_name (m_name md'))) as Hone.
  { intros y md' [H1 H2]. rewrite (name_of_at d g Hg _ _ H2), (method_at _ _ H1). auto. }
  assert (Forall2 step_at ((t, m) :: c) (md :: ms)) as H2 by (constructor; auto).
  f_equal.
  - clear - H2 Hone. induction H2 as [|y md' c' ms' Hy _ IH]; auto. simpl. f_equal; auto.
  - cbn [map fst snd]. f_equal. destruct Hs as [_ Hs]. cbn [fst] in Hs. rewrite (name_of_at d g Hg _ _ Hs). f_equal.
    assert (step_at (last ((t, m) :: c) (0, 0)) (last (md :: ms) md)) as Hlast.
    { assert (forall l l', Forall2 step_at l l' -> forall z w, l <> [] -> step_at (last l z) (last l' w)) as Hx.
      { induction 1 as [|a b l l' Hab Hl IH]; intros z w Hz; [congruence|]. destruct Hl as [|a' b' l l' H3 H4]; auto.
        apply (IH z w). discriminate. }
      apply Hx; auto. discriminate. }
    destruct Hlast as [Hl _]. rewrite (method_at _ _ Hl). auto.
Qed.

(** ** The search *)
Lemma cycle_step_named c ms t : icycle g c t -> Forall2 step_at c ms -> simple_cycle d ms.
Proof. intros Hc Hf. pose proof Hc as [_ [Hh _]]. eapply cycle_iff; eauto. Qed.

Theorem search_names fuel r : recursion_loop he fuel lf g null (initial_stack he g) NonRecursive = Ok r ->
  (forall ms, simple_cycle d ms -> exists k, cycle_class nulls ms k /\ k <= class r)
  /\ (r = NonRecursive \/ exists ms, simple_cycle d ms /\ cycle_class nulls ms (class r) /\ cycle_of r = cycle_report ms).
Proof.
  intros E. destruct (search_spec he Hhe g (from_lt d g Hg) null lf fuel r E) as [H1 H2]. split.
  - intros ms Hs. destruct (methods_cycle ms Hs) as (c & t & Hc & Hi). destruct (H1 c t Hi) as (es & Ee & Hr).
    exists (rank null es). split; auto. eapply ctx_class; eauto.
  - destruct H2 as [->|(c & t & es & Hi & Ee & Hr & Hrep)]; auto. right.
    destruct (cycle_methods c t Hi) as (ms & Hc & Hs). exists ms. split; auto. rewrite Hr, Hrep.
    split; [eapply ctx_class; eauto|apply report_names; auto].
Qed.

(** When the result exists, every partially ordered method on a cycle has one
    ordering less than subtasks. *)
Theorem search_partial fuel r : recursion_loop he fuel lf g null (initial_stack he g) NonRecursive = Ok r ->
  forall ms m x ords, simple_cycle d ms -> In (m, x) (cycle_links ms) -> htn_orderings (m_tn m) = Partial ords ->
  S (length ords) = length (htn_subtasks (m_tn m))
  /\ (forall i j o, (exists s, In s (htn_subtasks (m_tn m)) /\ id_of s = Some i /\ sym_name (sub_task s) = x) ->
       In (i, j) ords -> (exists s, In s (htn_subtasks (m_tn m)) /\ id_of s = Some o /\ sym_name (sub_task s) = x) ->
       str_contains j o = false).
Proof.
  intros E ms m x ords Hs Hl Ho. destruct (search_spec he Hhe g (from_lt d g Hg) null lf fuel r E) as [H1 _].
  destruct (methods_cycle ms Hs) as (c & t & Hc & Hi). destruct (H1 c t Hi) as ([e s] & Ee & _).
  destruct Hi as [Hp [Hh _]]. destruct Hc as [|[t0 m0] md c ms Hst Hc]; [discriminate|]. injection Hh as ->.
  unfold ctx in Ee. cbn [app] in Ee. apply context_ok in Ee as (fs & Hfs & _).
  pose proof (links_at t (head md) (snd (last ((t, m0) :: c) (0, 0))) (proj2 Hst) c ms t m0 md Hst Hc) as Hlk.
  cbn [cycle_links] in Hl. revert fs Hfs. induction Hlk as [|l k ls ks Hk _ IH]; intros fs Hfs; [destruct Hl|].
  inversion Hfs as [|? f ? fs' [F1 _] Hf']; subst. destruct Hl as [->|Hl]; [|eauto].
  apply (prefix_assert he Hhe lf l (m, x) ords _ Hk Ho F1).
Qed.

Theorem search_ok : (forall m, In m (d_methods d) -> htn_orderings (m_tn m) = Total) ->
  exists k, forall fuel, k <= fuel -> exists r, recursion_loop he fuel lf g null (initial_stack he g) NonRecursive = Ok r.
Proof.
  intros Ht. apply (search_total he Hhe g (from_lt d g Hg) (to_lt d g Hg) (to_set_NoDup d g Hg)).
  intros c t Hi. destruct (cycle_methods c t Hi) as (ms & Hc & (_ & Hincl & _ & Hsub)).
  destruct Hi as [Hp [Hh _]]. destruct Hc as [|[t0 m0] md c ms Hst Hc]; [discriminate|]. injection Hh as ->.
  unfold ctx. cbn [app]. apply context_total. intros l Hl.
  pose proof (links_at t (head md) (snd (last ((t, m0) :: c) (0, 0))) (proj2 Hst) c ms t m0 md Hst Hc) as Hlk.
  assert (forall k, In k (links (head md) (md :: ms)) -> In (fst k) (md :: ms)) as Hin.
  { clear. generalize (md :: ms). induction l as [|a l IH]; intros k; [intros []|]. intros [<-|Hk]; [left; auto|right; auto]. }
  cbn [cycle_links] in Hsub. rewrite Forall_forall in Hsub.
  revert Hl Hlk Hsub Hin. generalize (links_ix m0 (c ++ [(t, snd (last ((t, m0) :: c) (0, 0)))])) (links (head md) (md :: ms)).
  intros ls ks Hl Hlk. induction Hlk as [|a b ls ks Hab _ IH]; intros Hsub Hin; [destruct Hl|].
  destruct Hl as [->|Hl]; [|apply IH; auto; intros k Hk; [apply Hsub|apply Hin]; right; auto].
  apply (parts_total he lf l b Hab); [apply Hsub; left; auto|]. apply Ht, Hincl, Hin. left; auto.
Qed.
(** Without cycles nothing is looked at but the graph. *)
Theorem search_acyclic : (forall ms, ~ simple_cycle d ms) ->
  exists k, forall fuel, k <= fuel -> recursion_loop he fuel lf g null (initial_stack he g) NonRecursive = Ok NonRecursive.
Proof.
  intros Hn. assert (forall c t, ~ icycle g c t) as Hnc.
  { intros c t Hi. destruct (cycle_methods c t Hi) as (ms & _ & Hs). apply (Hn ms Hs). }
  destruct (search_total he Hhe g (from_lt d g Hg) (to_lt d g Hg) (to_set_NoDup d g Hg) null lf) as (k & Hk).
  { intros c t Hi. destruct (Hnc c t Hi). }
  exists k. intros fuel Hf. destruct (Hk fuel Hf) as (r & Er). rewrite Er. f_equal.
  destruct (search_spec he Hhe g (from_lt d g Hg) null lf fuel r Er) as [_ [->|(c & t & _ & Hi & _)]]; auto.
  destruct (Hnc c t Hi).
Qed.
End Classes.

(** ** Simple cycles and reaching oneself *)
Lemma links_hd x ms : hd_error (links x ms) = match ms with [] => None | m :: ms' => Some (m, match ms' with [] => x | m' :: _ => head m' end) end.
Proof. destruct ms; auto. Qed.
Lemma cycle_reaches ms : simple_cycle d ms -> forall m, hd_error ms = Some m -> clos_trans string (decomposes d) (head m) (head m).
Proof.
  intros (_ & Hi & _ & Hs) m E. destruct ms as [|m0 ms]; [discriminate|]. injection E as ->. cbn [cycle_links] in Hs.
  assert (forall ms m x, incl (m :: ms) (d_methods d) -> Forall (fun l => In (snd l) (subtask_names (fst l))) (links x (m :: ms)) ->
            clos_trans string (decomposes d) (head m) x) as H; [|apply (H ms m (head m) Hi Hs)].
  clear. induction ms as [|m' ms IH]; intros m x Hi Hs; inversion Hs as [|? ? H1 H2]; subst; cbn [fst snd] in H1.
  - apply t_step. exists m. split; auto. apply Hi. left; auto.
  - eapply t_trans; [apply t_step; exists m; split; [apply Hi; left; auto|split; [reflexivity|exact H1]]|].
    apply IH; auto. intros y Hy. apply Hi. right; auto.
Qed.
(** Walks through methods, from the head of the first to [x]. *)
Fixpoint walk (ms : list method) (x : string) : Prop :=
  match ms with
  | [] => True
  | m :: ms' => In m (d_methods d) /\ In (match ms' with [] => x | m' :: _ => head m' end) (subtask_names m) /\ walk ms' x
  end.
Lemma reaches_walk a x : clos_trans string (decomposes d) a x -> exists m ms, head m = a /\ walk (m :: ms) x.
Proof.
  intros H. apply clos_trans_t1n in H. induction H as [a x (m & Hm & <- & Hx)|a y x (m & Hm & <- & Hx) _ (m' & ms & <- & Hw)].
  - exists m, []. simpl. auto.
  - exists m, (m' :: ms). split; auto. simpl in *. auto.
Qed.
Lemma walk_app l1 : forall m l2 x, walk (l1 ++ m :: l2) x -> walk (m :: l2) x /\ walk l1 (head m).
Proof.
  induction l1 as [|a l1 IH]; intros m l2 x H; [simpl; auto|]. cbn [app walk] in H. destruct H as (H1 & H2 & H3).
  destruct (IH _ _ _ H3) as [H4 H5]. split; auto. destruct l1; simpl in *; auto.
Qed.
Lemma walk_cycle m ms : walk (m :: ms) (head m) -> NoDup (map head (m :: ms)) -> simple_cycle d (m :: ms).
Proof.
  intros Hw Hn. split; [discriminate|]. 
  assert (forall l x, walk l x -> incl l (d_methods d) /\ Forall (fun l => In (snd l) (subtask_names (fst l))) (links x l)) as H.
  { induction l as [|a l IH]; intros x Hl; [split; [intros y []|constructor]|]. destruct Hl as (H1 & H2 & H3).
    destruct (IH x H3) as [H4 H5]. split; [intros y [<-|Hy]; auto|]. constructor; auto. }
  destruct (H _ _ Hw) as [H1 H2]. auto.
Qed.
(** A repeated head can be cut out. *)
Lemma repeated_head : forall l : list method, NoDup (map head l)
  \/ exists l1 m l2 m' l3, l = l1 ++ m :: l2 ++ m' :: l3 /\ head m = head m' /\ NoDup (map head (m :: l2)).
Proof.
  induction l as [|a l [IH|(l1 & m & l2 & m' & l3 & -> & E & Hn)]]; [left; constructor| |].
  - destruct (in_dec string_dec (head a) (map head l)) as [Hi|Hi]; [|left; constructor; auto].
    right. apply in_map_iff in Hi as (m' & E & Hi). apply in_split in Hi as (l2 & l3 & ->).
    assert (exists m2 k1 k2, l2 ++ m' :: l3 = k1 ++ m2 :: k2 /\ head m2 = head a /\ ~ In (head a) (map head k1)) as (m2 & k1 & k2 & E2 & E3 & Hk).
    { clear IH. induction l2 as [|b l2 IH]; [exists m', [], l3; auto|].
      destruct (string_dec (head b) (head a)) as [Eb|Hb]; [exists b, [], (l2 ++ m' :: l3); auto|].
      destruct IH as (m2 & k1 & k2 & E1 & E2 & E3). exists m2, (b :: k1), k2. simpl. rewrite E1. split; auto. split; auto. tauto. }
    rewrite E2 in *. exists [], a, k1, m2, k2. split; auto. split; auto. simpl. constructor; auto.
    rewrite map_app in IH. apply nodup_app_l in IH. auto.
  - right. exists (a :: l1), m, l2, m', l3. auto.
Qed.
Theorem reaches_cycle a : clos_trans string (decomposes d) a a -> exists ms, simple_cycle d ms.
Proof.
  intros H. apply reaches_walk in H as (m & ms & <- & Hw).
  destruct (repeated_head (m :: ms)) as [Hn|(l1 & m1 & l2 & m' & l3 & E & Eh & Hn)].
  - exists (m :: ms). apply walk_cycle; auto.
  - rewrite E in Hw. apply walk_app in Hw as [Hw _]. rewrite app_comm_cons in Hw. apply walk_app in Hw as [_ Hw].
    rewrite <- Eh in Hw. exists (m1 :: l2). apply walk_cycle; auto.
Qed.
Theorem recursive_iff : (exists ms, simple_cycle d ms) <-> exists a, clos_trans string (decomposes d) a a.
Proof.
  split.
  - intros (ms & Hs). destruct ms as [|m ms]; [destruct Hs as [[] _]; auto|]. exists (head m). eapply cycle_reaches; eauto.
  - intros (a & Ha). eapply reaches_cycle; eauto.
Qed.
End Names.
