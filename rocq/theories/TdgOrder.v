(** Partially ordered methods on cycles: when the parts before and after the
    recursive subtask are found. *)
From Coq Require Import String Ascii NArith Bool List Lia PeanoNat Permutation Relations Operators_Properties.
From Verif Require Import Base Token Errors Ast Tdg GraphProofs TdgGraph TdgReach TdgNull SpecTdg SpecRec TdgTop TdgRec TdgRecTop VerifyTop SpecOrder.
Import ListNotations.
Open Scope list_scope.
Open Scope nat_scope.
Open Scope outcome_scope.

(** ** Texts within texts *)
Lemma prefix_spec o s : String.prefix o s = true <-> exists v, s = (o ++ v)%string.
Proof.
  revert s. induction o as [|c o IH]; intros s.
  - split; [exists s; reflexivity|intros _; destruct s; reflexivity].
  - destruct s as [|c' s]; [split; [discriminate|intros (v & Ev); discriminate]|].
    cbn [String.prefix]. destruct (ascii_dec c c') as [->|Hc].
    + split.
      * intros E. apply IH in E as (v & ->). exists v. reflexivity.
      * intros (v & Ev). injection Ev as ->. apply IH. eauto.
    + split; [discriminate|]. intros (v & Ev). injection Ev as -> _. congruence.
Qed.
Lemma contains_spec j o : str_contains j o = true <-> contains j o.
Proof.
  unfold str_contains, contains. induction j as [|c j IH].
  - destruct o as [|c o]; simpl.
    + split; auto. intros _. exists "", "". reflexivity.
    + split; [discriminate|]. intros (u & v & Ev). destruct u; discriminate.
  - cbn [String.index]. destruct (String.prefix o (String c j)) eqn:Ep.
    + split; auto. intros _. apply prefix_spec in Ep as (v & Ev). exists "", v. exact Ev.
    + destruct (String.index 0 o j) as [k|].
      * split; auto. intros _. destruct (proj1 IH eq_refl) as (u & v & ->). exists (String c u), v. reflexivity.
      * split; [discriminate|]. intros (u & v & Ev). destruct u as [|c' u].
        -- assert (String.prefix o (String c j) = true); [apply prefix_spec; eauto|congruence].
        -- injection Ev as -> ->. apply IH. eauto.
Qed.

(** ** Paths of bounded length *)
Section Paths.
Variable ords : list (string * string).
Notation R := (fun a b => In (a, b) ords).
Inductive opath : string -> nat -> Prop :=
| op_0 a : opath a 0
| op_S a b n : In (a, b) ords -> opath b n -> opath a (S n).
Lemma t_extend (a b c : string) : R a b -> clos_refl_trans string R b c -> clos_trans string R a c.
Proof.
  intros Hr Hs. apply clos_rt_rtn1 in Hs.
  induction Hs as [|x y Hs _ IH]; [apply t_step; auto|eapply t_trans; [exact IH|apply t_step; auto]].
Qed.
Lemma opath_nodes a n : opath a n -> exists l, length l = n /\ incl l (map fst ords)
  /\ (forall x, In x l -> clos_refl_trans string R a x)
  /\ (NoDup l \/ exists x, clos_refl_trans string R a x /\ clos_trans string R x x).
Proof.
  intros H. induction H as [a|a b n Hd _ (l & El & Hi & Hr & Hn)].
  - exists []. split; auto. split; [intros x []|]. split; [intros x []|left; constructor].
  - exists (a :: l). simpl. split; [congruence|]. split; [|split].
    + intros x [<-|Hx]; auto. apply (in_map fst) in Hd. exact Hd.
    + intros x [<-|Hx]; [apply rt_refl|]. eapply rt_trans; [apply rt_step; exact Hd|auto].
    + destruct Hn as [Hn|(x & H1 & H2)].
      * destruct (in_dec string_dec a l) as [Ha|Ha]; [|left; constructor; auto].
        right. exists a. split; [apply rt_refl|]. eapply t_extend; eauto.
      * right. exists x. split; auto. eapply rt_trans; [apply rt_step; exact Hd|auto].
Qed.
Lemma opath_long a n : opath a n -> length ords < n -> exists x, clos_refl_trans string R a x /\ clos_trans string R x x.
Proof.
  intros Hp Hl. apply opath_nodes in Hp as (l & El & Hi & _ & [Hn|Hn]); auto.
  apply NoDup_incl_length in Hi; auto. rewrite map_length in Hi. lia.
Qed.
(** Around a cycle there are paths of any length. *)
Lemma opath_app a b n : clos_refl_trans string R a b -> opath b n -> exists k, n <= k /\ opath a k.
Proof.
  intros Hs Hp. apply clos_rt_rt1n in Hs. induction Hs as [|a x b Hr _ IH]; [exists n; auto|].
  destruct (IH Hp) as (k & Hk & Hpk). exists (S k). split; [lia|]. econstructor; eauto.
Qed.
Lemma opath_cycle x : clos_trans string R x x -> forall n, exists k, n <= k /\ opath x k.
Proof.
  intros Ht n. induction n as [|n (k & Hk & Hp)]; [exists 0; split; [lia|constructor]|].
  apply clos_trans_t1n in Ht. inversion Ht as [y Hy|y z Hy Hz]; subst.
  - exists (S k). split; [lia|]. econstructor; eauto.
  - apply clos_t1n_trans in Hz. assert (clos_refl_trans string R y x) as Hr.
    { clear - Hz. induction Hz; [apply rt_step; auto|eapply rt_trans; eauto]. }
    destruct (opath_app _ _ _ Hr Hp) as (k' & Hk' & Hp'). exists (S k'). split; [lia|]. econstructor; eauto.
Qed.

(** ** The search for later subtasks *)
Variable he : hash_env.
Hypothesis Hhe : hash_env_ok he.
Lemma suffix_paths : forall fuel stack suffix r, suffix_loop he fuel ords stack suffix = Ok r ->
  forall i n, In i stack -> opath i n -> n < fuel.
Proof.
  induction fuel as [|fuel IH]; intros stack suffix r E i n Hi Hp; destruct stack as [|t stack]; try discriminate E; try destruct Hi as [].
  - subst t. cbn [suffix_loop] in E. inversion Hp as [|? b n' Hb Hp']; subst; [lia|].
    apply (IH _ _ _ E b) in Hp'; [lia|]. apply in_or_app. left. rewrite <- in_rev, (ids_In he Hhe), adjacent_In. auto.
  - cbn [suffix_loop] in E. apply (IH _ _ _ E i) in Hp; [lia|]. apply in_or_app. auto.
Qed.

Fixpoint oweight (k : nat) (a : string) : nat :=
  match k with
  | 0 => 0
  | S k' => S (list_sum (map (oweight k') (adjacent ords a)))
  end.
Lemma oweight_stable : forall n a, ~ opath a n -> forall k k', n <= k -> n <= k' -> oweight k a = oweight k' a.
Proof.
  induction n as [|n IH]; intros a Hn k k' Hk Hk'; [destruct Hn; constructor|].
  destruct k as [|k]; [lia|]. destruct k' as [|k']; [lia|]. cbn [oweight]. f_equal. f_equal.
  apply map_ext_in. intros b Hb. apply adjacent_In in Hb. apply IH; try lia. intros Hp. apply Hn. econstructor; eauto.
Qed.
Lemma oweight_S k a : oweight (S k) a = S (list_sum (map (oweight k) (adjacent ords a))).
Proof. reflexivity. Qed.
Lemma sum_perm (f : string -> nat) l l' : Permutation l l' -> list_sum (map f l) = list_sum (map f l').
Proof. induction 1; simpl in *; lia. Qed.
Definition ofuel : nat := S (S (length ords)).
Lemma suffix_total : forall fuel stack suffix,
  (forall i x, In i stack -> clos_refl_trans string R i x -> ~ clos_trans string R x x) ->
  list_sum (map (oweight ofuel) stack) <= fuel ->
  exists r, suffix_loop he fuel ords stack suffix = Ok r.
Proof.
  induction fuel as [|fuel IH]; intros stack suffix Ha Hf; destruct stack as [|t stack]; try (eexists; reflexivity).
  - exfalso. cbn [map] in Hf. rewrite sum_cons in Hf. unfold ofuel in Hf at 1. rewrite oweight_S in Hf. lia.
  - cbn [suffix_loop]. apply IH.
    + intros i x Hi Hx. apply in_app_or in Hi as [Hi|Hi]; [|apply (Ha i); auto; right; auto].
      rewrite <- in_rev, (ids_In he Hhe), adjacent_In in Hi. apply (Ha t); [left; auto|].
      eapply rt_trans; [apply rt_step; exact Hi|auto].
    + rewrite map_app, sum_app. rewrite map_rev.
      assert (list_sum (rev (map (oweight ofuel) (ho_ids he (adjacent ords t)))) = list_sum (map (oweight (S (length ords))) (adjacent ords t))) as ->.
      { assert (forall l, list_sum (rev l) = list_sum l) as Hrev.
        { clear. induction l as [|a l IHl]; auto. cbn [rev]. rewrite sum_app, IHl, sum_cons. simpl. lia. }
        rewrite Hrev, (sum_perm _ _ _ (ho_ids_ok he Hhe (adjacent ords t))). f_equal. apply map_ext_in. intros b Hb. apply adjacent_In in Hb.
        apply (oweight_stable (S (length ords))); unfold ofuel; try lia. intros Hp.
        destruct (opath_long b _ Hp) as (x & H1 & H2); [lia|]. apply (Ha t x); auto; [left; auto|].
        eapply rt_trans; [apply rt_step; exact Hb|auto]. }
      cbn [map] in Hf. rewrite sum_cons in Hf. unfold ofuel in Hf at 1. rewrite oweight_S in Hf. lia.
Qed.
End Paths.

Section Names.
Variable d : domain_ast.
Variable g : tdg.
Hypothesis Hg : tdg_new d = Ok g.
Hypothesis Hd : distinct_names d.
Variable he : hash_env.
Hypothesis Hhe : hash_env_ok he.

Lemma map_ids_total m md : nth_error (d_methods d) m = Some md -> forall ids, (forall i, In i ids -> exists y, denotes md i y) ->
  exists is, map_ids g (htn_subtasks (m_tn md)) ids = Ok is.
Proof.
  intros Em. induction ids as [|i ids IH]; intros Hi; simpl; [eauto|].
  destruct (Hi i) as (y & Hy); [left; auto|]. pose proof Hy as Ey. apply id_to_task_spec in Ey. rewrite Ey.
  destruct Hy as (l1 & s & l2 & E1 & _ & E2 & _).
  destruct (subtask_at d g Hg Hd m md s Em) as (k & Hk); [rewrite E1; apply in_or_app; right; left; auto|].
  rewrite E2 in Hk. apply (index_ok d g Hg Hd) in Hk. rewrite Hk. cbn [obind].
  destruct IH as (is & ->); [intros j Hj; apply Hi; right; auto|]. cbn [obind]. eauto.
Qed.
Lemma map_ids_defined subtasks : forall ids is, map_ids g subtasks ids = Ok is -> forall i, In i ids -> exists y, id_to_task subtasks i = Some y.
Proof.
  induction ids as [|i ids IH]; intros is E j Hj; simpl in *; [destruct Hj|].
  destruct (id_to_task subtasks i) as [name|] eqn:Ei; [|discriminate].
  apply bind_ok in E as (k & _ & E). apply bind_ok in E as (r & Er & _). destruct Hj as [<-|Hj]; eauto.
Qed.

(** Fuel for the loops over one method. *)
Definition order_fuel (m : method) (x : string) : nat :=
  match htn_orderings (m_tn m) with
  | Total => 0
  | Partial ords => length (occurrences (htn_subtasks (m_tn m)) x)
                    + list_sum (map (oweight ords (ofuel ords)) (occurrences (htn_subtasks (m_tn m)) x))
  end.
Lemma parts_usable lf l k : link_at d l k -> In (snd k) (subtask_names (fst k)) -> usable (fst k) (snd k) ->
  order_fuel (fst k) (snd k) <= lf ->
  (exists pre, get_prefix he lf g (fst l) (snd l) = Ok pre) /\ (exists suf, get_suffix he lf g (fst l) (snd l) = Ok suf).
Proof.
  intros Hl Hs Hu Hf. unfold usable, order_fuel in *. destruct (htn_orderings (m_tn (fst k))) as [|ords] eqn:Ho.
  { eapply parts_total; eauto. }
  destruct Hu as (U1 & U2 & U3). destruct Hl as [Hm Hx]. destruct l as [t m], k as [md x]. cbn [fst snd] in *.
  unfold get_prefix, get_suffix. rewrite (method_at d g Hg m md Hm), (name_of_at d g Hg _ _ Hx). cbn [snd]. rewrite Ho.
  rewrite U1, Nat.eqb_refl. cbn [negb]. set (occ := occurrences (htn_subtasks (m_tn md)) x) in *.
  assert (Hlen : length (rev (ho_ids he occ)) = length occ).
  { rewrite rev_length. apply Permutation_length, ho_ids_ok; auto. }
  assert (Hocc : forall i, In i (rev (ho_ids he occ)) -> occurs md x i).
  { intros i Hi. rewrite <- in_rev, (ids_In he Hhe) in Hi. apply occurrences_In in Hi. exact Hi. }
  split.
  - rewrite (prefix_loop_total he) with (prefix := []); [cbn [obind map_ids]; eauto| |lia].
    apply Forall_forall. intros i Hi. destruct (hits he ords occ i) as [|o hs] eqn:Eh; auto. exfalso.
    assert (In o (hits he ords occ i)) as Ho' by (rewrite Eh; left; auto).
    unfold hits in Ho'. apply in_flat_map in Ho' as (j & Hj & Hoj). apply filter_In in Hoj as [H1 H2].
    rewrite (ids_In he Hhe) in H1. apply occurrences_In in H1. rewrite (ids_In he Hhe), adjacent_In in Hj.
    apply contains_spec in H2. apply (U2 i j o); auto.
  - destruct (suffix_total ords he Hhe lf (rev (ho_ids he occ)) []) as (r & Er).
    + intros i z Hi Hz Hc. apply Hocc in Hi.
      assert (clos_trans string (fun a b => In (a, b) ords) i z) as Hiz.
      { clear - Hz Hc. apply clos_rt_t with (y := z); auto. }
      apply (proj2 (U3 i z Hi Hiz) Hc).
    + assert (list_sum (map (oweight ords (ofuel ords)) (rev (ho_ids he occ))) = list_sum (map (oweight ords (ofuel ords)) occ)) as ->; [|lia].
      apply sum_perm. eapply perm_trans; [apply Permutation_sym, Permutation_rev|apply ho_ids_ok; auto].
    + rewrite Er. cbn [obind]. apply (map_ids_total m md Hm). intros j Hj.
      apply (suffix_loop_ok he Hhe _ _ _ _ _ Er) in Hj as [[]|(i & Hi & Hij)]. apply (U3 i j); auto.
Qed.

(** What is found in time is usable. *)
Lemma parts_found lf l k pre suf : link_at d l k -> get_prefix he lf g (fst l) (snd l) = Ok pre ->
  get_suffix he lf g (fst l) (snd l) = Ok suf -> usable (fst k) (snd k).
Proof.
  intros Hl Ep Es. unfold usable. destruct (htn_orderings (m_tn (fst k))) as [|ords] eqn:Ho; auto.
  destruct (prefix_assert d g Hg he Hhe lf l k ords pre Hl Ho Ep) as [H1 H2]. split; auto. split.
  - intros i j o Hi Hij Hoc Hc. apply contains_spec in Hc. rewrite (H2 i j o Hi Hij Hoc) in Hc. discriminate.
  - clear H2. destruct Hl as [Hm Hx]. destruct l as [t m], k as [md x]. cbn [fst snd] in *.
    unfold get_suffix in Es. rewrite (method_at d g Hg m md Hm), (name_of_at d g Hg _ _ Hx) in Es. cbn [snd] in Es. rewrite Ho in Es.
    rewrite H1, Nat.eqb_refl in Es. cbn [negb] in Es. apply bind_ok in Es as (ids & Ei & E). intros i j Hi Hij.
    assert (In i (rev (ho_ids he (occurrences (htn_subtasks (m_tn md)) x)))) as Hi'.
    { rewrite <- in_rev, (ids_In he Hhe), occurrences_In. exact Hi. }
    split.
    + destruct (map_ids_defined _ _ _ E j) as (y & Hy).
      * apply (suffix_loop_ok he Hhe _ _ _ _ _ Ei). right. eauto.
      * exists y. apply id_to_task_spec in Hy. exact Hy.
    + intros Hc. destruct (opath_cycle ords j Hc lf) as (n & Hn & Hp).
      destruct (opath_app ords i j n) as (n' & Hn' & Hp'); auto.
      { clear - Hij. induction Hij; [apply rt_step; auto|eapply rt_trans; eauto]. }
      pose proof (suffix_paths ords he Hhe _ _ _ _ Ei i n' Hi' Hp'). lia.
Qed.

(** One bound for all methods. *)
Definition orders_fuel : nat :=
  list_sum (flat_map (fun m => map (order_fuel m) (subtask_names m)) (d_methods d)).
Lemma sum_member n l : In n l -> n <= list_sum l.
Proof. induction l as [|a l IH]; [intros []|]. rewrite sum_cons. intros [->|Hi]; [lia|]. specialize (IH Hi). lia. Qed.
Lemma orders_fuel_le m x : In m (d_methods d) -> In x (subtask_names m) -> order_fuel m x <= orders_fuel.
Proof. intros Hm Hx. apply sum_member, in_flat_map. exists m. split; auto. apply in_map; auto. Qed.

Section Search.
Variable null : list nat.
Definition all_usable : Prop := forall ms m x, simple_cycle d ms -> In (m, x) (cycle_links ms) -> usable m x.

Lemma ctx_usable lf : all_usable -> orders_fuel <= lf ->
  forall c t, icycle g c t -> exists es, ctx he g null lf c t = Ok es.
Proof.
  intros Hu Hlf c t Hi. destruct (cycle_methods d g Hg Hd c t Hi) as (ms & Hc & Hsc).
  pose proof Hsc as (_ & Hincl & _ & Hsub).
  destruct Hi as [Hp [Hh _]]. destruct Hc as [|[t0 m0] md c ms Hst Hc]; [discriminate|]. injection Hh as ->.
  unfold ctx. cbn [app]. apply context_total. intros l Hl.
  pose proof (links_at d t (head md) (snd (last ((t, m0) :: c) (0, 0))) (proj2 Hst) c ms t m0 md Hst Hc) as Hlk.
  assert (forall k, In k (links (head md) (md :: ms)) -> In (fst k) (d_methods d)) as Hin.
  { intros k Hk. apply Hincl. clear - Hk. revert Hk. generalize (md :: ms). induction l as [|a l IH]; [intros []|].
    intros [<-|Hk]; [left; auto|right; auto]. }
  cbn [cycle_links] in Hsub. rewrite Forall_forall in Hsub.
  assert (forall k, In k (links (head md) (md :: ms)) -> usable (fst k) (snd k)) as Hus.
  { intros [m x] Hk. apply (Hu _ m x Hsc). exact Hk. }
  revert Hl Hlk Hsub Hin Hus. generalize (links_ix m0 (c ++ [(t, snd (last ((t, m0) :: c) (0, 0)))])) (links (head md) (md :: ms)).
  intros ls ks Hl Hlk. induction Hlk as [|a b ls ks Hab _ IH]; intros Hsub Hin Hus; [destruct Hl|].
  destruct Hl as [->|Hl]; [|apply IH; auto; intros k Hk; [apply Hsub|apply Hin|apply Hus]; right; auto].
  assert (In b (b :: ks)) as Hb by (left; auto).
  apply (parts_usable lf l b Hab); auto. etransitivity; [|exact Hlf]. apply orders_fuel_le; auto.
Qed.
Theorem search_usable : all_usable -> exists k, forall fuel lf, k <= fuel -> orders_fuel <= lf ->
  exists r, recursion_loop he fuel lf g null (initial_stack he g) NonRecursive = Ok r.
Proof.
  intros Hu. exists (stack_cost g (initial_stack he g)). intros fuel lf Hf Hlf.
  apply (loop_total he Hhe g (from_lt d g Hg) (to_lt d g Hg) (to_set_NoDup d g Hg) null lf); auto.
  - apply ctx_usable; auto.
  - apply initial_ipath; auto. apply (from_lt d g Hg).
Qed.
Theorem search_needs_usable fuel lf r : recursion_loop he fuel lf g null (initial_stack he g) NonRecursive = Ok r -> all_usable.
Proof.
  intros E ms m x Hs Hl. destruct (search_spec he Hhe g (from_lt d g Hg) null lf fuel r E) as [H1 _].
  destruct (methods_cycle d g Hg Hd ms Hs) as (c & t & Hc & Hi). destruct (H1 c t Hi) as ([e s] & Ee & _).
  destruct Hi as [Hp [Hh _]]. destruct Hc as [|[t0 m0] md c ms Hst Hc]; [discriminate|]. injection Hh as ->.
  unfold ctx in Ee. cbn [app] in Ee. apply context_ok in Ee as (fs & Hfs & _).
  pose proof (links_at d t (head md) (snd (last ((t, m0) :: c) (0, 0))) (proj2 Hst) c ms t m0 md Hst Hc) as Hlk.
  cbn [cycle_links] in Hl. revert fs Hfs. induction Hlk as [|l k ls ks Hk _ IH]; intros fs Hfs; [destruct Hl|].
  inversion Hfs as [|? f ? fs' [F1 F2] Hf']; subst. destruct Hl as [->|Hl]; [|eauto].
  apply (parts_found lf l (m, x) _ _ Hk F1 F2).
Qed.
End Search.
End Names.
