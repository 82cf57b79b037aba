(** C53: type soundness, and C54: task networks can be ordered.
    Specification: SpecExec.v. *)
From Coq Require Import String Ascii NArith Bool List Lia PeanoNat Relations Permutation.
From Verif Require Import Base Token Lexer Errors Ast Parser Graph Semantic Tdg Api AstLines StrFacts GraphProofs SpecLex SpecGrammar
  PropsLex PropsParse SpecSem SemProofs SemFacts VerifyTop PropsSem SpecExec.
Import ListNotations.
Open Scope list_scope.
Open Scope nat_scope.

Section Sound.
Variable d : domain_ast.
Variable p : problem_ast.
Hypothesis Hd : domain_ok d.
Hypothesis Hp : problem_ok d p.
Hypothesis Hc : no_clash d p.

Lemma fits_trans a b c : fits (d_types d) a b -> fits (d_types d) b c -> fits (d_types d) a c.
Proof. destruct a, b, c; simpl; try tauto. apply rt_trans. Qed.
Lemma value_sub o f g : value d p o f -> fits (d_types d) (sym_type f) (sym_type g) -> value d p o g.
Proof. intros (t & H1 & H2) H3. exists t. split; auto. eapply fits_trans; eauto. Qed.

Lemma inst_in b params v : In (sym_name v) (map sym_name params) -> inst b params v = b (sym_name v).
Proof. intros Hi. unfold inst. destruct (in_dec _ _ _); tauto. Qed.
Lemma inst_out b params v : unnamed sym_name (sym_name v) params -> inst b params v = sym_name v.
Proof.
  intros Hu. unfold inst. destruct (in_dec _ _ _) as [Hi|]; auto. apply in_map_iff in Hi as (x & E & Hx). destruct (Hu _ Hx E).
Qed.

(** A term that denotes a value of some type is instantiated by such a value. *)
Lemma inst_value b params v t f : NoDup (map sym_name params) -> respects d p b params ->
  denotes params (constants_of d) (sym_name v) t -> fits (d_types d) t (sym_type f) -> value d p (inst b params v) f.
Proof.
  intros Hn Hr Hde Hf. destruct Hde as [q Hq E1 E2|c Hu Hfc Et].
  - rewrite inst_in by (apply in_map_iff; eauto). apply value_sub with (f := q); [|congruence].
    apply Hr. apply first_named_unique; auto.
  - rewrite inst_out by auto. exists t. split; auto. apply od_const with (c := c); auto.
    intros o Ho E. apply first_named_in in Hfc as [Hfc Ec]. apply (Hc o c); congruence.
Qed.
Lemma inst_args b params args formals : NoDup (map sym_name params) -> respects d p b params ->
  args_ok (d_types d) params (constants_of d) args formals -> Forall2 (value d p) (map (inst b params) args) formals.
Proof.
  intros Hn Hr Ha. induction Ha as [|v f args formals (t & H1 & H2) Ha IH]; simpl; constructor; auto.
  eapply inst_value; eauto.
Qed.

Lemma action_unique a formals : In a (d_actions d) -> callable d false (act_name a) formals -> formals = act_params a.
Proof.
  intros Ha Hca. remember (act_name a) as n eqn:En. remember false as h eqn:Eh. destruct Hca as [a' Ha'|h t Ht Hu].
  - destruct Hd as (_ & _ & _ & _ & _ & _ & Hn & _). f_equal.
    apply (first_named_fun act_name (act_name a) (d_actions d)); apply first_named_unique; auto.
  - exfalso. apply (Hu Eh a Ha). auto.
Qed.
Lemma params_respected b params : NoDup (map sym_name params) ->
  Forall2 (value d p) (map (fun q => b (sym_name q)) params) params -> respects d p b params.
Proof.
  intros Hn Hf n q Hq. apply first_named_in in Hq as [Hq <-]. clear Hn. induction params as [|x params IH]; [destruct Hq|].
  simpl in Hf. inversion Hf; subst. destruct Hq as [->|Hq]; auto.
Qed.

Lemma open_mentions b params f x : quantifier_free f -> mentions d p b params f x ->
  exists q, within_open (FAtom q) f /\ x = inst_atom b params q.
Proof.
  intros Hq Hm. induction Hm as [b params q|b params g f x Ho Hm IH|b b' params vs f x|b b' params vs f x].
  - exists q. split; auto. apply rt_refl.
  - destruct IH as (q & Hw & ->).
    + intros h Hh. apply Hq. eapply rt_trans; [exact Hh|]. apply rt_step. inversion Ho; auto.
    + exists q. split; auto. eapply rt_trans; [exact Hw|apply rt_step; auto].
  - destruct (Hq _ (rt_refl _ _ _)).
  - destruct (Hq _ (rt_refl _ _ _)).
Qed.
Lemma formula_fits b params f x : NoDup (map sym_name params) -> respects d p b params -> formula_ok d params f ->
  quantifier_free f -> mentions d p b params f x -> fact_fits d p x.
Proof.
  intros Hn Hr (_ & _ & _ & Hf) Hq Hm. apply open_mentions in Hm as (q & Hw & ->); auto.
  destruct (Hf _ Hw) as (def & H1 & H2 & H3). exists def. split; auto. split; auto. apply inst_args; auto.
Qed.

Lemma task_respects a b : In a (d_actions d) -> task_fits d p (act_name a, map (fun q => b (sym_name q)) (act_params a)) ->
  respects d p b (act_params a).
Proof.
  intros Ha (formals & Hca & Hf). simpl in *. apply action_unique in Hca; auto. subst.
  apply params_respected; auto. destruct Hd as (_ & _ & _ & _ & _ & _ & _ & Hac & _).
  rewrite Forall_forall in Hac. apply Hac; auto.
Qed.

Lemma initial_fits c : initial d p c -> Forall (fact_fits d p) (fst c) /\ Forall (task_fits d p) (snd c).
Proof.
  destruct Hp as (_ & Hno & Hin & Htn & _).
  assert (Forall (fact_fits d p) (facts0 p)) as H0.
  { unfold facts0. apply Forall_map. eapply Forall_impl; [|exact Hin]. intros q (def & H1 & H2 & H3). exists def.
    simpl. split; auto. split; auto. clear - H3. induction H3; simpl; constructor; auto. }
  intros [E|t b E Hr]; split; simpl; auto. rewrite E in Htn. destruct Htn as [_ Htn].
  apply Forall_map. eapply Forall_impl; [|exact Htn]. intros s (formals & Hca & Hf). exists formals. split; auto. simpl. clear Hca.
  induction Hf as [|v f args formals' (ty & H1 & H2) Hf IH]; simpl; constructor; auto.
  destruct H1 as [o Ho E1 E2|q Hu Hq Et|q Hu Hv Hq Et].
  - rewrite inst_out.
    + exists ty. split; auto. apply od_object with (o := o); auto.
    + intros x Hx Ex. unfold visible in Hx. apply filter_In in Hx as [_ Hx].
      destruct (in_dec _ _ _) as [|Hn]; [discriminate|]. apply Hn. apply in_map_iff. exists o. split; congruence.
  - assert (first_named sym_name (sym_name v) (visible p t) q) as Hvq.
    { clear - Hu Hq. unfold visible. induction Hq as [x l En|y l x Hn Hq IH]; simpl.
      - destruct (in_dec _ _ _) as [Hi|]; [|apply fn_here; auto].
        exfalso. apply in_map_iff in Hi as (o & Eo & Ho). apply (Hu o Ho). congruence.
      - destruct (in_dec _ _ _); auto. apply fn_later; auto. }
    rewrite inst_in.
    + apply value_sub with (f := q); [|congruence]. apply Hr. auto.
    + apply first_named_in in Hvq as [Hvq En]. rewrite <- En. apply in_map. auto.
  - rewrite inst_out.
    + exists ty. split; auto. apply od_const with (c := q); auto.
    + intros x Hx Ex. unfold visible in Hx. apply filter_In in Hx as [Hx _]. apply (Hv x Hx Ex).
Qed.

Lemma step_tasks c c' : step d p c c' -> Forall (task_fits d p) (snd c) -> Forall (task_fits d p) (snd c').
Proof.
  intros Hs. destruct Hs as [m b facts w1 w2 Hm Hr|a b facts facts' w1 w2 Ha Hx]; simpl; rewrite !Forall_app.
  - intros [H1 H2]. inversion H2; subst. split; auto. split; auto.
    destruct Hd as (_ & _ & _ & _ & _ & _ & _ & _ & _ & Hme). rewrite Forall_forall in Hme.
    destruct (Hme _ Hm) as (Hn & _ & _ & Hsub & _). apply Forall_map. eapply Forall_impl; [|exact Hsub].
    intros s (formals & Hca & Hargs). exists formals. split; auto. simpl. apply inst_args; auto.
  - intros [H1 H2]. inversion H2; subst. auto.
Qed.
Lemma step_facts c c' : step d p c c' -> Forall (task_fits d p) (snd c) ->
  (forall a f, In a (d_actions d) -> act_eff a = Some f -> quantifier_free f) ->
  Forall (fact_fits d p) (fst c) -> Forall (fact_fits d p) (fst c').
Proof.
  intros Hs Ht Hq. destruct Hs as [m b facts w1 w2 Hm Hr|a b facts facts' w1 w2 Ha Hx]; simpl in *; auto.
  intros Hf. rewrite Forall_forall in *. intros x Hi. apply Hx in Hi as [Hi|(f & Ef & Hm)]; auto.
  destruct Hd as (_ & _ & _ & _ & _ & _ & _ & Hac & _). rewrite Forall_forall in Hac. destruct (Hac _ Ha) as (Hn & _ & He).
  rewrite Ef in He. eapply formula_fits; eauto. apply task_respects; auto. apply Ht. apply in_app_iff. simpl. auto.
Qed.
Lemma reachable_tasks c : reachable d p c -> Forall (task_fits d p) (snd c).
Proof.
  intros (c0 & Hi & Hs). apply clos_rt_rtn1 in Hs. induction Hs as [|c1 c2 Hs Hrt IH].
  - apply initial_fits; auto.
  - eapply step_tasks; eauto.
Qed.
Lemma reachable_facts c : reachable d p c -> (forall a f, In a (d_actions d) -> act_eff a = Some f -> quantifier_free f) ->
  Forall (fact_fits d p) (fst c).
Proof.
  intros (c0 & Hi & Hs) Hq. apply clos_rt_rtn1 in Hs. induction Hs as [|c1 c2 Hs Hrt IH].
  - apply initial_fits; auto.
  - eapply step_facts; eauto. apply reachable_tasks. exists c0. split; auto. apply clos_rtn1_rt; auto.
Qed.
End Sound.

(** ** Acyclic constraints have ranks *)
Lemma filter_le {A} (f g : A -> bool) l : (forall x, In x l -> f x = true -> g x = true) ->
  length (filter f l) <= length (filter g l).
Proof.
  induction l as [|x l IH]; simpl; auto. intros Hi. specialize (IH (fun y Hy => Hi y (or_intror Hy))).
  destruct (f x) eqn:E; [rewrite (Hi x (or_introl eq_refl) E); simpl; lia|]. destruct (g x); simpl; lia.
Qed.
Lemma filter_lt {A} (f g : A -> bool) l y : (forall x, In x l -> f x = true -> g x = true) ->
  In y l -> f y = false -> g y = true -> length (filter f l) < length (filter g l).
Proof.
  induction l as [|x l IH]; simpl; [tauto|]. intros Hi Hy Ef Eg.
  pose proof (filter_le f g l (fun y Hy => Hi y (or_intror Hy))) as Hl.
  destruct Hy as [->|Hy].
  - rewrite Ef, Eg. simpl. lia.
  - specialize (IH (fun y Hy => Hi y (or_intror Hy)) Hy Ef Eg).
    destruct (f x) eqn:E; [rewrite (Hi x (or_introl eq_refl) E); simpl; lia|]. destruct (g x); simpl; lia.
Qed.
Definition below (es : list (string * string)) (a b : string) : bool :=
  existsb (fun e => String.eqb (fst e) a && has_path es (snd e) b) es.
Lemma below_spec es a b : below es a b = true <-> clos_trans string (before es) a b.
Proof.
  unfold below. rewrite existsb_exists. split.
  - intros ([x c] & Hi & E). apply andb_prop in E as [E1 E2]. apply String.eqb_eq in E1. simpl in *. subst.
    apply has_path_spec in E2. eapply (path_first_plus es); eauto.
  - intros Hp. apply (path_plus_first es) in Hp as (c & He & Hp). exists (a, c). split; auto. simpl.
    rewrite String.eqb_refl. apply has_path_spec; auto.
Qed.
Definition srank (es : list (string * string)) (b : string) : nat := length (filter (fun a => below es a b) (map fst es)).
Lemma srank_lt es a b : (forall x, ~ clos_trans string (before es) x x) -> clos_trans string (before es) a b -> srank es a < srank es b.
Proof.
  intros Hn Hp. unfold srank. apply filter_lt with (y := a).
  - intros x _ E. apply below_spec in E. apply below_spec. eapply t_trans; eauto.
  - apply (path_plus_first es) in Hp as (c & He & _). apply in_map_iff. exists (a, c). auto.
  - apply not_true_iff_false. rewrite below_spec. apply Hn.
  - apply below_spec; auto.
Qed.
(** Positions of a task network. *)
Definition prank (tn : htn) (i : nat) : nat :=
  match htn_orderings tn with
  | Total => i
  | Partial l => match nth_error (htn_subtasks tn) i with
                 | Some x => match sub_id x with Some a => srank l (sym_name a) | None => 0 end
                 | None => 0
                 end
  end.
Lemma prank_lt tn i j : order_acyclic (htn_orderings tn) -> ordered_at tn i j -> prank tn i < prank tn j.
Proof.
  unfold ordered_at, prank, order_acyclic. destruct (htn_orderings tn) as [|l]; [lia|].
  intros Hn (x & y & a & b & -> & -> & -> & -> & Hp). apply srank_lt; auto.
Qed.

(** Sorting by rank. *)
Fixpoint place (key : nat -> nat) (x : nat) (l : list nat) : list nat :=
  match l with
  | [] => [x]
  | y :: l' => if Nat.leb (key x) (key y) then x :: l else y :: place key x l'
  end.
Lemma place_perm key x l : Permutation (place key x l) (x :: l).
Proof.
  induction l as [|y l IH]; simpl; auto. destruct (Nat.leb _ _); auto. rewrite IH. apply perm_swap.
Qed.
Inductive sorted (key : nat -> nat) : list nat -> Prop :=
| so_nil : sorted key []
| so_cons x l : Forall (fun y => key x <= key y) l -> sorted key l -> sorted key (x :: l).
Lemma place_sorted key x l : sorted key l -> sorted key (place key x l).
Proof.
  induction 1 as [|y l Hf Hs IH]; simpl.
  - repeat constructor.
  - destruct (Nat.leb (key x) (key y)) eqn:E.
    + apply Nat.leb_le in E. constructor; [|constructor; auto]. constructor; auto.
      eapply Forall_impl; [|exact Hf]. simpl. intros. lia.
    + apply Nat.leb_gt in E. constructor; auto. apply (Permutation_Forall (Permutation_sym (place_perm key x l))).
      constructor; auto. lia.
Qed.
Lemma sort_exists key l : exists w, Permutation w l /\ sorted key w.
Proof.
  induction l as [|x l (w & Hp & Hs)]; [exists []; split; constructor|].
  exists (place key x w). split; [|apply place_sorted; auto]. rewrite place_perm. auto.
Qed.
Lemma sorted_le key w w1 i w2 j w3 : sorted key w -> w = w1 ++ i :: w2 ++ j :: w3 -> key i <= key j.
Proof.
  intros Hs ->. induction w1 as [|x w1 IH]; simpl in Hs; inversion Hs as [|y l Hf Hs']; subst; auto.
  rewrite Forall_forall in Hf. apply Hf. apply in_app_iff. simpl. auto.
Qed.
Lemma acyclic_linear tn : order_acyclic (htn_orderings tn) -> exists w, linearization tn w.
Proof.
  intros Ha. destruct (sort_exists (prank tn) (seq 0 (length (htn_subtasks tn)))) as (w & Hp & Hs).
  exists w. split; auto. intros w1 i w2 j w3 E Ho. apply (prank_lt _ _ _ Ha) in Ho. pose proof (sorted_le _ _ _ _ _ _ _ Hs E). lia.
Qed.

(** ** Networks stay consistent *)
Definition consistent (lt : nat -> nat -> Prop) : Prop := exists rank : nat -> nat, forall a b, lt a b -> rank a < rank b.
Lemma order_consistent tn ids : NoDup ids -> order_acyclic (htn_orderings tn) ->
  exists rank : nat -> nat, forall a b, order_of tn ids a b -> rank a < rank b.
Proof.
  intros Hn Ha.
  exists (fun a => match find (fun i => match nth_error ids i with Some b => Nat.eqb a b | None => false end) (seq 0 (length ids)) with
                   | Some i => prank tn i | None => 0 end).
  assert (forall i a, nth_error ids i = Some a ->
    find (fun i => match nth_error ids i with Some b => Nat.eqb a b | None => false end) (seq 0 (length ids)) = Some i) as Hf.
  { intros i a E. assert (i < length ids) as Hi by (apply nth_error_Some; congruence).
    destruct (find _ _) as [k|] eqn:Ef.
    - apply find_some in Ef as [_ Ef]. destruct (nth_error ids k) as [c|] eqn:Ek; [|discriminate].
      apply Nat.eqb_eq in Ef. subst c. f_equal. rewrite NoDup_nth_error in Hn. symmetry. apply Hn; auto. congruence.
    - assert (In i (seq 0 (length ids))) as His by (apply in_seq; lia). pose proof (List.find_none _ _ Ef _ His) as Hno. cbv beta in Hno. rewrite E, Nat.eqb_refl in Hno. discriminate. }
  intros a b (i & j & E1 & E2 & Ho). rewrite (Hf _ _ E1), (Hf _ _ E2). apply prank_lt; auto.
Qed.
Lemma bounded_on (f : nat -> nat) l : exists M, forall x, In x l -> f x < M.
Proof.
  induction l as [|x l (M & HM)]; [exists 0; simpl; tauto|]. exists (S (f x) + M).
  intros y [->|Hy]; [lia|]. specialize (HM y Hy). lia.
Qed.
Lemma replace_consistent lt i ids (inner : nat -> nat -> Prop) : consistent lt ->
  (exists rank : nat -> nat, forall a b, inner a b -> rank a < rank b) -> consistent (replace_lt lt i ids inner).
Proof.
  intros (r & Hr) (ri & Hri). destruct (bounded_on ri ids) as (M & HM).
  exists (fun a => if in_dec Nat.eq_dec a ids then r i * S M + ri a else r a * S M).
  intros a b [(H1 & H2 & H3 & H4 & H5)|[(H1 & H2 & H3)|[(H1 & H2 & H3)|[(H1 & H2 & H3)|(H1 & H2 & H3 & H4)]]]];
    repeat (destruct (in_dec Nat.eq_dec _ ids); try tauto).
  - apply Hr in H5. nia.
  - apply Hr in H3. nia.
  - apply Hr in H3. specialize (HM a H1). nia.
  - apply Hri in H3. lia.
  - apply Hr in H3, H4. nia.
Qed.
Lemma lt_subset (lt : nat -> nat -> Prop) : consistent lt -> forall w : list nat, w <> [] -> exists i, In i w /\ forall j, In j w -> ~ lt j i.
Proof.
  intros (r & Hr) w Hw. assert (exists i, In i w /\ forall j, In j w -> r i <= r j) as (i & Hi & Hm).
  { induction w as [|x w IH]; [congruence|]. destruct w as [|y w].
    - exists x. split; [left; auto|]. intros j [->|[]]. lia.
    - destruct IH as (i & Hi & Hm); [discriminate|]. destruct (Nat.le_gt_cases (r x) (r i)) as [Hl|Hl].
      + exists x. split; [left; auto|]. intros j [->|Hj]; [lia|]. specialize (Hm j Hj). lia.
      + exists i. split; [right; auto|]. intros j [->|Hj]; [lia|]. auto. }
  exists i. split; auto. intros j Hj Hlt. apply Hr in Hlt. specialize (Hm j Hj). lia.
Qed.

Section Ordered.
Variable d : domain_ast.
Variable p : problem_ast.
Hypothesis Hd : domain_ok d.
Hypothesis Hp : problem_ok d p.
Lemma oreachable_consistent c : oreachable d p c -> consistent (net_lt (snd c)) /\ NoDup (map fst (net_tasks (snd c))).
Proof.
  intros (c0 & Hi & Hs). apply clos_rt_rtn1 in Hs. induction Hs as [|c1 c2 Hs Hrt [IH IHn]].
  - destruct Hi as [E|t b ids E Hr Hn Hl]; simpl.
    + split; [exists (fun _ => 0); tauto|constructor].
    + destruct Hp as (_ & _ & _ & Htn & _). rewrite E in Htn. split; [apply order_consistent; tauto|].
      assert (length ids = length (map (inst_task b (visible p t)) (htn_subtasks (itn_tn t)))) as Hl' by (rewrite map_length; auto).
      revert Hl'. generalize (map (inst_task b (visible p t)) (htn_subtasks (itn_tn t))). clear - Hn.
      intros l Hl. rewrite <- (map_id ids) in Hn. replace (map fst (combine ids l)) with ids; [rewrite map_id in Hn; auto|].
      clear Hn. revert l Hl. induction ids as [|x ids IH]; intros [|y l]; simpl; intros; try lia; auto. f_equal. apply IH. lia.
  - destruct Hs as [m b ids facts w1 i w2 lt Hm Hr Hn Hl Hf|a b facts facts' w1 i w2 lt Ha Hx Hb]; simpl in *.
    + destruct Hd as (_ & _ & _ & _ & _ & _ & _ & _ & _ & Hme). rewrite Forall_forall in Hme. destruct (Hme _ Hm) as (_ & _ & _ & _ & Hac).
      split; [apply replace_consistent; auto; apply order_consistent; auto|].
      assert (map fst (combine ids (map (inst_task b (m_params m)) (htn_subtasks (m_tn m)))) = ids) as Hc.
      { assert (length ids = length (map (inst_task b (m_params m)) (htn_subtasks (m_tn m)))) as Hl' by (rewrite map_length; auto).
        revert Hl'. generalize (map (inst_task b (m_params m)) (htn_subtasks (m_tn m))). clear.
        induction ids as [|x ids IH]; intros [|y l]; simpl; intros; try lia; auto. f_equal. apply IH. lia. }
      rewrite !map_app, Hc. rewrite map_app in IHn. simpl in IHn. apply NoDup_remove in IHn as [IHn _].
      apply (Permutation_NoDup (l := ids ++ (map fst w1 ++ map fst w2))).
      * rewrite !app_assoc. apply Permutation_app_tail. apply Permutation_app_comm.
      * assert (forall j, In j ids -> ~ In j (map fst w1 ++ map fst w2)) as Hf' by (intros j Hj; rewrite <- map_app; apply Hf; auto).
        clear - Hn Hf' IHn. induction ids as [|x ids IH]; simpl; auto. inversion Hn; subst. constructor.
        -- rewrite in_app_iff. intros [Hx|Hx]; [tauto|]. apply (Hf' x); simpl; auto.
        -- apply IH; auto. intros j Hj. apply Hf'. simpl. auto.
    + split; auto. rewrite map_app in *. simpl in IHn. apply NoDup_remove in IHn. tauto.
Qed.
End Ordered.

Lemma forget_step d p c c' : ostep d p c c' -> step d p (forget c) (forget c').
Proof.
  intros Hs. destruct Hs as [m b ids facts w1 i w2 lt Hm Hr Hn Hl Hf|a b facts facts' w1 i w2 lt Ha Hx Hb]; unfold forget; simpl.
  - rewrite !map_app. simpl.
    replace (map snd (combine ids (map (inst_task b (m_params m)) (htn_subtasks (m_tn m)))))
      with (map (inst_task b (m_params m)) (htn_subtasks (m_tn m))); [apply st_method; auto|].
    assert (length ids = length (map (inst_task b (m_params m)) (htn_subtasks (m_tn m)))) as Hl' by (rewrite map_length; auto).
    revert Hl'. generalize (map (inst_task b (m_params m)) (htn_subtasks (m_tn m))). clear.
    induction ids as [|x ids IH]; intros [|y l]; simpl; intros; try lia; auto. f_equal. apply IH. lia.
  - rewrite !map_app. simpl. apply st_action; auto.
Qed.
Lemma forget_reachable d p c : oreachable d p c -> reachable d p (forget c).
Proof.
  intros (c0 & Hi & Hs). exists (forget c0). split.
  - destruct Hi as [E|t b ids E Hr Hn Hl]; unfold forget; simpl; [apply in_none; auto|].
    replace (map snd (combine ids (map (inst_task b (visible p t)) (htn_subtasks (itn_tn t)))))
      with (map (inst_task b (visible p t)) (htn_subtasks (itn_tn t))); [apply in_tn; auto|].
    assert (length ids = length (map (inst_task b (visible p t)) (htn_subtasks (itn_tn t)))) as Hl' by (rewrite map_length; auto).
    revert Hl'. generalize (map (inst_task b (visible p t)) (htn_subtasks (itn_tn t))). clear.
    induction ids as [|x ids IH]; intros [|y l]; simpl; intros; try lia; auto. f_equal. apply IH. lia.
  - clear Hi. induction Hs as [c c' Hs|c|c c1 c2 _ IH1 _ IH2].
    + apply rt_step. apply forget_step; auto.
    + apply rt_refl.
    + eapply rt_trans; eauto.
Qed.

(** All remaining tasks being actions, they can be performed. *)
Lemma bind_exists params : NoDup (map sym_name params) -> forall args : list string, length args = length params ->
  exists b : binding, map (fun q => b (sym_name q)) params = args.
Proof.
  induction params as [|q params IH]; intros Hn [|x args] Hl; simpl in *; try lia; [exists (fun s => s); auto|].
  inversion Hn as [|y l H1 H2]; subst. destruct (IH H2 args) as (b & Hb); [lia|].
  exists (fun s => if string_dec s (sym_name q) then x else b s).
  destruct (string_dec (sym_name q) (sym_name q)); [|congruence]. f_equal. rewrite <- Hb. apply map_ext_in.
  intros r Hr. destruct (string_dec (sym_name r) (sym_name q)) as [E|]; auto. exfalso. apply H1. rewrite <- E. apply in_map; auto.
Qed.
Lemma perform_all d p : domain_ok d -> problem_ok d p -> no_clash d p -> forall c, oreachable d p c ->
  (forall i g, In (i, g) (net_tasks (snd c)) -> In (fst g) (map act_name (d_actions d))) ->
  exists c', clos_refl_trans oconfig (ostep d p) c c' /\ net_tasks (snd c') = [].
Proof.
  intros Hd Hp Hc c. remember (length (net_tasks (snd c))) as k eqn:Ek. revert c Ek.
  induction k as [|k IH]; intros c Ek Hr Ha.
  - exists c. split; [apply rt_refl|]. destruct (net_tasks (snd c)); auto; discriminate.
  - destruct (oreachable_consistent d p Hd Hp _ Hr) as [Hcon Hno].
    destruct (lt_subset _ Hcon (map fst (net_tasks (snd c)))) as (i & Hi & Hmin).
    { destruct (net_tasks (snd c)); discriminate. }
    apply in_map_iff in Hi as ([i' g] & E & Hi). simpl in E. subst i'.
    pose proof (reachable_tasks d p Hd Hp Hc _ (forget_reachable _ _ _ Hr)) as Hf. rewrite Forall_forall in Hf.
    assert (task_fits d p g) as Hg by (apply Hf; apply in_map_iff; exists (i, g); auto).
    pose proof (Ha _ _ Hi) as Hia. apply in_map_iff in Hia as (a & Ea & Hia).
    destruct c as [facts [w lt]]. simpl in *. destruct g as [gn gargs]. simpl in Ea. subst gn.
    destruct Hg as (formals & Hca & Hargs). simpl in *. apply (action_unique d Hd) in Hca; auto. subst formals.
    destruct (bind_exists (act_params a)) with (args := gargs) as (b & Hb).
    { destruct Hd as (_ & _ & _ & _ & _ & _ & _ & Hac & _). rewrite Forall_forall in Hac. apply Hac; auto. }
    { clear - Hargs. induction Hargs; simpl; auto. }
    apply in_split in Hi as (w1 & w2 & ->).
    assert (ostep d p (facts, mkNet (w1 ++ (i, (act_name a, gargs)) :: w2) lt) (facts, mkNet (w1 ++ w2) lt)) as Hst.
    { rewrite <- Hb. apply os_action; auto. intros j Hj. apply Hmin.
      rewrite map_app in *. simpl. apply in_app_iff in Hj. apply in_app_iff. simpl. tauto. }
    destruct (IH (facts, mkNet (w1 ++ w2) lt)) as (c' & Hc' & Hn').
    + simpl. rewrite app_length in *. simpl in Ek. lia.
    + destruct Hr as (c0 & H0 & Hrt). exists c0. split; auto. eapply rt_trans; [exact Hrt|apply rt_step; auto].
    + simpl. intros j g Hj. apply (Ha j g). apply in_app_iff in Hj. apply in_app_iff. simpl. tauto.
    + exists c'. split; auto. eapply rt_trans; [apply rt_step; exact Hst|auto].
Qed.

(** ** The properties *)
Section Props.
Context `{Unicode}.
Variable he : hash_env.
Hypothesis Hhe : hash_env_ok he.
Variable n : nat.
Variables dom prob : string.
Variable ws : list warning.
Variable d : domain_ast.
Variable p : problem_ast.
Hypothesis Hv : verify he n dom (Some prob) = Ok ws.
Hypothesis Ed : parse n dom = Ok (ADomain d).
Hypothesis Ep : parse n prob = Ok (AProblem p).

Lemma both_ok : domain_ok d /\ problem_ok d p.
Proof.
  apply verify_ok_inv in Hv as (d' & E1 & _ & Hok & p' & E2 & Hpok); auto.
  assert (d' = d) as -> by congruence. assert (p' = p) as -> by congruence. auto.
Qed.

(** C53: every task that ever has to be done is declared and has arguments of
    the declared types. *)
Theorem C53_tasks_fit : no_clash d p -> forall c, reachable d p c -> Forall (task_fits d p) (snd c).
Proof. destruct both_ok. intros. apply reachable_tasks; auto. Qed.
(** Every fact that ever holds is declared and has arguments of the declared types. *)
Theorem C53_facts_fit : no_clash d p -> (forall a f, In a (d_actions d) -> act_eff a = Some f -> quantifier_free f) ->
  forall c, reachable d p c -> Forall (fact_fits d p) (fst c).
Proof. destruct both_ok. intros. apply reachable_facts; auto. Qed.
(** So has every fact that a precondition or the goal asks for. *)
Theorem C53_action_conditions_fit : no_clash d p -> forall c a b f x, reachable d p c -> In a (d_actions d) ->
  In (act_name a, map (fun q => b (sym_name q)) (act_params a)) (snd c) ->
  act_pre a = Some f -> quantifier_free f -> mentions d p b (act_params a) f x -> fact_fits d p x.
Proof.
  destruct both_ok as [Hd Hp]. intros Hc c a b f x Hr Ha Hi Ef Hq Hm.
  pose proof (reachable_tasks d p Hd Hp Hc c Hr) as Ht. rewrite Forall_forall in Ht.
  pose proof (task_respects d p Hd a b Ha (Ht _ Hi)) as Hre.
  destruct Hd as (_ & _ & _ & _ & _ & _ & _ & Hac & _). rewrite Forall_forall in Hac. destruct (Hac _ Ha) as (Hn & Hpre & _).
  rewrite Ef in Hpre. eapply formula_fits; eauto.
Qed.
Theorem C53_method_conditions_fit : no_clash d p -> forall m b f x, In m (d_methods d) -> respects d p b (m_params m) ->
  m_pre m = Some f -> quantifier_free f -> mentions d p b (m_params m) f x -> fact_fits d p x.
Proof.
  destruct both_ok as [Hd Hp]. intros Hc m b f x Hm Hr Ef Hq Hx.
  destruct Hd as (_ & _ & _ & _ & _ & _ & _ & _ & _ & Hme). rewrite Forall_forall in Hme. destruct (Hme _ Hm) as (Hn & Hpre & _).
  rewrite Ef in Hpre. eapply formula_fits; eauto.
Qed.
Theorem C53_goal_fits : forall f b x, p_goal p = Some f -> quantifier_free f -> mentions d p b [] f x -> fact_fits d p x.
Proof.
  destruct both_ok as [Hd Hp]. intros f b x Ef Hq Hm. destruct Hp as (_ & _ & _ & _ & Hg). rewrite Ef in Hg.
  apply open_mentions in Hm as (q & Hw & ->); auto. destruct (Hg _ Hw) as (def & H1 & H2 & H3).
  exists def. simpl. split; auto. split; auto. clear - H3. induction H3; simpl; constructor; auto.
Qed.

(** C54: the subtasks of every method and of the initial task network can be
    put into an order that obeys the constraints. *)
Theorem C54_linearizable :
  (forall m, In m (d_methods d) -> exists w, linearization (m_tn m) w)
  /\ (forall t, p_init_tn p = Some t -> exists w, linearization (itn_tn t) w).
Proof.
  destruct both_ok as [Hd Hp]. split.
  - intros m Hm. apply acyclic_linear. destruct Hd as (_ & _ & _ & _ & _ & _ & _ & _ & _ & Hme).
    rewrite Forall_forall in Hme. apply Hme; auto.
  - intros t E. apply acyclic_linear. destruct Hp as (_ & _ & _ & Htn & _). rewrite E in Htn. tauto.
Qed.
(** Decomposition never makes the constraints contradictory: while tasks are
    left, one of them has no predecessor. *)
Theorem C54_some_task_is_first : forall c, oreachable d p c -> net_tasks (snd c) <> [] ->
  exists i g, In (i, g) (net_tasks (snd c)) /\ forall j, In j (map fst (net_tasks (snd c))) -> ~ net_lt (snd c) j i.
Proof.
  destruct both_ok as [Hd Hp]. intros c Hr Hne. destruct (oreachable_consistent d p Hd Hp c Hr) as [Hcon _].
  destruct (lt_subset _ Hcon (map fst (net_tasks (snd c)))) as (i & Hi & Hm).
  { destruct (net_tasks (snd c)); [congruence|discriminate]. }
  apply in_map_iff in Hi as ([i' g] & <- & Hi). exists i', g. auto.
Qed.
(** When only actions are left, all of them can be performed in an order that
    obeys the constraints (as far as their preconditions allow). *)
Theorem C54_actions_can_be_performed : no_clash d p -> forall c, oreachable d p c ->
  (forall i g, In (i, g) (net_tasks (snd c)) -> In (fst g) (map act_name (d_actions d))) ->
  exists c', clos_refl_trans oconfig (ostep d p) c c' /\ net_tasks (snd c') = [].
Proof. destruct both_ok as [Hd Hp]. intros. apply perform_all; auto. Qed.
(** Ordered executions are executions in the sense of C53. *)
Theorem C54_ordered_executions : forall c, oreachable d p c -> reachable d p (forget c).
Proof. apply forget_reachable. Qed.
End Props.

(** A reported cycle means that no order whatsoever obeys the constraints. *)
Theorem C54_cycle_unsatisfiable `{Unicode} : forall he, hash_env_ok he -> forall n dom d l,
  verify he n dom None = Err (ESem (CyclicOrdering l)) -> parse n dom = Ok (ADomain d) ->
  exists m es, In m (d_methods d) /\ htn_orderings (m_tn m) = Partial es
    /\ ~ exists rank : string -> nat, forall a b, In (a, b) es -> rank a < rank b.
Proof.
  intros he Hhe n dom d l E Ep. destruct (C21_error_true he Hhe _ _ _ _ E Ep) as (s & Es & Hv & _). injection Es as <-.
  inversion Hv as [| | | | | | | | | | | | | | | | |m q es a Hm Ho Hcy Hq]; subst. exists m, es. split; auto. split; auto.
  intros (rank & Hr). assert (forall x y, clos_trans string (before es) x y -> rank x < rank y) as Hx.
  { induction 1; auto. lia. }
  apply Hx in Hcy. lia.
Qed.

(** ** Concrete cases *)
Open Scope string_scope.
Open Scope list_scope.
Lemma respects_all d p b params : Forall (fun q => value d p (b (sym_name q)) q) params -> respects d p b params.
Proof. intros Hf n q Hq. apply first_named_in in Hq as [Hq <-]. rewrite Forall_forall in Hf. auto. Qed.
Lemma value_object d p o f t : In o (p_objects p) -> sym_type o = Some t -> sym_type f = Some t -> value d p (sym_name o) f.
Proof. intros Ho E1 E2. exists (Some t). split; [apply od_object with (o := o); auto|]. rewrite E2. apply rt_refl. Qed.
Lemma os_method_eq d p m b ids facts w w1 i g w2 lt : w = w1 ++ (i, g) :: w2 -> In m (d_methods d) ->
  g = (sym_name (m_task m), map (inst b (m_params m)) (m_task_terms m)) -> respects d p b (m_params m) ->
  NoDup ids -> length ids = length (htn_subtasks (m_tn m)) ->
  (forall j, In j ids -> ~ In j (map fst (w1 ++ w2)) /\ j <> i) ->
  ostep d p (facts, mkNet w lt)
    (facts, mkNet (w1 ++ net_tasks (net_of b (m_params m) (m_tn m) ids) ++ w2) (replace_lt lt i ids (order_of (m_tn m) ids))).
Proof. intros -> Hm -> Hr Hn Hl Hf. apply os_method; auto. Qed.
Lemma os_action_eq d p a b facts facts' w w1 i g w2 lt : w = w1 ++ (i, g) :: w2 -> In a (d_actions d) ->
  g = (act_name a, map (fun q => b (sym_name q)) (act_params a)) ->
  (forall x, In x facts' -> In x facts \/ mentions_opt d p b (act_params a) (act_eff a) x) ->
  (forall j, In j (map fst (w1 ++ w2)) -> ~ lt j i) ->
  ostep d p (facts, mkNet w lt) (facts', mkNet (w1 ++ w2) lt).
Proof. intros -> Ha -> Hx Hb. eapply os_action; eauto. Qed.
(** The first task of [prob1] is decomposed and the first action is performed;
    the other action comes before the second task. *)
Example C54_example : exists d p c, run dom1 (Some prob1) = Ok []
  /\ @parse uni0 300 dom1 = Ok (ADomain d) /\ @parse uni0 300 prob1 = Ok (AProblem p) /\ no_clash d p
  /\ oreachable d p c /\ net_tasks (snd c) = [(3, ("c", ["x"])); (1, ("t", ["x"]))] /\ net_lt (snd c) 3 1
  /\ In ("q", []) (fst c).
Proof.
  eexists. eexists. eexists (_, mkNet _ _).
  split; [vm_compute; reflexivity|]. split; [vm_compute; reflexivity|]. split; [vm_compute; reflexivity|].
  split; [intros o c _ []|]. split.
  - eexists. split.
    + eapply oi_tn with (b := fun s => s) (ids := [0; 1]); [reflexivity|apply respects_all; constructor| |reflexivity].
      repeat constructor; simpl; intuition discriminate.
    + eapply rt_trans; [apply rt_step; eapply os_method_eq with (b := fun s => s) (ids := [2; 3]) (w1 := []); [reflexivity| | | | | |]|].
      * left. reflexivity.
      * reflexivity.
      * apply respects_all. constructor; [|constructor]. eapply value_object with (o := mkSym "x" 2 (Some "a") (Some 2%N)); [left; reflexivity|reflexivity|reflexivity].
      * repeat constructor; simpl; intuition discriminate.
      * reflexivity.
      * simpl. intuition lia.
      * apply rt_step. eapply os_action_eq with (b := fun _ => "x") (w1 := []) (facts' := ("q", []) :: _); [reflexivity|left; reflexivity|reflexivity| |].
        -- intros y [<-|Hy]; [right|left; exact Hy]. eexists. split; [reflexivity|].
           apply (me_atom _ _ (fun _ => "x") _ (mkPred "q" 9 [])).
        -- simpl. intros j Hj. unfold replace_lt. simpl. intros Hl. destruct Hj as [<-|[<-|[]]].
           ++ destruct Hl as [Hl|[Hl|[Hl|[Hl|Hl]]]]; try tauto. destruct Hl as (_ & _ & i & k & E1 & E2 & Ho). cbv in Ho.
              destruct i as [|[|[|i]]]; try discriminate. destruct k as [|[|[|k]]]; try discriminate. simpl in Ho. lia.
           ++ destruct Hl as [(_ & _ & H3 & _)|[(_ & _ & Hl)|[(_ & H2 & _)|[(H1 & _)|(_ & H2 & _)]]]];
                [destruct H3; auto| |destruct H2; auto|intuition discriminate|destruct H2; auto].
              destruct Hl as (i & k & E1 & E2 & Ho). destruct i as [|[|[|i]]]; try discriminate. destruct k as [|[|[|k]]]; try discriminate.
              destruct Ho as (y & z & a & c & Ey & Ez & Ea & Ec & Hpa). injection Ey as <-. injection Ez as <-. injection Ea as <-. injection Ec as <-.
              apply below_spec in Hpa. discriminate.
  - simpl. split; [reflexivity|]. split; [|left; reflexivity].
    right. right. left. split; [simpl; auto|]. split; [simpl; intuition discriminate|].
    exists 0, 1. split; [reflexivity|]. split; [reflexivity|]. do 4 eexists. repeat (split; [reflexivity|]).
    apply t_step. left. reflexivity.
Qed.

(** Facts need not fit if an effect is quantified. *)
Definition dom_forall : string :=
  "(define (domain d) (:types a b) (:predicates (p ?x - a))" ++ nl ++
  " (:action e :parameters () :effect (forall (?y - b) (p ?y))))" ++ nl.
Definition prob_forall : string :=
  "(define (problem e) (domain d) (:objects o - b) (:htn :subtasks (and (e))) (:init))" ++ nl.
Lemma st_action_eq d p a b facts facts' w w1 g w2 w' : w = w1 ++ g :: w2 -> w' = w1 ++ w2 -> In a (d_actions d) ->
  g = (act_name a, map (fun q => b (sym_name q)) (act_params a)) ->
  (forall x, In x facts' -> In x facts \/ mentions_opt d p b (act_params a) (act_eff a) x) ->
  step d p (facts, w) (facts', w').
Proof. intros -> -> Ha -> Hx. eapply st_action; eauto. Qed.
Lemma st_method_eq d p m b facts w w1 g w2 w' : w = w1 ++ g :: w2 -> In m (d_methods d) ->
  g = (sym_name (m_task m), map (inst b (m_params m)) (m_task_terms m)) ->
  w' = w1 ++ map (inst_task b (m_params m)) (htn_subtasks (m_tn m)) ++ w2 -> respects d p b (m_params m) ->
  step d p (facts, w) (facts, w').
Proof. intros -> Hm -> -> Hr. apply st_method; auto. Qed.
Lemma me_atom_eq d p b params q x : x = inst_atom b params q -> mentions d p b params (FAtom q) x.
Proof. intros ->. apply me_atom. Qed.
Lemma callable_inv d h n formals : callable d h n formals ->
  (exists a, In a (d_actions d) /\ act_name a = n /\ formals = act_params a)
  \/ (exists t, In t (d_tasks d) /\ task_name t = n /\ formals = task_params t).
Proof. destruct 1; eauto. Qed.
Lemma root_subtype types a b : (forall s, In s (type_decls types) -> sym_name s = a -> sym_type s = None) ->
  subtype types a b -> a = b.
Proof.
  intros Hr Hs. apply clos_rt_rt1n in Hs. destruct Hs as [|c b (s & Hi & En & Et) _]; auto. rewrite (Hr s Hi En) in Et. discriminate.
Qed.
Theorem C53_quantified_effect_refuted : exists dom prob d p c, run dom (Some prob) = Ok []
  /\ @parse uni0 300 dom = Ok (ADomain d) /\ @parse uni0 300 prob = Ok (AProblem p) /\ no_clash d p
  /\ reachable d p c /\ ~ Forall (fact_fits d p) (fst c).
Proof.
  exists dom_forall, prob_forall. eexists. eexists. exists ([("p", ["o"])], []).
  split; [vm_compute; reflexivity|]. split; [vm_compute; reflexivity|]. split; [vm_compute; reflexivity|].
  split; [intros o c _ []|]. split.
  - eexists. split; [eapply in_tn with (b := fun s => s); [reflexivity|apply respects_all; constructor]|].
    apply rt_step. eapply st_action_eq with (w1 := []) (b := fun s => s); [reflexivity|reflexivity|left; reflexivity|reflexivity|].
    intros x [<-|[]]. right. eexists. split; [reflexivity|].
    eapply me_forall with (b' := fun s => if string_dec s "y" then "o" else s).
    + simpl. intros n Hn. destruct (string_dec n "y") as [->|]; auto. destruct Hn. auto.
    + apply respects_all. constructor; [|constructor].
      eapply value_object with (o := mkSym "o" 1 (Some "b") (Some 1%N)); [left; reflexivity|reflexivity|reflexivity].
    + apply me_atom_eq. vm_compute. reflexivity.
  - intros Hf. inversion Hf as [|x l (def & Hi & En & Hv) _]; subst. destruct Hi as [<-|[]]. simpl in Hv.
    inversion Hv as [|y z l1 l2 (t & Hde & Hfi) _]; subst. destruct Hde as [o Ho _ <-|c Hu Hfn _].
    + destruct Ho as [<-|[]]. simpl in Hfi. apply root_subtype in Hfi; [discriminate|].
      intros s [<-|[<-|[]]]; simpl; auto; discriminate.
    + inversion Hfn.
Qed.

(** Nor need tasks fit if an object has the name of a constant. *)
Definition dom_clash : string :=
  "(define (domain d) (:types a b) (:constants k - a) (:task t :parameters ())" ++ nl ++
  " (:action e :parameters (?x - a))" ++ nl ++
  " (:method m :parameters () :task (t) :ordered-subtasks (and (e k))))" ++ nl.
Definition prob_clash : string :=
  "(define (problem e) (domain d) (:objects k - b) (:htn :subtasks (and (t))) (:init))" ++ nl.
Theorem C53_clash_refuted : exists dom prob d p c, run dom (Some prob) = Ok []
  /\ @parse uni0 300 dom = Ok (ADomain d) /\ @parse uni0 300 prob = Ok (AProblem p)
  /\ reachable d p c /\ ~ Forall (task_fits d p) (snd c).
Proof.
  exists dom_clash, prob_clash. eexists. eexists. exists ([], [("e", ["k"])]).
  split; [vm_compute; reflexivity|]. split; [vm_compute; reflexivity|]. split; [vm_compute; reflexivity|]. split.
  - eexists. split; [eapply in_tn with (b := fun s => s); [reflexivity|apply respects_all; constructor]|].
    apply rt_step. eapply st_method_eq with (w1 := []) (b := fun s => s);
      [reflexivity|left; reflexivity|reflexivity|reflexivity|apply respects_all; constructor].
  - intros Hf. inversion Hf as [|x l (formals & Hca & Hv) _]; subst. simpl in *.
    assert (formals = [mkSym "x" 2 (Some "a") (Some 2%N)]) as ->.
    { apply callable_inv in Hca as [(a & [<-|[]] & _ & ->)|(t & [<-|[]] & En & _)]; [reflexivity|discriminate]. }
    inversion Hv as [|y z l1 l2 (t & Hde & Hfi) _]; subst. destruct Hde as [o Ho _ <-|c Hu Hfn _].
    + destruct Ho as [<-|[]]. simpl in Hfi. apply root_subtype in Hfi; [discriminate|].
      intros s [<-|[<-|[]]]; simpl; auto; discriminate.
    + exact (Hu _ (or_introl eq_refl) eq_refl).
Qed.

(** Equalities are not checked at all: their terms may be declared nowhere. *)
Theorem C53_equality_unchecked_refuted : exists dom d a u v, run dom None = Ok []
  /\ @parse uni0 300 dom = Ok (ADomain d) /\ In a (d_actions d) /\ act_pre a = Some (FEquals u v)
  /\ unnamed sym_name v (act_params a) /\ unnamed sym_name v (constants_of d).
Proof.
  exists ("(define (domain d) (:action e :parameters (?x) :precondition (= ?x ?nowhere)))" ++ nl)%string.
  eexists. eexists. eexists. eexists.
  split; [vm_compute; reflexivity|]. split; [vm_compute; reflexivity|]. split; [left; reflexivity|]. split; [reflexivity|].
  split; [intros x [<-|[]]; discriminate|intros x []].
Qed.

Definition exec_theorems := (@C53_tasks_fit, @C53_facts_fit, @C53_action_conditions_fit, @C53_method_conditions_fit, @C53_goal_fits,
  @C53_quantified_effect_refuted, @C53_clash_refuted, @C53_equality_unchecked_refuted,
  @C54_linearizable, @C54_some_task_is_first, @C54_actions_can_be_performed, @C54_ordered_executions, @C54_cycle_unsatisfiable).
