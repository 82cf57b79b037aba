(** C86: a problem is checked like a part of its domain.
    Specification: SpecFold.v. *)
From Coq Require Import String Ascii NArith Bool List Lia PeanoNat Relations.
From Verif Require Import Base Token Lexer Errors Ast Parser Graph Semantic Tdg Api AstLines StrFacts SpecLex SpecGrammar
  PropsLex PropsParse SpecSem SemProofs SemFacts VerifyTop PropsSem SpecExt PropsExt SpecExec SpecFold.
Import ListNotations.
Open Scope list_scope.
Open Scope nat_scope.

Lemma forall2_impl {A B} (P Q : A -> B -> Prop) l l' : (forall x y, P x y -> Q x y) -> Forall2 P l l' -> Forall2 Q l l'.
Proof. induction 2; constructor; auto. Qed.

(** ** What names denote *)
Section Names.
Variables (d : domain_ast) (p : problem_ast).
Hypothesis Hs : separate d p.
Hypothesis Hn : NoDup (map sym_name (p_objects p)).
Notation all := (constants_of d ++ p_objects p).

Lemma first_app n l l' (x : symbol) : first_named sym_name n (l ++ l') x ->
  first_named sym_name n l x \/ (unnamed sym_name n l /\ first_named sym_name n l' x).
Proof.
  induction l as [|y l IH]; intros Hx; [right; split; [intros ? []|exact Hx]|].
  cbn [app] in Hx. inversion Hx; subst.
  - left. constructor. auto.
  - destruct (IH H3) as [Hl | [Hu Hl]]; [left; constructor; auto|right; split; auto].
    intros z [<- | Hz]; auto.
Qed.
Lemma first_later n l l' (x : symbol) : unnamed sym_name n l -> first_named sym_name n l' x -> first_named sym_name n (l ++ l') x.
Proof.
  intros Hu Hx. induction l as [|y l IH]; auto. cbn. constructor; [apply Hu; left; auto|].
  apply IH. intros z Hz. apply Hu. right; auto.
Qed.
Lemma first_is n l (x : symbol) : first_named sym_name n l x -> In x l /\ sym_name x = n.
Proof. induction 1 as [x l E|y l x E _ [I J]]; split; auto; [left|right]; auto. Qed.
Lemma is_first l (x : symbol) : NoDup (map sym_name l) -> In x l -> first_named sym_name (sym_name x) l x.
Proof.
  intros Hd. induction l as [|y l IH]; intros Hi; [destruct Hi|]. cbn in Hd. inversion Hd; subst.
  destruct Hi as [<- | Hi]; [constructor; auto|]. constructor; auto.
  intros E. apply H1. rewrite E. apply in_map. auto.
Qed.
Lemma named_first n l : (exists x : symbol, first_named sym_name n l x) \/ unnamed sym_name n l.
Proof.
  induction l as [|y l IH]; [right; intros ? []|]. destruct (String.eqb_spec (sym_name y) n) as [E|E].
  - left. exists y. constructor. auto.
  - destruct IH as [(x & Hx) | Hu]; [left; exists x; constructor; auto|right; intros z [<- | Hz]; auto].
Qed.

(** As a constant at the end of the domain an object is the same. *)
Lemma rest_iff n t : (exists c, first_named sym_name n all c /\ sym_type c = t) <-> object_denotes d p n t.
Proof.
  split.
  - intros (c & Hc & <-). apply first_app in Hc as [Hc | [Hu Hc]].
    + apply od_const with c; auto. intros o Ho E. apply first_is in Hc as [Hc Ec].
      apply (sep_constants _ _ Hs o c); auto. congruence.
    + apply first_is in Hc as [Hc Ec]. apply od_object with c; auto.
  - intros [o Ho En Et|c Hu Hc Et].
    + exists o. split; auto. apply first_later.
      * intros c Hc E. apply (sep_constants _ _ Hs o c); auto. congruence.
      * subst n. apply is_first; auto.
    + exists c. split; auto. apply first_named_app. auto.
Qed.
Lemma object_iff n t : denotes [] all n t <-> object_denotes d p n t.
Proof.
  rewrite <- rest_iff. split.
  - intros [q [] _ _|c _ Hc Et]. eauto.
  - intros (c & Hc & Et). apply den_const with c; auto. intros ? [].
Qed.
Lemma term_iff tn n t : p_init_tn p = Some tn -> (denotes (tn_params tn) all n t <-> term_denotes d p (tn_params tn) n t).
Proof.
  intros Et. destruct (sep_params _ _ Hs tn Et) as [Np Hp]. split.
  - intros [q Hq En Ty|c Hu Hc Ty].
    + subst n. apply td_param with q; auto; [|apply is_first; auto].
      intros o Ho E. apply (Hp o q); auto.
    + assert (object_denotes d p n t) as [o Ho En Eo|c' Hc' Hf Ec] by (apply rest_iff; eauto).
      * apply td_object with o; auto.
      * apply td_const with c'; auto.
  - intros [o Ho En Ty|q Hu Hq Ty|c Hu Hv Hc Ty].
    + assert (object_denotes d p n t) as Hd by (apply od_object with o; auto).
      apply rest_iff in Hd as (c & Hc & Ec). apply den_const with c; auto.
      intros q Hq E. apply (Hp o q); auto. congruence.
    + apply first_is in Hq as [Hq En]. apply den_param with q; auto.
    + assert (object_denotes d p n t) as Hd by (apply od_const with c; auto).
      apply rest_iff in Hd as (c' & Hc' & Ec). apply den_const with c'; auto.
Qed.
End Names.

(** ** Formulas *)
Lemma simple_supported g : simple g -> supported g.
Proof. intros Hg h Hh. specialize (Hg h Hh). destruct h; auto. Qed.
Lemma simple_open g h : simple g -> within h g -> within_open h g.
Proof.
  intros Hg Hh. apply clos_rt_rt1n in Hh. unfold within_open.
  induction Hh as [|x y z Hxy Hyz IH]; [apply rt_refl|].
  eapply rt_trans; [apply rt_step|apply IH; auto]. constructor; auto.
  intros v k. apply clos_rt1n_rt in Hyz. specialize (Hg y Hyz). split; intros ->; exact Hg.
Qed.
Lemma open_within g h : within_open h g -> within h g.
Proof. induction 1 as [? ? []|?|]; [apply rt_step; auto|apply rt_refl|eapply rt_trans; eauto]. Qed.
Lemma conj_within fs h : within h (FAnd fs) -> h = FAnd fs \/ exists f, In f fs /\ within h f.
Proof.
  intros Hh. apply clos_rt_rtn1 in Hh. inversion Hh as [|y z Hy Hr]; subst; auto.
  inversion Hy; subst. right. eexists. split; eauto. apply clos_rtn1_rt. auto.
Qed.
Lemma atom_within q h : within h (FAtom q) -> h = FAtom q.
Proof. intros Hh. apply clos_rt_rtn1 in Hh. inversion Hh as [|y z Hy Hr]; subst; auto. inversion Hy. Qed.
Lemma facts_simple qs : simple (FAnd (map FAtom qs)).
Proof.
  intros h Hh. apply conj_within in Hh as [-> | (f & Hf & Hh)]; auto.
  apply in_map_iff in Hf as (q & <- & _). apply atom_within in Hh as ->. exact I.
Qed.
Lemma facts_atoms qs q : within_open (FAtom q) (FAnd (map FAtom qs)) <-> In q qs.
Proof.
  split.
  - intros Hh. apply open_within, conj_within in Hh as [E|(f & Hf & Hh)]; [discriminate|].
    apply in_map_iff in Hf as (q' & <- & Hq). apply atom_within in Hh. congruence.
  - intros Hq. apply rt_step. constructor; [apply ch_and; apply in_map; auto|split; discriminate].
Qed.

Section Fold.
Variables (d d' : domain_ast) (p : problem_ast) (start : action) (top : task) (ms : list method).
Hypothesis Hf : folded d p d' start top ms.
Hypothesis Hw : new_names d p start top ms.
Hypothesis Hs : separate d p.
Hypothesis Hn : NoDup (map sym_name (p_objects p)).

Lemma facts_iff g : simple g -> (formula_ok d' [] g <-> forall q, within_open (FAtom q) g -> fact_ok d p q).
Proof.
  intros Hg. unfold formula_ok, fact_ok, args_ok.
  rewrite (fold_types _ _ _ _ _ _ Hf), (fold_preds _ _ _ _ _ _ Hf), (fold_constants _ _ _ _ _ _ Hf).
  split.
  - intros (_ & _ & _ & Ha) q Hq. destruct (Ha q Hq) as (def & D1 & D2 & D3). exists def. split; auto. split; auto.
    eapply forall2_impl; [|exact D3]. cbn. intros v f (t & Ht & Hfit). exists t. split; auto. apply object_iff; auto.
  - intros Ha. split; [apply simple_supported; auto|]. split.
    { intros q Hq. destruct (Ha q (simple_open _ _ Hg Hq)) as (def & D1 & D2 & D3). exists def. split; auto. split; auto.
      clear - D3. induction D3; cbn; auto. }
    split; [intros ? ? []|].
    intros q Hq. destruct (Ha q Hq) as (def & D1 & D2 & D3). exists def. split; auto. split; auto.
    eapply forall2_impl; [|exact D3]. cbn. intros v f (t & Ht & Hfit). exists t. split; auto. apply object_iff; auto.
Qed.
Lemma call_iff n fs : n <> act_name start -> n <> task_name top -> (callable d' false n fs <-> callable d false n fs).
Proof.
  intros N1 N2. split.
  - intros Hc. inversion Hc as [a Ha E1 E2|h t Ht Hu E1 E2 E3]; subst.
    + rewrite (fold_actions _ _ _ _ _ _ Hf) in Ha. apply in_app_or in Ha as [Ha | [<- | []]]; [constructor; auto|congruence].
    + rewrite (fold_tasks _ _ _ _ _ _ Hf) in Ht. apply in_app_or in Ht as [Ht | [<- | []]]; [|congruence].
      constructor; auto. intros _ a Ha. apply Hu; auto. rewrite (fold_actions _ _ _ _ _ _ Hf). apply in_or_app. auto.
  - intros Hc. inversion Hc as [a Ha E1 E2|h t Ht Hu E1 E2 E3]; subst.
    + constructor. rewrite (fold_actions _ _ _ _ _ _ Hf). apply in_or_app. auto.
    + constructor; [rewrite (fold_tasks _ _ _ _ _ _ Hf); apply in_or_app; auto|].
      intros _ a Ha. rewrite (fold_actions _ _ _ _ _ _ Hf) in Ha. apply in_app_or in Ha as [Ha | [<- | []]]; [apply Hu; auto|congruence].
Qed.
Lemma sub_iff t s : p_init_tn p = Some t -> In s (htn_subtasks (itn_tn t)) ->
  (call_ok d' false (tn_params t) (sub_task s) (sub_terms s) <-> init_task_ok d p t s).
Proof.
  intros Et Hi. destruct (new_subtasks _ _ _ _ _ Hw t s Et Hi) as [N1 N2]. unfold call_ok, init_task_ok, args_ok.
  rewrite (fold_types _ _ _ _ _ _ Hf), (fold_constants _ _ _ _ _ _ Hf).
  split; intros (fs & Hc & Ha); exists fs; (split; [apply call_iff; auto|]);
    (eapply forall2_impl; [|exact Ha]); cbn; intros v f (ty & Ht & Hfit); exists ty; (split; [apply term_iff; auto|auto]).
Qed.
Lemma fold_extended : extended d d' [] (p_objects p) [] [top] [start] ms.
Proof. destruct Hf. constructor; rewrite ?app_nil_r; congruence. Qed.
Lemma fold_hides : hides_none d [start].
Proof. intros t a Ht [<- | []] E. destruct (new_action _ _ _ _ _ Hw) as [_ H]. apply (H t); auto. Qed.

Lemma fold_iff : domain_ok d -> (forall g, p_goal p = Some g -> simple g) -> types_declared (d_types d) (p_objects p) ->
  (problem_ok d p <-> additions_ok d d' [] [top] [start] ms).
Proof.
  intros Hd Hg Hty. pose proof (fold_network _ _ _ _ _ _ Hf) as Hnet. unfold problem_ok.
  assert (Forall (fact_ok d p) (p_init p) <-> formula_ok d' [] (FAnd (map FAtom (p_init p)))) as Hfacts.
  { rewrite (facts_iff _ (facts_simple _)), Forall_forall. setoid_rewrite facts_atoms. reflexivity. }
  assert (match p_goal p with None => True | Some g => forall q, within_open (FAtom q) g -> fact_ok d p q end
          <-> opt_formula_ok d' [] (p_goal p)) as Hgoal.
  { unfold opt_formula_ok. destruct (p_goal p) as [g|]; [|tauto]. symmetry. apply facts_iff. auto. }
  assert (match p_init_tn p with None => True
          | Some t => order_acyclic (htn_orderings (itn_tn t)) /\ Forall (init_task_ok d p t) (htn_subtasks (itn_tn t)) end
          <-> Forall (method_ok d') ms) as Htn.
  { destruct (p_init_tn p) as [t|] eqn:Et; [|rewrite Hnet; split; auto].
    destruct Hnet as (m & Em & M1 & M2 & M3 & M4 & M5).
    assert (Forall (init_task_ok d p t) (htn_subtasks (itn_tn t)) <->
            Forall (fun s => call_ok d' false (tn_params t) (sub_task s) (sub_terms s)) (htn_subtasks (itn_tn t))) as Hsub.
    { rewrite !Forall_forall. split; intros H s Hin; apply (sub_iff t s); auto. }
    rewrite Hsub, Em. split.
    - intros [Ho Hc]. constructor; auto. unfold method_ok. rewrite M2, M3, M4, M5.
      split; [apply (sep_params _ _ Hs t Et)|]. split; [exact I|]. split; [|split; auto].
      exists (task_params top). split.
      + rewrite M1. apply call_task; [rewrite (fold_tasks _ _ _ _ _ _ Hf); apply in_or_app; right; left; auto|discriminate].
      + rewrite (fold_top _ _ _ _ _ _ Hf). constructor.
    - intros H. inversion H as [|? ? Hm _]; subst. destruct Hm as (_ & _ & _ & A & B).
      rewrite M3, M5 in A. rewrite M5 in B. auto. }
  rewrite Hfacts, Hgoal, Htn. split.
  - intros (_ & _ & F & N & G). destruct Hd as (O1 & O2 & _). constructor.
    + rewrite (fold_reqs _ _ _ _ _ _ Hf). auto.
    + rewrite (fold_types _ _ _ _ _ _ Hf). auto.
    + split; [constructor|intros ? ? _ []].
    + constructor.
    + split; [repeat constructor; auto|]. intros x y Hx [<- | []] E. apply (proj2 (new_task _ _ _ _ _ Hw) x); auto.
    + constructor; auto. rewrite (fold_top _ _ _ _ _ _ Hf). intros ? ? [].
    + split; [repeat constructor; auto|]. intros x y Hx [<- | []] E. apply (proj1 (new_action _ _ _ _ _ Hw) x); auto.
    + constructor; auto. unfold action_ok. rewrite (fold_params _ _ _ _ _ _ Hf), (fold_goal _ _ _ _ _ _ Hf), (fold_facts _ _ _ _ _ _ Hf).
      split; [constructor|]. split; auto.
    + split; [|intros x y Hx Hy; apply (new_methods _ _ _ _ _ Hw); auto].
      destruct (p_init_tn p); [destruct Hnet as (m & -> & _); repeat constructor; auto|rewrite Hnet; constructor].
    + auto.
  - intros [_ _ _ _ _ _ _ A _ B]. inversion A as [|? ? Ha _]; subst. destruct Ha as (_ & Hp & He).
    rewrite (fold_params _ _ _ _ _ _ Hf), (fold_goal _ _ _ _ _ _ Hf) in Hp.
    rewrite (fold_params _ _ _ _ _ _ Hf), (fold_facts _ _ _ _ _ _ Hf) in He. auto.
Qed.
End Fold.

(** ** Executions *)
Section Runs.
Variables (d d' : domain_ast) (p p' : problem_ast) (start : action) (top : task) (ms : list method).
Hypothesis Hf : folded d p d' start top ms.
Hypothesis Hs : separate d p.
Hypothesis Hn : NoDup (map sym_name (p_objects p)).
Hypothesis Hp' : p_objects p' = [].

Lemma value_iff o f : value d' p' o f <-> value d p o f.
Proof.
  assert (forall t, object_denotes d' p' o t <-> object_denotes d p o t) as Ho.
  { intros t. rewrite <- (rest_iff d p Hs Hn), <- (fold_constants _ _ _ _ _ _ Hf). split.
    - intros [x Hx _ _|c _ Hc Et]; [rewrite Hp' in Hx; destruct Hx|eauto].
    - intros (c & Hc & Et). apply od_const with c; auto. rewrite Hp'. intros ? []. }
  unfold value. rewrite (fold_types _ _ _ _ _ _ Hf). setoid_rewrite Ho. reflexivity.
Qed.
Lemma respects_iff b l : respects d' p' b l <-> respects d p b l.
Proof. unfold respects. setoid_rewrite value_iff. reflexivity. Qed.
Lemma mentions_fold b l f x : mentions d p b l f x -> mentions d' p' b l f x.
Proof.
  induction 1 as [| |b b' l vs f x Hb Hr Hm IH|b b' l vs f x Hb Hr Hm IH].
  - constructor.
  - econstructor; eauto.
  - eapply me_forall; eauto. apply respects_iff; auto.
  - eapply me_exists; eauto. apply respects_iff; auto.
Qed.
Lemma step_fold c c' : step d p c c' -> step d' p' c c'.
Proof.
  intros [m b facts w1 w2 Hm Hr|a b facts facts' w1 w2 Ha He].
  - apply st_method; [rewrite (fold_methods _ _ _ _ _ _ Hf); apply in_or_app; auto|apply respects_iff; auto].
  - apply st_action; [rewrite (fold_actions _ _ _ _ _ _ Hf); apply in_or_app; auto|].
    intros x Hx. destruct (He x Hx) as [H | (f & Ef & Hm)]; auto. right. exists f. split; auto. apply mentions_fold; auto.
Qed.
Lemma visible_all t : p_init_tn p = Some t -> visible p t = tn_params t.
Proof.
  intros Et. destruct (sep_params _ _ Hs t Et) as [_ H]. unfold visible. revert H. generalize (tn_params t) as l.
  induction l as [|q l IH]; intros H; auto. cbn.
  destruct (in_dec string_dec (sym_name q) (map sym_name (p_objects p))) as [Hi|_].
  - apply in_map_iff in Hi as (o & E & Ho). exfalso. apply (H o q); auto. left; auto.
  - f_equal. apply IH. intros o q' Ho Hq'. apply H; auto. right; auto.
Qed.
Definition start_config : config :=
  ([], (act_name start, []) :: match p_init_tn p with Some _ => [(task_name top, [])] | None => [] end).
Lemma first_step w : step d' p' ([], (act_name start, []) :: w) (facts0 p, w).
Proof.
  pose proof (st_action d' p' start (fun _ => ""%string) [] (facts0 p) [] w) as H.
  rewrite (fold_params _ _ _ _ _ _ Hf), (fold_facts _ _ _ _ _ _ Hf) in H. cbn [map app] in H. apply H.
  - rewrite (fold_actions _ _ _ _ _ _ Hf). apply in_or_app. right. left. auto.
  - intros x Hx. right. eexists. split; [reflexivity|]. apply in_map_iff in Hx as (q & <- & Hq).
    apply me_child with (FAtom q); [constructor; [apply ch_and, in_map; auto|split; discriminate]|].
    replace (pred_name q, map sym_name (pred_vars q)) with (inst_atom (fun _ => ""%string) [] q); [constructor|].
    reflexivity.
Qed.
Lemma runs_fold c : reachable d p c -> clos_refl_trans config (step d' p') start_config c.
Proof.
  intros (c0 & Hi & Hr). apply rt_trans with c0.
  - unfold start_config. pose proof (fold_network _ _ _ _ _ _ Hf) as Hnet. destruct Hi as [E|t b E Hb]; rewrite E in *.
    + apply rt_step, first_step.
    + eapply rt_trans; [apply rt_step, first_step|]. destruct Hnet as (m & Em & M1 & M2 & M3 & _ & M5).
      rewrite (visible_all t E) in *.
      assert (step d' p' (facts0 p, [] ++ (sym_name (m_task m), map (inst b (m_params m)) (m_task_terms m)) :: [])
                         (facts0 p, [] ++ map (inst_task b (m_params m)) (htn_subtasks (m_tn m)) ++ [])) as H.
      { apply st_method; [rewrite (fold_methods _ _ _ _ _ _ Hf), Em; apply in_or_app; right; left; auto|].
        rewrite M3. apply respects_iff. auto. }
      rewrite M1, M2, M3, M5, app_nil_r in H. apply rt_step. exact H.
  - clear Hi. induction Hr as [x y H| |x y z _ IH1 _ IH2]; [apply rt_step, step_fold; auto|apply rt_refl|eapply rt_trans; [apply IH1|apply IH2]].
Qed.

(** Back: the added tasks do not turn up again. *)
Hypothesis Hw : new_names d p start top ms.
Hypothesis Hd : domain_ok d.
Lemma mentions_unfold b l f x : mentions d' p' b l f x -> mentions d p b l f x.
Proof.
  induction 1 as [| |b b' l vs f x Hb Hr Hm IH|b b' l vs f x Hb Hr Hm IH].
  - constructor.
  - econstructor; eauto.
  - eapply me_forall; eauto. apply respects_iff; auto.
  - eapply me_exists; eauto. apply respects_iff; auto.
Qed.
Definition none_new (c : config) : Prop := forall x, In x (snd c) -> fst x <> act_name start /\ fst x <> task_name top.
Lemma initial_none c : initial d p c -> none_new c.
Proof.
  intros [E|t b E Hb] x Hx; [destruct Hx|]. apply in_map_iff in Hx as (s & <- & Hi). apply (new_subtasks _ _ _ _ _ Hw t s); auto.
Qed.
Lemma callable_old h n fs : callable d h n fs -> n <> act_name start /\ n <> task_name top.
Proof.
  intros [a Ha|h' t Ht _]; split.
  - apply (proj1 (new_action _ _ _ _ _ Hw)); auto.
  - apply (proj1 (new_task _ _ _ _ _ Hw)); auto.
  - apply (proj2 (new_action _ _ _ _ _ Hw)); auto.
  - apply (proj2 (new_task _ _ _ _ _ Hw)); auto.
Qed.
Lemma step_unfold c c' : step d' p' c c' -> none_new c -> step d p c c' /\ none_new c'.
Proof.
  intros [m b facts w1 w2 Hm Hr|a b facts facts' w1 w2 Ha He] Hc.
  - assert (In m (d_methods d)) as Hm'.
    { rewrite (fold_methods _ _ _ _ _ _ Hf) in Hm. apply in_app_or in Hm as [Hm|Hm]; auto. exfalso.
      pose proof (fold_network _ _ _ _ _ _ Hf) as Hnet. destruct (p_init_tn p) as [t|]; [|rewrite Hnet in Hm; destruct Hm].
      destruct Hnet as (m0 & Em & M1 & _). rewrite Em in Hm. destruct Hm as [<- | []].
      destruct (Hc (sym_name (m_task m0), map (inst b (m_params m0)) (m_task_terms m0))) as [_ N]; [cbn; apply in_or_app; right; left; auto|].
      apply N; auto. }
    split; [apply st_method; auto; apply respects_iff; auto|].
    intros x Hx. cbn in Hx. apply in_app_or in Hx as [Hx|Hx]; [apply Hc; cbn; apply in_or_app; auto|].
    apply in_app_or in Hx as [Hx|Hx]; [|apply Hc; cbn; apply in_or_app; right; right; auto].
    apply in_map_iff in Hx as (s & <- & Hi). pose proof Hd as Hms. unfold domain_ok in Hms. decompose [and] Hms.
    match goal with H : Forall (method_ok d) _ |- _ => rewrite Forall_forall in H; destruct (H m Hm') as (_ & _ & _ & Hsub & _) end.
    rewrite Forall_forall in Hsub. destruct (Hsub s Hi) as (fs & Hcall & _). apply (callable_old _ _ _ Hcall).
  - assert (In a (d_actions d)) as Ha'.
    { rewrite (fold_actions _ _ _ _ _ _ Hf) in Ha. apply in_app_or in Ha as [Ha | [<- | []]]; auto. exfalso.
      destruct (Hc (act_name start, map (fun q => b (sym_name q)) (act_params start))) as [N _]; [cbn; apply in_or_app; right; left; auto|].
      apply N; auto. }
    split.
    + apply st_action; auto. intros x Hx. destruct (He x Hx) as [H | (f & Ef & Hm)]; auto.
      right. exists f. split; auto. apply mentions_unfold; auto.
    + intros x Hx. apply Hc. cbn in *. apply in_app_or in Hx as [Hx|Hx]; apply in_or_app; auto. right. right. auto.
Qed.
Lemma runs_unfold c c' : clos_refl_trans config (step d' p') c c' -> none_new c -> clos_refl_trans config (step d p) c c'.
Proof.
  intros H. apply clos_rt_rt1n in H. induction H as [|x y z Hxy _ IH]; intros Hc; [apply rt_refl|].
  destruct (step_unfold _ _ Hxy Hc) as [H1 H2]. eapply rt_trans; [apply rt_step, H1|]. auto.
Qed.
End Runs.

Section Props.
Context `{Unicode}.
Variable he : hash_env.
Hypothesis Hhe : hash_env_ok he.
Notation accepts dom prob := (exists ws, settles (fun k => verify he k dom prob) (Ok ws)).

(** ** C86 *)
(** A problem of an accepted domain is accepted exactly if its objects have
    different names and declared types (which is not checked of constants) and
    the domain with the problem written into it is accepted. *)
Theorem C86_folded : forall n dom dom' prob d d' p start top ms,
  parse n dom = Ok (ADomain d) -> parse n dom' = Ok (ADomain d') -> parse n prob = Ok (AProblem p) ->
  folded d p d' start top ms -> new_names d p start top ms -> separate d p -> (forall g, p_goal p = Some g -> simple g) ->
  accepts dom None ->
  (accepts dom (Some prob) <->
   accepts dom' None /\ NoDup (map sym_name (p_objects p)) /\ types_declared (d_types d) (p_objects p)).
Proof.
  intros n dom dom' prob d d' p start top ms E1 E2 E3 Hf Hw Hs Hg Ha. pose proof Ha as Hd.
  apply (domain_verdict he Hhe n dom d E1) in Hd. rewrite (C22_problem_decided he Hhe n dom d prob p E1 Hd E3).
  rewrite (C55_extension he Hhe n dom dom' d d' _ _ _ _ _ _ E1 E2 (fold_extended _ _ _ _ _ _ Hf) (fold_hides _ _ _ _ _ Hw) Ha).
  split.
  - intros Hp. pose proof Hp as (Hty & Hn & _). split; auto. eapply fold_iff; eauto.
  - intros (Hx & Hn & Hty). eapply fold_iff; eauto.
Qed.
(** And the executions of an accepted problem are those of that domain: perform
    the action, apply the method, and go on in the same ways. *)
Theorem C86_executions : forall n dom prob d d' p p' start top ms c0 c,
  parse n dom = Ok (ADomain d) -> parse n prob = Ok (AProblem p) -> accepts dom (Some prob) ->
  folded d p d' start top ms -> new_names d p start top ms -> separate d p -> p_objects p' = [] ->
  initial d p c0 ->
  clos_refl_trans config (step d' p')
    ([], (act_name start, []) :: match p_init_tn p with Some _ => [(task_name top, [])] | None => [] end) c0
  /\ (clos_refl_trans config (step d' p') c0 c <-> clos_refl_trans config (step d p) c0 c).
Proof.
  intros n dom prob d d' p p' start top ms c0 c E1 E2 (ws & _ & k & Hk) Hf Hw Hs Hp' Hi. specialize (Hk k (le_n k)).
  apply verify_ok_inv in Hk as (d1 & Ed & _ & Hd & q & Eq & Hq); auto.
  rewrite <- (same_problem _ _ _ _ _ E2 Eq) in Hq. rewrite <- (same_domain _ _ _ _ _ E1 Ed) in Hd. destruct Hq as (_ & Hn & _).
  split; [eapply runs_fold; eauto; exists c0; split; [auto|apply rt_refl]|]. split.
  - intros H1. eapply runs_unfold; eauto. eapply initial_none; eauto.
  - intros H1. clear Hi. induction H1 as [x y H1| |x y z _ IH1 _ IH2]; [apply rt_step; eapply step_fold; eauto|apply rt_refl|].
    eapply rt_trans; eauto.
Qed.
End Props.

(** ** A case, and why the conditions are needed *)
Open Scope string_scope.
Definition fd_dom (constants more : string) : string :=
  "(define (domain d) (:types a) (:constants " ++ constants ++ ") (:predicates (q ?x - a)) (:task t :parameters (?x - a))" ++
  " (:action e :parameters (?x - a) :effect (q ?x))" ++
  " (:method m :parameters (?x - a) :task (t ?x) :ordered-subtasks (and (e ?x)))" ++ nl ++ more ++ ")" ++ nl.
Definition fd_prob (objects params goal : string) : string :=
  "(define (problem e) (:domain d) (:objects " ++ objects ++ ")" ++ nl ++
  " (:htn :parameters (" ++ params ++ ") :ordered-subtasks (and (t ?y) (t o))) (:init (q o) (q h)) (:goal " ++ goal ++ "))" ++ nl.
Definition fd_more (params goal : string) : string :=
  " (:action start :parameters () :precondition " ++ goal ++ " :effect (and (q o) (q h)))" ++
  " (:task top :parameters ()) (:method tops :parameters (" ++ params ++ ") :task (top) :ordered-subtasks (and (t ?y) (t o)))".
Open Scope list_scope.
Lemma simple_atom q : simple (FAtom q).
Proof. intros h Hh. apply atom_within in Hh as ->. exact I. Qed.
Example C86_example : exists d d' p start top ms,
  @parse uni0 300 (fd_dom "h - a" "") = Ok (ADomain d) /\ @parse uni0 300 (fd_dom "h - a o - a" (fd_more "?y - a" "(q h)")) = Ok (ADomain d')
  /\ @parse uni0 300 (fd_prob "o - a" "?y - a" "(q h)") = Ok (AProblem p)
  /\ folded d p d' start top ms /\ new_names d p start top ms /\ separate d p /\ (forall g, p_goal p = Some g -> simple g)
  /\ length ms = 1 /\ length (p_init p) = 2
  /\ run (fd_dom "h - a" "") (Some (fd_prob "o - a" "?y - a" "(q h)")) = Ok []
  /\ run (fd_dom "h - a o - a" (fd_more "?y - a" "(q h)")) None = Ok [].
Proof.
  do 5 eexists. eexists [_]. split; [vm_compute; reflexivity|]. split; [vm_compute; reflexivity|]. split; [vm_compute; reflexivity|].
  split.
  { constructor; try reflexivity. eexists. split; [reflexivity|]. repeat split. }
  split.
  { constructor.
    - split; intros x [<- | []]; discriminate.
    - split; intros x [<- | []]; discriminate.
    - discriminate.
    - intros m x [<- | []] [<- | []]. discriminate.
    - intros t s E Hi. injection E as <-. destruct Hi as [<- | [<- | []]]; split; discriminate. }
  split.
  { constructor; [intros o c [<- | []] [<- | []]; discriminate|]. intros t E. injection E as <-.
    split; [repeat constructor; auto|]. intros o q [<- | []] [<- | []]. discriminate. }
  split; [intros g E; injection E as <-; apply simple_atom|].
  split; [reflexivity|]. split; [reflexivity|]. split; vm_compute; reflexivity.
Qed.
(** Quantified goals are not checked, quantified preconditions are; objects hide
    parameters of the initial task network, constants do not hide those of a method. *)
Theorem C86_goal_refuted : exists d d' p start top ms,
  @parse uni0 300 (fd_dom "h - a" "") = Ok (ADomain d) /\ @parse uni0 300 (fd_dom "h - a o - a" (fd_more "?y - a" "(forall (?z) (r ?z))")) = Ok (ADomain d')
  /\ @parse uni0 300 (fd_prob "o - a" "?y - a" "(forall (?z) (r ?z))") = Ok (AProblem p)
  /\ folded d p d' start top ms
  /\ run (fd_dom "h - a" "") (Some (fd_prob "o - a" "?y - a" "(forall (?z) (r ?z))")) = Ok []
  /\ run_error (fd_dom "h - a o - a" (fd_more "?y - a" "(forall (?z) (r ?z))")) None = Some (ESem (UndefinedPredicate (mkUndef "r" 2))).
Proof.
  do 5 eexists. eexists [_]. split; [vm_compute; reflexivity|]. split; [vm_compute; reflexivity|]. split; [vm_compute; reflexivity|].
  split; [constructor; try reflexivity; eexists; split; [reflexivity|]; repeat split|]. split; vm_compute; reflexivity.
Qed.
Theorem C86_hidden_refuted : exists d d' p start top ms,
  @parse uni0 300 (fd_dom "h - a" "") = Ok (ADomain d) /\ @parse uni0 300 (fd_dom "h - a o y - a" (fd_more "?y" "(q h)")) = Ok (ADomain d')
  /\ @parse uni0 300 (fd_prob "o y - a" "?y" "(q h)") = Ok (AProblem p)
  /\ folded d p d' start top ms
  /\ run (fd_dom "h - a" "") (Some (fd_prob "o y - a" "?y" "(q h)")) = Ok []
  /\ run_error (fd_dom "h - a o y - a" (fd_more "?y" "(q h)")) None <> None.
Proof.
  do 5 eexists. eexists [_]. split; [vm_compute; reflexivity|]. split; [vm_compute; reflexivity|]. split; [vm_compute; reflexivity|].
  split; [constructor; try reflexivity; eexists; split; [reflexivity|]; repeat split|]. split; [vm_compute; reflexivity|vm_compute; discriminate].
Qed.
Definition fold_theorems := (@C86_folded, @C86_executions, C86_goal_refuted, C86_hidden_refuted).
