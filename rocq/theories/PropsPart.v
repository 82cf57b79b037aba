(** C76: faults are local to one part.  Specification: SpecPart.v. *)
From Coq Require Import String NArith Bool List Lia PeanoNat Relations Operators_Properties.
From Verif Require Import Base Token Lexer Errors Ast AstRel FormulaInd Parser ParserProofs Graph Semantic Tdg Api SpecLex SpecPrint PrintText PrintSound SpecSem SemFacts SemDomain SemProblem
  SpecSim SimSem SimTop VerifyTop SpecUnused SpecPart PropsLex PropsParse PropsSem PropsUnused PropsMove.
Import ListNotations.
Open Scope string_scope.
Open Scope list_scope.
Open Scope nat_scope.

(** ** Formulas *)
Lemma thins_in g gs fs : thins gs fs -> In g gs -> exists f, In f fs /\ thin g f.
Proof. intros Hs. induction gs as [|x gs IH]; inversion Hs as [|? f ? ? Hf Ht Hr]; subst; [intros []|]. intros [->|Hi]; eauto. Qed.
Lemma thin_child g f k : thin g f -> child k g -> exists k', child k' f /\ thin k k'.
Proof.
  intros Ht Hc. inversion Ht as [x|x y Hx|gs fs Hx|gs fs Hx|gs fs Hx|gs fs hs ks Hx Hy|v x y Hx|v x y Hx|w x y Hx]; subst.
  1: exists k; split; auto; apply th_same.
  all: inversion Hc as [?|? ? Hi|? ? Hi|? ? Hi|? ? ? Hi|? ? ? Hi|? ?|? ?|? ?]; subst.
  all: try (match goal with Hx : thins ?gs ?fs, Hi : In ?k0 ?gs |- _ => destruct (thins_in k0 gs fs Hx Hi) as (k' & Hk & Hth); exists k'; split; auto;
    first [apply ch_and; exact Hk|apply ch_or; exact Hk|apply ch_xor; exact Hk|apply ch_imply1; exact Hk|apply ch_imply2; exact Hk] end).
  all: eexists; split; [|eassumption]; constructor.
Qed.
Definition quantified (f : formula) : Prop := exists v h, f = FExists v h \/ f = FForAll v h.
Lemma open_iff g f : open_child g f <-> child g f /\ ~ quantified f.
Proof.
  split.
  - intros [x y Hc Hq]. split; auto. intros (v & h & E). destruct (Hq v h). destruct E; auto.
  - intros [Hc Hq]. constructor; auto. intros v h. split; intros E; apply Hq; exists v, h; auto.
Qed.
Lemma thin_quantified g f : thin g f -> quantified f -> quantified g.
Proof. intros Ht (v & h & [->| ->]); inversion Ht; subst; eexists; eexists; eauto. Qed.
Lemma thin_open g f k : thin g f -> open_child k g -> exists k', open_child k' f /\ thin k k'.
Proof.
  rewrite open_iff. intros Ht [Hc Hq]. destruct (thin_child _ _ _ Ht Hc) as (k' & H1 & H2). exists k'. split; auto. apply open_iff. split; auto.
  intros Hf. apply Hq. eapply thin_quantified; eauto.
Qed.
Lemma thin_star (R : formula -> formula -> Prop) : (forall g f k, thin g f -> R k g -> exists k', R k' f /\ thin k k') ->
  forall k g, clos_refl_trans formula R k g -> forall f, thin g f -> exists k', clos_refl_trans formula R k' f /\ thin k k'.
Proof.
  intros Hs k g Hw. apply clos_rt_rtn1_iff in Hw. induction Hw as [|y z Hy _ IH]; intros f Ht; [exists f; split; auto; apply rt_refl|].
  destruct (Hs _ _ _ Ht Hy) as (y' & H1 & H2). destruct (IH _ H2) as (k' & H3 & H4). exists k'. split; auto. eapply rt_trans; [eauto|apply rt_step; auto].
Qed.
Lemma thin_atom q k : thin (FAtom q) k -> k = FAtom q.
Proof. inversion 1; auto. Qed.
Lemma thin_within g f q : thin g f -> within (FAtom q) g -> within (FAtom q) f.
Proof. intros Ht Hw. destruct (thin_star child thin_child _ _ Hw _ Ht) as (k & H1 & H2). apply thin_atom in H2. subst. auto. Qed.
Lemma thin_within_open g f q : thin g f -> within_open (FAtom q) g -> within_open (FAtom q) f.
Proof. intros Ht Hw. destruct (thin_star open_child thin_open _ _ Hw _ Ht) as (k & H1 & H2). apply thin_atom in H2. subst. auto. Qed.
Lemma thin_supported g f : thin g f -> supported f -> supported g.
Proof.
  intros Ht Hs h Hw. destruct (thin_star child thin_child _ _ Hw _ Ht) as (k & H1 & H2). specialize (Hs k H1). inversion H2; subst; auto.
Qed.

Lemma slice_thin g f : slice g f -> thin g f.
Proof.
  assert (forall g f fs, In f fs -> thin g f -> thins [g] fs) as H1 by (intros; eapply ths_cons; eauto; apply ths_nil).
  induction 1; [apply th_same|apply th_not|apply th_and|apply th_or|apply th_xor|apply th_imply|apply th_imply|apply th_exists|apply th_forall|apply th_weighted];
    auto; try apply ths_nil; eapply H1; eauto.
Qed.
Lemma slice_up g k f : child k f -> slice g k -> exists h, slice h f /\ child g h /\ (quantified h -> quantified f).
Proof.
  intros Hc Hs. assert (forall h : formula, (forall v x, h <> FExists v x /\ h <> FForAll v x) -> quantified h -> quantified f) as Hq.
  { intros h Hn (v & x & E). destruct (Hn v x). destruct E; tauto. }
  destruct Hc.
  - exists (FNot g). split; [apply sl_not; auto|]. split; [apply ch_not|apply Hq; split; discriminate].
  - exists (FAnd [g]). split; [eapply sl_and; eauto|]. split; [apply ch_and; left; auto|apply Hq; split; discriminate].
  - exists (FOr [g]). split; [eapply sl_or; eauto|]. split; [apply ch_or; left; auto|apply Hq; split; discriminate].
  - exists (FXor [g]). split; [eapply sl_xor; eauto|]. split; [apply ch_xor; left; auto|apply Hq; split; discriminate].
  - exists (FImply [g] []). split; [eapply sl_imply1; eauto|]. split; [apply ch_imply1; left; auto|apply Hq; split; discriminate].
  - exists (FImply [] [g]). split; [eapply sl_imply2; eauto|]. split; [apply ch_imply2; left; auto|apply Hq; split; discriminate].
  - exists (FExists v g). split; [apply sl_exists; auto|]. split; [apply ch_exists|intros _; exists v, f; auto].
  - exists (FForAll v g). split; [apply sl_forall; auto|]. split; [apply ch_forall|intros _; exists v, f; auto].
  - exists (FWeighted w g). split; [apply sl_weighted; auto|]. split; [apply ch_weighted|apply Hq; split; discriminate].
Qed.
Lemma has_slice f : exists g, slice g f.
Proof.
  assert (forall l, Forall (fun f => exists g, slice g f) l -> l = [] \/ exists f g, In f l /\ slice g f) as Hl.
  { intros [|x l] Hf; auto. right. inversion Hf as [|? ? (g & Hg) _]; subst. exists x, g. split; auto. left. auto. }
  induction f as [|p|f (g & Hg)|fs IH|fs IH|fs IH|ps qs IH1 IH2|v f (g & Hg)|v f (g & Hg)|w f (g & Hg)|a b] using formula_nested_ind.
  all: try (eexists; apply sl_leaf; intros h Hh; inversion Hh; fail).
  all: try (eexists; constructor; eauto; fail).
  - destruct (Hl _ IH) as [->|(f & g & Hi & Hg)]; [exists (FAnd []); apply sl_leaf; intros h Hh; inversion Hh; auto|eexists; eapply sl_and; eauto].
  - destruct (Hl _ IH) as [->|(f & g & Hi & Hg)]; [exists (FOr []); apply sl_leaf; intros h Hh; inversion Hh; auto|eexists; eapply sl_or; eauto].
  - destruct (Hl _ IH) as [->|(f & g & Hi & Hg)]; [exists (FXor []); apply sl_leaf; intros h Hh; inversion Hh; auto|eexists; eapply sl_xor; eauto].
  - destruct (Hl _ IH1) as [->|(f & g & Hi & Hg)]; [|eexists; eapply sl_imply1; eauto].
    destruct (Hl _ IH2) as [->|(f & g & Hi & Hg)]; [exists (FImply [] []); apply sl_leaf; intros h Hh; inversion Hh; auto|eexists; eapply sl_imply2; eauto].
Qed.
(** Whatever is found in a formula is found in one of its slices. *)
Lemma slice_within k f : within k f -> forall g, slice g k -> exists h, slice h f /\ within g h.
Proof.
  intros Hw. apply clos_rt_rtn1_iff in Hw. induction Hw as [|y z Hy _ IH]; intros g Hg; [exists g; split; auto; apply rt_refl|].
  destruct (IH g Hg) as (h & H1 & H2). destruct (slice_up h y z Hy H1) as (x & H3 & H4 & _). exists x. split; auto. eapply rt_trans; [eauto|apply rt_step; auto].
Qed.
Lemma slice_within_open k f : within_open k f -> forall g, slice g k -> exists h, slice h f /\ within_open g h.
Proof.
  intros Hw. apply clos_rt_rtn1_iff in Hw. induction Hw as [|y z Hy _ IH]; intros g Hg; [exists g; split; auto; apply rt_refl|].
  apply open_iff in Hy as [Hy Hq]. destruct (IH g Hg) as (h & H1 & H2). destruct (slice_up h y z Hy H1) as (x & H3 & H4 & H5). exists x. split; auto.
  eapply rt_trans; [eauto|apply rt_step, open_iff; auto].
Qed.
Lemma slice_atom q : slice (FAtom q) (FAtom q).
Proof. apply sl_leaf. intros g Hg. inversion Hg. Qed.
Lemma slices_supported f : (forall g, slice g f -> supported g) -> supported f.
Proof.
  intros Hs k Hk. destruct (has_slice k) as (g & Hg). destruct (slice_within k f Hk g Hg) as (h & H1 & H2). specialize (Hs h H1 g H2).
  inversion Hg; subst; auto.
Qed.

(** ** Thinner documents are well-formed *)
Lemma f2_left {A B} (R : A -> B -> Prop) l l' x : Forall2 R l l' -> In x l -> exists y, In y l' /\ R x y.
Proof. induction 1 as [|a b l l' Hx _ IH]; [intros []|]. intros [->|Hi]; [exists b; simpl; auto|]. destruct (IH Hi) as (z & H1 & H2). exists z. simpl. auto. Qed.
Lemma f2_right {A B} (R : A -> B -> Prop) l l' y : Forall2 R l l' -> In y l' -> exists x, In x l /\ R x y.
Proof. induction 1 as [|a b l l' Hx _ IH]; [intros []|]. intros [->|Hi]; [exists a; simpl; auto|]. destruct (IH Hi) as (z & H1 & H2). exists z. simpl. auto. Qed.
Section Thin.
Variables d' d : domain_ast.
Hypothesis Ht : thin_domain d' d.
Lemma th_constants : constants_of d' = constants_of d.
Proof. unfold constants_of. rewrite (td_constants _ _ Ht). auto. Qed.
Lemma th_callable h n formals : callable d h n formals <-> callable d' h n formals.
Proof.
  pose proof (td_actions _ _ Ht) as Ha.
  assert (forall n fo, (exists a, In a (d_actions d) /\ act_name a = n /\ act_params a = fo) <-> (exists a, In a (d_actions d') /\ act_name a = n /\ act_params a = fo)) as He.
  { intros n0 fo. split; intros (x & Hi & E1 & E2).
    - destruct (f2_right _ _ _ _ Ha Hi) as (y & Hy & [E3 E4 _ _]). exists y. split; auto. split; congruence.
    - destruct (f2_left _ _ _ _ Ha Hi) as (y & Hy & [E3 E4 _ _]). exists y. split; auto. split; congruence. }
  assert (forall n, unnamed act_name n (d_actions d) <-> unnamed act_name n (d_actions d')) as Hu.
  { intros n0. split; intros Hn a Hi E.
    - destruct (proj2 (He n0 (act_params a))) as (b & H1 & H2 & _); [eauto|]. apply (Hn b); auto.
    - destruct (proj1 (He n0 (act_params a))) as (b & H1 & H2 & _); [eauto|]. apply (Hn b); auto. }
  split; intros Hc; inversion Hc as [a Hi E1 E2 E3|h' t Hi Hn E1 E2 E3]; subst.
  - destruct (proj1 (He (act_name a) (act_params a))) as (b & H1 & <- & <-); [eauto|]. apply call_action. auto.
  - apply call_task; [rewrite (td_tasks _ _ Ht); auto|]. intros Eh. apply Hu. auto.
  - destruct (proj2 (He (act_name a) (act_params a))) as (b & H1 & <- & <-); [eauto|]. apply call_action. auto.
  - apply call_task; [rewrite <- (td_tasks _ _ Ht); auto|]. intros Eh. apply Hu. auto.
Qed.
Lemma th_formula params g f : thin g f -> formula_ok d params f -> formula_ok d' params g.
Proof.
  intros Hg (H1 & H2 & H3 & H4). unfold formula_ok. rewrite (td_types _ _ Ht), (td_preds _ _ Ht), th_constants. split; [eapply thin_supported; eauto|].
  split; [intros q Hq; apply H2; eapply thin_within; eauto|]. split; auto. intros q Hq. apply H4. eapply thin_within_open; eauto.
Qed.
Lemma th_opt params o' o : opt_thin o' o -> opt_formula_ok d params o -> opt_formula_ok d' params o'.
Proof. destruct o' as [g|], o as [f|]; simpl; auto; [apply th_formula|intros []]. Qed.
Lemma th_call h params task terms : call_ok d h params task terms -> call_ok d' h params task terms.
Proof. intros (fo & H1 & H2). exists fo. rewrite (td_types _ _ Ht), th_constants. split; auto. apply th_callable. auto. Qed.
Lemma th_order h' h : thin_htn h' h -> order_acyclic (htn_orderings h) -> order_acyclic (htn_orderings h').
Proof.
  intros [_ Ho]. destruct (htn_orderings h') as [|l'], (htn_orderings h) as [|l]; simpl in *; auto.
  - subst. intros _ a Hc. apply clos_trans_t1n in Hc. inversion Hc as [y Hy|y z Hy]; destruct Hy.
  - assert (forall a b, clos_trans string (before l') a b -> clos_trans string (before l) a b) as Hm; [|intros Hn a Hc; apply (Hn a); auto].
    intros a b Hc. induction Hc as [x y Hx|x y z _ IH1 _ IH2]; [apply t_step, Ho, Hx|eapply t_trans; eauto].
Qed.
Lemma Forall2_names {A B} (R : A -> A -> Prop) (f : A -> B) l' l : (forall x y, R x y -> f x = f y) -> Forall2 R l' l -> map f l' = map f l.
Proof. intros He. induction 1 as [|x y l' l Hx _ IH]; simpl; auto. f_equal; auto. Qed.
Lemma kept_nodup {A B} (f : A -> B) kept gone full : interleaved kept gone full -> NoDup (map f full) -> NoDup (map f kept).
Proof.
  induction 1 as [|x k g l Hi IH|x k g l Hi IH]; simpl; intros Hn; auto; inversion Hn as [|? ? H1 H2]; subst; auto.
  constructor; auto. intros Hx. apply H1. apply in_map_iff in Hx as (y & <- & Hy). apply in_map. apply (il_in _ _ _ y Hi). auto.
Qed.
Lemma th_domain_ok : domain_ok d -> domain_ok d'.
Proof.
  intros (H1 & H2 & H3 & H4 & H5 & H6 & H7 & H8 & H9 & H10). destruct (td_methods _ _ Ht) as (kept & gone & Hk & Hm). pose proof (td_actions _ _ Ht) as Ha.
  unfold domain_ok. rewrite (td_reqs _ _ Ht), (td_types _ _ Ht), (td_preds _ _ Ht), (td_tasks _ _ Ht). do 6 (split; [auto|]).
  split; [rewrite (Forall2_names thin_action act_name _ _ (ta_name) Ha); auto|]. split.
  { clear H7. rewrite Forall_forall in *. intros a' Hi. assert (exists a, In a (d_actions d) /\ thin_action a' a) as (a & Hi' & Hx).
    { exact (f2_left _ _ _ _ Ha Hi). }
    destruct (H8 a Hi') as (H11 & H12 & H13). unfold action_ok. rewrite (ta_params _ _ Hx). split; auto. split; [eapply th_opt; [apply (ta_pre _ _ Hx)|auto]|eapply th_opt; [apply (ta_eff _ _ Hx)|auto]]. }
  split.
  { rewrite (Forall2_names thin_method (fun m => sym_name (m_name m)) _ _ (tm_name) Hm). eapply kept_nodup; eauto. }
  rewrite Forall_forall in *. intros m' Hi. assert (exists m, In m kept /\ thin_method m' m) as (m & Hi' & Hx).
  { exact (f2_left _ _ _ _ Hm Hi). }
  destruct (H10 m) as (H11 & H12 & H13 & H14 & H15); [apply (il_in _ _ _ m Hk); auto|]. unfold method_ok.
  rewrite (tm_params _ _ Hx), (tm_task _ _ Hx), (tm_terms _ _ Hx). split; auto. split; [eapply th_opt; [apply (tm_pre _ _ Hx)|auto]|]. split; [apply th_call; auto|].
  split; [|eapply th_order; [apply (tm_tn _ _ Hx)|auto]]. rewrite Forall_forall in *. intros s Hs. apply th_call, H14. apply (tn_subtasks _ _ (tm_tn _ _ Hx)). auto.
Qed.
End Thin.
Lemma th_problem_ok d p' p : thin_problem p' p -> problem_ok d p -> problem_ok d p'.
Proof.
  intros Hp (H1 & H2 & H3 & H4 & H5).
  assert (forall n t, object_denotes d p n t -> object_denotes d p' n t) as Hd.
  { intros n t [o Ho E1 E2|c Hn Hf E]; [eapply od_object|eapply od_const]; rewrite ?(tp_objects _ _ Hp); eauto. }
  assert (forall q, fact_ok d p q -> fact_ok d p' q) as Hf.
  { intros q (def & E1 & E2 & E3). exists def. split; auto. split; auto. eapply SimTop.Forall2_impl; [exact E3|]. clear E3. intros v f (t & E3 & E4). exists t. auto. }
  unfold problem_ok. rewrite (tp_objects _ _ Hp). split; auto. split; auto. split.
  { rewrite Forall_forall in *. intros q Hq. apply Hf, H3. apply (tp_init _ _ Hp). auto. }
  split.
  - pose proof (tp_tn _ _ Hp) as Hn. destruct (p_init_tn p') as [t'|]; auto. destruct (p_init_tn p) as [t|]; [|destruct Hn]. destruct Hn as [E1 Hh].
    destruct H4 as [H6 H7]. split; [eapply th_order; eauto|]. rewrite Forall_forall in *. intros s Hs. destruct (H7 s) as (fo & H8 & H9); [apply (tn_subtasks _ _ Hh); auto|].
    exists fo. split; auto. assert (tn_params t' = tn_params t) as -> by (unfold tn_params; rewrite E1; auto).
    eapply SimTop.Forall2_impl; [exact H9|]. intros v f (ty & E3 & E4). exists ty. split; auto.
    destruct E3 as [o Ho E5 E6|q Hn Hq E|c Hn Hq Hc E]; [eapply td_object|eapply td_param|eapply td_const]; rewrite ?(tp_objects _ _ Hp); eauto.
  - pose proof (tp_goal _ _ Hp) as Hg. destruct (p_goal p') as [g|]; auto. destruct (p_goal p) as [f|]; [|destruct Hg].
    intros q Hq. apply Hf, H5. eapply thin_within_open; eauto.
Qed.

(** ** Pieces *)
Lemma interleaved_all {A} (l : list A) : interleaved l [] l.
Proof. induction l; constructor; auto. Qed.
Lemma Forall2_bare {A} (R : A -> A -> Prop) (f : A -> A) l : (forall x, R (f x) x) -> Forall2 R (map f l) l.
Proof. intros Hf. induction l; simpl; constructor; auto. Qed.
Lemma Forall2_place {A} (R : A -> A -> Prop) (f : A -> A) x y l l' : (forall x, R (f x) x) -> R y x -> in_place f x y l l' -> Forall2 R l' l.
Proof. intros Hf Hy (l1 & l2 & -> & ->). apply Forall2_app; [apply Forall2_bare; auto|]. constructor; auto. apply Forall2_bare; auto. Qed.
Lemma thin_no_tn h : thin_htn no_tn h.
Proof. constructor; simpl; auto. intros x []. Qed.
Lemma thin_body_action a pre eff : opt_thin pre (act_pre a) -> opt_thin eff (act_eff a) -> thin_action (action_body a pre eff) a.
Proof. intros. constructor; auto. Qed.
Lemma thin_body_method m pre h : opt_thin pre (m_pre m) -> thin_htn h (m_tn m) -> thin_method (method_body m pre h) m.
Proof. intros. constructor; auto. Qed.
Lemma thin_bare_action a : thin_action (bare_action a) a.
Proof. apply thin_body_action; simpl; auto. Qed.
Lemma thin_bare_method m : thin_method (bare_method m) m.
Proof. apply thin_body_method; simpl; auto. apply thin_no_tn. Qed.
Lemma thin_one s h : In s (htn_subtasks h) -> thin_htn (one_task s) h.
Proof. intros Hs. constructor; simpl; auto. intros x [<-|[]]. auto. Qed.
Lemma thin_only_order h : thin_htn (only_order h) h.
Proof. constructor; simpl; [intros x []|]. destruct (htn_orderings h); auto. apply incl_refl. Qed.
Lemma thin_bodies d acts ms : Forall2 thin_action acts (d_actions d) -> Forall2 thin_method ms (d_methods d) -> thin_domain (bodies d acts ms) d.
Proof. intros Ha Hm. constructor; auto. exists (d_methods d), []. split; auto. apply interleaved_all. Qed.
Lemma piece_thin d d' : piece d d' -> thin_domain d' d.
Proof.
  assert (Forall2 thin_action (map bare_action (d_actions d)) (d_actions d)) as Ha by (apply Forall2_bare; apply thin_bare_action).
  assert (Forall2 thin_method (map bare_method (d_methods d)) (d_methods d)) as Hm by (apply Forall2_bare; apply thin_bare_method).
  intros [|a f g acts E Hs Hp|a f g acts E Hs Hp|m f g ms E Hs Hp|m s ms Hs Hp|m ms Hp]; apply thin_bodies; auto.
  - refine (Forall2_place _ _ _ _ _ _ thin_bare_action _ Hp). apply thin_body_action; rewrite ?E; simpl; auto using slice_thin.
  - refine (Forall2_place _ _ _ _ _ _ thin_bare_action _ Hp). apply thin_body_action; rewrite ?E; simpl; auto using slice_thin.
  - refine (Forall2_place _ _ _ _ _ _ thin_bare_method _ Hp). apply thin_body_method; rewrite ?E; simpl; auto using slice_thin, thin_no_tn.
  - refine (Forall2_place _ _ _ _ _ _ thin_bare_method _ Hp). apply thin_body_method; simpl; auto using thin_one.
  - refine (Forall2_place _ _ _ _ _ _ thin_bare_method _ Hp). apply thin_body_method; simpl; auto using thin_only_order.
Qed.
Lemma ppiece_thin p p' : ppiece p p' -> thin_problem p' p.
Proof.
  intros [|q Hq|f g E Hs|t s E Hs|t E]; constructor; simpl; auto; try (intros x []; fail); try (rewrite E; auto using slice_thin, thin_one, thin_only_order).
  intros x [<-|[]]. auto.
Qed.

Lemma slices_ok d params f : (forall g, slice g f -> formula_ok d params g) -> formula_ok d params f.
Proof.
  intros Hs. split; [apply slices_supported; intros g Hg; apply (Hs g Hg)|]. split; [|split].
  - intros q Hq. destruct (slice_within _ _ Hq _ (slice_atom q)) as (h & H1 & H2). apply (Hs h H1). auto.
  - destruct (has_slice f) as (g & Hg). apply (Hs g Hg).
  - intros q Hq. destruct (slice_within_open _ _ Hq _ (slice_atom q)) as (h & H1 & H2). apply (Hs h H1). auto.
Qed.
Lemma placed {A B} (bare : A -> B) x (y : B) l : In x l -> exists l', in_place bare x y l l' /\ In y l'.
Proof.
  intros Hi. apply in_split in Hi as (l1 & l2 & ->). exists (map bare l1 ++ y :: map bare l2). split; [exists l1, l2; auto|]. apply in_or_app. right. left. auto.
Qed.
Lemma pieces_ok d : (forall d', piece d d' -> domain_ok d') -> domain_ok d.
Proof.
  intros Hp. destruct (Hp _ (pc_bare d)) as (H1 & H2 & H3 & H4 & H5 & H6 & H7 & H8 & H9 & H10). simpl in *.
  rewrite map_map in H7, H9. simpl in H7, H9.
  do 7 (split; [auto|]). split; [|split; [auto|]]; apply Forall_forall.
  - intros a Ha. split; [|split].
    + rewrite Forall_forall in H8. apply (H8 (bare_action a)). apply in_map. auto.
    + destruct (act_pre a) as [f|] eqn:E; simpl; auto. apply slices_ok. intros g Hg.
      destruct (placed bare_action a (action_body a (Some g) None) _ Ha) as (acts & H11 & H12).
      destruct (Hp _ (pc_pre d a f g acts E Hg H11)) as (_ & _ & _ & _ & _ & _ & _ & H13 & _). rewrite Forall_forall in H13. apply (H13 _ H12).
    + destruct (act_eff a) as [f|] eqn:E; simpl; auto. apply slices_ok. intros g Hg.
      destruct (placed bare_action a (action_body a None (Some g)) _ Ha) as (acts & H11 & H12).
      destruct (Hp _ (pc_eff d a f g acts E Hg H11)) as (_ & _ & _ & _ & _ & _ & _ & H13 & _). rewrite Forall_forall in H13. apply (H13 _ H12).
  - assert (forall d', piece d d' -> forall h params task terms, call_ok d' h params task terms -> call_ok d h params task terms) as Hc.
    { intros d' Hd h params task terms (fo & H11 & H12). pose proof (piece_thin d d' Hd) as Ht. exists fo. rewrite <- (td_types _ _ Ht), <- (th_constants _ _ Ht). split; auto.
      apply (th_callable _ _ Ht). auto. }
    intros m Hm. rewrite Forall_forall in H10. destruct (H10 (bare_method m)) as (H11 & _ & H12 & _); [apply in_map; auto|]. split; [auto|].
    split; [|split; [apply (Hc _ (pc_bare d)); auto|split]].
    + destruct (m_pre m) as [f|] eqn:E; simpl; auto. apply slices_ok. intros g Hg.
      destruct (placed bare_method m (method_body m (Some g) no_tn) _ Hm) as (ms & H13 & H14).
      destruct (Hp _ (pc_mpre d m f g ms E Hg H13)) as (_ & _ & _ & _ & _ & _ & _ & _ & _ & H15). rewrite Forall_forall in H15. apply (H15 _ H14).
    + apply Forall_forall. intros s Hs. destruct (placed bare_method m (method_body m None (one_task s)) _ Hm) as (ms & H13 & H14).
      pose proof (pc_subtask d m s ms Hs H13) as Hd. destruct (Hp _ Hd) as (_ & _ & _ & _ & _ & _ & _ & _ & _ & H15). rewrite Forall_forall in H15.
      destruct (H15 _ H14) as (_ & _ & _ & H16 & _). inversion H16; subst. apply (Hc _ Hd). auto.
    + destruct (placed bare_method m (method_body m None (only_order (m_tn m))) _ Hm) as (ms & H13 & H14).
      destruct (Hp _ (pc_order d m ms H13)) as (_ & _ & _ & _ & _ & _ & _ & _ & _ & H15). rewrite Forall_forall in H15.
      destruct (H15 _ H14) as (_ & _ & _ & _ & H16). auto.
Qed.
Lemma ppieces_ok d p : (forall p', ppiece p p' -> problem_ok d p') -> problem_ok d p.
Proof.
  intros Hp. destruct (Hp _ (pp_bare p)) as (H1 & H2 & _). simpl in *.
  assert (forall tn i g n t, object_denotes d (contents p tn i g) n t -> object_denotes d p n t) as Hd.
  { intros tn i g n t [o Ho E1 E2|c Hn Hf E]; [eapply od_object|eapply od_const]; eauto. }
  assert (forall tn i g q, fact_ok d (contents p tn i g) q -> fact_ok d p q) as Hf.
  { intros tn i g q (def & E1 & E2 & E3). exists def. split; auto. split; auto. eapply SimTop.Forall2_impl; [exact E3|]. clear E3. intros v f (t & E3 & E4). exists t. split; auto. eapply Hd; eauto. }
  split; auto. split; auto. split; [|split].
  - apply Forall_forall. intros q Hq. destruct (Hp _ (pp_fact p q Hq)) as (_ & _ & H3 & _). inversion H3; subst. eapply Hf; eauto.
  - destruct (p_init_tn p) as [t|] eqn:E; auto. split.
    + destruct (Hp _ (pp_order p t E)) as (_ & _ & _ & [H3 _] & _). auto.
    + apply Forall_forall. intros s Hs. destruct (Hp _ (pp_subtask p t s E Hs)) as (_ & _ & _ & [_ H3] & _). simpl in H3. inversion H3 as [|? ? (fo & H4 & H5) _]; subst.
      exists fo. split; auto. eapply SimTop.Forall2_impl; [exact H5|]. intros v f (ty & E3 & E4). exists ty. split; auto.
      destruct E3 as [o Ho E5 E6|q Hn Hq E'|c Hn Hq Hc E']; [eapply td_object|eapply td_param|eapply td_const]; eauto.
  - destruct (p_goal p) as [f|] eqn:E; auto. intros q Hq. destruct (slice_within_open _ _ Hq _ (slice_atom q)) as (h & H3 & H4).
    destruct (Hp _ (pp_goal p f h E H3)) as (_ & _ & _ & _ & H5). simpl in H5. eapply Hf. apply H5. auto.
Qed.

(** ** Texts of pieces *)
Section Lines.
Variable L : N.
Notation anyl := (fun _ _ : N => True).
Lemma at_tpos (o : option N) : opt_rel anyl o (option_map (fun _ => L) o).
Proof. destruct o; constructor; auto. Qed.
Lemma at_sym f s : (forall x, f x = x) -> sym_sim ren_id anyl f s (sym_at L s).
Proof. intros Hf. constructor; simpl; auto; [destruct (sym_type s); auto|apply at_tpos]. Qed.
Lemma at_vars l : vars_sim ren_id anyl l (map (sym_at L) l).
Proof. apply Forall2_map_same. intros s. apply at_sym. auto. Qed.
Lemma at_pred q : pred_sim ren_id anyl q (pred_at L q).
Proof. constructor; simpl; auto. apply at_vars. Qed.
Lemma at_formula f : formula_sim ren_id anyl f (formula_at L f).
Proof.
  induction f using formula_nested_ind; simpl; constructor; auto; try apply at_pred;
    match goal with IH : Forall _ ?l |- formulas_sim _ _ ?l _ => induction IH; simpl; constructor; auto end.
Qed.
Lemma at_htn t : htn_sim ren_id anyl t (htn_at L t).
Proof.
  constructor; simpl.
  - apply Forall2_map_same. intros s. constructor; simpl; auto; [|apply at_vars]. apply opt_map_same. intros i. reflexivity.
  - apply at_tpos.
  - destruct (htn_orderings t); simpl; auto. rewrite (map_ext _ (fun e => e)), map_id; auto. intros []; auto.
Qed.
Lemma at_domain d : domain_sim ren_id anyl d (domain_at L d).
Proof.
  constructor; simpl; auto.
  - apply opt_map_same. intros l. apply Forall2_map_same. intros s. apply at_sym. auto.
  - apply opt_map_same. apply at_vars.
  - apply Forall2_map_same. apply at_pred.
  - apply Forall2_map_same. intros t. constructor; simpl; auto. apply at_vars.
  - apply Forall2_map_same. intros m. constructor; simpl; auto; try apply at_vars; [|apply at_htn]. apply opt_map_same. apply at_formula.
  - apply Forall2_map_same. intros a. constructor; simpl; auto; try apply at_vars; apply opt_map_same; apply at_formula.
Qed.
Lemma at_problem p : problem_sim ren_id anyl p (problem_at L p).
Proof.
  constructor; simpl.
  - apply opt_map_same. intros t. constructor; simpl; [|apply at_htn]. apply opt_map_same, at_vars.
  - apply Forall2_map_same. apply at_pred.
  - apply opt_map_same. apply at_formula.
  - apply at_vars.
Qed.
Lemma at_domain_ok d : domain_ok (domain_at L d) <-> domain_ok d.
Proof.
  pose proof (check_domain_sim ren_id anyl ren_id_ok _ _ (at_domain d)) as Hs. rewrite <- !check_domain_ok.
  split; intros E; rewrite E in Hs; inversion Hs; subst; auto.
Qed.
Lemma at_table d : table_sim ren_id anyl eq (table [] d) (table [] (domain_at L d)).
Proof.
  pose proof (at_domain d) as Hd. destruct Hd as [H1 H2 H3 H4 H5 H6 H7]. constructor; simpl; auto.
  unfold declared_constants. destruct H2; simpl; auto. constructor.
Qed.
Lemma at_problem_ok' d p : domain_ok d -> problem_ok (domain_at L d) (problem_at L p) <-> problem_ok d p.
Proof.
  intros Hd. pose proof (verify_problem_sim ren_id anyl ren_id_ok eq _ _ _ _ (at_table d) (at_problem p)) as Hs. rewrite !verify_problem_check in Hs.
  pose proof (proj2 (at_domain_ok d) Hd) as Hd'.
  rewrite <- (check_problem_ok d) with (ws := []) by apply Hd. rewrite <- (check_problem_ok (domain_at L d)) with (ws := []) by apply Hd'.
  split; intros E; rewrite E in Hs; simpl in Hs; inversion Hs as [a b Hab E1 E2| | |]; subst.
  - destruct (check_problem d [] p) as [[]| | |]; auto; discriminate.
  - destruct (check_problem (domain_at L d) [] (problem_at L p)) as [[]| | |]; auto; discriminate.
Qed.
Lemma at_problem_ok d p : domain_ok d -> problem_ok d (problem_at L p) <-> problem_ok d p.
Proof.
  intros Hd. rewrite <- (at_problem_ok' d p Hd), <- (at_problem_ok' d (problem_at L p) Hd).
  replace (problem_at L (problem_at L p)) with (problem_at L p); [tauto|]. symmetry. exact (f_equal (fun a => match a with AProblem q => q | _ => p end) (at_idem L (AProblem p))).
Qed.
End Lines.
Lemma flat_pr {A} (f : A -> list token) l : Forall printable (flat_map f l) <-> Forall (fun x => Forall printable (f x)) l.
Proof. induction l as [|x l IH]; simpl; [split; constructor|]. rewrite Forall_app, Forall_cons_iff, IH. tauto. Qed.
Lemma concat_pr (l : list (list token)) : Forall printable (concat l) <-> Forall (Forall printable) l.
Proof. induction l as [|x l IH]; simpl; [split; constructor|]. rewrite Forall_app, Forall_cons_iff, IH. tauto. Qed.
Lemma LP_pr : printable LP. Proof. exact I. Qed.
Lemma RP_pr : printable RP. Proof. exact I. Qed.
Lemma op_pr o : printable (TOp o). Proof. exact I. Qed.
Lemma kw_pr o : printable (TKeyword o). Proof. exact I. Qed.
Lemma nil_pr : Forall printable []. Proof. constructor. Qed.
Local Hint Resolve LP_pr RP_pr op_pr kw_pr nil_pr : core.
Ltac toks := repeat (rewrite ?Forall_app, ?Forall_cons_iff in * ); repeat match goal with H : _ /\ _ |- _ => destruct H end.
Ltac pok := toks; repeat match goal with |- _ /\ _ => split end; auto.

Lemma slice_pr g f : slice g f -> Forall printable (formula_tokens f) -> Forall printable (formula_tokens g).
Proof.
  induction 1 as [| | g f fs Hi Hs IH|g f fs Hi Hs IH|g f fs Hi Hs IH| | | | |]; cbn [formula_tokens flat_map]; intros Hp; auto; pok.
  all: apply IH; match goal with H : Forall printable (flat_map _ _) |- _ => rewrite flat_pr, Forall_forall in H; apply (H _ Hi) end.
Qed.
Fixpoint members (fs : list formula) : Prop := match fs with [] => True | g :: r => wf_formula g /\ g <> FEmpty /\ members r end.
Fixpoint branches (fs : list formula) : Prop :=
  match fs with [] => True | FWeighted _ g :: r => wf_formula g /\ g <> FEmpty /\ branches r | _ :: _ => False end.
Definition wfw (f : formula) : Prop := match f with FWeighted _ g => wf_formula g /\ g <> FEmpty | _ => wf_formula f end.
Lemma wf_and fs : wf_formula (FAnd fs) <-> members fs \/ (fs <> [] /\ branches fs).
Proof. reflexivity. Qed.
Lemma wf_or fs : wf_formula (FOr fs) <-> members fs.
Proof. reflexivity. Qed.
Lemma wf_xor fs : wf_formula (FXor fs) <-> members fs.
Proof. reflexivity. Qed.
Lemma members_in f fs : members fs -> In f fs -> wf_formula f /\ f <> FEmpty.
Proof. induction fs as [|x fs IH]; simpl; [tauto|]. intros (H1 & H2 & H3) [->|Hi]; auto. Qed.
Lemma branches_in f fs : branches fs -> In f fs -> exists w g, f = FWeighted w g /\ wf_formula g /\ g <> FEmpty.
Proof. induction fs as [|x fs IH]; simpl; [tauto|]. destruct x; try tauto. intros (H1 & H2 & H3) [<-|Hi]; eauto. Qed.
Lemma wf_wfw f : wf_formula f -> wfw f.
Proof. destruct f; simpl; auto. intros []. Qed.
Lemma wfw_wf f : wfw f -> (forall w g, f <> FWeighted w g) -> wf_formula f.
Proof. destruct f; simpl; auto. intros _ Hn. destruct (Hn w f). auto. Qed.
Lemma slice_nonempty g f : slice g f -> f <> FEmpty -> g <> FEmpty.
Proof. intros []; auto; discriminate. Qed.
Lemma slice_weighted g f : slice g f -> (forall w h, f <> FWeighted w h) -> forall w h, g <> FWeighted w h.
Proof. intros [] Hn w' h'; auto; try discriminate. intros _. eapply Hn; eauto. Qed.
Lemma wf_not_weighted f : wf_formula f -> forall w h, f <> FWeighted w h.
Proof. intros Hw w h ->. destruct Hw. Qed.
Lemma slice_wf g f : slice g f -> wfw f -> wfw g.
Proof.
  assert (forall g f, slice g f -> (wfw f -> wfw g) -> wf_formula f -> wf_formula g) as Hplain.
  { intros x y Hs IH Hw. apply wfw_wf; [apply IH, wf_wfw; auto|]. eapply slice_weighted; eauto. apply wf_not_weighted. auto. }
  induction 1 as [|g f Hs IH|g f fs Hi Hs IH|g f fs Hi Hs IH|g f fs Hi Hs IH|g f fs ks Hi Hs IH|g f fs ks Hi Hs IH|v g f Hs IH|v g f Hs IH|w g f Hs IH]; auto; cbn [wfw].
  - intros Hw. apply (Hplain g f); auto.
  - rewrite !wf_and. intros [Hm|[_ Hb]].
    + left. destruct (members_in _ _ Hm Hi) as [H1 H2]. simpl. split; [apply (Hplain g f); auto|]. split; auto. eapply slice_nonempty; eauto.
    + right. split; [discriminate|]. destruct (branches_in _ _ Hb Hi) as (w & h & -> & H1 & H2).
      inversion Hs as [? Hn| | | | | | | | |? x y Hx]; subst; [destruct (Hn h); apply ch_weighted|]. simpl. destruct (IH (conj H1 H2)). auto.
  - rewrite !wf_or. intros Hm. destruct (members_in _ _ Hm Hi) as [H1 H2]. simpl. split; [apply (Hplain g f); auto|]. split; auto. eapply slice_nonempty; eauto.
  - rewrite !wf_xor. intros Hm. destruct (members_in _ _ Hm Hi) as [H1 H2]. simpl. split; [apply (Hplain g f); auto|]. split; auto. eapply slice_nonempty; eauto.
  - intros [Hv Hw]. split; auto. apply (Hplain g f); auto.
  - intros [Hv Hw]. split; auto. apply (Hplain g f); auto.
  - intros [Hw Hn]. split; [apply (Hplain g f); auto|]. eapply slice_nonempty; eauto.
Qed.
Lemma slice_wf' g f : slice g f -> wf_formula f -> wf_formula g.
Proof. intros Hs Hw. apply wfw_wf; [eapply slice_wf; eauto; apply wf_wfw; auto|]. eapply slice_weighted; eauto. apply wf_not_weighted. auto. Qed.

Lemma action_body_doc a pre eff : wf_action a -> Forall printable (action_tokens a) ->
  wf_opt wf_formula pre -> wf_opt wf_formula eff -> Forall printable (opt_formula_tokens KPrecondition pre) -> Forall printable (opt_formula_tokens KEffect eff) ->
  wf_action (action_body a pre eff) /\ Forall printable (action_tokens (action_body a pre eff)).
Proof. intros (H1 & _ & _) Hp H2 H3 H4 H5. split; [split; auto|]. unfold action_tokens, task_tokens in *. simpl in *. pok. Qed.
Lemma method_body_doc m pre h : wf_method m -> Forall printable (method_tokens m) ->
  wf_opt wf_formula pre -> wf_htn h -> Forall printable (opt_formula_tokens KPrecondition pre) -> Forall printable (htn_tokens h) ->
  wf_method (method_body m pre h) /\ Forall printable (method_tokens (method_body m pre h)).
Proof.
  intros (H1 & H2 & H3 & H4 & _) Hp H5 H6 H7 H8. split; [repeat (split; auto)|]. unfold method_tokens, task_tokens in *. simpl in *. pok.
Qed.
Lemma opt_pr k g : Forall printable (opt_formula_tokens k (Some g)) <-> Forall printable (formula_tokens g).
Proof. unfold opt_formula_tokens. rewrite Forall_cons_iff. split; [tauto|]. auto. Qed.
Lemma subs_pr h : Forall printable (htn_tokens h) -> Forall (fun s => Forall printable (subtask_tokens s)) (htn_subtasks h).
Proof.
  intros Hp. unfold htn_tokens, and_block in Hp. cbv zeta in Hp. destruct (htn_orderings h); toks;
    match goal with H : Forall printable (concat (map subtask_tokens _)) |- _ => rewrite concat_pr, Forall_map in H; exact H end.
Qed.
Lemma no_tn_doc : wf_htn no_tn /\ Forall printable (htn_tokens no_tn).
Proof. split; [split; simpl; auto|]. simpl. repeat constructor. Qed.
Lemma one_task_doc s h : In s (htn_subtasks h) -> wf_htn h -> Forall printable (htn_tokens h) -> wf_htn (one_task s) /\ Forall printable (htn_tokens (one_task s)).
Proof.
  intros Hs [Hw _] Hp. apply subs_pr in Hp. rewrite Forall_forall in Hw, Hp. split; [split; simpl; auto; constructor; auto|].
  unfold htn_tokens, and_block, one_task. cbn [htn_orderings htn_subtasks htn_constraints map concat]. rewrite app_nil_r. pose proof (Hp s Hs). pok.
Qed.
Lemma only_order_doc h : wf_htn h -> Forall printable (htn_tokens h) -> wf_htn (only_order h) /\ Forall printable (htn_tokens (only_order h)).
Proof.
  intros [Hw Ho] Hp. split; [split; simpl; auto|]. unfold htn_tokens, and_block, only_order in *.
  cbn [htn_orderings htn_subtasks htn_constraints htn_ordering_pos map concat] in *. destruct (htn_orderings h) as [|l]; pok.
Qed.
Lemma bodies_doc d acts ms : wf_domain d -> Forall printable (domain_tokens d) ->
  Forall (fun a => wf_action a /\ Forall printable (action_tokens a)) acts -> Forall (fun m => wf_method m /\ Forall printable (method_tokens m)) ms ->
  wf_domain (bodies d acts ms) /\ Forall printable (domain_tokens (bodies d acts ms)).
Proof.
  intros (H1 & H2 & H3 & H4 & H5 & _) Hp Ha Hm. split.
  - do 5 (split; auto). split; (eapply Forall_impl; [|eassumption]); intros x []; auto.
  - unfold domain_tokens in *. simpl in *. pok; apply flat_pr; (eapply Forall_impl; [|eassumption]); intros x []; auto.
Qed.
Lemma place_doc {A} (P : A -> Prop) (f : A -> A) x y l l' : (forall z, In z l -> P (f z)) -> P y -> in_place f x y l l' -> Forall P l'.
Proof.
  intros Hf Hy (l1 & l2 & -> & ->). apply Forall_app. split; [|constructor; auto]; apply Forall_map, Forall_forall; intros z Hz; apply Hf, in_or_app; simpl; auto.
Qed.
Lemma in_placed {A B} (f : A -> B) x y l l' : in_place f x y l l' -> In x l.
Proof. intros (l1 & l2 & -> & _). apply in_or_app. right. left. auto. Qed.
Lemma piece_doc d d' : piece d d' -> wf_domain d -> Forall printable (domain_tokens d) -> wf_domain d' /\ Forall printable (domain_tokens d').
Proof.
  intros Hd Hw Hp. destruct no_tn_doc as [N1 N2].
  assert (forall a, In a (d_actions d) -> wf_action a /\ Forall printable (action_tokens a)) as Ha.
  { intros a Hi. destruct Hw as (_ & _ & _ & _ & _ & _ & Hw). rewrite Forall_forall in Hw. split; auto. unfold domain_tokens in Hp. toks.
    match goal with H : Forall printable (flat_map action_tokens _) |- _ => rewrite flat_pr, Forall_forall in H; auto end. }
  assert (forall m, In m (d_methods d) -> wf_method m /\ Forall printable (method_tokens m)) as Hm.
  { intros m Hi. destruct Hw as (_ & _ & _ & _ & _ & Hw & _). rewrite Forall_forall in Hw. split; auto. unfold domain_tokens in Hp. toks.
    match goal with H : Forall printable (flat_map method_tokens _) |- _ => rewrite flat_pr, Forall_forall in H; auto end. }
  assert (forall a, In a (d_actions d) -> wf_action (bare_action a) /\ Forall printable (action_tokens (bare_action a))) as Ha0.
  { intros a Hi. destruct (Ha a Hi). apply action_body_doc; simpl; auto. }
  assert (forall m, In m (d_methods d) -> wf_method (bare_method m) /\ Forall printable (method_tokens (bare_method m))) as Hm0.
  { intros m Hi. destruct (Hm m Hi). apply method_body_doc; simpl; auto. }
  assert (forall m, In m (d_methods d) -> wf_htn (m_tn m) /\ Forall printable (htn_tokens (m_tn m))) as Ht.
  { intros m Hi. destruct (Hm m Hi) as [(_ & _ & _ & _ & _ & H1) H2]. split; auto. unfold method_tokens in H2. toks. auto. }
  assert (forall (P : action -> Prop), (forall a, In a (d_actions d) -> P (bare_action a)) -> Forall P (map bare_action (d_actions d))) as Hba
    by (intros P HP; apply Forall_map, Forall_forall; auto).
  assert (forall (P : method -> Prop), (forall a, In a (d_methods d) -> P (bare_method a)) -> Forall P (map bare_method (d_methods d))) as Hbm
    by (intros P HP; apply Forall_map, Forall_forall; auto).
  destruct Hd as [|a f g acts E Hs Hi|a f g acts E Hs Hi|m f g ms E Hs Hi|m s ms Hs Hi|m ms Hi]; apply bodies_doc; auto;
    refine (place_doc _ _ _ _ _ _ _ _ Hi); auto; pose proof (in_placed _ _ _ _ _ Hi) as Hin.
  - destruct (Ha a Hin) as [H1 H2]. apply action_body_doc; simpl; auto; [destruct H1 as (_ & H1 & _); rewrite E in H1; eapply slice_wf'; eauto|].
    constructor; auto. eapply slice_pr; eauto. unfold action_tokens in H2. rewrite E in H2. unfold opt_formula_tokens in H2. toks. auto.
  - destruct (Ha a Hin) as [H1 H2]. apply action_body_doc; simpl; auto; [destruct H1 as (_ & _ & H1); rewrite E in H1; eapply slice_wf'; eauto|].
    constructor; auto. eapply slice_pr; eauto. unfold action_tokens in H2. rewrite E in H2. unfold opt_formula_tokens in H2. toks. auto.
  - destruct (Hm m Hin) as [H1 H2]. apply method_body_doc; simpl; auto; [destruct H1 as (_ & _ & _ & _ & H1 & _); rewrite E in H1; eapply slice_wf'; eauto|].
    constructor; auto. eapply slice_pr; eauto. unfold method_tokens in H2. rewrite E in H2. unfold opt_formula_tokens in H2. toks. auto.
  - destruct (Hm m Hin) as [H1 H2]. destruct (Ht m Hin) as [H3 H4]. destruct (one_task_doc s _ Hs H3 H4). apply method_body_doc; simpl; auto.
  - destruct (Hm m Hin) as [H1 H2]. destruct (Ht m Hin) as [H3 H4]. destruct (only_order_doc _ H3 H4). apply method_body_doc; auto; simpl; auto.
Qed.
Lemma ppiece_doc p p' : ppiece p p' -> wf_problem p -> Forall printable (problem_tokens p) -> wf_problem p' /\ Forall printable (problem_tokens p').
Proof.
  assert (forall tn init goal, wf_problem p -> Forall printable (problem_tokens p) ->
    wf_opt (fun t => wf_opt wf_args (itn_params t) /\ wf_htn (itn_tn t)) tn /\ Forall (fun q => wf_args (pred_vars q)) init /\ wf_opt wf_formula goal ->
    Forall printable match tn with None => [] | Some t => LP :: TKeyword KHTN
       :: match itn_params t with None => [] | Some l => TKeyword KParameters :: LP :: syms_tokens l end ++ htn_tokens (itn_tn t) end ->
    Forall printable (flat_map pred_tokens init) -> Forall printable match goal with None => [] | Some f => LP :: TKeyword KGoal :: formula_tokens f end ->
    wf_problem (contents p tn init goal) /\ Forall printable (problem_tokens (contents p tn init goal))) as Hc.
  { intros tn init goal (H1 & _) Hp (H2 & H3 & H4) H5 H6 H7. split; [repeat (split; auto)|]. unfold problem_tokens in *.
    cbn [contents p_reqs p_init_tn p_init p_goal p_objects] in *. pok. }
  intros Hd Hw Hp. pose proof Hw as (W1 & W2 & W3 & W4). pose proof Hp as Hp'. unfold problem_tokens in Hp'. toks.
  destruct Hd as [|q Hq|f g E Hs|t s E Hs|t E]; apply Hc; auto; try (simpl; auto; fail).
  - split; simpl; auto. split; auto. constructor; auto. rewrite Forall_forall in W3. auto.
  - simpl. rewrite app_nil_r. match goal with H : Forall printable (flat_map pred_tokens _) |- _ => rewrite flat_pr, Forall_forall in H; apply (H q Hq) end.
  - rewrite E in W4. simpl. split; auto. split; auto. eapply slice_wf'; eauto.
  - rewrite E in *. toks. pok. eapply slice_pr; eauto.
  - rewrite E in W2. destruct W2 as [W2 W5]. rewrite E in *. toks. simpl. split; [|auto]. split; auto. apply (one_task_doc s (itn_tn t)); auto.
  - rewrite E in W2. destruct W2 as [W2 W5]. rewrite E in *. toks. cbn [itn_params itn_tn]. pok. apply (one_task_doc s (itn_tn t)); auto.
  - rewrite E in W2. destruct W2 as [W2 W5]. rewrite E in *. toks. simpl. split; [|auto]. split; auto. apply (only_order_doc (itn_tn t)); auto.
  - rewrite E in W2. destruct W2 as [W2 W5]. rewrite E in *. toks. cbn [itn_params itn_tn]. pok. apply (only_order_doc (itn_tn t)); auto.
Qed.

Section Props.
Context `{Unicode}.
Variable he : hash_env.
Hypothesis Hhe : hash_env_ok he.
Notation accepts dom prob := (exists ws, settles (fun k => verify he k dom prob) (Ok ws)).

Lemma both_verdict n dom prob d p : parse n dom = Ok (ADomain d) -> parse n prob = Ok (AProblem p) -> (accepts dom (Some prob) <-> domain_ok d /\ problem_ok d p).
Proof.
  intros E1 E3. split.
  - intros Hx. assert (domain_ok d) as Hok.
    { destruct Hx as (ws & _ & k & Hk). apply (accepted he k n dom (Some prob) ws d (Hk k (le_n k)) E1). }
    split; auto. apply (C22_problem_decided he Hhe n dom d prob p E1 Hok E3). auto.
  - intros [Hok Hp]. apply (C22_problem_decided he Hhe n dom d prob p E1 Hok E3). auto.
Qed.

(** C76: removing methods, or preconditions, effects, members of formulas,
    subtasks, ordering constraints, facts and goals from the bodies of accepted
    documents gives accepted documents. *)
Theorem C76_thinner_domain : forall n dom dom' d d', parse n dom = Ok (ADomain d) -> parse n dom' = Ok (ADomain d') ->
  thin_domain d' d -> accepts dom None -> accepts dom' None.
Proof.
  intros n dom dom' d d' E1 E2 Ht. rewrite (domain_verdict he Hhe n dom d E1), (domain_verdict he Hhe n dom' d' E2). apply th_domain_ok. auto.
Qed.
Theorem C76_thinner_problem : forall n dom prob prob' d p p', parse n dom = Ok (ADomain d) -> parse n prob = Ok (AProblem p) -> parse n prob' = Ok (AProblem p') ->
  thin_problem p' p -> accepts dom (Some prob) -> accepts dom (Some prob').
Proof.
  intros n dom prob prob' d p p' E1 E2 E3 Ht. rewrite (both_verdict n dom prob d p E1 E2), (both_verdict n dom prob' d p' E1 E3).
  intros [H1 H2]. split; auto. eapply th_problem_ok; eauto.
Qed.

(** A domain is accepted exactly if each of its pieces is: the declarations
    with at most one path through a formula, one subtask or one ordering block
    left in their bodies. *)
Theorem C76_domain_pieces : forall n dom d, parse n dom = Ok (ADomain d) ->
  (accepts dom None <-> forall d', piece d d' -> accepts (ast_text (ADomain d')) None).
Proof.
  intros n dom d E. destruct (parse_wf _ _ _ E) as [Hw Hp]. rewrite (domain_verdict he Hhe n dom d E).
  assert (forall d', piece d d' -> (accepts (ast_text (ADomain d')) None <-> domain_ok d')) as Hx.
  { intros d' Hd. destruct (piece_doc d d' Hd Hw Hp) as [Hw' Hp'].
    rewrite (domain_verdict he Hhe _ _ _ (text_round_trip (ADomain d') _ Hw' Hp' (le_n _))). apply at_domain_ok. }
  split.
  - intros Hok d' Hd. apply Hx; auto. eapply th_domain_ok; eauto. apply piece_thin. auto.
  - intros Ha. apply pieces_ok. intros d' Hd. apply Hx; auto.
Qed.
(** The same for problems: the objects with at most one fact, path through the
    goal, initial subtask or ordering block. *)
Theorem C76_problem_pieces : forall n dom prob d p, parse n dom = Ok (ADomain d) -> parse n prob = Ok (AProblem p) ->
  (accepts dom (Some prob) <-> forall p', ppiece p p' -> accepts dom (Some (ast_text (AProblem p')))).
Proof.
  intros n dom prob d p E1 E2. destruct (parse_wf _ _ _ E2) as [Hw Hp]. rewrite (both_verdict n dom prob d p E1 E2).
  assert (forall p', ppiece p p' -> (accepts dom (Some (ast_text (AProblem p'))) <-> domain_ok d /\ problem_ok d p')) as Hx.
  { intros p' Hd. destruct (ppiece_doc p p' Hd Hw Hp) as [Hw' Hp']. set (k := length (ast_tokens (AProblem p'))).
    pose proof (text_round_trip (AProblem p') (n + k) Hw' Hp' ltac:(lia)) as E3. assert (parse (n + k) dom = Ok (ADomain d)) as E4 by (rewrite <- E1; apply parse_mono; [lia|congruence]).
    rewrite (both_verdict (n + k) dom _ d _ E4 E3). split; intros [H1 H2]; (split; [auto|apply (at_problem_ok 1 d p' H1); auto]). }
  split.
  - intros [H1 H2] p' Hd. apply Hx; auto. split; auto. eapply th_problem_ok; eauto. apply ppiece_thin. auto.
  - intros Ha. split; [apply (Hx _ (pp_bare p)), Ha, pp_bare|]. apply ppieces_ok. intros p' Hd. apply Hx; auto.
Qed.
End Props.

(** ** Examples *)
(** One undeclared predicate among several correct things; the culprit alone. *)
Definition faulty : string :=
  "(define (domain d) (:types a) (:predicates (q ?x - a)) (:task t :parameters (?x - a))"
  ++ " (:action e :parameters (?x - a) :precondition (and (q ?x) (not (q ?x))) :effect (and (q ?x) (forall (?y - a) (or (q ?y) (r ?y)))))"
  ++ " (:method m :parameters (?x - a) :task (t ?x) :precondition (q ?x) :ordered-subtasks (and (e ?x) (t ?x))))" ++ nl.
Definition culprit : string :=
  "( define ( domain d ) ( :requirements ) ( :types a ) ( :predicates ( q x - a ) ) ( :functions ) ( :task t :parameters ( x - a ) )"
  ++ " ( :method m :parameters ( x - a ) :task ( t x ) :ordered-subtasks ( and ) )"
  ++ " ( :action e :parameters ( x - a ) :effect ( and ( forall ( y - a ) ( or ( r y ) ) ) ) ) ) ".
Example C76_example : exists d d', @parse uni0 300 faulty = Ok (ADomain d) /\ piece d d' /\ ast_text (ADomain d') = culprit
  /\ run_error faulty None = Some (ESem (UndefinedPredicate (mkUndef "r" 1))) /\ run_error culprit None = Some (ESem (UndefinedPredicate (mkUndef "r" 1))).
Proof.
  do 2 eexists. split; [vm_compute; reflexivity|]. split; [|split; [|split; vm_compute; reflexivity]].
  - eapply pc_eff; [| |exists [], []; split; reflexivity]; [reflexivity|].
    eapply sl_and; [right; left; reflexivity|]. apply sl_forall. eapply sl_or; [right; left; reflexivity|]. apply sl_leaf. intros g Hg. inversion Hg.
  - vm_compute. reflexivity.
Qed.
(** Ordering blocks cannot be divided further: each constraint alone is fine. *)
Definition ordered (c : string) : string :=
  "(define (domain d) (:task t :parameters ()) (:method m :parameters () :task (t) :subtasks (and (x (t)) (y (t))) :ordering (and " ++ c ++ ")))" ++ nl.
Theorem C76_constraints_refuted :
  run (ordered "(< x y)") None = Ok [NoPrimitiveRefinement "t" 1] /\ run (ordered "(< y x)") None = Ok [NoPrimitiveRefinement "t" 1]
  /\ run_error (ordered "(< x y) (< y x)") None = Some (ESem (CyclicOrdering 1)).
Proof. split; [vm_compute; reflexivity|]. split; vm_compute; reflexivity. Qed.
(** Declarations cannot be left out: removing an action may be what makes the
    domain faulty. *)
Definition needs (a : string) : string :=
  "(define (domain d) (:task t :parameters ()) " ++ a ++ " (:method m :parameters () :task (t) :ordered-subtasks (and (e))))" ++ nl.
Theorem C76_declarations_refuted : run (needs "(:action e :parameters ())") None = Ok []
  /\ run_error (needs "") None = Some (ESem (UndefinedSubtask (mkUndef "e" 1))).
Proof. split; vm_compute; reflexivity. Qed.

Definition part_theorems := (@C76_thinner_domain, @C76_thinner_problem, @C76_domain_pieces, @C76_problem_pieces, @C76_constraints_refuted, @C76_declarations_refuted).
