(** C87: instances of methods add nothing.  Specification: SpecInst.v. *)
From Coq Require Import String NArith Bool List Lia PeanoNat Permutation Relations Operators_Properties.
From Verif Require Import Base Token Lexer Errors Ast Parser Graph Semantic Tdg Api SpecSem SemProofs SemFacts VerifyTop SpecPrint SpecExec SpecExt SpecShape
  SpecAlpha SpecTdg SpecSame TypesProofs PropsLex PropsParse PropsSem PropsExec PropsExt PropsAlpha PropsSame SpecInst.
Import ListNotations.
Open Scope list_scope.
Open Scope nat_scope.

(** ** Instances are well-formed *)
Section Inst.
Variables (d : domain_ast) (m m' : method) (r : string -> string).
Hypothesis Hi : instance d m r m'.
Notation C := (constants_of d).
Notation T := (d_types d).

Lemma fits_self t : fits T t t.
Proof. destruct t; simpl; auto. apply rt_refl. Qed.
Lemma fits_tr a b c : fits T a b -> fits T b c -> fits T a c.
Proof. destruct a, b, c; simpl; try tauto. apply rt_trans. Qed.
Lemma constant_named n c : first_named sym_name n C c -> In n (names C).
Proof. intros H. apply first_named_in in H as [H <-]. apply in_map. auto. Qed.
Lemma unnamed_out n l : unnamed sym_name n l <-> ~ In n (names l).
Proof.
  split.
  - intros Hu H. apply in_map_iff in H as (x & E & Hx). apply (Hu x); auto.
  - intros H x Hx E. apply H. rewrite <- E. apply in_map. auto.
Qed.
Lemma denotes_inst n t : denotes (m_params m) C n t -> exists t', denotes (m_params m') C (r n) t' /\ fits T t' t.
Proof.
  intros [q Hq <- <-|c Hu Hc <-]; [apply (is_fits _ _ _ _ Hi); auto|].
  destruct (is_rest _ _ _ _ Hi n) as [E Hn]; [apply unnamed_out; auto|]. rewrite E. exists (sym_type c). split; [|apply fits_self].
  apply den_const with c; auto. apply unnamed_out, Hn. eapply constant_named; eauto.
Qed.
Lemma args_inst args args' formals : names args' = map r (names args) ->
  args_ok T (m_params m) C args formals -> args_ok T (m_params m') C args' formals.
Proof.
  unfold args_ok. intros E H. revert args' E. induction H as [|v f l l' (t & Ht & Hf) _ IH]; intros [|v' args'] E; try discriminate; constructor.
  - injection E as E _. destruct (denotes_inst _ _ Ht) as (t' & H1 & H2). exists t'. rewrite E. split; auto. eapply fits_tr; eauto.
  - injection E as _ E. auto.
Qed.
Lemma ren_within g' f f' : formula_at 1%N f' = formula_at 1%N (ren_formula r f) -> within g' f' ->
  exists h, within h f /\ same_formula (ren_formula r h) g'.
Proof.
  intros E Hw. destruct (within_same (ren_formula r f) f' g' (eq_sym E) Hw) as (g & Hg & Es).
  apply within_back in Hg as (h & -> & Hh). eauto.
Qed.
Lemma ren_within_open g' f f' : formula_at 1%N f' = formula_at 1%N (ren_formula r f) -> within_open g' f' ->
  exists h, within_open h f /\ same_formula (ren_formula r h) g'.
Proof.
  intros E Hw. destruct (within_open_same (ren_formula r f) f' g' (eq_sym E) Hw) as (g & Hg & Es).
  apply within_open_back in Hg as (h & -> & Hh). eauto.
Qed.
Lemma ren_is_atom h q' : same_formula (ren_formula r h) (FAtom q') ->
  exists q, h = FAtom q /\ pred_name q = pred_name q' /\ names (pred_vars q') = map r (names (pred_vars q)).
Proof.
  intros E. apply atom_same in E as (p & E & Ep). destruct h; try discriminate. injection E as <-. exists p0. split; auto.
  apply pred_at_same in Ep as [E1 E2]. split; auto. unfold names. rewrite <- E2. cbn. rewrite !map_map. auto.
Qed.
Lemma names_len (l l' : list symbol) : names l' = map r (names l) -> length l' = length l.
Proof. intros E. apply (f_equal (@length string)) in E. unfold names in E. rewrite !map_length in E. auto. Qed.
Lemma formula_inst f f' : formula_at 1%N f' = formula_at 1%N (ren_formula r f) ->
  formula_ok d (m_params m) f -> formula_ok d (m_params m') f'.
Proof.
  intros E (H1 & H2 & H3 & H4). split; [|split; [|split]].
  - intros g' Hg. destruct (ren_within _ _ _ E Hg) as (h & Hh & Es). specialize (H1 h Hh).
    destruct g'; auto; destruct h; simpl in H1; try discriminate; auto.
  - intros q' Hq. destruct (ren_within _ _ _ E Hq) as (h & Hh & Es). apply ren_is_atom in Es as (q & -> & En & Ev).
    destruct (H2 q Hh) as (def & D1 & D2 & D3). exists def. split; auto. split; [congruence|]. rewrite (names_len _ _ Ev). auto.
  - apply (is_params _ _ _ _ Hi).
  - intros q' Hq. destruct (ren_within_open _ _ _ E Hq) as (h & Hh & Es). apply ren_is_atom in Es as (q & -> & En & Ev).
    destruct (H4 q Hh) as (def & D1 & D2 & D3). exists def. split; auto. split; [congruence|]. eapply args_inst; eauto.
Qed.
Lemma call_inst h t t' args args' : sym_name t' = sym_name t -> names args' = map r (names args) ->
  call_ok d h (m_params m) t args -> call_ok d h (m_params m') t' args'.
Proof. intros E Ea (fs & Hc & Ha). exists fs. rewrite E. split; auto. eapply args_inst; eauto. Qed.
Lemma method_inst : method_ok d m -> method_ok d m'.
Proof.
  intros (_ & Hp & Hh & Hs & Ho). pose proof (is_pre _ _ _ _ Hi) as Ep. split; [apply (is_params _ _ _ _ Hi)|].
  split; [|split; [|split]].
  - destruct (m_pre m) as [f|], (m_pre m') as [f'|]; try discriminate; simpl in *; auto. injection Ep as Ep. eapply formula_inst; eauto.
  - eapply call_inst; [apply (is_task _ _ _ _ Hi)|apply (is_terms _ _ _ _ Hi)|auto].
  - pose proof (is_subtasks _ _ _ _ Hi) as Hss. clear Ep. induction Hss as [|s s' l l' (_ & E1 & E2) _ IH]; constructor; inversion Hs; subst; auto.
    eapply call_inst; eauto.
  - rewrite (is_order _ _ _ _ Hi). auto.
Qed.

(** ** What they decompose into *)
Variable p : problem_ast.
Hypothesis Hc : no_clash d p.
Hypothesis Hm : method_ok d m.
Variable b' : binding.
Hypothesis Hb' : respects d p b' (m_params m').
Definition chosen : binding := fun n => inst b' (m_params m') (mkSym (r n) 0%N None None).
Lemma chosen_respects : respects d p chosen (m_params m).
Proof.
  intros n q Hq. apply first_named_in in Hq as [Hq <-]. destruct (is_fits _ _ _ _ Hi q Hq) as (t & Ht & Hf).
  unfold chosen. eapply inst_value; eauto. apply (is_params _ _ _ _ Hi).
Qed.
Lemma chosen_term v v' t : sym_name v' = r (sym_name v) -> denotes (m_params m) C (sym_name v) t ->
  inst b' (m_params m') v' = inst chosen (m_params m) v.
Proof.
  intros E Hd. destruct (in_dec string_dec (sym_name v) (names (m_params m))) as [Hin|Hout].
  - rewrite (inst_in chosen) by auto. unfold chosen, inst. rewrite E. reflexivity.
  - rewrite (inst_out chosen) by (apply unnamed_out; auto). destruct (is_rest _ _ _ _ Hi _ Hout) as [Er Hn].
    destruct Hd as [q Hq Eq _|c _ Hf _]; [exfalso; apply Hout; rewrite <- Eq; apply in_map; auto|].
    rewrite inst_out; [congruence|]. apply unnamed_out. rewrite E, Er. apply Hn. eapply constant_named; eauto.
Qed.
Lemma chosen_terms args args' formals : names args' = map r (names args) -> args_ok T (m_params m) C args formals ->
  map (inst b' (m_params m')) args' = map (inst chosen (m_params m)) args.
Proof.
  unfold args_ok. intros E H. revert args' E. induction H as [|v f l l' (t & Ht & _) _ IH]; intros [|v' args'] E; try discriminate; auto.
  injection E as E E'. simpl. f_equal; [eapply chosen_term; eauto|auto].
Qed.
Lemma chosen_head : (sym_name (m_task m'), map (inst b' (m_params m')) (m_task_terms m')) =
  (sym_name (m_task m), map (inst chosen (m_params m)) (m_task_terms m)).
Proof.
  destruct Hm as (_ & _ & (fs & _ & Ha) & _). rewrite (is_task _ _ _ _ Hi). f_equal. eapply chosen_terms; eauto. apply (is_terms _ _ _ _ Hi).
Qed.
Lemma chosen_subtasks : map (inst_task b' (m_params m')) (htn_subtasks (m_tn m')) = map (inst_task chosen (m_params m)) (htn_subtasks (m_tn m)).
Proof.
  destruct Hm as (_ & _ & _ & Hs & _). pose proof (is_subtasks _ _ _ _ Hi) as Hss.
  induction Hss as [|s s' l l' (_ & E1 & E2) _ IH]; auto. inversion Hs as [|? ? (fs & _ & Ha) Hs']; subst. simpl. f_equal; auto.
  unfold inst_task. rewrite E1. f_equal. eapply chosen_terms; eauto.
Qed.
End Inst.

(** ** The extended domain *)
Section With.
Variables (d d' : domain_ast) (ms : list method).
Hypothesis Hw : with_methods d d' ms.
Lemma with_constants : constants_of d' = constants_of d.
Proof. unfold constants_of. rewrite (wm_constants _ _ _ Hw). auto. Qed.
Lemma with_extended : extended d d' [] [] [] [] [] ms.
Proof. pose proof with_constants. destruct Hw. constructor; rewrite ?app_nil_r; congruence. Qed.
Lemma with_callable h n fs : callable d h n fs -> callable d' h n fs.
Proof.
  intros [a Ha|h' t Ht Hu]; constructor; rewrite ?(wm_actions _ _ _ Hw), ?(wm_tasks _ _ _ Hw); auto.
Qed.
Lemma with_method m : method_ok d m -> method_ok d' m.
Proof.
  unfold method_ok, opt_formula_ok, formula_ok, call_ok. rewrite with_constants, (wm_types _ _ _ Hw), (wm_preds _ _ _ Hw).
  intros (H1 & H2 & (fs & H3 & H4) & H5 & H6). split; auto. split; auto. split; [exists fs; split; [apply with_callable|]; auto|].
  split; auto. eapply Forall_impl; [|exact H5]. cbn. intros s (fs' & H7 & H8). exists fs'. split; [apply with_callable|]; auto.
Qed.
Lemma with_problem p : problem_ok d' p <-> problem_ok d p.
Proof.
  pose proof with_constants as Hk. destruct Hw.
  split; apply (ext_problem _ _ [] [] [] [] []); rewrite ?app_nil_r; try congruence; intros ? ? _ [].
Qed.
Variable p : problem_ast.
Lemma with_value o f : value d' p o f <-> value d p o f.
Proof.
  assert (forall t, object_denotes d' p o t <-> object_denotes d p o t) as Ho.
  { intros t. split; (intros [x Hx E1 E2|c Hu Hf E]; [eapply od_object; eauto|eapply od_const; eauto]);
      [rewrite <- with_constants|rewrite with_constants]; auto. }
  unfold value. rewrite (wm_types _ _ _ Hw). setoid_rewrite Ho. reflexivity.
Qed.
Lemma with_respects b l : respects d' p b l <-> respects d p b l.
Proof. unfold respects. setoid_rewrite with_value. reflexivity. Qed.
Lemma with_mentions b l f x : mentions d' p b l f x <-> mentions d p b l f x.
Proof.
  split; induction 1 as [| |b b' l vs f x Hb Hr Hm IH|b b' l vs f x Hb Hr Hm IH];
    try (constructor; fail); try (econstructor; eauto; fail);
    first [eapply me_forall|eapply me_exists]; eauto; apply with_respects; auto.
Qed.
Lemma with_initial c : initial d' p c <-> initial d p c.
Proof. split; intros [E|t b E Hb]; constructor; auto; apply with_respects; auto. Qed.
Lemma with_step c c' : step d p c c' -> step d' p c c'.
Proof.
  intros [m b facts w1 w2 Hm Hr|a b facts facts' w1 w2 Ha He].
  - apply st_method; [rewrite (wm_methods _ _ _ Hw); apply in_or_app; auto|apply with_respects; auto].
  - apply st_action; [rewrite (wm_actions _ _ _ Hw); auto|].
    intros x Hx. destruct (He x Hx) as [H | (f & Ef & Hm)]; auto. right. exists f. split; auto. apply with_mentions; auto.
Qed.
Hypothesis Hc : no_clash d p.
Hypothesis Hd : domain_ok d.
Hypothesis Hms : instances d ms.
Lemma domain_method m : In m (d_methods d) -> method_ok d m.
Proof. pose proof Hd as H. unfold domain_ok in H. decompose [and] H. intros Hm. match goal with F : Forall (method_ok d) _ |- _ => rewrite Forall_forall in F; auto end. Qed.
Lemma without_step c c' : step d' p c c' -> step d p c c'.
Proof.
  intros [m' b' facts w1 w2 Hm Hr|a b facts facts' w1 w2 Ha He].
  - rewrite with_respects in Hr. rewrite (wm_methods _ _ _ Hw) in Hm. apply in_app_or in Hm as [Hm|Hm]; [apply st_method; auto|].
    destruct (Hms m' Hm) as (m & r & Hin & Hi). pose proof (domain_method m Hin) as Hok.
    rewrite (chosen_head d m m' r Hi Hok b'), (chosen_subtasks d m m' r Hi Hok b').
    apply st_method; auto. eapply chosen_respects; eauto.
  - apply st_action; [rewrite <- (wm_actions _ _ _ Hw); auto|].
    intros x Hx. destruct (He x Hx) as [H | (f & Ef & Hm)]; auto. right. exists f. split; auto. apply with_mentions; auto.
Qed.
Lemma with_structure : same_structure d d'.
Proof.
  unfold same_structure, compound, primitive. rewrite (wm_tasks _ _ _ Hw), (wm_actions _ _ _ Hw).
  assert (forall m, same_use m m) as Hself.
  { intros m. split; auto. split; auto. unfold same_orders. destruct (htn_orderings _); auto. }
  split; [tauto|]. split; [tauto|]. unfold covers. rewrite (wm_methods _ _ _ Hw). split.
  - intros m Hm. exists m. split; [apply in_or_app|]; auto.
  - intros m' Hm. apply in_app_or in Hm as [Hm|Hm]; [exists m'; auto|].
    destruct (Hms m' Hm) as (m & r & Hin & Hi). exists m. split; auto. split; [apply (is_task _ _ _ _ Hi)|]. split.
    + pose proof (is_subtasks _ _ _ _ Hi) as Hss. induction Hss as [|s s' l l' (E1 & E2 & _) _ IH]; auto. simpl. f_equal; auto.
      unfold sub_shape. congruence.
    + rewrite (is_order _ _ _ _ Hi). unfold same_orders. destruct (htn_orderings _); auto.
Qed.
End With.

(** ** Ordered executions *)
Definition same_net (c e : oconfig) : Prop :=
  fst c = fst e /\ net_tasks (snd c) = net_tasks (snd e) /\ forall a b, net_lt (snd c) a b <-> net_lt (snd e) a b.
Lemma forall2_nth {A B} (P : A -> B -> Prop) l l' i y : Forall2 P l l' -> nth_error l' i = Some y -> exists x, nth_error l i = Some x /\ P x y.
Proof. intros H. revert i. induction H as [|x y' l l' Hp _ IH]; intros [|i] E; try discriminate; simpl in *; [injection E as <-; eauto|auto]. Qed.
Lemma forall2_nth' {A B} (P : A -> B -> Prop) l l' i x : Forall2 P l l' -> nth_error l i = Some x -> exists y, nth_error l' i = Some y /\ P x y.
Proof. intros H. revert i. induction H as [|x' y l l' Hp _ IH]; intros [|i] E; try discriminate; simpl in *; [injection E as <-; eauto|auto]. Qed.
Lemma forall2_len {A B} (P : A -> B -> Prop) l l' : Forall2 P l l' -> length l = length l'.
Proof. induction 1; simpl; auto. Qed.
Lemma id_named (o o' : option symbol) a : option_map sym_name o' = option_map sym_name o -> o = Some a -> exists a', o' = Some a' /\ sym_name a' = sym_name a.
Proof. intros E ->. destruct o' as [a'|]; [|discriminate]. injection E as E. eauto. Qed.
Lemma ordered_inst d m r m' i j : instance d m r m' -> (ordered_at (m_tn m') i j <-> ordered_at (m_tn m) i j).
Proof.
  intros Hi. pose proof (is_subtasks _ _ _ _ Hi) as Hs. unfold ordered_at. rewrite (is_order _ _ _ _ Hi).
  destruct (htn_orderings (m_tn m)) as [|l]; [rewrite (forall2_len _ _ _ Hs); reflexivity|]. split.
  - intros (x' & y' & a' & b' & X & Y & A & B & L).
    destruct (forall2_nth _ _ _ _ _ Hs X) as (x & X1 & E1 & _). destruct (forall2_nth _ _ _ _ _ Hs Y) as (y & Y1 & E2 & _).
    destruct (id_named _ _ _ (eq_sym E1) A) as (a & A1 & A2). destruct (id_named _ _ _ (eq_sym E2) B) as (b & B1 & B2).
    exists x, y, a, b. rewrite A2, B2. repeat split; auto.
  - intros (x & y & a & b & X & Y & A & B & L).
    destruct (forall2_nth' _ _ _ _ _ Hs X) as (x' & X1 & E1 & _). destruct (forall2_nth' _ _ _ _ _ Hs Y) as (y' & Y1 & E2 & _).
    destruct (id_named _ _ _ E1 A) as (a' & A1 & A2). destruct (id_named _ _ _ E2 B) as (b' & B1 & B2).
    exists x', y', a', b'. rewrite A2, B2. repeat split; auto.
Qed.
Lemma order_inst d m r m' ids a b : instance d m r m' -> (order_of (m_tn m') ids a b <-> order_of (m_tn m) ids a b).
Proof. intros Hi. unfold order_of. setoid_rewrite (ordered_inst d m r m'); auto. reflexivity. Qed.
Lemma replace_same lt lt' i ids o o' : (forall a b, lt a b <-> lt' a b) -> (forall a b, o a b <-> o' a b) ->
  forall a b, replace_lt lt i ids o a b <-> replace_lt lt' i ids o' a b.
Proof. intros H1 H2 a b. unfold replace_lt. rewrite !H1, H2. reflexivity. Qed.
Section Ordered.
Variables (d d' : domain_ast) (ms : list method) (p : problem_ast).
Hypothesis Hw : with_methods d d' ms.
Hypothesis Hc : no_clash d p.
Hypothesis Hd : domain_ok d.
Hypothesis Hms : instances d ms.
Lemma with_ostep c c' : ostep d p c c' -> ostep d' p c c'.
Proof.
  intros [m b ids facts w1 i w2 lt Hm Hr|a b facts facts' w1 i w2 lt Ha He].
  - apply os_method; auto; [rewrite (wm_methods _ _ _ Hw); apply in_or_app; auto|apply (with_respects d d' ms Hw); auto].
  - apply os_action; auto; [rewrite (wm_actions _ _ _ Hw); auto|].
    intros x Hx. destruct (He x Hx) as [H0 | (f & Ef & Hm)]; auto. right. exists f. split; auto. apply (with_mentions d d' ms Hw); auto.
Qed.
Lemma without_ostep c c' e : ostep d' p c c' -> same_net c e -> exists e', ostep d p e e' /\ same_net c' e'.
Proof.
  intros [m' b' ids facts w1 i w2 lt Hm Hr Hn Hl Hid|a b facts facts' w1 i w2 lt Ha He Hlt] (S1 & S2 & S3); destruct e as [fe [te le]]; simpl in *; subst.
  - rewrite (with_respects d d' ms Hw) in Hr. rewrite (wm_methods _ _ _ Hw) in Hm. apply in_app_or in Hm as [Hm|Hm].
    + eexists. split; [apply os_method; eauto|]. split; [reflexivity|]. split; [reflexivity|]. simpl. apply replace_same; auto. tauto.
    + destruct (Hms m' Hm) as (m & r & Hin & Hi). pose proof (domain_method d Hd m Hin) as Hok.
      rewrite (chosen_head d m m' r Hi Hok b'), (chosen_subtasks d m m' r Hi Hok b').
      eexists. split; [apply (os_method d p m (chosen m' r b') ids); auto; [eapply chosen_respects; eauto|]|].
      * rewrite Hl. symmetry. apply (forall2_len _ _ _ (is_subtasks _ _ _ _ Hi)).
      * split; [reflexivity|]. split; [reflexivity|]. simpl. apply replace_same; auto. intros. eapply order_inst; eauto.
  - eexists. split; [apply (os_action d p a b fe facts')|].
    + rewrite <- (wm_actions _ _ _ Hw); auto.
    + intros x Hx. destruct (He x Hx) as [H0 | (f & Ef & Hm)]; auto. right. exists f. split; auto. apply (with_mentions d d' ms Hw); auto.
    + intros j Hj Hx. apply (Hlt j Hj), S3; auto.
    + split; [reflexivity|]. split; [reflexivity|]. auto.
Qed.
Lemma with_oinitial c : oinitial d' p c <-> oinitial d p c.
Proof. split; intros [E|t b ids E Hb]; constructor; auto; apply (with_respects d d' ms Hw); auto. Qed.
Lemma without_oruns c c' e : clos_refl_trans oconfig (ostep d' p) c c' -> same_net c e ->
  exists e', clos_refl_trans oconfig (ostep d p) e e' /\ same_net c' e'.
Proof.
  intros H. revert e. induction H as [x y Hs|x|x y z _ IH1 _ IH2]; intros e He.
  - destruct (without_ostep _ _ _ Hs He) as (e' & H1 & H2). exists e'. split; auto. apply rt_step; auto.
  - exists e. split; auto. apply rt_refl.
  - destruct (IH1 e He) as (e1 & H1 & H2). destruct (IH2 e1 H2) as (e2 & H3 & H4). exists e2. split; auto. eapply rt_trans; eauto.
Qed.
End Ordered.

Section Props.
Context `{Unicode}.
Variable he : hash_env.
Hypothesis Hhe : hash_env_ok he.
Notation accepts dom prob := (exists ws, settles (fun k => verify he k dom prob) (Ok ws)).
Variables (n : nat) (dom dom' : string) (d d' : domain_ast) (ms : list method).
Hypothesis Ed : parse n dom = Ok (ADomain d).
Hypothesis Ed' : parse n dom' = Ok (ADomain d').
Hypothesis Hw : with_methods d d' ms.
Hypothesis Hms : instances d ms.
Hypothesis Ha : accepts dom None.

(** ** C87 *)
(** Nothing but the names of the instances can be wrong. *)
Theorem C87_accepted : accepts dom' None <-> fresh (fun m => sym_name (m_name m)) (d_methods d) ms.
Proof.
  pose proof Ha as Hd. apply (domain_verdict he Hhe n dom d Ed) in Hd.
  rewrite (C55_extension he Hhe n dom dom' d d' _ _ _ _ _ _ Ed Ed' (with_extended d d' ms Hw) ltac:(intros ? ? _ []) Ha).
  split; [intros []; auto|]. intros Hf. pose proof Hd as (O1 & O2 & _). constructor.
  - rewrite (wm_reqs _ _ _ Hw). auto.
  - rewrite (wm_types _ _ _ Hw). auto.
  - split; [constructor|intros ? ? _ []].
  - constructor.
  - split; [constructor|intros ? ? _ []].
  - constructor.
  - split; [constructor|intros ? ? _ []].
  - constructor.
  - exact Hf.
  - apply Forall_forall. intros m' Hm. destruct (Hms m' Hm) as (m & r & Hin & Hi). eapply with_method; eauto.
    eapply method_inst; eauto. eapply domain_method; eauto.
Qed.
(** And a problem is accepted with both domains or with neither. *)
Theorem C87_problems : forall prob p, parse n prob = Ok (AProblem p) -> fresh (fun m => sym_name (m_name m)) (d_methods d) ms ->
  (accepts dom' (Some prob) <-> accepts dom (Some prob)).
Proof.
  intros prob p Ep Hf. apply C87_accepted in Hf. apply (domain_verdict he Hhe n dom' d' Ed') in Hf.
  pose proof Ha as Hd. apply (domain_verdict he Hhe n dom d Ed) in Hd.
  rewrite (C22_problem_decided he Hhe n dom d prob p Ed Hd Ep), (C22_problem_decided he Hhe n dom' d' prob p Ed' Hf Ep).
  apply (with_problem d d' ms Hw).
Qed.
(** A problem has the same executions with and without them. *)
Theorem C87_executions : forall p c, no_clash d p ->
  (reachable d' p c <-> reachable d p c).
Proof.
  intros p c Hc. pose proof Ha as Hd. apply (domain_verdict he Hhe n dom d Ed) in Hd. unfold reachable.
  split; intros (c0 & Hi & Hr); exists c0; (split; [apply (with_initial d d' ms Hw); auto|]); clear Hi;
    (induction Hr as [x y Hs| |x y z _ IH1 _ IH2]; [apply rt_step|apply rt_refl|eapply rt_trans; eauto]).
  - eapply without_step; eauto.
  - eapply with_step; eauto.
Qed.
(** Nor does it gain or lose executions that obey the ordering constraints. *)
Theorem C87_ordered : forall p c, no_clash d p ->
  (oreachable d p c -> oreachable d' p c)
  /\ (oreachable d' p c -> exists e, oreachable d p e /\ fst e = fst c /\ net_tasks (snd e) = net_tasks (snd c)
        /\ forall a b, net_lt (snd e) a b <-> net_lt (snd c) a b).
Proof.
  intros p c Hc. pose proof Ha as Hd. apply (domain_verdict he Hhe n dom d Ed) in Hd. split.
  - intros (c0 & Hi & Hr). exists c0. split; [apply (with_oinitial d d' ms p Hw); auto|]. clear Hi.
    induction Hr as [x y Hs| |x y z _ IH1 _ IH2]; [apply rt_step; eapply with_ostep; eauto|apply rt_refl|eapply rt_trans; eauto].
  - intros (c0 & Hi & Hr). apply (with_oinitial d d' ms p Hw) in Hi.
    destruct (without_oruns d d' ms p Hw Hc Hd Hms c0 c c0 Hr) as (e & H1 & H2 & H3 & H4); [split; [auto|split; [auto|tauto]]|].
    exists e. split; [exists c0; auto|]. split; auto. split; auto. intros a b. symmetry. auto.
Qed.
(** Metadata are delivered for both or for neither, and agree on recursion. *)
Theorem C87_metadata : distinct_names d ->
  ((exists k lf md, get_metadata he k lf dom = Ok md) <-> (exists k lf md, get_metadata he k lf dom' = Ok md))
  /\ forall k k' lf lf' md md', get_metadata he k lf dom = Ok md -> get_metadata he k' lf' dom' = Ok md' ->
     (md_recursion md = NonRecursive <-> md_recursion md' = NonRecursive)
     /\ ((forall x, In x (md_nullables md) <-> In x (md_nullables md')) -> SpecRec.class (md_recursion md) = SpecRec.class (md_recursion md')).
Proof.
  intros Hdn. assert (distinct_names d') as Hdn' by (unfold distinct_names; rewrite (wm_tasks _ _ _ Hw), (wm_actions _ _ _ Hw); auto).
  pose proof (with_structure d d' ms Hw Hms) as Hss. split.
  - eapply C80_delivered; eauto.
  - intros k k' lf lf' md md' E E'. assert (exists d1 d1', parse k dom = Ok (ADomain d1) /\ parse k' dom' = Ok (ADomain d1')) as (d1 & d1' & P & P').
    { unfold get_metadata, parse_as_domain in E, E'. apply bind_ok in E as (x & E & _). apply bind_ok in E' as (x' & E' & _).
      apply bind_ok in E as (y & E & Ey). apply bind_ok in E' as (y' & E' & Ey').
      destruct y; [|discriminate]. destruct y'; [|discriminate]. eauto. }
    pose proof (same_domain _ _ _ _ _ Ed P) as <-. pose proof (same_domain _ _ _ _ _ Ed' P') as <-.
    eapply (C80_class he he); eauto.
Qed.
End Props.

(** ** A case *)
Open Scope string_scope.
Definition in_dom (more : string) : string :=
  "(define (domain d) (:types b - a) (:constants h - b) (:predicates (q ?x - a)) (:task t :parameters (?x - a))" ++
  " (:action e :parameters (?x ?y - a) :effect (q ?x))" ++ nl ++
  " (:method m :parameters (?x ?y - a) :task (t ?x) :precondition (forall (?z) (q ?y)) :ordered-subtasks (and (e ?x ?y) (t h)))" ++ more ++ ")" ++ nl.
Definition in_inst : string :=
  " (:method m2 :parameters (?z - b) :task (t ?z) :precondition (forall (?z) (q h)) :ordered-subtasks (and (e ?z h) (t h)))".
Definition in_r (x : string) : string := if String.eqb x "x" then "z" else if String.eqb x "y" then "h" else x.
Open Scope list_scope.
Example C87_example : exists d d' ms,
  @parse uni0 300 (in_dom "") = Ok (ADomain d) /\ @parse uni0 300 (in_dom in_inst) = Ok (ADomain d')
  /\ with_methods d d' ms /\ instances d ms /\ length ms = 1
  /\ fresh (fun m => sym_name (m_name m)) (d_methods d) ms
  /\ run (in_dom "") None = Ok [] /\ run (in_dom in_inst) None = Ok [].
Proof.
  do 2 eexists. eexists [_]. split; [vm_compute; reflexivity|]. split; [vm_compute; reflexivity|].
  split; [constructor; reflexivity|]. split.
  { intros m' [<- | []]. eexists. exists in_r. split; [left; reflexivity|]. constructor.
    - reflexivity.
    - reflexivity.
    - reflexivity.
    - constructor; [split; [reflexivity|split; reflexivity]|]. constructor; [split; [reflexivity|split; reflexivity]|]. constructor.
    - reflexivity.
    - split; [constructor; [intros []|constructor]|]. intros s t [<- | []] Et. injection Et as <-.
      eexists. split; [left; reflexivity|left; reflexivity].
    - intros q [<- | [<- | []]].
      + exists (Some "b"). split; [eapply den_param; [left; reflexivity|reflexivity|reflexivity]|].
        apply rt_step. eexists. split; [left; reflexivity|split; reflexivity].
      + exists (Some "b"). split; [eapply den_const; [intros x [<- | []]; discriminate|left; reflexivity|reflexivity]|].
        apply rt_step. eexists. split; [left; reflexivity|split; reflexivity].
    - intros x Hx. split.
      + unfold in_r. destruct (String.eqb_spec x "x") as [->|]; [destruct Hx; left; reflexivity|].
        destruct (String.eqb_spec x "y") as [->|]; [destruct Hx; right; left; reflexivity|reflexivity].
      + intros [<- | []] [E | []]. discriminate. }
  split; [reflexivity|]. split.
  { split; [constructor; [intros []|constructor]|]. intros x y [<- | []] [<- | []]. discriminate. }
  split; vm_compute; reflexivity.
Qed.
(** A choice of the wrong type is not an instance, and is rejected. *)
Theorem C87_types_refuted :
  run (in_dom " (:method m2 :parameters (?z) :task (t ?z) :ordered-subtasks (and (e ?z h) (t h)))") None
  = Err (ESem (InconsistentTaskArgType (mkTypeErr (Some "a") None "z" 2))).
Proof. vm_compute. reflexivity. Qed.
Definition inst_theorems := (@C87_accepted, @C87_problems, @C87_executions, @C87_ordered, @C87_metadata, C87_types_refuted).
