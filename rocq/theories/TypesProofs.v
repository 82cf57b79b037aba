(** Proofs about types: the subtype relation as inclusion of sets, and
    documents that make weaker demands. *)
From Coq Require Import String NArith List Relations.
From Verif Require Import Base Token Errors Ast SpecPrint SpecSem SpecShape SpecTypes.
Import ListNotations.
Open Scope list_scope.

(** ** Types as sets *)
Lemma respects_subtype types {O : Type} (I : string -> O -> Prop) a b :
  respects types I -> subtype types a b -> forall x, I a x -> I b x.
Proof. intros HI. induction 1; eauto. Qed.

Lemma fits_always types t e : fits types t e <-> always types t e.
Proof.
  destruct t as [f|], e as [e|]; simpl; try tauto. split.
  - intros Hs O I HI. apply respects_subtype with types; auto.
  - intros Ha. apply (Ha string (fun b x => subtype types x b)); [|apply rt_refl].
    intros a b x Hp Hx. eapply rt_trans; [exact Hx|apply rt_step; auto].
Qed.
Lemma not_fits_sometimes types t e : ~ fits types t e -> sometimes_not types t e.
Proof.
  destruct t as [f|], e as [e|]; simpl; try tauto. intros Hn. exists (fun b x => subtype types x b), f.
  split; [|split; [apply rt_refl|auto]]. intros a b x Hp Hx. eapply rt_trans; [exact Hx|apply rt_step; auto].
Qed.
Lemma sometimes_not_fits types t e : sometimes_not types t e -> ~ fits types t e.
Proof.
  destruct t as [f|], e as [e|]; simpl; try tauto. intros (I & x & HI & Hf & He) Hs. apply He.
  eapply respects_subtype; eauto.
Qed.

(** ** Lists *)
Lemma f2_in {A B} (R : A -> B -> Prop) l l' : Forall2 R l l' -> forall y, In y l' -> exists x, In x l /\ R x y.
Proof.
  induction 1 as [|a b l l' H0 _ IH]; intros y []; [subst; exists a; simpl; auto|].
  destruct (IH y) as (x & Hx & Hr); auto. exists x. simpl. auto.
Qed.
Lemma f2_in_l {A B} (R : A -> B -> Prop) l l' : Forall2 R l l' -> forall x, In x l -> exists y, In y l' /\ R x y.
Proof.
  induction 1 as [|a b l l' H0 _ IH]; intros x []; [subst; exists b; simpl; auto|].
  destruct (IH x) as (y & Hy & Hr); auto. exists y. simpl. auto.
Qed.
Lemma f2_names {A B} (R : A -> B -> Prop) (f : A -> string) (g : B -> string) l l' :
  (forall x y, R x y -> f x = g y) -> Forall2 R l l' -> map f l = map g l'.
Proof. intros Hf. induction 1; simpl; f_equal; auto. Qed.
Lemma map_eq_in {A B} (f : A -> B) l l' : map f l = map f l' -> forall y, In y l' -> exists x, In x l /\ f x = f y.
Proof. intros E y Hy. apply (in_map f) in Hy. rewrite <- E in Hy. apply in_map_iff in Hy as (x & Ex & Hx). eauto. Qed.
Lemma map_eq_via {A B C} (f : A -> B) (g : A -> C) (h : B -> C) l l' :
  (forall x, g x = h (f x)) -> map f l = map f l' -> map g l = map g l'.
Proof.
  intros Hg E. assert (forall k, map g k = map h (map f k)) as Hk by (intros k; rewrite map_map; apply map_ext; auto).
  rewrite !Hk, E. auto.
Qed.

(** ** Formulas that differ in lines *)
Lemma child_at g f : child g f -> child (formula_at 1%N g) (formula_at 1%N f).
Proof. destruct 1; simpl; solve [constructor; auto using in_map|apply ch_imply2; auto using in_map]. Qed.
Lemma child_at_inv h f : child h (formula_at 1%N f) -> exists g, child g f /\ h = formula_at 1%N g.
Proof.
  destruct f; simpl; intros Hc; inversion Hc; subst;
    repeat match goal with E : In _ (map _ _) |- _ => apply in_map_iff in E as (g & <- & E) end;
    eexists; (split; [|reflexivity]); solve [constructor; auto|apply ch_imply2; auto].
Qed.
Lemma open_at g f : open_child g f -> open_child (formula_at 1%N g) (formula_at 1%N f).
Proof.
  intros [g0 f0 Hc Hq]. constructor; [apply child_at; auto|]. intros v h.
  destruct f0; simpl; split; try discriminate; exfalso; destruct (Hq vars f0); congruence.
Qed.
Lemma open_at_inv h f : open_child h (formula_at 1%N f) -> exists g, open_child g f /\ h = formula_at 1%N g.
Proof.
  intros Ho. inversion Ho as [h0 f0 Hc Hq]; subst. apply child_at_inv in Hc as (g & Hc & ->). exists g. split; auto. constructor; auto.
  intros v k. split; intros ->; simpl in Hq.
  - destruct (Hq (map (sym_at 1%N) v) (formula_at 1%N k)). congruence.
  - destruct (Hq (map (sym_at 1%N) v) (formula_at 1%N k)). congruence.
Qed.
Lemma closure_at (R : formula -> formula -> Prop) :
  (forall h f, R h (formula_at 1%N f) -> exists g, R g f /\ h = formula_at 1%N g) ->
  forall h f, clos_refl_trans formula R h (formula_at 1%N f) -> exists g, clos_refl_trans formula R g f /\ h = formula_at 1%N g.
Proof.
  intros Hi h f Hc. apply clos_rt_rtn1 in Hc. remember (formula_at 1%N f) as k eqn:Ek. revert f Ek.
  induction Hc as [|y z Hyz _ IH]; intros f Ek.
  - exists f. split; [apply rt_refl|auto].
  - subst z. apply Hi in Hyz as (g & Hg & ->). destruct (IH g eq_refl) as (g' & Hg' & ->).
    exists g'. split; auto. eapply rt_trans; [exact Hg'|apply rt_step; auto].
Qed.
Lemma closure_map (R : formula -> formula -> Prop) :
  (forall g f, R g f -> R (formula_at 1%N g) (formula_at 1%N f)) ->
  forall g f, clos_refl_trans formula R g f -> clos_refl_trans formula R (formula_at 1%N g) (formula_at 1%N f).
Proof. intros Hm. induction 1; [apply rt_step; auto|apply rt_refl|eapply rt_trans; eauto]. Qed.

Definition same_formula (f f' : formula) : Prop := formula_at 1%N f = formula_at 1%N f'.
Lemma within_same f f' g' : same_formula f f' -> within g' f' -> exists g, within g f /\ same_formula g g'.
Proof.
  intros E Hw. apply (closure_map child child_at) in Hw. rewrite <- E in Hw.
  apply (closure_at child child_at_inv) in Hw as (g & Hg & Eg). exists g. split; auto. symmetry. exact Eg.
Qed.
Lemma within_open_same f f' g' : same_formula f f' -> within_open g' f' -> exists g, within_open g f /\ same_formula g g'.
Proof.
  intros E Hw. apply (closure_map open_child open_at) in Hw. rewrite <- E in Hw.
  apply (closure_at open_child open_at_inv) in Hw as (g & Hg & Eg). exists g. split; auto. symmetry. exact Eg.
Qed.
Lemma atom_same g p' : same_formula g (FAtom p') -> exists p, g = FAtom p /\ pred_at 1%N p = pred_at 1%N p'.
Proof. unfold same_formula. destruct g; simpl; intros E; try discriminate. exists p. split; congruence. Qed.
Lemma pred_at_same p p' : pred_at 1%N p = pred_at 1%N p' ->
  pred_name p = pred_name p' /\ map sym_name (pred_vars p) = map sym_name (pred_vars p').
Proof.
  unfold pred_at. intros E. injection E as En Ev. split; auto.
  apply (map_eq_via (sym_at 1%N) sym_name sym_name); auto.
Qed.

(** ** Weaker demands *)
Section Relaxed.
Variables d d' : domain_ast.
Hypothesis Hr : relaxed d d'.
Let T' := d_types d'.

Lemma subtype_more a b : subtype (d_types d) a b -> subtype T' a b.
Proof. destruct Hr as (Hp & _). induction 1 as [x y Hxy|x|x y z _ H1 _ H2]; [auto|apply rt_refl|eapply rt_trans; eauto]. Qed.
Lemma fits_more t e : fits (d_types d) t e -> fits T' t e.
Proof. destruct t, e; simpl; auto. apply subtype_more. Qed.
Lemma fits_trans t u v : fits T' t u -> fits T' u v -> fits T' t v.
Proof. destruct t, u, v; simpl; try tauto. intros H1 H2. eapply rt_trans; eauto. Qed.
Lemma declared_more l : types_declared (d_types d) l -> types_declared T' l.
Proof. destruct Hr as (_ & Hd & _). intros Hl s t Hs Et. apply Hd. eapply Hl; eauto. Qed.
Lemma names_same l l' : Forall2 (narrower T') l l' -> map sym_name l = map sym_name l'.
Proof. apply f2_names. intros x y [E _]. auto. Qed.
Lemma unnamed_same l l' n : map sym_name l = map sym_name l' -> unnamed sym_name n l -> unnamed sym_name n l'.
Proof.
  intros E Hu x Hx Ex. destruct (map_eq_in _ _ _ E x Hx) as (y & Hy & Ey). apply (Hu y); auto. congruence.
Qed.
Lemma first_narrower n l l' c : Forall2 (narrower T') l l' -> first_named sym_name n l c ->
  exists c', first_named sym_name n l' c' /\ fits T' (sym_type c') (sym_type c).
Proof.
  intros Hl Hf. revert l' Hl. induction Hf as [x l Ex|y l x Hy Hf IH]; intros l' Hl; inversion Hl as [|? z ? l2 [En Ht] Hl2]; subst.
  - exists z. split; auto. apply fn_here. congruence.
  - destruct (IH l2 Hl2) as (c' & Hc & Hc'). exists c'. split; auto. apply fn_later; auto. congruence.
Qed.
Lemma constants_narrower : Forall2 (narrower T') (constants_of d) (constants_of d').
Proof. apply Hr. Qed.

Lemma denotes_narrower params params' n t : Forall2 (narrower T') params params' ->
  denotes params (constants_of d) n t -> exists t', denotes params' (constants_of d') n t' /\ fits T' t' t.
Proof.
  intros Hp Hd. destruct Hd as [p Hi En Et|c Hu Hf Et]; subst.
  - destruct (f2_in_l _ _ _ Hp p Hi) as (p' & Hi' & En & Ht). exists (sym_type p'). split; auto. eapply den_param; eauto.
  - destruct (first_narrower _ _ _ _ constants_narrower Hf) as (c' & Hf' & Ht). exists (sym_type c'). split; auto.
    eapply den_const; eauto. eapply unnamed_same; [|exact Hu]. apply names_same. auto.
Qed.

(** Arguments with the same names, of narrower values, for wider parameters. *)
Lemma args_wider (D D' : string -> option string -> Prop) args args' formals formals' :
  (forall n t, D n t -> exists t', D' n t' /\ fits T' t' t) ->
  map sym_name args = map sym_name args' -> Forall2 (wider T') formals formals' ->
  Forall2 (fun v f => exists t, D (sym_name v) t /\ fits (d_types d) t (sym_type f)) args formals ->
  Forall2 (fun v f => exists t, D' (sym_name v) t /\ fits T' t (sym_type f)) args' formals'.
Proof.
  intros HD Ea Hf Ha. revert args' Ea formals' Hf.
  induction Ha as [|v f args formals (t & Ht & Hfit) _ IH]; intros args' Ea formals' Hf.
  - inversion Hf; subst. destruct args'; [constructor|discriminate].
  - inversion Hf as [|? f' ? fs' Hw Hf']; subst. destruct args' as [|v' args']; [discriminate|]. injection Ea as Ev Ea.
    constructor; [|auto]. destruct (HD _ _ Ht) as (t' & Ht' & Hn). exists t'. rewrite <- Ev. split; auto.
    eapply fits_trans; [exact Hn|]. eapply fits_trans; [apply fits_more; exact Hfit|exact Hw].
Qed.
Lemma args_length (D : string -> option string -> Prop) args formals :
  Forall2 (fun v f => exists t, D (sym_name v) t /\ fits (d_types d) t (sym_type f)) args formals -> length args = length formals.
Proof. induction 1; simpl; auto. Qed.
Lemma wider_length l l' : Forall2 (wider T') l l' -> length l = length l'.
Proof. induction 1; simpl; auto. Qed.

Lemma pred_wider def : In def (d_preds d) -> exists def', In def' (d_preds d') /\ wider_pred T' def def'.
Proof. destruct Hr as (_ & _ & _ & _ & Hp & _). intros Hi. exact (f2_in_l _ _ _ Hp def Hi). Qed.

Lemma formula_relaxed params params' g g' : Forall2 (narrower T') params params' -> types_declared T' params' ->
  same_formula g g' -> formula_ok d params g -> formula_ok d' params' g'.
Proof.
  intros Hp Hd Eg (H1 & H2 & H3 & H4). split; [|split; [|split; [exact Hd|]]].
  - intros h' Hh. destruct (within_same _ _ _ Eg Hh) as (h & Hh0 & E). specialize (H1 h Hh0).
    unfold same_formula in E. destruct h, h'; simpl in *; auto; discriminate.
  - intros p' Hw. destruct (within_same _ _ _ Eg Hw) as (h & Hh & E). apply atom_same in E as (p & -> & E).
    apply pred_at_same in E as [En Ev]. destruct (H2 p Hh) as (def & Hi & Ed & El).
    destruct (pred_wider def Hi) as (def' & Hi' & En' & Hw'). exists def'. split; auto. split; [congruence|].
    apply wider_length in Hw'. apply (f_equal (@length string)) in Ev. rewrite !map_length in Ev. congruence.
  - intros p' Hw. destruct (within_open_same _ _ _ Eg Hw) as (h & Hh & E). apply atom_same in E as (p & -> & E).
    apply pred_at_same in E as [En Ev]. destruct (H4 p Hh) as (def & Hi & Ed & Ha).
    destruct (pred_wider def Hi) as (def' & Hi' & En' & Hw'). exists def'. split; auto. split; [congruence|].
    unfold args_ok in *. eapply args_wider; [|exact Ev|exact Hw'|exact Ha]. intros n t. apply denotes_narrower. auto.
Qed.

Lemma same_opt f f' : option_map (formula_at 1%N) f = option_map (formula_at 1%N) f' ->
  forall g', f' = Some g' -> exists g, f = Some g /\ same_formula g g'.
Proof. intros E g' ->. destruct f as [g|]; simpl in E; [|discriminate]. injection E as E. eauto. Qed.

Lemma sym_types_at l l' : map (sym_at 1%N) l = map (sym_at 1%N) l' ->
  map sym_name l = map sym_name l' /\ Forall2 (wider T') l l' /\ Forall2 (narrower T') l l'.
Proof.
  intros E. split; [apply (map_eq_via (sym_at 1%N) sym_name sym_name); auto|]. split.
  - revert l' E. induction l as [|x l IH]; intros [|y l'] E; try discriminate; constructor.
    + injection E as _ Et _ _. unfold wider. rewrite Et. destruct (sym_type y); simpl; auto. apply rt_refl.
    + apply IH. injection E; auto.
  - revert l' E. induction l as [|x l IH]; intros [|y l'] E; try discriminate; constructor.
    + injection E as En Et _ _. split; auto. rewrite Et. destruct (sym_type y); simpl; auto. apply rt_refl.
    + apply IH. injection E; auto.
Qed.
Lemma declared_at l l' : map (sym_at 1%N) l = map (sym_at 1%N) l' -> types_declared T' l -> types_declared T' l'.
Proof.
  intros E Hl s t Hs Et. destruct (map_eq_in _ _ _ E s Hs) as (x & Hx & Ex). apply (Hl x); auto.
  unfold sym_at in Ex. congruence.
Qed.

Lemma action_names : map act_name (d_actions d) = map act_name (d_actions d').
Proof. destruct Hr as (_ & _ & _ & _ & _ & _ & Ha & _). apply (map_eq_via (action_at 1%N) act_name act_name); auto. Qed.
Lemma task_names : map task_name (d_tasks d) = map task_name (d_tasks d').
Proof. destruct Hr as (_ & _ & _ & _ & _ & Ht & _). eapply f2_names; [|exact Ht]. intros x y [E _]; auto. Qed.
Lemma pred_names : map pred_name (d_preds d) = map pred_name (d_preds d').
Proof. destruct Hr as (_ & _ & _ & _ & Ht & _). eapply f2_names; [|exact Ht]. intros x y [E _]; auto. Qed.

Lemma callable_relaxed h n formals : callable d h n formals -> exists formals', callable d' h n formals' /\ Forall2 (wider T') formals formals'.
Proof.
  destruct Hr as (_ & _ & _ & _ & _ & Ht & Ha & _). intros Hc. destruct Hc as [a Hi|h t Hi Hu].
  - symmetry in Ha. destruct (map_eq_in _ _ _ Ha a Hi) as (a' & Hi' & E). unfold action_at in E. injection E as En Ep _ _.
    exists (act_params a'). rewrite <- En. split; [apply call_action; auto|]. symmetry in Ep. apply sym_types_at in Ep as (_ & Hw & _). auto.
  - destruct (f2_in_l _ _ _ Ht t Hi) as (t' & Hi' & En & Hw). exists (task_params t'). rewrite En. split; auto.
    apply call_task; auto. intros Eh a Hx Ex. symmetry in Ha. pose proof action_names as Hn. symmetry in Hn. 
    apply (in_map act_name) in Hx. rewrite Hn in Hx. apply in_map_iff in Hx as (b & Eb & Hb). apply (Hu Eh b Hb). congruence.
Qed.

Lemma call_relaxed h params params' tk tk' terms terms' : Forall2 (narrower T') params params' ->
  sym_name tk = sym_name tk' -> map sym_name terms = map sym_name terms' ->
  call_ok d h params tk terms -> call_ok d' h params' tk' terms'.
Proof.
  intros Hp En Et (formals & Hc & Ha). apply callable_relaxed in Hc as (formals' & Hc' & Hw). exists formals'. rewrite <- En.
  split; auto. unfold args_ok in *. eapply args_wider; [|exact Et|exact Hw|exact Ha]. intros n t. apply denotes_narrower. auto.
Qed.

Lemma subtasks_same h h' : htn_at 1%N h = htn_at 1%N h' ->
  htn_orderings h = htn_orderings h'
  /\ forall s', In s' (htn_subtasks h') -> exists s, In s (htn_subtasks h) /\ sym_name (sub_task s) = sym_name (sub_task s')
       /\ map sym_name (sub_terms s) = map sym_name (sub_terms s').
Proof.
  unfold htn_at. intros E. injection E as Es _ Eo _. split; auto. intros s' Hs.
  destruct (map_eq_in _ _ _ Es s' Hs) as (s & Hi & E). exists s. split; auto. unfold subtask_at in E. injection E as _ En _ _ El.
  split; auto. apply (map_eq_via (sym_at 1%N) sym_name sym_name); auto.
Qed.

Theorem domain_relaxed : types_sound d' -> domain_ok d -> domain_ok d'.
Proof.
  intros (Sa & Sp & St & Sm) (H1 & _ & H3 & _ & H5 & _ & H7 & H8 & H9 & H10).
  destruct Hr as (_ & _ & Er & _ & Hp & Ht & Ha & Hm).
  split; [rewrite <- Er; auto|]. split; [auto|]. split; [rewrite <- pred_names; auto|]. split; [auto|].
  split; [rewrite <- task_names; auto|]. split; [auto|]. split; [rewrite <- action_names; auto|]. split; [|split].
  - apply Forall_forall. intros a' Hi. destruct (map_eq_in _ _ _ Ha a' Hi) as (a & Hi0 & E).
    rewrite Forall_forall in H8. destruct (H8 a Hi0) as (A1 & A2 & A3). unfold action_at in E. injection E as _ Ep Epre Eeff.
    destruct (sym_types_at _ _ Ep) as (En & _ & Hn). split; [rewrite <- En; auto|].
    assert (forall o o', option_map (formula_at 1%N) o = option_map (formula_at 1%N) o' ->
      opt_formula_ok d (act_params a) o -> opt_formula_ok d' (act_params a') o') as Ho.
    { intros o o' Eo Hok. destruct o' as [g'|]; [|exact I]. destruct (same_opt _ _ Eo g' eq_refl) as (g & -> & Eg). simpl in *.
      eapply formula_relaxed; eauto. apply (declared_at (act_params a)); auto. apply declared_more. apply Hok. }
    split; eapply Ho; eauto.
  - assert (map (fun m => sym_name (m_name m)) (d_methods d) = map (fun m => sym_name (m_name m)) (d_methods d')) as <-; auto.
    eapply f2_names; [|exact Hm]. intros m m' (E & _); auto.
  - rewrite Forall_forall in *. intros m' Hi. destruct (f2_in _ _ _ Hm m' Hi) as (m & Hi0 & E1 & E2 & E3 & E4 & E5 & E6).
    destruct (H10 m Hi0) as (M1 & M2 & M3 & M4 & M5). apply subtasks_same in E5 as [Eo Es].
    split; [rewrite <- (names_same _ _ E6); auto|]. split; [|split; [|split]].
    + destruct (m_pre m') as [g'|] eqn:Eg; [|exact I]. destruct (same_opt _ _ E4 g' eq_refl) as (g & Eg0 & Egg). rewrite Eg0 in M2.
      simpl in *. eapply formula_relaxed; eauto.
    + eapply call_relaxed; eauto.
    + apply Forall_forall. intros s' Hs. destruct (Es s' Hs) as (s & Hs0 & En & Et). rewrite Forall_forall in M4.
      eapply call_relaxed; eauto.
    + rewrite <- Eo. auto.
Qed.

Lemma shape_relaxed : shape_of d = shape_of d'.
Proof.
  destruct Hr as (_ & _ & _ & _ & _ & _ & _ & Hm). unfold shape_of. rewrite task_names, action_names. f_equal.
  induction Hm as [|m m' l l' (E1 & E2 & _ & _ & E5 & _) _ IH]; simpl; auto. rewrite IH, E1, E2. f_equal.
  unfold htn_at in E5. injection E5 as Es _ Eo _. rewrite Eo. f_equal.
  apply (map_eq_via (subtask_at 1%N) sub_shape sub_shape); auto. intros s. unfold sub_shape, subtask_at. simpl. destruct (sub_id s); auto.
Qed.

(** ** Problems *)
Variables p p' : problem_ast.
Hypothesis Hpr : relaxed_problem T' p p'.

Lemma objects_denote n t : object_denotes d p n t -> exists t', object_denotes d' p' n t' /\ fits T' t' t.
Proof.
  destruct Hpr as (Ho & _). intros [o Hi En Et|c Hu Hf Et]; subst.
  - destruct (f2_in_l _ _ _ Ho o Hi) as (o' & Hi' & En & Ht). exists (sym_type o'). split; auto. eapply od_object; eauto.
  - destruct (first_narrower _ _ _ _ constants_narrower Hf) as (c' & Hf' & Ht). exists (sym_type c'). split; auto.
    eapply od_const; eauto. eapply unnamed_same; [|exact Hu]. apply names_same. auto.
Qed.
Lemma terms_denote params params' n t : Forall2 (narrower T') params params' ->
  term_denotes d p params n t -> exists t', term_denotes d' p' params' n t' /\ fits T' t' t.
Proof.
  destruct Hpr as (Ho & _). intros Hp [o Hi En Et|q Hu Hf Et|c Hu Hu2 Hf Et]; subst.
  - destruct (f2_in_l _ _ _ Ho o Hi) as (o' & Hi' & En & Ht). exists (sym_type o'). split; auto. eapply td_object; eauto.
  - destruct (first_narrower _ _ _ _ Hp Hf) as (c' & Hf' & Ht). exists (sym_type c'). split; auto.
    eapply td_param; eauto. eapply unnamed_same; [|exact Hu]. apply names_same. auto.
  - destruct (first_narrower _ _ _ _ constants_narrower Hf) as (c' & Hf' & Ht). exists (sym_type c'). split; auto.
    apply td_const with c'; auto.
    + eapply unnamed_same; [|exact Hu]. apply names_same. auto.
    + eapply unnamed_same; [|exact Hu2]. apply names_same. auto.
Qed.
Lemma fact_relaxed q q' : pred_at 1%N q = pred_at 1%N q' -> fact_ok d p q -> fact_ok d' p' q'.
Proof.
  intros E (def & Hi & En & Ha). apply pred_at_same in E as [Eq Ev]. destruct (pred_wider def Hi) as (def' & Hi' & En' & Hw).
  exists def'. split; auto. split; [congruence|]. eapply args_wider; [|exact Ev|exact Hw|exact Ha]. intros n t. apply objects_denote.
Qed.

Theorem problem_relaxed : types_declared T' (p_objects p') -> problem_ok d p -> problem_ok d' p'.
Proof.
  intros Hd (_ & P2 & P3 & P4 & P5). destruct Hpr as (Ho & Ei & Eg & Et).
  split; [exact Hd|]. split; [rewrite <- (names_same _ _ Ho); auto|]. split; [|split].
  - apply Forall_forall. intros q' Hq. destruct (map_eq_in _ _ _ Ei q' Hq) as (q & Hq0 & E).
    rewrite Forall_forall in P3. eapply fact_relaxed; eauto.
  - destruct (p_init_tn p) as [t|], (p_init_tn p') as [t'|]; try contradiction; auto.
    destruct Et as [Eh Hn]. destruct P4 as [Q1 Q2]. apply subtasks_same in Eh as [Eo Es]. split; [rewrite <- Eo; auto|].
    apply Forall_forall. intros s' Hs. destruct (Es s' Hs) as (s & Hs0 & En & El). rewrite Forall_forall in Q2.
    destruct (Q2 s Hs0) as (formals & Hc & Ha). apply callable_relaxed in Hc as (formals' & Hc' & Hw).
    exists formals'. rewrite <- En. split; auto. eapply args_wider; [|exact El|exact Hw|exact Ha]. intros n ty. apply terms_denote. auto.
  - destruct (p_goal p') as [g'|] eqn:Eg'; auto. destruct (same_opt _ _ Eg g' eq_refl) as (g & Eg0 & Egg). rewrite Eg0 in P5.
    intros q' Hq. destruct (within_open_same _ _ _ Egg Hq) as (h & Hh & E). apply atom_same in E as (q & -> & E).
    eapply fact_relaxed; eauto.
Qed.
End Relaxed.
