(** C74: the names of parameters are local to the declaration.  Specification: SpecAlpha.v. *)
From Coq Require Import String NArith Bool List Lia PeanoNat Permutation Relations Operators_Properties.
From Verif Require Import Base Token Lexer Errors Ast Parser Graph Semantic Tdg Api FormulaInd SpecSem SemFacts VerifyTop SpecExec SpecShape SpecAlpha
  PropsLex PropsParse PropsSem PropsExec PropsShape.
Import ListNotations.
Open Scope string_scope.
Open Scope list_scope.
Open Scope nat_scope.

(** ** Renaming back *)
Lemma map_back {A} (f g : A -> A) l : (forall x, In x l -> g (f x) = x) -> map g (map f l) = l.
Proof. induction l as [|x l IH]; simpl; auto. intros E. rewrite E, IH; auto. Qed.
Section Back.
Variables r s : string -> string.
Hypothesis Hi : forall x, s (r x) = x.
Lemma back_sym v : ren_sym s (ren_sym r v) = v.
Proof. destruct v; unfold ren_sym; simpl. rewrite Hi. auto. Qed.
Lemma back_syms l : map (ren_sym s) (map (ren_sym r) l) = l.
Proof. apply map_back. intros. apply back_sym. Qed.
Lemma back_formula f : ren_formula s (ren_formula r f) = f.
Proof.
  induction f as [|[n p l]|f IH|fs IH|fs IH|fs IH|ps qs IH1 IH2|v f IH|v f IH|w f IH|a b] using formula_nested_ind; simpl;
    rewrite ?IH, ?Hi, ?back_syms; auto; try (f_equal; apply map_back; apply Forall_forall; auto).
  unfold ren_atom. simpl. rewrite back_syms. auto.
Qed.
Lemma back_opt o : option_map (ren_formula s) (option_map (ren_formula r) o) = o.
Proof. destruct o; simpl; auto. rewrite back_formula. auto. Qed.
Lemma back_htn h : ren_htn s (ren_htn r h) = h.
Proof.
  destruct h as [subs p o c]. unfold ren_htn. simpl. f_equal.
  - apply map_back. intros [i t l] _. unfold ren_sub. simpl. rewrite back_syms. auto.
  - destruct c; simpl; auto. f_equal. apply map_back. intros [a b|a b] _; simpl; rewrite !Hi; auto.
Qed.
Lemma back_action a : ren_action s (ren_action r a) = a.
Proof. destruct a. unfold ren_action. simpl. rewrite back_syms, !back_opt. auto. Qed.
Lemma back_method m : ren_method s (ren_method r m) = m.
Proof. destruct m. unfold ren_method. simpl. rewrite !back_syms, back_opt, back_htn. auto. Qed.
Lemma back_init t : ren_init_tn s (ren_init_tn r t) = t.
Proof. destruct t as [[l|] h]; unfold ren_init_tn; simpl; rewrite ?back_syms, back_htn; auto. Qed.
End Back.
Lemma names_ren r l : names (map (ren_sym r) l) = map r (names l).
Proof. unfold names. rewrite !map_map. apply map_ext. auto. Qed.
Lemma tn_params_ren r t : tn_params (ren_init_tn r t) = map (ren_sym r) (tn_params t).
Proof. destruct t as [[l|] h]; auto. Qed.

Section Formula.
Variables r s : string -> string.
Hypothesis Hi : inverse r s.
Lemma in_ren x l : In (r x) (map r l) <-> In x l.
Proof.
  split; [|apply in_map]. intros H. apply in_map_iff in H as (y & E & Hy). replace x with y; auto. apply (f_equal s) in E. destruct Hi as [H1 _]. rewrite !H1 in E. auto.
Qed.
Lemma in_back x l : In x (map r l) <-> In (s x) l.
Proof. rewrite <- (in_ren (s x)). destruct Hi as [_ E]. rewrite E. tauto. Qed.
Lemma child_ren g f : child g f -> child (ren_formula r g) (ren_formula r f).
Proof. intros H. inversion H; subst; simpl; first [constructor; apply in_map; assumption|apply ch_imply2; apply in_map; assumption|constructor]. Qed.
Lemma child_back g' f : child g' (ren_formula r f) -> exists g, g' = ren_formula r g /\ child g f.
Proof.
  intros H. destruct f; simpl in H; inversion H; subst; try (eexists; split; [reflexivity|constructor]; fail);
    match goal with Hx : In _ (map _ _) |- _ => apply in_map_iff in Hx as (g & <- & Hg) end; exists g; (split; [auto|]); first [constructor; assumption|apply ch_imply2; assumption].
Qed.
Lemma open_back g' f : open_child g' (ren_formula r f) -> exists g, g' = ren_formula r g /\ open_child g f.
Proof.
  intros H. inversion H as [g0 f0 Hc Hq]; subst. apply child_back in Hc as (g & -> & Hc). exists g. split; auto. constructor; auto.
  intros v h. split; intros ->; [destruct (Hq (map (ren_sym r) v) (ren_formula r h)) as [Hx _]|destruct (Hq (map (ren_sym r) v) (ren_formula r h)) as [_ Hx]]; apply Hx; auto.
Qed.
Lemma open_ren g f : open_child g f -> open_child (ren_formula r g) (ren_formula r f).
Proof.
  intros [g0 f0 Hc Hq]. constructor; [apply child_ren; auto|]. intros v h.
  split; intros E; destruct f0; try discriminate; [destruct (Hq vars f0) as [Hx _]|destruct (Hq vars f0) as [_ Hx]]; apply Hx; auto.
Qed.
Lemma within_back g' f : within g' (ren_formula r f) -> exists g, g' = ren_formula r g /\ within g f.
Proof.
  unfold within. intros H. apply clos_rt_rt1n in H. remember (ren_formula r f) as f' eqn:E. revert E.
  induction H as [x|x y z Hc _ IH]; intros ->; [exists f; split; [auto|apply rt_refl]|].
  destruct (IH eq_refl) as (h & -> & Hh). apply child_back in Hc as (g & -> & Hg). exists g. split; auto. eapply rt_trans; [apply rt_step; eauto|auto].
Qed.
Lemma within_open_back g' f : within_open g' (ren_formula r f) -> exists g, g' = ren_formula r g /\ within_open g f.
Proof.
  unfold within_open. intros H. apply clos_rt_rt1n in H. remember (ren_formula r f) as f' eqn:E. revert E.
  induction H as [x|x y z Hc _ IH]; intros ->; [exists f; split; [auto|apply rt_refl]|].
  destruct (IH eq_refl) as (h & -> & Hh). apply open_back in Hc as (g & -> & Hg). exists g. split; auto. eapply rt_trans; [apply rt_step; eauto|auto].
Qed.
Lemma free_open g f x : within_open g f -> free g x -> free f x.
Proof. intros H. apply clos_rt_rt1n in H. induction H as [|a b c Hc _ IH]; auto. intros Hx. apply IH. eapply fr_child; eauto. Qed.
Lemma free_back f x : free (ren_formula r f) x -> free f (s x).
Proof.
  intros H. remember (ren_formula r f) as f' eqn:E. revert f E.
  induction H as [q v Hv|a b|a b|g f x Hc _ IH|vs g x Hn _ IH|vs g x Hn _ IH]; intros f0 E;
    [| | |subst; apply open_back in Hc as (h & -> & Hh); eapply fr_child; eauto| |]; destruct f0; try discriminate.
  - injection E as ->. simpl in Hv. apply in_map_iff in Hv as (w & <- & Hw). simpl. destruct Hi as [E _]. rewrite E. apply fr_atom. auto.
  - injection E as -> ->. destruct Hi as [E _]. rewrite E. apply fr_left.
  - injection E as -> ->. destruct Hi as [E _]. rewrite E. apply fr_right.
  - injection E as -> ->. apply fr_exists; auto. intros Hx. apply Hn. change (map sym_name (map (ren_sym r) vars)) with (names (map (ren_sym r) vars)). rewrite names_ren. apply in_back. auto.
  - injection E as -> ->. apply fr_forall; auto. intros Hx. apply Hn. change (map sym_name (map (ren_sym r) vars)) with (names (map (ren_sym r) vars)). rewrite names_ren. apply in_back. auto.
Qed.
Lemma nodup_ren l : NoDup (map sym_name l) -> NoDup (map sym_name (map (ren_sym r) l)).
Proof.
  change (NoDup (names l) -> NoDup (names (map (ren_sym r) l))). rewrite names_ren. generalize (names l). induction l0 as [|x k IH]; simpl; intros H; auto.
  inversion H as [|a b H1 H2]; subst. constructor; auto. rewrite in_ren. auto.
Qed.
Lemma first_ren n l q : first_named sym_name n l q -> first_named sym_name (r n) (map (ren_sym r) l) (ren_sym r q).
Proof. induction 1 as [x l E|y l x Hn _ IH]; simpl; [apply fn_here; simpl; congruence|apply fn_later; auto]. simpl. intros E. apply Hn. apply (f_equal s) in E. destruct Hi as [H1 _]. rewrite !H1 in E. auto. Qed.
Lemma first_back n l q' : first_named sym_name n (map (ren_sym r) l) q' -> exists q, q' = ren_sym r q /\ first_named sym_name (s n) l q.
Proof.
  intros H. remember (map (ren_sym r) l) as k eqn:E. revert l E. induction H as [x k E|y k x Hn _ IH]; intros [|z l] El; try discriminate; injection El as -> ->.
  - exists z. split; auto. apply fn_here. rewrite <- E. simpl. destruct Hi as [H1 _]. rewrite H1. auto.
  - destruct (IH l eq_refl) as (q & -> & Hq). exists q. split; auto. apply fn_later; auto. intros Ez. apply Hn. simpl. rewrite Ez. apply Hi.
Qed.
Lemma unnamed_ren n l : unnamed sym_name n l -> unnamed sym_name (r n) (map (ren_sym r) l).
Proof. intros H x Hx E. apply in_map_iff in Hx as (y & <- & Hy). apply (H y Hy). simpl in E. apply (f_equal s) in E. destruct Hi as [H1 _]. rewrite !H1 in E. auto. Qed.
Lemma unnamed_names n (l : list symbol) : unnamed sym_name n l -> ~ In n (names l).
Proof. intros H Hx. apply in_map_iff in Hx as (y & E & Hy). apply (H y Hy E). Qed.
(** Lookup of names that are not parameters is not affected if they are kept. *)
Lemma denotes_ren params cs n t : (~ In n (names params) -> r n = n) -> denotes params cs n t -> denotes (map (ren_sym r) params) cs (r n) t.
Proof.
  intros Hk [q Hq E1 E2|c Hn Hf E].
  - apply (den_param _ _ _ _ (ren_sym r q)); [apply in_map; auto|simpl; congruence|auto].
  - apply (den_const _ _ _ _ c); auto; [apply unnamed_ren; auto|]. rewrite Hk; auto. apply unnamed_names. auto.
Qed.
End Formula.

(** ** The relation is symmetric *)
Lemma inverse_sym r s : inverse r s -> inverse s r.
Proof. intros [H1 H2]. split; auto. Qed.
Lemma kept_back r s x : inverse r s -> r (s x) = s x -> s x = x.
Proof. intros [_ E] H. rewrite E in H. auto. Qed.
Lemma opt_back {A} (g : A -> A) o f : option_map g o = Some f -> exists f0, o = Some f0 /\ f = g f0.
Proof. destruct o; [|discriminate]. intros E. injection E as <-. eauto. Qed.
Lemma alpha_action_sym a a' : alpha_action a a' -> alpha_action a' a.
Proof.
  intros (r & s & Hi & -> & Hk). exists s, r. split; [apply inverse_sym; auto|]. split; [symmetry; apply back_action, Hi|].
  intros x (Hn & f & Ef & Hx). apply (kept_back r s x Hi). apply Hk. simpl in *. rewrite names_ren, (in_back r s Hi) in Hn. split; auto.
  destruct Ef as [Ef|Ef]; apply opt_back in Ef as (f0 & E & ->); exists f0; (split; [auto|apply (free_back r s Hi); auto]).
Qed.
Lemma subs_back r s l t x : inverse r s -> In t (map (ren_sub r) l) -> In x (names (sub_terms t)) -> exists t0, In t0 l /\ In (s x) (names (sub_terms t0)).
Proof. intros Hi Ht Hx. apply in_map_iff in Ht as (t0 & <- & Ht). exists t0. split; auto. simpl in Hx. rewrite names_ren in Hx. apply (in_back r s Hi). auto. Qed.
Lemma alpha_method_sym m m' : alpha_method m m' -> alpha_method m' m.
Proof.
  intros (r & s & Hi & -> & Hk). exists s, r. split; [apply inverse_sym; auto|]. split; [symmetry; apply back_method, Hi|].
  intros x (Hn & Hx). apply (kept_back r s x Hi). apply Hk. simpl in *. rewrite names_ren, (in_back r s Hi) in Hn. split; auto.
  destruct Hx as [(f & Ef & Hx)|[Hx|(t & Ht & Hx)]].
  - left. apply opt_back in Ef as (f0 & E & ->). exists f0. split; auto. apply (free_back r s Hi); auto.
  - right. left. rewrite names_ren in Hx. apply (in_back r s Hi). auto.
  - right. right. eapply subs_back; eauto.
Qed.
Lemma Forall2_sym {A} (R : A -> A -> Prop) l l' : (forall x y, R x y -> R y x) -> Forall2 R l l' -> Forall2 R l' l.
Proof. intros Hs. induction 1; constructor; auto. Qed.
Lemma alpha_domain_sym d d' : alpha_domain d d' -> alpha_domain d' d.
Proof.
  intros [H1 H2 H3 H4 H5 H6 H7]. constructor; auto; (eapply Forall2_sym; [|eauto]).
  - intros x y []. split; auto.
  - intros x y []. split; auto.
  - apply alpha_action_sym.
  - apply alpha_method_sym.
Qed.
Lemma alpha_problem_sym p p' : alpha_problem p p' -> alpha_problem p' p.
Proof.
  intros [H1 H2 H3 H4 H5|t r s H1 H2 Hi Ho Hk H3 H4 H5]; [apply al_none; auto|].
  apply (al_some p' p (ren_init_tn r t) s r); auto.
  - rewrite back_init; auto. apply Hi.
  - apply inverse_sym. auto.
  - rewrite H3. intros x Hx. rewrite <- (Ho x Hx) at 1. apply Hi.
  - intros x (Hn & u & Hu & Hx). apply (kept_back r s x Hi). apply Hk. rewrite tn_params_ren, names_ren, (in_back r s Hi) in Hn. split; auto.
    eapply subs_back; eauto.
Qed.

(** ** Verification *)
Section Verdict.
Variables d d' : domain_ast.
Hypothesis Hd : alpha_domain d d'.
Lemma Forall2_find {A} (R : A -> A -> Prop) l l' x : Forall2 R l l' -> In x l -> exists y, In y l' /\ R x y.
Proof. induction 1 as [|a b l l' Hab _ IH]; simpl; [tauto|]. intros [<-|Hx]; [eauto|]. destruct (IH Hx) as (y & Hy & Hr). eauto. Qed.
Lemma Forall2_find' {A} (R : A -> A -> Prop) l l' y : Forall2 R l l' -> In y l' -> exists x, In x l /\ R x y.
Proof. induction 1 as [|a b l l' Hab _ IH]; simpl; [tauto|]. intros [<-|Hx]; [eauto|]. destruct (IH Hx) as (x & Hy & Hr). eauto. Qed.
Lemma Forall2_map {A B} (R : A -> A -> Prop) (f : A -> B) l l' : (forall x y, R x y -> f y = f x) -> Forall2 R l l' -> map f l' = map f l.
Proof. intros E. induction 1 as [|a b l l' Hab _ IH]; simpl; auto. rewrite IH, (E a b); auto. Qed.
Lemma Forall2_all {A} (R : A -> A -> Prop) (P Q : A -> Prop) l l' : (forall x y, In x l -> R x y -> P x -> Q y) -> Forall2 R l l' -> Forall P l -> Forall Q l'.
Proof. intros E Hf. induction Hf as [|a b l l' Hab _ IH]; intros Hp; constructor; inversion Hp; subst; [apply (E a b); simpl; auto|apply IH; auto; intros; apply (E x y); simpl; auto]. Qed.
Lemma al_cs : constants_of d' = constants_of d.
Proof. unfold constants_of. rewrite (al_constants _ _ Hd). auto. Qed.
Lemma types_same types l l' : map sym_type l' = map sym_type l -> types_declared types l -> types_declared types l'.
Proof. intros E H v t Hv Et. assert (In (Some t) (map sym_type l)) as Hx by (rewrite <- E, <- Et; apply in_map; auto). apply in_map_iff in Hx as (w & Ew & Hw). apply (H w t); auto. Qed.
Lemma ren_types r l : map sym_type (map (ren_sym r) l) = map sym_type l.
Proof. rewrite map_map. apply map_ext. auto. Qed.
(** Formal parameters only matter through their types. *)
Lemma Forall2_types {A} (P : A -> option string -> Prop) (args : list A) formals formals' : map sym_type formals' = map sym_type formals ->
  Forall2 (fun v f => P v (sym_type f)) args formals -> Forall2 (fun v f => P v (sym_type f)) args formals'.
Proof.
  intros E H. revert formals' E. induction H as [|v f args formals Hv _ IH]; intros [|f' formals'] E; try discriminate; constructor.
  - injection E as E1 E2. rewrite E1. auto.
  - injection E as E1 E2. auto.
Qed.
Lemma args_types types params cs args formals formals' : map sym_type formals' = map sym_type formals ->
  args_ok types params cs args formals -> args_ok types params cs args formals'.
Proof. intros E. apply (Forall2_types (fun v ty => exists t, denotes params cs (sym_name v) t /\ fits types t ty)). auto. Qed.
Lemma Forall2_left {A B} (f : A -> A) (P Q : A -> B -> Prop) l k : (forall x y, In x l -> P x y -> Q (f x) y) -> Forall2 P l k -> Forall2 Q (map f l) k.
Proof. intros E H. induction H as [|x y l k Hx _ IH]; simpl; constructor; [apply E; simpl; auto|apply IH; intros; apply E; simpl; auto]. Qed.
Lemma args_ren r s types params cs args formals : inverse r s -> (forall v, In v args -> ~ In (sym_name v) (names params) -> r (sym_name v) = sym_name v) ->
  args_ok types params cs args formals -> args_ok types (map (ren_sym r) params) cs (map (ren_sym r) args) formals.
Proof.
  intros Hi Hk. unfold args_ok. apply Forall2_left. intros v f Hv (t & H1 & H2). exists t. split; auto. apply (denotes_ren r s Hi); auto.
Qed.
Lemma pred_find n (l : list symbol) : (exists def, In def (d_preds d) /\ pred_name def = n /\ length l = length (pred_vars def)) ->
  exists def, In def (d_preds d') /\ pred_name def = n /\ length l = length (pred_vars def).
Proof.
  intros (def & H1 & H2 & H3). destruct (Forall2_find _ _ _ _ (al_preds _ _ Hd) H1) as (def' & H4 & E1 & E2). exists def'. split; auto. split; [congruence|].
  rewrite <- (map_length sym_type (pred_vars def')), E2, map_length. auto.
Qed.
Lemma al_formula r s params f : inverse r s -> (forall x, ~ In x (names params) -> free f x -> r x = x) ->
  formula_ok d params f -> formula_ok d' (map (ren_sym r) params) (ren_formula r f).
Proof.
  intros Hi Hk (H1 & H2 & H3 & H4). split; [|split; [|split]].
  - intros g' Hg. apply (within_back r) in Hg as (g & -> & Hg). specialize (H1 g Hg). destruct g; simpl; auto.
  - intros q' Hq. apply (within_back r) in Hq as (g & E & Hg). destruct g; try discriminate. injection E as ->. simpl. rewrite map_length.
    apply pred_find. apply H2. auto.
  - rewrite (al_types _ _ Hd). eapply types_same; [apply ren_types|auto].
  - intros q' Hq. apply (within_open_back r) in Hq as (g & E & Hg). destruct g as [|q| | | | | | | | |]; try discriminate. injection E as ->.
    destruct (H4 q Hg) as (def & H5 & H6 & H7). destruct (Forall2_find _ _ _ _ (al_preds _ _ Hd) H5) as (def' & H8 & E1 & E2). exists def'. split; auto. split; [simpl; congruence|].
    rewrite (al_types _ _ Hd), al_cs. apply (args_types _ _ _ _ (pred_vars def)); auto. simpl. apply (args_ren r s); auto.
    intros v Hv Hn. apply Hk; auto. apply (free_open _ _ _ Hg). apply fr_atom. auto.
Qed.
Lemma al_opt r s params o : inverse r s -> (forall x f, o = Some f -> ~ In x (names params) -> free f x -> r x = x) ->
  opt_formula_ok d params o -> opt_formula_ok d' (map (ren_sym r) params) (option_map (ren_formula r) o).
Proof. destruct o as [f|]; simpl; auto. intros Hi Hk. apply (al_formula r s); eauto. Qed.
Lemma al_names_actions : map act_name (d_actions d') = map act_name (d_actions d).
Proof. apply (Forall2_map alpha_action); [|apply Hd]. intros x y (r & s & _ & -> & _). auto. Qed.
Lemma al_callable h n formals : callable d h n formals -> exists formals', callable d' h n formals' /\ map sym_type formals' = map sym_type formals.
Proof.
  intros [a Ha|h' t Ht Hn].
  - destruct (Forall2_find _ _ _ _ (al_actions _ _ Hd) Ha) as (a' & Ha' & r & s & _ & -> & _). eexists. split; [apply (call_action _ _ Ha')|]. apply ren_types.
  - destruct (Forall2_find _ _ _ _ (al_tasks _ _ Hd) Ht) as (t' & Ht' & E1 & E2). exists (task_params t'). split; auto. rewrite <- E1. apply call_task; auto.
    intros E x Hx Ex. assert (In (act_name x) (map act_name (d_actions d'))) as Hy by (apply in_map; auto). rewrite al_names_actions in Hy. apply in_map_iff in Hy as (y & Ey & Hy).
    apply (Hn E y Hy). congruence.
Qed.
Lemma al_call h r s params task terms : inverse r s -> (forall v, In v terms -> ~ In (sym_name v) (names params) -> r (sym_name v) = sym_name v) ->
  call_ok d h params task terms -> call_ok d' h (map (ren_sym r) params) task (map (ren_sym r) terms).
Proof.
  intros Hi Hk (fo & H1 & H2). destruct (al_callable _ _ _ H1) as (fo' & H3 & E). exists fo'. split; auto. rewrite (al_types _ _ Hd), al_cs.
  apply (args_types _ _ _ _ fo); auto. apply (args_ren r s); auto.
Qed.
Lemma al_action_ok a a' : alpha_action a a' -> action_ok d a -> action_ok d' a'.
Proof.
  intros (r & s & Hi & -> & Hk) (H1 & H2 & H3). split; [apply (nodup_ren r s Hi); auto|]. split; apply (al_opt r s); auto; intros x f E Hn Hx; apply Hk; split; eauto.
Qed.
Lemma al_method_ok m m' : alpha_method m m' -> method_ok d m -> method_ok d' m'.
Proof.
  intros (r & s & Hi & -> & Hk) (H1 & H2 & H3 & H4 & H5). split; [apply (nodup_ren r s Hi); auto|]. split; [|split; [|split]].
  - apply (al_opt r s); auto. intros x f E Hn Hx. apply Hk. split; eauto.
  - apply (al_call true r s); auto. intros v Hv Hn. apply Hk. split; auto. right. left. apply in_map. auto.
  - simpl. apply Forall_forall. intros u Hu. apply in_map_iff in Hu as (t & <- & Ht). simpl. rewrite Forall_forall in H4. apply (al_call false r s); auto.
    intros v Hv Hn. apply Hk. split; auto. right. right. exists t. split; auto. apply in_map. auto.
  - auto.
Qed.
Lemma al_domain_ok : domain_ok d -> domain_ok d'.
Proof.
  intros (H1 & H2 & H3 & H4 & H5 & H6 & H7 & H8 & H9 & H10). unfold domain_ok. rewrite (al_reqs _ _ Hd), (al_types _ _ Hd), al_names_actions.
  rewrite (Forall2_map alpha_pred pred_name (d_preds d)) by (try apply Hd; intros x y []; auto).
  rewrite (Forall2_map alpha_task task_name (d_tasks d)) by (try apply Hd; intros x y []; auto).
  rewrite (Forall2_map alpha_method (fun m => sym_name (m_name m)) (d_methods d)) by (try apply Hd; intros x y (r & s & _ & -> & _); auto).
  repeat (split; [assumption||idtac|]); auto.
  - apply (Forall2_all alpha_pred (fun p => types_declared (d_types d) (pred_vars p)) _ (d_preds d)); auto; [|apply Hd]. intros x y _ [_ E]. apply types_same. auto.
  - apply (Forall2_all alpha_task (fun p => types_declared (d_types d) (task_params p)) _ (d_tasks d)); auto; [|apply Hd]. intros x y _ [_ E]. apply types_same. auto.
  - apply (Forall2_all alpha_action (action_ok d) _ (d_actions d)); auto; [|apply Hd]. intros x y _. apply al_action_ok.
  - apply (Forall2_all alpha_method (method_ok d) _ (d_methods d)); auto; [|apply Hd]. intros x y _. apply al_method_ok.
Qed.

Variables p p' : problem_ast.
Hypothesis Hp : alpha_problem p p'.
Lemma al_objects : p_objects p' = p_objects p.
Proof. destruct Hp; auto. Qed.
Lemma al_init : p_init p' = p_init p.
Proof. destruct Hp; auto. Qed.
Lemma al_goal : p_goal p' = p_goal p.
Proof. destruct Hp; auto. Qed.
Lemma al_object n t : object_denotes d p n t -> object_denotes d' p' n t.
Proof. intros [o Ho E1 E2|c Hn Hf E]; [eapply od_object|eapply od_const]; rewrite ?al_objects, ?al_cs; eauto. Qed.
Lemma al_fact q : fact_ok d p q -> fact_ok d' p' q.
Proof.
  intros (def & H1 & H2 & H3). destruct (Forall2_find _ _ _ _ (al_preds _ _ Hd) H1) as (def' & H4 & E1 & E2). exists def'. split; auto. split; [congruence|].
  rewrite (al_types _ _ Hd). apply (Forall2_types (fun v ty => exists t, object_denotes d' p' (sym_name v) t /\ fits (d_types d) t ty) _ (pred_vars def)); auto.
  revert H3. generalize (pred_vars q) (pred_vars def). induction 1 as [|v f l l' (t & Ht & Hf) _ IH]; constructor; auto. exists t. split; auto. apply al_object. auto.
Qed.
Lemma al_term r s params n t : inverse r s -> (forall x, In x (names (p_objects p)) -> r x = x) -> (~ In n (names params) -> r n = n) ->
  term_denotes d p params n t -> term_denotes d' p' (map (ren_sym r) params) (r n) t.
Proof.
  intros Hi Ho Hk.
  assert (unnamed sym_name n (p_objects p) -> unnamed sym_name (r n) (p_objects p')) as Hu.
  { rewrite al_objects. intros Hn x Hx E. apply (Hn x Hx). assert (r (sym_name x) = sym_name x) as E1 by (apply Ho, in_map; auto). rewrite <- E1 in E.
    apply (f_equal s) in E. destruct Hi as [E2 _]. rewrite !E2 in E. auto. }
  intros [o H1 E1 E2|q H1 Hf E|c H1 H2 Hf E].
  - apply (td_object _ _ _ _ _ o); auto; [rewrite al_objects; auto|]. rewrite <- E1. symmetry. apply Ho, in_map. auto.
  - apply (td_param _ _ _ _ _ (ren_sym r q)); auto. apply (first_ren r s Hi); auto.
  - apply (td_const _ _ _ _ _ c); auto; [apply (unnamed_ren r s Hi); auto|]. rewrite al_cs, Hk; auto. apply unnamed_names. auto.
Qed.
Lemma al_problem_ok : problem_ok d p -> problem_ok d' p'.
Proof.
  intros (H1 & H2 & H3 & H4 & H5). unfold problem_ok. rewrite (al_types _ _ Hd), al_objects, al_init, al_goal. split; auto. split; auto.
  split; [revert H3; apply Forall_impl; intros; apply al_fact; auto|].
  split; [|destruct (p_goal p); auto; intros q Hq; apply al_fact; auto].
  clear H1 H2 H3 H5. destruct Hp as [E1 E2 _ _ _|t r s E1 E2 Hi Ho Hk _ _ _]; rewrite E2; auto. rewrite E1 in H4. destruct H4 as [H1 H2]. split; auto.
  rewrite Forall_forall in *. intros u Hu. apply in_map_iff in Hu as (v & <- & Hv). destruct (H2 v Hv) as (fo & H3 & H4).
  destruct (al_callable _ _ _ H3) as (fo' & H5 & E). exists fo'. split; auto. rewrite (al_types _ _ Hd), tn_params_ren.
  apply (Forall2_types (fun x ty => exists ty0, term_denotes d' p' (map (ren_sym r) (tn_params t)) (sym_name x) ty0 /\ fits (d_types d) ty0 ty) _ fo); auto.
  simpl. revert H4. apply Forall2_left. intros x f Hx (ty & H6 & H7). exists ty. split; auto. apply (al_term r s); auto.
  intros Hn. apply Hk. split; auto. exists v. split; auto. apply in_map. auto.
Qed.

(** ** Executions *)
Lemma al_value o f f' : sym_type f' = sym_type f -> value d p o f -> value d' p' o f'.
Proof. intros E (t & H1 & H2). exists t. rewrite (al_types _ _ Hd), E. split; auto. apply al_object. auto. Qed.
Lemma al_respects r s b params : inverse r s -> respects d p b params -> respects d' p' (fun n => b (s n)) (map (ren_sym r) params).
Proof. intros Hi H n q' Hq. apply (first_back r s Hi) in Hq as (q & -> & Hq). apply (al_value _ q); auto. Qed.
Lemma inst_ren r s b params v : inverse r s -> (~ In (sym_name v) (names params) -> r (sym_name v) = sym_name v) ->
  inst (fun n => b (s n)) (map (ren_sym r) params) (ren_sym r v) = inst b params v.
Proof.
  intros Hi Hk. unfold inst. change (map sym_name (map (ren_sym r) params)) with (names (map (ren_sym r) params)). change (map sym_name params) with (names params).
  rewrite names_ren. simpl. destruct (in_dec string_dec (sym_name v) (names params)) as [H1|H1].
  - destruct (in_dec string_dec (r (sym_name v)) (map r (names params))) as [H2|H2]; [destruct Hi as [E _]; rewrite E; auto|destruct H2; apply in_map; auto].
  - destruct (in_dec string_dec (r (sym_name v)) (map r (names params))) as [H2|H2]; [destruct H1; apply (in_ren r s Hi); auto|auto].
Qed.
Lemma insts_ren r s b params l : inverse r s -> (forall v, In v l -> ~ In (sym_name v) (names params) -> r (sym_name v) = sym_name v) ->
  map (inst (fun n => b (s n)) (map (ren_sym r) params)) (map (ren_sym r) l) = map (inst b params) l.
Proof. intros Hi Hk. rewrite map_map. apply map_ext_in. intros v Hv. apply inst_ren; auto. Qed.
Lemma al_mentions r s b params f x : inverse r s -> SpecExec.mentions d p b params f x ->
  (forall n, ~ In n (names params) -> free f n -> r n = n) ->
  SpecExec.mentions d' p' (fun n => b (s n)) (map (ren_sym r) params) (ren_formula r f) x.
Proof.
  intros Hi. assert (forall vs (b b' : binding), (forall n, ~ In n (map sym_name vs) -> b' n = b n) ->
    forall n, ~ In n (map sym_name (map (ren_sym r) vs)) -> b' (s n) = b (s n)) as Hb0.
  { intros vs b0 b' Hb n Hn. apply Hb. intros Hx. apply Hn. change (In n (names (map (ren_sym r) vs))). rewrite names_ren. apply (in_back r s Hi). auto. }
  assert (forall vs params (P : string -> Prop), (forall n, ~ In n (names params) -> ~ In n (names vs) -> P n) -> forall n, ~ In n (names (vs ++ params)) -> P n) as Hn0.
  { intros vs ps P HP n Hn. unfold names in *. rewrite map_app in Hn. apply HP; intros Hx; apply Hn; apply in_or_app; auto. }
  induction 1 as [b params q|b params g f x Hc _ IH|b b' params vs f x Hb Hv _ IH|b b' params vs f x Hb Hv _ IH]; intros Hk.
  - simpl. replace (inst_atom b params q) with (inst_atom (fun n => b (s n)) (map (ren_sym r) params) (ren_atom r q)); [apply me_atom|].
    unfold inst_atom. simpl. f_equal. apply insts_ren; auto. intros v Hv Hn. apply Hk; auto. apply fr_atom. auto.
  - eapply me_child; [apply open_ren; eauto|]. apply IH. intros n Hn Hf. apply Hk; auto. eapply fr_child; eauto.
  - simpl. eapply (me_forall _ _ _ (fun n => b' (s n))); [apply Hb0; auto|apply (al_respects r s); auto|]. rewrite <- map_app. apply IH.
    intros n Hn Hf. revert n Hn Hf. apply (Hn0 vs params (fun n => free f n -> r n = n)). intros n Hn1 Hn2 Hf. apply Hk; auto. apply fr_forall; auto.
  - simpl. eapply (me_exists _ _ _ (fun n => b' (s n))); [apply Hb0; auto|apply (al_respects r s); auto|]. rewrite <- map_app. apply IH.
    intros n Hn Hf. revert n Hn Hf. apply (Hn0 vs params (fun n => free f n -> r n = n)). intros n Hn1 Hn2 Hf. apply Hk; auto. apply fr_exists; auto.
Qed.
Lemma subs_ren r s b params l : inverse r s -> (forall t v, In t l -> In v (sub_terms t) -> ~ In (sym_name v) (names params) -> r (sym_name v) = sym_name v) ->
  map (inst_task (fun n => b (s n)) (map (ren_sym r) params)) (map (ren_sub r) l) = map (inst_task b params) l.
Proof. intros Hi Hk. rewrite map_map. apply map_ext_in. intros t Ht. unfold inst_task. simpl. f_equal. apply insts_ren; eauto. Qed.
Lemma al_step c c' : step d p c c' -> step d' p' c c'.
Proof.
  intros [m b facts w1 w2 Hm Hb|a b facts facts' w1 w2 Ha Hx].
  - destruct (Forall2_find _ _ _ _ (al_methods _ _ Hd) Hm) as (m' & Hm' & r & s & Hi & Em & Hk).
    pose proof (st_method d' p' m' (fun n => b (s n)) facts w1 w2 Hm') as Hs. subst m'. simpl in Hs. rewrite (insts_ren r s), (subs_ren r s) in Hs; auto.
    + apply Hs. apply (al_respects r s); auto.
    + intros t v Ht Hv Hn. apply Hk. split; auto. right. right. exists t. split; auto. apply in_map. auto.
    + intros v Hv Hn. apply Hk. split; auto. right. left. apply in_map. auto.
  - destruct (Forall2_find _ _ _ _ (al_actions _ _ Hd) Ha) as (a' & Ha' & r & s & Hi & Em & Hk).
    pose proof (st_action d' p' a' (fun n => b (s n)) facts facts' w1 w2 Ha') as Hs. subst a'. simpl in Hs. rewrite map_map in Hs.
    rewrite (map_ext (fun x => b (s (sym_name (ren_sym r x)))) (fun q => b (sym_name q))) in Hs by (intros q; simpl; f_equal; apply Hi).
    apply Hs. intros x Hx'. destruct (Hx x Hx') as [|(f & Ef & Hf)]; [auto|]. right. exists (ren_formula r f). rewrite Ef. split; auto.
    apply (al_mentions r s); auto. intros n Hn Hfr. apply Hk. split; eauto.
Qed.
Lemma visible_ren r s t : inverse r s -> (forall x, In x (names (p_objects p)) -> r x = x) -> visible p' (ren_init_tn r t) = map (ren_sym r) (visible p t).
Proof.
  intros Hi Ho. unfold visible. rewrite tn_params_ren, al_objects. induction (tn_params t) as [|q l IH]; simpl; auto. rewrite IH.
  assert (In (r (sym_name q)) (names (p_objects p)) <-> In (sym_name q) (names (p_objects p))) as E.
  { split; intros Hx; [|rewrite (Ho _ Hx); auto]. pose proof (Ho _ Hx) as E. apply (f_equal s) in E. destruct Hi as [H1 _]. rewrite !H1 in E. rewrite E in Hx. auto. }
  unfold names in E. destruct (in_dec string_dec (r (sym_name q)) _) as [H1|H1]; destruct (in_dec string_dec (sym_name q) _) as [H2|H2]; auto; tauto.
Qed.
Lemma al_initial c : initial d p c -> initial d' p' c.
Proof.
  assert (facts0 p' = facts0 p) as Ef by (unfold facts0; rewrite al_init; auto).
  destruct Hp as [E1 E2 _ _ _|t r s E1 E2 Hi Ho Hk _ _ _]; intros [E|t0 b E Hb]; try congruence.
  - rewrite <- Ef. apply in_none. auto.
  - assert (t0 = t) by congruence. subst t0. pose proof (in_tn d' p' (ren_init_tn r t) (fun n => b (s n)) E2) as Hn. rewrite Ef, (visible_ren r s t Hi Ho) in Hn.
    simpl in Hn. rewrite (subs_ren r s) in Hn; auto; [apply Hn; apply (al_respects r s); auto|].
    intros u v Hu Hv Hnv. destruct (in_dec string_dec (sym_name v) (names (p_objects p))) as [H1|H1]; [apply Ho; auto|]. apply Hk. split; [|exists u; split; auto; apply in_map; auto].
    intros H2. apply Hnv. apply in_map_iff in H2 as (q & Eq & Hq). rewrite <- Eq. apply in_map. apply filter_In. split; auto.
    rewrite Eq. unfold names in H1. destruct (in_dec string_dec (sym_name v) _); tauto.
Qed.
Lemma al_reachable c : SpecExec.reachable d p c -> SpecExec.reachable d' p' c.
Proof.
  intros (c0 & Hi & Hc). exists c0. split; [apply al_initial; auto|]. clear Hi. induction Hc; [apply rt_step, al_step; auto|apply rt_refl|eapply rt_trans; eauto].
Qed.
End Verdict.

Lemma al_shape d d' : alpha_domain d d' -> shape_of d = shape_of d'.
Proof.
  intros Hd. unfold shape_of. symmetry. f_equal.
  - apply (Forall2_map alpha_task); [|apply Hd]. intros x y []. auto.
  - apply (Forall2_map alpha_action); [|apply Hd]. intros x y (r & s & _ & -> & _). auto.
  - apply (Forall2_map alpha_method); [|apply Hd]. intros x y (r & s & _ & -> & _). simpl. f_equal. rewrite map_map. apply map_ext. auto.
Qed.

Section Props.
Context `{Unicode}.
Variable he : hash_env.
Hypothesis Hhe : hash_env_ok he.
Notation accepts dom prob := (exists ws, settles (fun k => verify he k dom prob) (Ok ws)).

(** C74: the names of parameters are local: consistent renaming, separately in
    every declaration and without capturing other names, changes neither the
    verdict nor the warnings, the metadata or the executions. *)
Theorem C74_domain : forall n dom dom' d d', parse n dom = Ok (ADomain d) -> parse n dom' = Ok (ADomain d') -> alpha_domain d d' ->
  (accepts dom None <-> accepts dom' None) /\ (forall lf, get_metadata he n lf dom = get_metadata he n lf dom').
Proof.
  intros n dom dom' d d' E1 E2 Hd. split; [|intros lf; apply (C67_metadata he n lf dom dom' d d' E1 E2), al_shape; auto].
  rewrite (domain_verdict he Hhe n dom d E1), (domain_verdict he Hhe n dom' d' E2).
  split; apply al_domain_ok; auto. apply alpha_domain_sym. auto.
Qed.
Theorem C74_problem : forall n dom dom' prob prob' d d' p p',
  parse n dom = Ok (ADomain d) -> parse n dom' = Ok (ADomain d') -> parse n prob = Ok (AProblem p) -> parse n prob' = Ok (AProblem p') ->
  alpha_domain d d' -> alpha_problem p p' ->
  (accepts dom (Some prob) <-> accepts dom' (Some prob')) /\ (forall c, SpecExec.reachable d p c <-> SpecExec.reachable d' p' c).
Proof.
  intros n dom dom' prob prob' d d' p p' E1 E2 E3 E4 Hd Hp.
  pose proof (alpha_domain_sym d d' Hd) as Hd'. pose proof (alpha_problem_sym p p' Hp) as Hp'.
  split; [|intros c; split; apply al_reachable; auto].
  assert (forall dom prob d p, parse n dom = Ok (ADomain d) -> parse n prob = Ok (AProblem p) -> (accepts dom (Some prob) <-> domain_ok d /\ problem_ok d p)) as Ha.
  { clear -Hhe. intros dom prob d p E1 E3. split.
    - intros Hx. assert (domain_ok d) as Hok.
      { destruct Hx as (ws & _ & k & Hk). apply (accepted he k n dom (Some prob) ws d (Hk k (le_n k)) E1). }
      split; auto. apply (C22_problem_decided he Hhe n dom d prob p E1 Hok E3). auto.
    - intros [Hok Hp]. apply (C22_problem_decided he Hhe n dom d prob p E1 Hok E3). auto. }
  rewrite (Ha dom prob d p E1 E3), (Ha dom' prob' d' p' E2 E4).
  split; intros [H1 H2]; (split; [eapply al_domain_ok; eauto|eapply al_problem_ok; eauto]).
Qed.
Theorem C74_warnings : forall n dom dom' prob prob' ws ws' d d', parse n dom = Ok (ADomain d) -> parse n dom' = Ok (ADomain d') -> alpha_domain d d' ->
  verify he n dom prob = Ok ws -> verify he n dom' prob' = Ok ws' ->
  Permutation (map (fun w => match w with NoPrimitiveRefinement x _ => x end) ws) (map (fun w => match w with NoPrimitiveRefinement x _ => x end) ws').
Proof. intros n dom dom' prob prob' ws ws' d d' E1 E2 Hd. apply (C67_warnings he n dom dom' prob prob' ws ws' d d' Hhe E1 E2). apply al_shape. auto. Qed.
End Props.

(** ** Examples *)
(** Two names exchanged. *)
Definition swap (a b x : string) : string := if string_dec x a then b else if string_dec x b then a else x.
Lemma swap_inverse a b : inverse (swap a b) (swap a b).
Proof.
  assert (forall x, swap a b (swap a b x) = x) as E; [|split; exact E]. intros x. unfold swap.
  destruct (string_dec x a) as [E1|E1]; [|destruct (string_dec x b) as [E2|E2]].
  - destruct (string_dec b a); [congruence|]. destruct (string_dec b b); congruence.
  - destruct (string_dec a a); congruence.
  - destruct (string_dec x a); [congruence|]. destruct (string_dec x b); congruence.
Qed.
Definition al_dom (task act quant meth : string) : string :=
  "(define (domain d) (:types a b) (:constants h - a) (:predicates (q ?" ++ task ++ " - a)) (:task t :parameters (?" ++ task ++ " - a))"
  ++ " (:action e :parameters (?" ++ act ++ " - a) :precondition (forall (?" ++ quant ++ " - a) (q ?" ++ quant ++ ")) :effect (and (q ?" ++ act ++ ") (q h)))"
  ++ " (:method m :parameters (?" ++ meth ++ " - a) :task (t ?" ++ meth ++ ") :ordered-subtasks (and (e ?" ++ meth ++ ") (e h))))" ++ nl.
Definition al_prob (par : string) : string :=
  prob_with ("(:objects o - a) (:htn :parameters (?" ++ par ++ " - a) :ordered-subtasks (and (t ?" ++ par ++ ") (t o) (t h))) (:init (q o))").
Lemma open_cases g f : open_child g f -> child g f.
Proof. intros []. auto. Qed.
Lemma free_and q1 q2 x : free (FAnd [FAtom q1; FAtom q2]) x -> In x (names (pred_vars q1 ++ pred_vars q2)).
Proof.
  intros Hf. inversion Hf as [| | |g f y Hc Hg| |]; subst. apply open_cases in Hc. inversion Hc as [|? ? Hi| | | | | | |]; subst.
  unfold names. rewrite map_app. apply in_or_app.
  destruct Hi as [<-|[<-|[]]]; [left|right]; (inversion Hg as [q v Hv| | |g0 f0 y0 Hc0 Hg0| |]; subst; [apply in_map; auto|]; apply open_cases in Hc0; inversion Hc0).
Qed.
Lemma free_forall v q x : free (FForAll v (FAtom q)) x -> ~ In x (names v) /\ In x (names (pred_vars q)).
Proof.
  intros Hf. inversion Hf as [| | |g f y Hc Hg| |vs g y Hn Hg]; subst.
  - inversion Hc as [g0 f0 Hc0 Hq]; subst. destruct (Hq v (FAtom q)) as [_ Hq']. destruct Hq'. auto.
  - split; auto. inversion Hg as [q0 v0 Hv| | |g0 f0 y0 Hc0 Hg0| |]; subst; [apply in_map; auto|]. apply open_cases in Hc0; inversion Hc0.
Qed.
Example C74_example : exists d d' p p',
  @parse uni0 300 (al_dom "x" "x" "z" "x") = Ok (ADomain d) /\ @parse uni0 300 (al_dom "u" "z" "x" "y") = Ok (ADomain d')
  /\ @parse uni0 300 (al_prob "x") = Ok (AProblem p) /\ @parse uni0 300 (al_prob "k") = Ok (AProblem p')
  /\ alpha_domain d d' /\ alpha_problem p p' /\ d <> d' /\ p <> p'
  /\ run (al_dom "x" "x" "z" "x") (Some (al_prob "x")) = Ok [].
Proof.
  do 4 eexists. split; [vm_compute; reflexivity|]. split; [vm_compute; reflexivity|]. split; [vm_compute; reflexivity|]. split; [vm_compute; reflexivity|].
  split; [|split; [|split; [|split]]].
  - constructor; try reflexivity; repeat (apply Forall2_cons||apply Forall2_nil); try (split; reflexivity).
    + exists (swap "x" "z"), (swap "x" "z"). split; [apply swap_inverse|]. split; [vm_compute; reflexivity|].
      intros x (Hn & f & [Ef|Ef] & Hx); injection Ef as <-.
      * apply free_forall in Hx. destruct Hx as [H1 H2]. destruct (H1 H2).
      * apply free_and in Hx. destruct Hx as [<-|[<-|[]]]; [destruct Hn; left; reflexivity|reflexivity].
    + exists (swap "x" "y"), (swap "x" "y"). split; [apply swap_inverse|]. split; [vm_compute; reflexivity|].
      intros x (Hn & [(f & Ef & _)|[Hx|(u & Hu & Hx)]]); [discriminate| |].
      * destruct Hn. destruct Hx as [<-|[]]. left. reflexivity.
      * destruct Hu as [<-|[<-|[]]]; destruct Hx as [<-|[]]; [destruct Hn; left; reflexivity|reflexivity].
  - eapply (al_some _ _ _ (swap "x" "k") (swap "x" "k")); try reflexivity; [apply swap_inverse| |].
    + intros x [<-|[]]. reflexivity.
    + intros x (Hn & u & Hu & Hx). destruct Hu as [<-|[<-|[<-|[]]]]; destruct Hx as [<-|[]]; [destruct Hn; left; reflexivity|reflexivity|reflexivity].
  - discriminate.
  - discriminate.
  - vm_compute. reflexivity.
Qed.
(** Captured names do change the verdict: a parameter may not get the name of a
    constant that is used in its scope, nor one of the initial task network that
    of an object (which would hide it). *)
Definition cap_dom (x : string) : string :=
  "(define (domain d) (:types a b) (:constants h - a) (:predicates (q ?y - a)) (:action e :parameters (?" ++ x ++ " - b) :effect (q h)))" ++ nl.
Theorem C74_constant_refuted : exists d d' a, @parse uni0 300 (cap_dom "x") = Ok (ADomain d) /\ @parse uni0 300 (cap_dom "h") = Ok (ADomain d')
  /\ d_actions d = [a]
  /\ d_actions d' = [mkAction (act_name a) (act_pos a) (map (ren_sym (swap "x" "h")) (act_params a)) (act_pre a) (act_eff a)]
  /\ run (cap_dom "x") None = Ok []
  /\ run_error (cap_dom "h") None = Some (ESem (InconsistentPredicateArgType (mkTypeErr (Some "a") (Some "b") "h" 1))).
Proof.
  do 3 eexists. split; [vm_compute; reflexivity|]. split; [vm_compute; reflexivity|]. split; [reflexivity|]. split; [vm_compute; reflexivity|]. split; vm_compute; reflexivity.
Qed.
Definition cap_obj (x : string) : string :=
  prob_with ("(:objects o - b) (:htn :parameters (?" ++ x ++ " - a) :ordered-subtasks (and (t ?" ++ x ++ "))) (:init )").
Theorem C74_object_refuted : exists p p' t t', @parse uni0 300 (cap_obj "x") = Ok (AProblem p) /\ @parse uni0 300 (cap_obj "o") = Ok (AProblem p')
  /\ p_init_tn p = Some t /\ p_init_tn p' = Some t' /\ t' = ren_init_tn (swap "x" "o") t /\ (forall x, ~ tn_free t x)
  /\ run (al_dom "x" "x" "z" "x") (Some (cap_obj "x")) = Ok []
  /\ run_error (al_dom "x" "x" "z" "x") (Some (cap_obj "o")) <> None.
Proof.
  do 4 eexists. split; [vm_compute; reflexivity|]. split; [vm_compute; reflexivity|]. split; [reflexivity|]. split; [reflexivity|]. split; [vm_compute; reflexivity|].
  split; [|split; [vm_compute; reflexivity|vm_compute; discriminate]].
  intros x (Hn & u & Hu & Hx). destruct Hu as [<-|[]]; destruct Hx as [<-|[]]. destruct Hn. left. reflexivity.
Qed.

Definition alpha_theorems := (@C74_domain, @C74_problem, @C74_warnings, @C74_constant_refuted, @C74_object_refuted).
