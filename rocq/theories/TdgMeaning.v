(** Cycles of subtasks and refinements of task networks. *)
From Coq Require Import String NArith Bool List Lia PeanoNat Permutation Relations Operators_Properties ListDec.
From Verif Require Import Base Token Errors Ast Tdg GraphProofs TdgGraph TdgReach TdgNull SpecTdg SpecRec TdgTop TdgRecTop TdgSound SpecMeaning.
Import ListNotations.
Open Scope list_scope.
Open Scope nat_scope.

Lemma links_app x : forall l1 m l2, links x (l1 ++ m :: l2) = links (head m) l1 ++ links x (m :: l2).
Proof.
  induction l1 as [|a l1 IH]; intros m l2; auto. change (links x ((a :: l1) ++ m :: l2)) with ((a, match l1 ++ m :: l2 with [] => x | m' :: _ => head m' end) :: links x (l1 ++ m :: l2)).
  rewrite IH. cbn [links app]. f_equal. destruct l1; auto.
Qed.

Section M.
Variable d : domain_ast.

(** ** Walks along permitted links *)
Section Walks.
Variable L : method -> string -> Prop.
Definition edge (a b : string) : Prop := exists m, head m = a /\ L m b.
Notation star := (clos_refl_trans string edge).
Notation all x ms := (Forall (fun l => L (fst l) (snd l)) (links x ms)).

Lemma simple_path b c : star b c -> b = c \/ exists m ms, head m = b /\ all c (m :: ms)
  /\ NoDup (map head (m :: ms)) /\ ~ In c (map head (m :: ms)).
Proof.
  intros Hs. apply clos_rt_rt1n in Hs. induction Hs as [c|b b1 c (m & Hh & Hl) _ IH]; auto.
  destruct (string_dec b c) as [->|Hne]; auto. right. destruct IH as [->|(m1 & ms & H1 & H2 & H3 & H4)].
  - exists m, []. split; auto. split; [constructor; auto; simpl; constructor|].
    split; [repeat constructor; intros []|]. intros [E|[]]. congruence.
  - destruct (in_dec string_dec b (map head (m1 :: ms))) as [Hi|Hi].
    + apply in_map_iff in Hi as (m' & E & Hi). apply in_split in Hi as (l1 & l2 & E2). rewrite E2 in *.
      exists m', l2. split; auto. rewrite links_app, Forall_app in H2. destruct H2 as [_ H2]. split; auto.
      rewrite map_app in H3, H4. split.
      * clear - H3. induction (map head l1) as [|x l IH]; [exact H3|]. inversion H3; auto.
      * intros Hc. apply H4. apply in_or_app. auto.
    + exists m, (m1 :: ms). split; auto. split; [constructor; [cbn [fst snd]; congruence|exact H2]|].
      cbn [map]. rewrite Hh. split; [constructor; auto|]. intros [E|E]; auto.
Qed.
(** A permitted link on a closed walk lies on a simple cycle of permitted links. *)
Lemma cycle_through (HL : forall m b, L m b -> In m (d_methods d) /\ In b (subtask_names m)) m b :
  L m b -> star b (head m) ->
  exists ms, simple_cycle d ms /\ In (m, b) (cycle_links ms) /\ Forall (fun l => L (fst l) (snd l)) (cycle_links ms).
Proof.
  intros Hl Hs. assert (forall x ms, all x ms -> incl ms (d_methods d) /\ Forall (fun l => In (snd l) (subtask_names (fst l))) (links x ms)) as Hall.
  { intros x. induction ms as [|a ms IH]; intros Ha; [split; [intros y []|constructor]|]. inversion Ha as [|? ? H1 H2]; subst.
    destruct (IH H2) as [H3 H4]. apply HL in H1 as [H1 H5]. split; [intros y [<-|Hy]; auto|]. constructor; auto. }
  destruct (simple_path _ _ Hs) as [->|(m1 & ms & H1 & H2 & H3 & H4)].
  - exists [m]. assert (all (head m) [m]) as Ha by (simpl; repeat constructor; auto).
    destruct (Hall _ _ Ha). split; [|split; [left; auto|exact Ha]].
    split; [discriminate|]. split; auto. split; auto. repeat constructor. intros [].
  - exists (m :: m1 :: ms). assert (all (head m) (m :: m1 :: ms)) as Ha.
    { constructor; auto. cbn [fst snd]. congruence. }
    destruct (Hall _ _ Ha). split; [|split; [left; congruence|exact Ha]].
    split; [discriminate|]. split; auto. split; auto. cbn [map]. constructor; auto.
Qed.
(** Conversely the links of a cycle form a closed walk. *)
Lemma links_star : forall x ms m, all x (m :: ms) -> clos_trans string edge (head m) x.
Proof.
  intros x. induction ms as [|m' ms IH]; intros m Ha; inversion Ha as [|? ? H1 H2]; subst; cbn [fst snd] in H1.
  - apply t_step. exists m. auto.
  - eapply t_trans; [apply t_step; exists m; eauto|]. apply IH; auto.
Qed.
Lemma links_around : forall x ms m, all x (m :: ms) -> forall l, In l (links x (m :: ms)) ->
  star (head m) (head (fst l)) /\ star (snd l) x.
Proof.
  intros x. induction ms as [|m' ms IH]; intros m Ha l Hl; inversion Ha as [|? ? H1 H2]; subst; cbn [fst snd] in H1.
  - destruct Hl as [<-|[]]. split; apply rt_refl.
  - destruct Hl as [<-|Hl]; cbn [fst snd].
    + split; [apply rt_refl|]. apply links_star in H2. clear - H2. induction H2; [apply rt_step; auto|eapply rt_trans; eauto].
    + destruct (IH m' H2 l Hl) as [H3 H4]. split; auto. eapply rt_trans; [apply rt_step; exists m; eauto|auto].
Qed.
Lemma cycle_around ms l : Forall (fun l => L (fst l) (snd l)) (cycle_links ms) -> In l (cycle_links ms) ->
  forall m, hd_error ms = Some m -> star (head m) (head (fst l)) /\ star (snd l) (head (fst l)).
Proof.
  destruct ms as [|m ms]; [intros _ []|]. intros Ha Hl m' Em. injection Em as <-.
  destruct (links_around _ _ _ Ha l Hl) as [H1 H2]. split; auto. eapply rt_trans; eauto.
Qed.
End Walks.

(** ** Links after vanishing tasks; between vanishing tasks *)
Definition corner (m : method) (b : string) : Prop := In m (d_methods d)
  /\ exists pre post, subtask_names m = pre ++ b :: post /\ Forall (vanishes d) pre.
Definition lone (m : method) (b : string) : Prop := In m (d_methods d)
  /\ exists pre post, subtask_names m = pre ++ b :: post /\ Forall (vanishes d) pre /\ Forall (vanishes d) post.
Definition widens (m : method) (b : string) : Prop := In m (d_methods d)
  /\ exists pre post, subtask_names m = pre ++ b :: post /\ Forall (vanishes d) pre /\ Forall (vanishes d) post /\ post <> [].
Lemma corner_link m b : corner m b -> In m (d_methods d) /\ In b (subtask_names m).
Proof. intros (Hm & pre & post & E & _). split; auto. rewrite E. apply in_or_app. right. left. auto. Qed.
Lemma lone_corner m b : lone m b -> corner m b.
Proof. intros (Hm & pre & post & E & H1 & _). split; eauto. Qed.
Lemma widens_lone m b : widens m b -> lone m b.
Proof. intros (Hm & pre & post & E & H1 & H2 & _). split; eauto. Qed.

Lemma split_three {A} (u s v pre post : list A) a : u ++ s ++ v = pre ++ a :: post ->
  (exists r, u = pre ++ a :: r /\ post = r ++ s ++ v)
  \/ (exists p q, s = p ++ a :: q /\ pre = u ++ p /\ post = q ++ v)
  \/ (exists p, v = p ++ a :: post /\ pre = u ++ s ++ p).
Proof.
  revert pre. induction u as [|x u IH]; intros pre E; simpl in E.
  - right. revert pre E. induction s as [|x s IH]; intros pre E; simpl in E; [right; exists pre; auto|].
    destruct pre as [|z pre]; simpl in E; injection E as -> E.
    + left. exists [], s. auto.
    + destruct (IH pre E) as [(p & q & -> & E2 & ->)|(p & E1 & E2)]; simpl in *; subst.
      * left. exists (z :: p), q. auto.
      * right. exists p. auto.
  - destruct pre as [|z pre]; simpl in E; injection E as -> E.
    + left. exists u. auto.
    + destruct (IH pre E) as [(r & -> & ->)|[(p & q & -> & -> & ->)|(p & -> & ->)]]; [left; exists r|right; left; exists p, q|right; right; exists p]; auto.
Qed.
Lemma vanish_head m : In m (d_methods d) -> Forall (vanishes d) (subtask_names m) -> vanishes d (head m).
Proof. intros Hm Hs. apply vanishes_by; auto. Qed.

Notation cstar := (clos_refl_trans string (edge corner)).
Notation lstar := (clos_refl_trans string (edge lone)).

(** The first task of a network comes from a task with nothing but vanishing
    tasks before it. *)
Lemma left_corner l y w : expands d l (y :: w) ->
  exists pre a post, l = pre ++ a :: post /\ Forall (vanishes d) pre /\ cstar a y.
Proof.
  intros He. apply clos_rt_rt1n in He. remember (y :: w) as r eqn:Er. revert y w Er.
  induction He as [l|l l' r [u m v Hm] _ IH]; intros y w Er.
  - subst. exists [], y, w. split; auto. split; [constructor|apply rt_refl].
  - destruct (IH _ _ Er) as (pre & a & post & E & Hp & Hs). apply split_three in E as [(r' & E1 & E2)|[(p & q & E1 & E2 & E3)|(p & E1 & E2)]].
    + exists pre, a, (r' ++ sym_name (m_task m) :: v). rewrite E1, <- app_assoc. auto.
    + subst. apply Forall_app in Hp as [Hp1 Hp2]. exists u, (sym_name (m_task m)), v. split; auto. split; auto.
      eapply rt_trans; [|exact Hs]. apply rt_step. exists m. split; auto. split; eauto.
    + subst. rewrite !Forall_app in Hp. destruct Hp as (Hp1 & Hp2 & Hp3).
      exists (u ++ sym_name (m_task m) :: p), a, post. rewrite <- app_assoc. split; auto. split; auto.
      apply Forall_app. split; auto. constructor; auto. apply (vanish_head m); auto.
Qed.
(** With nothing but vanishing tasks after the first, the same holds for those
    after it; if there are some, they come from somewhere. *)
Definition widening (a b : string) : Prop := exists m c, lstar a (head m) /\ widens m c /\ lstar c b.
Lemma lone_task l y w : expands d l (y :: w) -> Forall (vanishes d) w ->
  exists pre a post, l = pre ++ a :: post /\ Forall (vanishes d) pre /\ Forall (vanishes d) post /\ lstar a y
    /\ (w <> [] -> post <> [] \/ widening a y).
Proof.
  intros He. apply clos_rt_rt1n in He. remember (y :: w) as r eqn:Er. revert y w Er.
  induction He as [l|l l' r [u m v Hm] _ IH]; intros y w Er Hw.
  - subst. exists [], y, w. split; auto. split; [constructor|]. split; auto. split; [apply rt_refl|auto].
  - destruct (IH _ _ Er Hw) as (pre & a & post & E & Hp & Hq & Hs & Hg).
    apply split_three in E as [(r' & E1 & E2)|[(p & q & E1 & E2 & E3)|(p & E1 & E2)]].
    + exists pre, a, (r' ++ sym_name (m_task m) :: v). rewrite E1, <- app_assoc. split; auto. split; auto. subst.
      rewrite !Forall_app in Hq. destruct Hq as (Q1 & Q2 & Q3). split; [|split; auto].
      * apply Forall_app. split; auto. constructor; auto. apply (vanish_head m); auto.
      * left. destruct r'; discriminate.
    + subst. apply Forall_app in Hp as [Hp1 Hp2]. apply Forall_app in Hq as [Hq1 Hq2].
      assert (edge lone (sym_name (m_task m)) a) as Hl by (exists m; split; [auto|split; eauto 6]).
      exists u, (sym_name (m_task m)), v. split; auto. split; auto. split; auto.
      split; [eapply rt_trans; [apply rt_step; exact Hl|exact Hs]|].
      intros Hn. destruct (Hg Hn) as [Hq|(m' & c & W1 & W2 & W3)].
      * destruct v; [|left; discriminate]. rewrite app_nil_r in Hq. right. exists m, a.
        split; [apply rt_refl|]. split; auto. split; eauto 8.
      * right. exists m', c. split; auto. eapply rt_trans; [apply rt_step; exact Hl|exact W1].
    + subst. rewrite !Forall_app in Hp. destruct Hp as (Hp1 & Hp2 & Hp3).
      exists (u ++ sym_name (m_task m) :: p), a, post. rewrite <- app_assoc. split; auto. split; auto.
      apply Forall_app. split; auto. constructor; auto. apply (vanish_head m); auto.
Qed.

(** ** Refinements along links *)
Lemma refines_context l1 l2 a b : refines_to d a b -> refines_to d (l1 ++ a ++ l2) (l1 ++ b ++ l2).
Proof.
  intros He. induction He as [a b Hs|a b c _ IH1 _ IH2]; [apply t_step, expand_context; auto|eapply t_trans; eauto].
Qed.
Lemma rt_after a b c : refines_to d a b -> expands d b c -> refines_to d a c.
Proof. intros H1 H2. apply clos_rt_rtn1 in H2. induction H2; auto. eapply t_trans; [apply IHclos_refl_trans_n1|apply t_step]; auto. Qed.
Lemma by_method m : In m (d_methods d) -> refines_to d [head m] (subtask_names m).
Proof. intros Hm. pose proof (ex_method d [] m [] Hm) as E. simpl in E. rewrite app_nil_r in E. apply t_step; exact E. Qed.
Lemma corner_refines a b : edge corner a b -> exists w, refines_to d [a] (b :: w).
Proof.
  intros (m & <- & Hm & pre & post & E & Hp). exists post. eapply rt_after; [apply by_method; auto|]. rewrite E.
  exact (expands_context d [] (b :: post) pre [] (vanish_list d pre Hp)).
Qed.
Lemma corners_refine a b : clos_trans string (edge corner) a b -> exists w, refines_to d [a] (b :: w).
Proof.
  intros Hs. induction Hs as [a b Hs|a b c _ [w1 IH1] _ [w2 IH2]]; [apply corner_refines; auto|].
  exists (w2 ++ w1). eapply t_trans; [exact IH1|]. apply (refines_context [] w1 [b] (c :: w2) IH2).
Qed.
Lemma lone_refines a b : edge lone a b -> refines_to d [a] [b].
Proof.
  intros (m & <- & Hm & pre & post & E & Hp & Hq). eapply rt_after; [apply by_method; auto|]. rewrite E.
  eapply rt_trans; [exact (expands_context d [] (b :: post) pre [] (vanish_list d pre Hp))|].
  pose proof (expands_context d [b] [] post [] (vanish_list d post Hq)) as H. simpl in H. rewrite !app_nil_r in H. exact H.
Qed.
Lemma lones_refine a b : clos_trans string (edge lone) a b -> refines_to d [a] [b].
Proof. intros Hs. induction Hs; [apply lone_refines; auto|eapply t_trans; eauto]. Qed.
Lemma lones_expand a b : lstar a b -> expands d [a] [b].
Proof.
  intros Hs. induction Hs as [a b Hs| |]; [|apply rt_refl|eapply rt_trans; eauto].
  apply lone_refines in Hs. induction Hs; [apply rt_step; auto|eapply rt_trans; eauto].
Qed.
Lemma widens_refines m b : widens m b -> exists w, w <> [] /\ Forall (vanishes d) w /\ refines_to d [head m] (b :: w).
Proof.
  intros (Hm & pre & post & E & Hp & Hq & Hn). exists post. split; auto. split; auto.
  eapply rt_after; [apply by_method; auto|]. rewrite E.
  exact (expands_context d [] (b :: post) pre [] (vanish_list d pre Hp)).
Qed.

(** ** First occurrences *)
Lemma before_first x l pre post : l = pre ++ x :: post -> forall P, Forall P pre -> Forall P (before x l).
Proof.
  intros -> P. induction 1 as [|a pre Ha Hp IH]; simpl; [rewrite String.eqb_refl; constructor|].
  destruct (String.eqb a x); constructor; auto.
Qed.
Lemma after_first (P : string -> Prop) x pre post : Forall P pre -> Forall P post -> Forall P (after x (pre ++ x :: post)).
Proof.
  intros Hp Hq. induction Hp as [|a pre Ha Hp IH]; simpl; [rewrite String.eqb_refl; auto|].
  destruct (String.eqb a x) eqn:E; auto. apply String.eqb_eq in E as ->. apply Forall_app. auto.
Qed.
Lemma after_incl x pre post : incl post (after x (pre ++ x :: post)).
Proof.
  induction pre as [|a pre IH]; simpl; [rewrite String.eqb_refl; intros y; auto|].
  destruct (String.eqb a x) eqn:E; auto. intros y Hy. apply in_or_app. right. right. auto.
Qed.
Lemma split_first x l : In x l -> l = before x l ++ x :: after x l.
Proof.
  induction l as [|a l IH]; simpl; [tauto|]. destruct (String.eqb a x) eqn:E; [apply String.eqb_eq in E as ->; auto|].
  intros [->|Hi]; [rewrite String.eqb_refl in E; discriminate|]. simpl. f_equal. auto.
Qed.
(** ** Weights of tasks without recursion *)
Inductive path : string -> nat -> Prop :=
| pa_0 a : path a 0
| pa_S a b n : decomposes d a b -> path b n -> path a (S n).
Lemma path_nodes a n : path a n -> exists l, length l = n /\ (forall x, In x l -> clos_refl_trans string (decomposes d) a x)
  /\ incl l (map head (d_methods d))
  /\ (NoDup l \/ exists x, clos_trans string (decomposes d) x x).
Proof.
  intros H. induction H as [a|a b n Hd _ (l & El & Hr & Hi & Hn)].
  - exists []. split; auto. split; [intros x []|]. split; [intros x []|left; constructor].
  - exists (a :: l). simpl. split; [congruence|]. split; [|split].
    + intros x [<-|Hx]; [apply rt_refl|]. eapply rt_trans; [apply rt_step; eauto|auto].
    + intros x [<-|Hx]; auto. destruct Hd as (m & Hm & <- & _). apply (in_map head); auto.
    + destruct Hn as [Hn|Hn]; auto. destruct (in_dec string_dec a l) as [Ha|Ha]; [|left; constructor; auto].
      right. exists a. apply Hr in Ha. clear - Hd Ha. revert Hd. generalize a at 1 2. intros c Hd. apply clos_rt_rtn1 in Ha.
      induction Ha as [|x y Hs _ IH]; [apply t_step; auto|eapply t_trans; [exact IH|apply t_step; auto]].
Qed.

(** Bound on the number of steps that a task gives rise to. *)
Fixpoint weight (k : nat) (a : string) : nat :=
  match k with
  | 0 => 0
  | S k' => S (list_max (map (fun m => if String.eqb (head m) a then list_sum (map (weight k') (subtask_names m)) else 0) (d_methods d)))
  end.
Lemma weight_stable : forall n a, ~ path a n -> forall k k', n <= k -> n <= k' -> weight k a = weight k' a.
Proof.
  induction n as [|n IH]; intros a Hn k k' Hk Hk'; [destruct Hn; constructor|].
  destruct k as [|k]; [lia|]. destruct k' as [|k']; [lia|]. cbn [weight]. f_equal. f_equal.
  apply map_ext_in. intros m Hm. destruct (String.eqb (head m) a) eqn:E; auto. apply String.eqb_eq in E. f_equal.
  apply map_ext_in. intros b Hb. apply IH; try lia. intros Hp. apply Hn. econstructor; [|exact Hp]. exists m. auto.
Qed.
Lemma list_max_ge l x : In x l -> x <= list_max l.
Proof. intros Hi. pose proof (proj1 (list_max_le l (list_max l)) (le_n _)) as Hf. rewrite Forall_forall in Hf. auto. Qed.
Lemma weights (Ha : forall x, ~ clos_trans string (decomposes d) x x) : exists W : string -> nat,
  (forall a, 1 <= W a) /\ forall m, In m (d_methods d) -> list_sum (map W (subtask_names m)) < W (head m).
Proof.
  set (n := S (length (d_methods d))).
  assert (Hn : forall a, ~ path a n).
  { intros a Hp. apply path_nodes in Hp as (l & El & _ & Hi & [Hl|(x & Hx)]); [|apply (Ha x Hx)].
    apply NoDup_incl_length in Hi; auto. rewrite map_length in Hi. unfold n in El. lia. }
  exists (weight (S n)). split; [intros a; cbn [weight]; lia|]. intros m Hm.
  rewrite (map_ext (weight (S n)) (weight n)) by (intros b; apply (weight_stable n); auto). cbn [weight]. apply le_n_S. apply list_max_ge. apply in_map_iff. exists m. split; auto. rewrite String.eqb_refl. auto.
Qed.
(** A measure that every step lowers bounds the number of steps. *)
Lemma measure_ends {A} (R : A -> A -> Prop) (f : A -> nat) : (forall x y, R x y -> f y < f x) -> forall x, ends R x.
Proof.
  intros Hf x. exists (f x). intros k y Hs. induction Hs as [|k x y z Hr _ IH]; [lia|]. apply Hf in Hr. lia.
Qed.
Lemma steps_trans {A} (R : A -> A -> Prop) j k x y z : steps R j x y -> steps R k y z -> steps R (j + k) x z.
Proof. induction 1; simpl; auto. intros. econstructor; eauto. Qed.
Lemma trans_steps {A} (R : A -> A -> Prop) x y : clos_trans A R x y -> exists k, steps R (S k) x y.
Proof.
  intros Ht. apply clos_trans_t1n in Ht. induction Ht as [x y Hs|x y z Hs _ [k IH]].
  - exists 0. econstructor; [exact Hs|constructor].
  - exists (S k). econstructor; eauto.
Qed.
Lemma first_step x w : refines_to d [x] w -> exists m, In m (d_methods d) /\ head m = x /\ expands d (subtask_names m) w.
Proof.
  intros Hr. assert (forall l', expand d [x] l' -> exists m, In m (d_methods d) /\ head m = x /\ l' = subtask_names m) as H1.
  { intros l' Hs. remember [x] as l0 eqn:E0. destruct Hs as [l1 m l2 Hm]. exists m. split; auto.
    destruct l1 as [|a l1]; simpl in E0; [|destruct l1; discriminate]. injection E0 as <- ->. simpl. rewrite app_nil_r. auto. }
  apply clos_trans_t1n in Hr. destruct Hr as [r Hs|l' r Hs Hr]; apply H1 in Hs as (m & Hm & Hx & ->); exists m; split; auto; split; auto.
  - apply rt_refl.
  - apply clos_t1n_trans in Hr. clear - Hr. induction Hr; [apply rt_step; auto|eapply rt_trans; eauto].
Qed.
Lemma steps_context k l1 l2 a b : steps (expand d) k a b -> steps (expand d) k (l1 ++ a ++ l2) (l1 ++ b ++ l2).
Proof. induction 1; [constructor|]. econstructor; [apply expand_context; eauto|auto]. Qed.

Lemma decomposes_refines a b : clos_trans string (decomposes d) a b -> exists l1 l2, refines_to d [a] (l1 ++ b :: l2).
Proof.
  intros Hs. induction Hs as [a b (m & Hm & <- & Hb)|a b c _ (l1 & l2 & H1) _ (k1 & k2 & H2)].
  - apply in_split in Hb as (l1 & l2 & E). exists l1, l2. rewrite <- E. apply by_method; auto.
  - exists (l1 ++ k1), (k2 ++ l2). eapply t_trans; [exact H1|].
    pose proof (refines_context l1 l2 _ _ H2) as H. simpl in H. rewrite <- !app_assoc in *. exact H.
Qed.
Lemma expand_from x w : refines_to d [x] w -> forall y, In y w -> clos_trans string (decomposes d) x y.
Proof.
  intros Ht. apply clos_trans_tn1 in Ht. induction Ht as [w Hs|w w' Hs _ IH]; intros y Hy.
  - remember [x] as l eqn:El. destruct Hs as [l1 m l2 Hm]. destruct l1 as [|a l1]; simpl in El; [|destruct l1; discriminate].
    injection El as <- ->. simpl in Hy. rewrite app_nil_r in Hy. apply t_step. exists m. auto.
  - destruct Hs as [l1 m l2 Hm]. rewrite !in_app_iff in Hy. destruct Hy as [Hy|[Hy|Hy]].
    + apply IH, in_or_app. auto.
    + eapply t_trans; [apply IH, in_or_app; right; left; reflexivity|]. apply t_step. exists m. auto.
    + apply IH, in_or_app. right; right; auto.
Qed.
(** A task that comes back can be refined for ever. *)
Lemma back_forever x l1 l2 : refines_to d [x] (l1 ++ x :: l2) -> ~ ends (expand d) [x].
Proof.
  intros Hr [b Hb]. apply trans_steps in Hr as (k & Hk).
  assert (forall n, exists u v j, n <= j /\ steps (expand d) j [x] (u ++ [x] ++ v)) as H.
  { induction n as [|n (u & v & j & Hj & IH)]; [exists [], [], 0; split; [lia|constructor]|].
    exists (u ++ l1), (l2 ++ v), (j + S k). split; [lia|]. eapply steps_trans; [exact IH|].
    pose proof (steps_context _ u v _ _ Hk) as H. rewrite <- !app_assoc in *. exact H. }
  destruct (H (S b)) as (u & v & j & Hj & Hs). apply Hb in Hs. lia.
Qed.
End M.
