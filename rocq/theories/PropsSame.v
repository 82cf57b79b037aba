(** C80: metadata and warnings depend on what is declared, not on where or how
    often.  Specification: SpecSame.v. *)
From Coq Require Import String NArith Bool List Lia PeanoNat Permutation Relations.
From Verif Require Import Base Token Lexer Errors Ast Parser Graph Semantic Tdg Api GraphProofs TdgGraph TdgTop SpecTdg SpecRec SpecSem SpecShape SpecOrder SpecMeaning SpecSame
  VerifyTop PropsLex PropsParse PropsSem PropsTdg PropsOrder PropsMeaning PropsGrow.
Import ListNotations.
Open Scope string_scope.
Open Scope list_scope.
Open Scope nat_scope.

(** ** Methods of the same use *)
Lemma use_sym m m' : same_use m m' -> same_use m' m.
Proof.
  intros (H1 & H2 & H3). split; auto. split; auto. unfold same_orders in *.
  destruct (htn_orderings (m_tn m)), (htn_orderings (m_tn m')); auto. apply Permutation_sym; auto.
Qed.
Lemma names_shape m : subtask_names m = map snd (map sub_shape (htn_subtasks (m_tn m))).
Proof. unfold subtask_names. rewrite map_map. reflexivity. Qed.
Lemma use_names m m' : same_use m m' -> subtask_names m = subtask_names m'.
Proof. intros (_ & E & _). rewrite !names_shape, E. reflexivity. Qed.
Lemma map_app_inv {A B} (f : A -> B) : forall l u v, map f l = u ++ v -> exists a b, l = a ++ b /\ map f a = u /\ map f b = v.
Proof.
  induction l as [|x l IH]; intros u v E; destruct u as [|y u]; simpl in E.
  - exists [], []. auto.
  - discriminate.
  - exists [], (x :: l). auto.
  - injection E as <- E. destruct (IH u v E) as (a & b & -> & <- & <-). exists (x :: a), b. auto.
Qed.
Lemma denotes_shape m i y : SpecRec.denotes m i y <-> exists l1 l2, map sub_shape (htn_subtasks (m_tn m)) = l1 ++ (Some i, y) :: l2
  /\ Forall (fun p => fst p <> Some i) l2.
Proof.
  split.
  - intros (l1 & s & l2 & E & H1 & H2 & H3). exists (map sub_shape l1), (map sub_shape l2). rewrite E, map_app. simpl. split.
    + unfold sub_shape at 2. unfold id_of in H1. rewrite H1, H2. reflexivity.
    + rewrite Forall_forall in *. intros p Hp. apply in_map_iff in Hp as (s' & <- & Hs'). apply (H3 s'); auto.
  - intros (u & v & E & Hv). destruct (map_app_inv _ _ _ _ E) as (a & b & Ea & <- & Eb).
    destruct b as [|s b]; [discriminate|]. simpl in Eb. injection Eb as E1 E2 <-. exists a, s, b.
    split; auto. split; auto. split; auto. rewrite Forall_forall in *. intros s' Hs'. apply (Hv (sub_shape s')), in_map; auto.
Qed.
Lemma use_denotes m m' i y : same_use m m' -> SpecRec.denotes m i y <-> SpecRec.denotes m' i y.
Proof. intros (_ & E & _). rewrite !denotes_shape, E. tauto. Qed.
Lemma occurs_shape m x i : occurs m x i <-> In (Some i, x) (map sub_shape (htn_subtasks (m_tn m))).
Proof.
  unfold occurs. rewrite in_map_iff. split; intros (s & H1 & H2).
  - exists s. split; auto. destruct H2 as [E1 E2]. unfold sub_shape. unfold id_of in E1. rewrite E1, E2. reflexivity.
  - exists s. split; auto. unfold sub_shape in H1. injection H1 as E1 E2. auto.
Qed.
Lemma use_occurs m m' x i : same_use m m' -> occurs m x i <-> occurs m' x i.
Proof. intros (_ & E & _). rewrite !occurs_shape, E. tauto. Qed.
Lemma trans_perm (l l' : list (string * string)) i j : Permutation l l' ->
  clos_trans string (fun a b => In (a, b) l) i j -> clos_trans string (fun a b => In (a, b) l') i j.
Proof. intros Hp. apply t_mono. intros x y. apply Permutation_in. auto. Qed.
Lemma use_follows1 m m' x y : same_use m m' -> follows m x y -> follows m' x y.
Proof.
  intros Hu. pose proof Hu as (_ & _ & Ho). unfold follows, same_orders in *. pose proof (use_names m m' Hu) as En.
  destruct (htn_orderings (m_tn m)), (htn_orderings (m_tn m')); try contradiction.
  - rewrite En. auto.
  - intros (i & j & H1 & H2 & H3). exists i, j. split; [apply (use_occurs m m' x i Hu); auto|].
    split; [eapply trans_perm; eauto|]. apply (use_denotes m m' j y Hu); auto.
Qed.
Lemma use_follows m m' x y : same_use m m' -> follows m x y <-> follows m' x y.
Proof. intros Hu. split; apply use_follows1; auto. apply use_sym; auto. Qed.
Lemma use_prefix m m' x : same_use m m' -> prefix_names m x = prefix_names m' x.
Proof.
  intros Hu. pose proof Hu as (_ & _ & Ho). unfold prefix_names, same_orders in *. rewrite (use_names m m' Hu).
  destruct (htn_orderings (m_tn m)), (htn_orderings (m_tn m')); try contradiction; auto.
Qed.
Lemma use_usable m m' x : same_use m m' -> SpecOrder.usable m x -> SpecOrder.usable m' x.
Proof.
  intros Hu. pose proof Hu as (_ & El & Ho). unfold SpecOrder.usable, same_orders in *.
  destruct (htn_orderings (m_tn m)) as [|l], (htn_orderings (m_tn m')) as [|l']; try contradiction; auto.
  apply (f_equal (@length _)) in El. rewrite !map_length in El. rewrite <- El, <- (Permutation_length Ho).
  pose proof (fun i => use_occurs m m' x i Hu) as Hoc.
  intros (H1 & H2 & H3). split; auto. split.
  - intros i j o Hi Hj Ho'. apply (H2 i); try apply Hoc; auto. apply Permutation_in with (l := l'); auto. apply Permutation_sym; auto.
  - intros i j Hi Hj. destruct (H3 i j) as ((y & Hy) & Hn).
    + apply Hoc; auto.
    + eapply trans_perm; [apply Permutation_sym|]; eauto.
    + split; [exists y; apply (use_denotes m m' j y Hu); auto|]. intros Hc. apply Hn.
      eapply trans_perm; [apply Permutation_sym|]; eauto.
Qed.

(** ** Decomposition *)
Section Cover.
Variables d d' : domain_ast.
Hypothesis Hc : covers d d'.
Lemma cover_decomposes a b : decomposes d a b -> decomposes d' a b.
Proof.
  intros (m & Hm & <- & Hb). destruct (Hc m Hm) as (m' & Hm' & Hu). exists m'. split; auto.
  rewrite <- (use_names m m' Hu). destruct Hu as (E & _). split; auto.
Qed.
Lemma cover_reaches a b : reaches d a b -> reaches d' a b.
Proof. apply rt_mono. apply cover_decomposes. Qed.
Lemma cover_vanishes x : vanishes d x -> vanishes d' x.
Proof.
  apply rt_mono. intros u v Hx. destruct Hx as [l1 m l2 Hm]. destruct (Hc m Hm) as (m' & Hm' & Hu).
  rewrite (use_names m m' Hu). destruct Hu as (E & _). unfold head in E. rewrite E. constructor. auto.
Qed.
Lemma cover_list : forall ms, incl ms (d_methods d) -> exists ms', incl ms' (d_methods d') /\ Forall2 same_use ms ms'.
Proof.
  induction ms as [|m ms IH]; intros Hi; [exists []; split; [intros x []|constructor]|].
  destruct IH as (ms' & Hi' & Hf); [intros x Hx; apply Hi; right; auto|].
  destruct (Hc m) as (m' & Hm' & Hu); [apply Hi; left; auto|].
  exists (m' :: ms'). split; [intros x [<-|Hx]; auto|constructor; auto].
Qed.
End Cover.

Definition same_link (l l' : method * string) : Prop := same_use (fst l) (fst l') /\ snd l = snd l'.
Lemma use_links start : forall ms ms', Forall2 same_use ms ms' -> Forall2 same_link (links start ms) (links start ms').
Proof.
  induction 1 as [|m m' ms ms' Hu Hf IH]; simpl; constructor; auto. split; auto. cbn [fst snd].
  destruct Hf as [|a a' ms ms' Ha Hf]; auto. apply Ha.
Qed.
Lemma use_cycle_links ms ms' : Forall2 same_use ms ms' -> Forall2 same_link (cycle_links ms) (cycle_links ms').
Proof.
  intros Hf. pose proof Hf as Hf'. destruct Hf' as [|m m' ms ms' Hu _]; [constructor|]. unfold cycle_links.
  destruct Hu as (E & _). rewrite <- E. apply use_links. auto.
Qed.
Lemma use_heads ms ms' : Forall2 same_use ms ms' -> map head ms = map head ms'.
Proof. induction 1 as [|m m' ms ms' (E & _) _ IH]; simpl; congruence. Qed.
Lemma Forall2_flip {A B} (R : A -> B -> Prop) l l' : Forall2 R l l' -> Forall2 (fun b a => R a b) l' l.
Proof. induction 1; constructor; auto. Qed.
Lemma uses_sym ms ms' : Forall2 same_use ms ms' -> Forall2 same_use ms' ms.
Proof. induction 1; constructor; auto using use_sym. Qed.
Lemma Forall2_pick {A B} (R : A -> B -> Prop) l l' : Forall2 R l l' -> forall x, In x l -> exists y, In y l' /\ R x y.
Proof. induction 1 as [|a b l l' Hab _ IH]; intros x [].
  - subst. exists b. split; auto. left; auto.
  - destruct (IH x) as (y & ? & ?); auto. exists y. split; auto. right; auto.
Qed.
Lemma cover_cycle d d' ms : covers d d' -> simple_cycle d ms -> exists ms', simple_cycle d' ms' /\ Forall2 same_use ms ms'.
Proof.
  intros Hc (H1 & H2 & H3 & H4). destruct (cover_list d d' Hc ms H2) as (ms' & Hi & Hf). exists ms'. split; auto.
  split; [|split; [auto|split]].
  - intros ->. inversion Hf; subst; auto.
  - rewrite <- (use_heads ms ms' Hf). auto.
  - pose proof (Forall2_flip _ _ _ (use_cycle_links ms ms' Hf)) as Hl. rewrite Forall_forall in *. intros l' Hl'.
    destruct (Forall2_pick _ _ _ Hl l' Hl') as (l & Hin & Hu & E). rewrite <- E, <- (use_names _ _ Hu). apply H4; auto.
Qed.

(** ** Classes of cycles *)
Section Classes.
Variables (nulls nulls' : list string).
Hypothesis Hn : forall x, In x nulls <-> In x nulls'.
Lemma use_silent ms ms' : Forall2 same_use ms ms' -> silent nulls ms -> silent nulls' ms'.
Proof.
  intros Hf Hs m' Em'. pose proof (Forall2_flip _ _ _ (use_cycle_links ms ms' Hf)) as Hl.
  destruct ms' as [|x ms']; [discriminate|]. injection Em' as ->. inversion Hf as [|m ? ms0 ? Hu Hf']; subst.
  specialize (Hs m eq_refl). rewrite Forall_forall in *. intros l' Hl'. destruct (Forall2_pick _ _ _ Hl l' Hl') as (l & Hin & Hu' & E).
  apply Hs in Hin. destruct Hu as (Eh & _). rewrite <- Eh. unfold quiet in *. rewrite <- E, <- (use_prefix _ _ _ Hu').
  destruct Hin as [Hin|Hin]; auto. right. eapply Forall_impl; [|exact Hin]. intros a. apply Hn.
Qed.
Lemma use_trails ms ms' y : Forall2 same_use ms ms' -> trails ms y -> trails ms' y.
Proof.
  intros Hf (l & Hl & Hy). destruct (Forall2_pick _ _ _ (use_cycle_links ms ms' Hf) l Hl) as (l' & Hl' & Hu & E).
  exists l'. split; auto. rewrite <- E. apply (use_follows _ _ _ _ Hu); auto.
Qed.
End Classes.
Lemma use_class nulls nulls' ms ms' k : (forall x, In x nulls <-> In x nulls') -> Forall2 same_use ms ms' ->
  cycle_class nulls ms k -> cycle_class nulls' ms' k.
Proof.
  intros Hn Hf. assert (forall x, In x nulls' <-> In x nulls) as Hn' by (intros x; symmetry; auto). pose proof (uses_sym _ _ Hf) as Hf'.
  destruct 1 as [H1|y H1 H2 H3|H1 H2|y H1 H2 H3].
  - apply cc_recursive. intros Hs. apply H1. eapply use_silent; eauto.
  - apply (cc_growing nulls' ms' y); [eapply use_silent; eauto|eapply use_trails; eauto|]. rewrite <- Hn. auto.
  - apply cc_empty; [eapply use_silent; eauto|]. intros y Hy. apply (H2 y). eapply use_trails; eauto.
  - apply (cc_shrink nulls' ms' y); [eapply use_silent; eauto|eapply use_trails; eauto|]. intros z Hz. apply Hn, H3.
    eapply use_trails; eauto.
Qed.
Lemma structure_sym d d' : same_structure d d' -> same_structure d' d.
Proof. intros (H1 & H2 & H3 & H4). split; [intros x; symmetry; auto|]. split; [intros x; symmetry; auto|]. split; auto. Qed.
Lemma tame_same d d' : same_structure d d' -> tame d -> tame d'.
Proof.
  intros (_ & _ & H3 & H4) Ht m' x Hm' Hx Hv. destruct (H4 m' Hm') as (m & Hm & Hu).
  rewrite (use_names m' m Hu) in Hx. apply (cover_vanishes d' d H4) in Hv. destruct (Ht m x Hm Hx Hv) as [Hh|(m0 & Hm0 & <- & E0)].
  - left. destruct Hu as (E & _). unfold head in E. rewrite E. apply (cover_vanishes d d' H3). auto.
  - right. destruct (H3 m0 Hm0) as (m1 & Hm1 & (E & El & _)). exists m1. split; auto. split; [symmetry; auto|].
    rewrite E0 in El. simpl in El. symmetry in El. apply map_eq_nil in El. auto.
Qed.
(** Domains with the same declarations in another order have the same structure. *)
Lemma use_refl m : same_use m m.
Proof. split; auto. split; auto. unfold same_orders. destruct (htn_orderings (m_tn m)); auto. Qed.
Lemma permuted_same d d' : Permutation (map task_name (d_tasks d)) (map task_name (d_tasks d')) ->
  Permutation (map act_name (d_actions d)) (map act_name (d_actions d')) -> Permutation (d_methods d) (d_methods d') ->
  same_structure d d'.
Proof.
  intros H1 H2 H3. split; [|split; [|split]].
  - intros x. split; apply Permutation_in; auto. apply Permutation_sym; auto.
  - intros x. split; apply Permutation_in; auto. apply Permutation_sym; auto.
  - intros m Hm. exists m. split; [eapply Permutation_in; eauto|apply use_refl].
  - intros m Hm. exists m. split; [eapply Permutation_in; [apply Permutation_sym|]; eauto|apply use_refl].
Qed.

Section S.
Context `{Unicode}.
Variables he he' : hash_env.
Hypothesis Hhe : hash_env_ok he.
Hypothesis Hhe' : hash_env_ok he'.

(** Metadata can be computed for both domains or for neither. *)
Theorem C80_delivered : forall m m' dom dom' d d',
  parse m dom = Ok (ADomain d) -> parse m' dom' = Ok (ADomain d') -> distinct_names d -> distinct_names d' ->
  same_structure d d' ->
  (exists n lf md, get_metadata he n lf dom = Ok md) <-> (exists n lf md, get_metadata he' n lf dom' = Ok md).
Proof.
  assert (forall d d', same_structure d d' ->
    (closed_names d /\ d_tasks d <> [] /\ forall ms me x, simple_cycle d ms -> In (me, x) (cycle_links ms) -> SpecOrder.usable me x) ->
    (closed_names d' /\ d_tasks d' <> [] /\ forall ms me x, simple_cycle d' ms -> In (me, x) (cycle_links ms) -> SpecOrder.usable me x)) as Hone.
  { intros d d' (H1 & H2 & H3 & H4) (C1 & C2 & C3).
    assert (forall x, In x (task_names d) -> In x (task_names d')) as Hk.
    { intros x. rewrite !task_names_eq, !in_app_iff. intros [Hx|Hx]; [left; apply (H1 x); auto|right; apply (H2 x); auto]. }
    split; [|split].
    - intros m' Hm'. destruct (H4 m' Hm') as (m & Hm & Hu). destruct (C1 m Hm) as [K1 K2].
      pose proof (use_names m' m Hu) as En. destruct Hu as (E & _). unfold head in E. rewrite E. split; auto.
      intros s Hs. assert (In (sym_name (sub_task s)) (subtask_names m)) as Hi.
      { rewrite <- En. unfold subtask_names. apply in_map_iff. eauto. }
      unfold subtask_names in Hi. apply in_map_iff in Hi as (s0 & <- & Hs0). auto.
    - intros E. destruct (d_tasks d) as [|t ts] eqn:Et; auto.
      assert (compound d' (task_name t)) as Hx by (apply H1; unfold compound; rewrite Et; left; auto).
      unfold compound in Hx. rewrite E in Hx. destruct Hx.
    - intros ms' me' x Hc Hl. destruct (cover_cycle d' d ms' H4 Hc) as (ms & Hc0 & Hf).
      destruct (Forall2_pick _ _ _ (use_cycle_links ms' ms Hf) (me', x) Hl) as ([me y] & Hl' & Hu & E). cbn [fst snd] in *. subst y.
      eapply use_usable; [apply use_sym; exact Hu|]. eapply C3; eauto. }
  intros m m' dom dom' d d' Ep Ep' Hd Hd' Hs.
  rewrite (C40_metadata_iff he Hhe m dom d Ep Hd), (C40_metadata_iff he' Hhe' m' dom' d' Ep' Hd').
  split; apply Hone; auto. apply structure_sym; auto.
Qed.


Lemma class_below (h h' : hash_env) : hash_env_ok h -> hash_env_ok h' -> forall n n' lf lf' dom dom' md md' d d',
  get_metadata h n lf dom = Ok md -> get_metadata h' n' lf' dom' = Ok md' ->
  parse n dom = Ok (ADomain d) -> parse n' dom' = Ok (ADomain d') -> distinct_names d -> distinct_names d' -> covers d d' ->
  (forall x, In x (md_nullables md) <-> In x (md_nullables md')) -> class (md_recursion md) <= class (md_recursion md').
Proof.
  intros Hh Hh' n n' lf lf' dom dom' md md' d d' E E' Ep Ep' Hd Hd' Hc Hn.
  destruct (C39_class_is_maximum h Hh n lf dom md d E Ep Hd) as [_ [->|(ms & H1 & H2 & _)]]; [simpl; lia|].
  destruct (cover_cycle d d' ms Hc H1) as (ms' & Hc' & Hf).
  destruct (C39_class_is_maximum h' Hh' n' lf' dom' md' d' E' Ep' Hd') as [Hmax _]. destruct (Hmax ms' Hc') as (k & Hk & Hle).
  pose proof (use_class _ _ ms ms' _ Hn Hf H2) as Hk'. rewrite (class_fun _ _ _ _ Hk' Hk). auto.
Qed.
(** The class of recursion is the same if the same tasks are found nullable. *)
Theorem C80_class : forall n n' lf lf' dom dom' md md' d d',
  get_metadata he n lf dom = Ok md -> get_metadata he' n' lf' dom' = Ok md' ->
  parse n dom = Ok (ADomain d) -> parse n' dom' = Ok (ADomain d') -> distinct_names d -> distinct_names d' -> same_structure d d' ->
  (md_recursion md = NonRecursive <-> md_recursion md' = NonRecursive)
  /\ ((forall x, In x (md_nullables md) <-> In x (md_nullables md')) -> class (md_recursion md) = class (md_recursion md')).
Proof.
  intros n n' lf lf' dom dom' md md' d d' E E' Ep Ep' Hd Hd' (_ & _ & H3 & H4). split.
  - rewrite (C26_non_recursive_iff he Hhe n lf dom md d E Ep Hd), (C26_non_recursive_iff he' Hhe' n' lf' dom' md' d' E' Ep' Hd').
    split; intros Hx x Hc; apply (Hx x); eapply t_mono; [|exact Hc| |exact Hc]; intros a b; apply cover_decomposes; auto.
  - intros Hn. apply Nat.le_antisymm.
    + eapply (class_below he he'); eauto.
    + eapply (class_below he' he); eauto. intros x. symmetry. auto.
Qed.
(** In tame domains the same tasks are nullable and the class is the same. *)
Theorem C80_tame : forall n n' lf lf' dom dom' md md' d d',
  get_metadata he n lf dom = Ok md -> get_metadata he' n' lf' dom' = Ok md' ->
  parse n dom = Ok (ADomain d) -> parse n' dom' = Ok (ADomain d') -> distinct_names d -> distinct_names d' -> same_structure d d' ->
  tame d -> (forall m, In m (d_methods d) -> compound d (sym_name (m_task m))) ->
  (forall x, In x (md_nullables md) <-> In x (md_nullables md')) /\ class (md_recursion md) = class (md_recursion md').
Proof.
  intros n n' lf lf' dom dom' md md' d d' E E' Ep Ep' Hd Hd' Hs Ht Hh. pose proof Hs as (H1 & _ & H3 & H4).
  assert (forall m, In m (d_methods d') -> compound d' (sym_name (m_task m))) as Hh'.
  { intros m' Hm'. destruct (H4 m' Hm') as (m & Hm & (Eh & _)). unfold head in Eh. rewrite Eh. apply H1. auto. }
  assert (forall x, In x (md_nullables md) <-> In x (md_nullables md')) as Hn.
  { intros x. rewrite (C24_exact_when_tame he Hhe n lf dom md d E Ep Hd Hh Ht x).
    rewrite (C24_exact_when_tame he' Hhe' n' lf' dom' md' d' E' Ep' Hd' Hh' (tame_same d d' Hs Ht) x).
    split; apply cover_vanishes; auto. }
  split; auto. destruct (C80_class n n' lf lf' dom dom' md md' d d' E E' Ep Ep' Hd Hd' Hs) as [_ Hcl]. auto.
Qed.
(** So are the tasks warned about. *)
Theorem C80_warnings : forall n n' dom dom' prob prob' ws ws' d d',
  verify he n dom prob = Ok ws -> verify he' n' dom' prob' = Ok ws' ->
  parse n dom = Ok (ADomain d) -> parse n' dom' = Ok (ADomain d') -> distinct_names d -> distinct_names d' -> same_structure d d' ->
  (tame d \/ exists k k' lf lf' md md', get_metadata he k lf dom = Ok md /\ get_metadata he' k' lf' dom' = Ok md'
     /\ forall x, In x (md_nullables md) <-> In x (md_nullables md')) ->
  forall x, (exists l, In (NoPrimitiveRefinement x l) ws) <-> (exists l, In (NoPrimitiveRefinement x l) ws').
Proof.
  intros n n' dom dom' prob prob' ws ws' d d' E E' Ep Ep' Hd Hd' Hs Hor x. pose proof Hs as (H1 & H2 & H3 & H4).
  assert ((forall a, primitive d a -> ~ reaches d x a) <-> (forall a, primitive d' a -> ~ reaches d' x a)) as Hr.
  { split; intros Hx a Ha Hra; apply (Hx a); try apply H2; auto; eapply cover_reaches; try exact Hra; auto. }
  destruct Hor as [Ht|(k & k' & lf & lf' & md & md' & Em & Em' & Hn)].
  - rewrite (C23_warned_iff_when_tame he Hhe n dom prob ws d x E Ep Hd Ht).
    rewrite (C23_warned_iff_when_tame he' Hhe' n' dom' prob' ws' d' x E' Ep' Hd' (tame_same d d' Hs Ht)).
    rewrite Hr, (H1 x). assert (vanishes d x <-> vanishes d' x) as -> by (split; apply cover_vanishes; auto). tauto.
  - rewrite (C66_warning_iff he Hhe n k lf dom prob ws md d x E Em Ep Hd).
    rewrite (C66_warning_iff he' Hhe' n' k' lf' dom' prob' ws' md' d' x E' Em' Ep' Hd').
    rewrite Hr, (H1 x), (Hn x). tauto.
Qed.
(** The same declarations in another order: the same numbers, and the rest as above. *)
Theorem C80_reordered : forall n n' lf lf' dom dom' md md' d d',
  get_metadata he n lf dom = Ok md -> get_metadata he' n' lf' dom' = Ok md' ->
  parse n dom = Ok (ADomain d) -> parse n' dom' = Ok (ADomain d') -> distinct_names d ->
  Permutation (d_tasks d) (d_tasks d') -> Permutation (d_actions d) (d_actions d') -> Permutation (d_methods d) (d_methods d') ->
  (md_actions md, md_tasks md, md_methods md) = (md_actions md', md_tasks md', md_methods md')
  /\ (md_recursion md = NonRecursive <-> md_recursion md' = NonRecursive)
  /\ ((forall x, In x (md_nullables md) <-> In x (md_nullables md')) -> class (md_recursion md) = class (md_recursion md')).
Proof.
  intros n n' lf lf' dom dom' md md' d d' E E' Ep Ep' Hd H1 H2 H3. split.
  - destruct (metadata_inv he Hhe n lf dom md d E Ep) as (g & nulls & _ & _ & _ & _ & C1 & C2 & C3).
    destruct (metadata_inv he' Hhe' n' lf' dom' md' d' E' Ep') as (g' & nulls' & _ & _ & _ & _ & C1' & C2' & C3').
    apply Permutation_length in H1, H2, H3. congruence.
  - eapply C80_class; eauto.
    + eapply Permutation_NoDup; [|exact Hd]. apply Permutation_app; apply Permutation_map; auto.
    + apply permuted_same; try apply Permutation_map; auto.
Qed.
End S.

Definition same_theorems := (@C80_delivered, @C80_class, @C80_tame, @C80_warnings, @C80_reordered).

(** ** A concrete case *)
(** Declarations in another order, and a second method that does the same as
    the first. *)
Definition shuffled : string :=
  dm [me "o" "e" nothing; tk "e"; me "n" "u" (tot ["t"]); tk "t"; ac "a"; me "k" "u" (tot ["a"]); me "again" "t" (tot ["u"; "e"]);
      tk "u"; me "m" "t" (tot ["u"; "e"])].
Ltac counterpart := first [eexists; split; [left; reflexivity|split; [reflexivity|split; [reflexivity|exact I]]]
  |eexists; split; [right; left; reflexivity|split; [reflexivity|split; [reflexivity|exact I]]]
  |eexists; split; [right; right; left; reflexivity|split; [reflexivity|split; [reflexivity|exact I]]]
  |eexists; split; [right; right; right; left; reflexivity|split; [reflexivity|split; [reflexivity|exact I]]]
  |eexists; split; [right; right; right; right; left; reflexivity|split; [reflexivity|split; [reflexivity|exact I]]]].
Example C80_example : exists d d' md md', @parse uni0 300 shrinking = Ok (ADomain d) /\ @parse uni0 300 shuffled = Ok (ADomain d')
  /\ @get_metadata uni0 env_id 300 50 shrinking = Ok md /\ @get_metadata uni0 env_rev 300 50 shuffled = Ok md'
  /\ distinct_names d /\ distinct_names d' /\ same_structure d d' /\ d_methods d <> d_methods d'
  /\ class (md_recursion md) = 4 /\ class (md_recursion md') = 4.
Proof.
  eexists. eexists. eexists. eexists. split; [vm_compute; reflexivity|]. split; [vm_compute; reflexivity|].
  split; [vm_compute; reflexivity|]. split; [vm_compute; reflexivity|].
  split; [unfold distinct_names; simpl; nodup|]. split; [unfold distinct_names; simpl; nodup|].
  split; [|split; [discriminate|split; reflexivity]].
  split; [unfold compound; simpl; intros x; tauto|]. split; [unfold primitive; simpl; intros x; tauto|].
  split; intros m Hm; simpl in Hm; repeat (destruct Hm as [<-|Hm]; [counterpart|]); destruct Hm.
Qed.
