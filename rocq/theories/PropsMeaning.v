(** C58: the classes of recursion and the nullable tasks mean what they say. *)
From Coq Require Import String NArith Bool List Lia PeanoNat Permutation Relations Operators_Properties.
From Verif Require Import Base Token Lexer Errors Ast Parser Graph Semantic Tdg Api GraphProofs TdgGraph TdgReach TdgNull SpecTdg SpecRec SpecExec SpecSem TdgTop TdgRecTop VerifyTop TdgSound SpecMeaning TdgUpper TdgMeaning PropsLex PropsSem PropsTdg.
Import ListNotations.
Open Scope string_scope.
Open Scope list_scope.
Open Scope nat_scope.

Section S.
Context `{Unicode}.
Variable he : hash_env.
Hypothesis Hhe : hash_env_ok he.

(** ** C24: exactly the vanishing tasks are found in tame domains *)
Theorem C24_exact_when_tame : forall n lf dom md d,
  get_metadata he n lf dom = Ok md -> parse n dom = Ok (ADomain d) -> distinct_names d ->
  (forall m, In m (d_methods d) -> compound d (sym_name (m_task m))) -> tame d ->
  forall x, In x (md_nullables md) <-> vanishes d x.
Proof.
  intros n lf dom md d E Ep Hd Hh Ht x. split; [|eapply C24_vanishing_found; eauto].
  intros Hx. destruct (metadata_inv he Hhe n lf dom md d E Ep) as (g & nulls & Eg & En & _ & Hp & _).
  apply (nullables_vanish d g Eg Hd Ht he Hhe n nulls En). eapply Permutation_in; eauto.
Qed.

(** ** C24: an upper bound in every domain, whatever the iteration order *)
Theorem C24_upper_bound : forall n lf dom md d,
  get_metadata he n lf dom = Ok md -> parse n dom = Ok (ADomain d) -> distinct_names d ->
  forall x, In x (md_nullables md) -> dissolves d x.
Proof.
  intros n lf dom md d E Ep Hd x Hx. destruct (metadata_inv he Hhe n lf dom md d E Ep) as (g & nulls & Eg & En & _ & Hp & _).
  apply (nullables_bound d g Eg Hd he Hhe n nulls En). eapply Permutation_in; eauto.
Qed.
(** Such a task leads to a task with an empty method, so nothing is nullable
    without an empty method. *)
Lemma dissolves_empty d : forall x, dissolves d x ->
  exists m, In m (d_methods d) /\ htn_subtasks (m_tn m) = [] /\ reaches d x (sym_name (m_task m)).
Proof.
  fix IH 2. intros x [m Hm Hs]. destruct (subtask_names m) as [|y l] eqn:Es.
  - exists m. split; auto. split; [unfold subtask_names in Es; apply map_eq_nil in Es; auto|apply rt_refl].
  - destruct (Hs y (or_introl eq_refl)) as (z & Hz & Hdz). destruct (IH z Hdz) as (m' & H1 & H2 & H3).
    exists m'. split; auto. split; auto. apply rt_trans with (y := y).
    + apply rt_step. exists m. split; auto. split; auto. rewrite Es. left; auto.
    + apply rt_trans with (y := z); auto.
Qed.
Theorem C24_needs_empty_method : forall n lf dom md d,
  get_metadata he n lf dom = Ok md -> parse n dom = Ok (ADomain d) -> distinct_names d ->
  forall x, In x (md_nullables md) ->
  exists m, In m (d_methods d) /\ htn_subtasks (m_tn m) = [] /\ reaches d x (sym_name (m_task m)).
Proof. intros n lf dom md d E Ep Hd x Hx. apply dissolves_empty. eapply C24_upper_bound; eauto. Qed.

Section Doc.
Variables (n lf : nat) (dom : string) (md : metadata) (d : domain_ast).
Hypothesis E : get_metadata he n lf dom = Ok md.
Hypothesis Ep : parse n dom = Ok (ADomain d).
Hypothesis Hd : distinct_names d.

Lemma recursive_cycle : md_recursion md <> NonRecursive <-> exists x, clos_trans string (decomposes d) x x.
Proof.
  pose proof (C26_non_recursive_iff he Hhe n lf dom md d E Ep Hd) as Hi. split.
  - intros Hn. destruct (C26_cycle_genuine he Hhe n lf dom md d E Ep Hd Hn) as (ms & Hs & _).
    destruct ms as [|m ms]; [destruct Hs as [[] _]; auto|]. exists (head m). eapply cycle_reaches; eauto.
  - intros (x & Hx) Hn. apply (proj1 Hi Hn x Hx).
Qed.

Lemma vanish_found : (forall m, In m (d_methods d) -> compound d (sym_name (m_task m))) ->
  forall l, Forall (vanishes d) l -> Forall (fun y => In y (md_nullables md)) l.
Proof. intros Hh l. apply Forall_impl. intros x Hx. eapply C24_vanishing_found; eauto. Qed.

Lemma corner_quiet : (forall m, In m (d_methods d) -> compound d (sym_name (m_task m))) ->
  forall start m b, corner d m b -> quiet (md_nullables md) start (m, b).
Proof.
  intros Hh start m b (Hm & pre & post & Es & Hp). right. unfold prefix_names. cbn [fst snd].
  destruct (htn_orderings (m_tn m)); [|constructor]. eapply before_first; eauto. apply vanish_found; auto.
Qed.
Lemma class_of ms : simple_cycle d ms -> exists k, cycle_class (md_nullables md) ms k /\ k <= class (md_recursion md).
Proof. apply (proj1 (C39_class_is_maximum he Hhe n lf dom md d E Ep Hd)). Qed.

Hypothesis Hh : forall m, In m (d_methods d) -> compound d (sym_name (m_task m)).
Lemma silent_class ms k : cycle_class (md_nullables md) ms k -> silent (md_nullables md) ms -> 2 <= k.
Proof. destruct 1; try lia. contradiction. Qed.
Lemma leads_class : leads d -> 2 <= class (md_recursion md).
Proof.
  intros (x & w & Hr). destruct (first_step d x _ Hr) as (m & Hm & Hx & He).
  destruct (left_corner d _ _ _ He) as (pre & a & post & Es & Hp & Hs).
  assert (corner d m a) as Hc by (split; eauto). rewrite <- Hx in Hs.
  destruct (cycle_through d (corner d) (corner_link d) m a Hc Hs) as (ms & Hsc & _ & Hall).
  destruct (class_of ms Hsc) as (k & Hk & Hle). eapply Nat.le_trans; [|exact Hle]. apply (silent_class ms k Hk).
  intros m0 _. rewrite Forall_forall in *. intros [m' b] Hl. apply corner_quiet; auto. apply (Hall _ Hl).
Qed.

Hypothesis Ht : all_total d.
Lemma follows_total m x y : In m (d_methods d) -> (follows m x y <-> In y (after x (subtask_names m))).
Proof. intros Hm. unfold follows. rewrite (Ht m Hm). tauto. Qed.
Lemma lone_class ms : simple_cycle d ms -> Forall (fun l => lone d (fst l) (snd l)) (cycle_links ms) ->
  3 <= class (md_recursion md) /\ ((exists m b, In (m, b) (cycle_links ms) /\ widens d m b) -> class (md_recursion md) = 4).
Proof.
  intros Hsc Hall. rewrite Forall_forall in Hall.
  assert (silent (md_nullables md) ms) as Hsi.
  { intros m0 _. apply Forall_forall. intros [m' b] Hl. apply corner_quiet; auto. apply lone_corner, (Hall _ Hl). }
  assert (forall y, trails ms y -> In y (md_nullables md)) as Htr.
  { intros y ([m b] & Hl & Hf). apply Hall in Hl as (Hm & pre & post & Es & Hp & Hq). cbn [fst snd] in *.
    apply follows_total in Hf; auto. rewrite Es in Hf. pose proof (after_first _ b pre post Hp Hq) as Ha.
    rewrite Forall_forall in Ha. eapply C24_vanishing_found; eauto. }
  destruct (class_of ms Hsc) as (k & Hk & Hle). assert (class (md_recursion md) <= 4) as H4 by (destruct (md_recursion md); simpl; lia).
  destruct Hk as [Hx|y _ H1 H2|_ H1|y _ H1 H2].
  - contradiction.
  - destruct (H2 (Htr y H1)).
  - split; [lia|]. intros (m & b & Hl & (Hm & pre & post & Es & _ & _ & Hne)). destruct post as [|y post]; [congruence|].
    destruct (H1 y). exists (m, b). split; auto. apply follows_total; auto. cbn [fst snd]. rewrite Es.
    apply after_incl. left; auto.
  - split; lia.
Qed.
Lemma alone_class : alone d -> 3 <= class (md_recursion md).
Proof.
  intros (x & Hr). destruct (first_step d x _ Hr) as (m & Hm & Hx & He).
  destruct (lone_task d _ _ _ He (Forall_nil _)) as (pre & a & post & Es & Hp & Hq & Hs & _).
  assert (lone d m a) as Hc by (split; eauto 6). rewrite <- Hx in Hs.
  destruct (cycle_through d (lone d) (fun m b Hl => corner_link d m b (lone_corner d m b Hl)) m a Hc Hs) as (ms & Hsc & _ & Hall).
  apply (lone_class ms); auto.
Qed.
Lemma grows_class : grows_and_shrinks d -> class (md_recursion md) = 4.
Proof.
  intros (x & w & Hne & Hw & Hr). destruct (first_step d x _ Hr) as (m & Hm & Hx & He).
  destruct (lone_task d _ _ _ He Hw) as (pre & a & post & Es & Hp & Hq & Hs & Hg).
  assert (lone d m a) as Hc by (split; eauto 6). specialize (Hg Hne). 
  assert (exists m' b, widens d m' b /\ clos_refl_trans string (edge (lone d)) b (head m')) as (m' & b & Hw' & Hb).
  { destruct Hg as [Hg|(m' & b & W1 & W2 & W3)].
    - exists m, a. split; [split; eauto 8|]. rewrite Hx. auto.
    - exists m', b. split; auto. eapply rt_trans; [exact W3|]. eapply rt_trans; [|exact W1].
      apply rt_step. exists m. auto. }
  destruct (cycle_through d (lone d) (fun m b Hl => corner_link d m b (lone_corner d m b Hl)) m' b (widens_lone d _ _ Hw') Hb)
    as (ms & Hsc & Hl & Hall).
  apply (lone_class ms); eauto.
Qed.

(** ** From the report to refinements *)
Hypothesis Hn : forall x, In x (md_nullables md) -> vanishes d x.
Lemma null_vanish l : Forall (fun y => In y (md_nullables md)) l -> Forall (vanishes d) l.
Proof. apply Forall_impl. auto. Qed.
Lemma silent_corners start : forall ms m, incl (m :: ms) (d_methods d) ->
  Forall (fun l => In (snd l) (subtask_names (fst l))) (links start (m :: ms)) ->
  Forall (quiet (md_nullables md) start) (links start (m :: ms)) ->
  clos_trans string (edge (corner d)) (head m) start.
Proof.
  induction ms as [|m' ms IH]; intros m Hi Hs Hq; inversion Hs as [|? ? S1 S2]; subst; inversion Hq as [|? ? Q1 Q2]; subst; cbn [fst snd] in *.
  all: assert (In m (d_methods d)) as Hm by (apply Hi; left; auto).
  all: unfold quiet, prefix_names in Q1; cbn [fst snd] in Q1; rewrite (Ht m Hm) in Q1.
  all: pose proof (split_first _ _ S1) as Es.
  - apply t_step. exists m. split; auto. split; auto. destruct Q1 as [Q1|Q1]; [|eauto using null_vanish].
    destruct (SpecRec.before start (subtask_names m)) as [|y l] eqn:Eb; [discriminate|]. injection Q1 as ->.
    exists [], (l ++ start :: after start (subtask_names m)). split; auto.
  - destruct Q1 as [Q1|Q1].
    + apply t_step. exists m. split; auto. split; auto.
      destruct (SpecRec.before (head m') (subtask_names m)) as [|y l] eqn:Eb; [discriminate|]. injection Q1 as ->.
      eexists [], _. split; [exact Es|constructor].
    + eapply t_trans; [apply t_step; exists m; split; [reflexivity|split; auto]; eauto using null_vanish|].
      apply IH; auto. intros y Hy. apply Hi. right; auto.
Qed.
Lemma class_cycle : 1 <= class (md_recursion md) -> exists ms, simple_cycle d ms /\ cycle_class (md_nullables md) ms (class (md_recursion md)).
Proof.
  intros Hc. destruct (proj2 (C39_class_is_maximum he Hhe n lf dom md d E Ep Hd)) as [Er|(ms & H1 & H2 & _)]; [|eauto].
  rewrite Er in Hc. simpl in Hc. lia.
Qed.
Lemma class_silent ms k : cycle_class (md_nullables md) ms k -> 2 <= k -> silent (md_nullables md) ms.
Proof. destruct 1; auto; lia. Qed.
Lemma class_leads : 2 <= class (md_recursion md) -> leads d.
Proof.
  intros Hc. destruct class_cycle as (ms & (Hne & Hi & _ & Hs) & Hk); [lia|]. apply class_silent in Hk; auto.
  destruct ms as [|m ms]; [congruence|]. specialize (Hk m eq_refl).
  destruct (corners_refine d _ _ (silent_corners (head m) ms m Hi Hs Hk)) as (w & Hw). exists (head m), w. auto.
Qed.

Hypothesis Hu : unforked d.
Lemma cycle_in ms l : In l (cycle_links ms) -> In (fst l) ms.
Proof.
  destruct ms as [|m ms]; [intros []|]. unfold cycle_links. generalize (head m). generalize (m :: ms). clear.
  induction l0 as [|a l0 IH]; intros x; [intros []|]. intros [<-|Hk]; [left; auto|right; eauto].
Qed.
Lemma decomposes_edge a b : clos_refl_trans string (edge (fun m b => In m (d_methods d) /\ In b (subtask_names m))) a b -> reaches d a b.
Proof.
  intros Hs. induction Hs as [a b (m & <- & Hm & Hb)| |]; [apply rt_step; exists m; auto|apply rt_refl|eapply rt_trans; eauto].
Qed.
Lemma class_lones ms k : simple_cycle d ms -> cycle_class (md_nullables md) ms k -> 3 <= k ->
  Forall (fun l => lone d (fst l) (snd l)) (cycle_links ms).
Proof.
  intros Hsc Hk Hle. assert (silent (md_nullables md) ms) as Hsi by (eapply class_silent; eauto; lia).
  assert (forall y, trails ms y -> vanishes d y) as Htr.
  { intros y Hy. destruct Hk as [ | |_ H1|y' _ H1 H2]; try lia; [destruct (H1 y Hy)|auto]. }
  destruct Hsc as (Hne & Hi & _ & Hs). destruct ms as [|m0 ms]; [congruence|]. specialize (Hsi m0 eq_refl).
  assert (Forall (fun l => In (fst l) (d_methods d) /\ In (snd l) (subtask_names (fst l))) (cycle_links (m0 :: ms))) as Hs'.
  { rewrite Forall_forall in *. intros l Hl. split; [apply Hi, cycle_in; auto|apply Hs; auto]. }
  pose proof (fun l Hl => cycle_around (fun m b => In m (d_methods d) /\ In b (subtask_names m)) (m0 :: ms) l Hs' Hl m0 eq_refl) as Hr.
  rewrite Forall_forall in *. intros [m b] Hl. destruct (Hs' _ Hl) as [Hm Hb]. specialize (Hsi _ Hl). destruct (Hr _ Hl) as [R1 R2].
  cbn [fst snd] in *. apply decomposes_edge in R1, R2.
  pose proof (split_first _ _ Hb) as Es. split; auto. exists (SpecRec.before b (subtask_names m)), (after b (subtask_names m)). split; auto. split.
  - unfold quiet, prefix_names in Hsi. cbn [fst snd] in Hsi. rewrite (Ht m Hm) in Hsi. destruct Hsi as [Hq|Hq]; [|apply null_vanish; auto].
    destruct (SpecRec.before b (subtask_names m)) as [|y l]; [discriminate|]. injection Hq as ->.
    apply (Hu m (head m0) l b _ Hm Es); auto.
  - apply Forall_forall. intros y Hy. apply Htr. exists (m, b). split; auto. apply follows_total; auto.
Qed.
Lemma class_alone : 3 <= class (md_recursion md) -> alone d.
Proof.
  intros Hc. destruct class_cycle as (ms & Hsc & Hk); [lia|]. pose proof (class_lones _ _ Hsc Hk Hc) as Hall.
  destruct ms as [|m ms]; [destruct Hsc as [[] _]; auto|]. exists (head m). apply lones_refine. eapply links_star. exact Hall.
Qed.
Lemma class_grows : class (md_recursion md) = 4 -> grows_and_shrinks d.
Proof.
  intros Hc. destruct class_cycle as (ms & Hsc & Hk); [lia|]. pose proof (class_lones _ _ Hsc Hk ltac:(lia)) as Hall.
  rewrite Hc in Hk. inversion Hk as [ | | |y Hsi ([m b] & Hl & Hf) Hz]; subst. 
  pose proof Hall as Hl'. rewrite Forall_forall in Hl'. destruct (Hl' _ Hl) as (Hm & pre & post & Es & Hp & Hq). cbn [fst snd] in *.
  assert (widens d m b) as Hw.
  { assert (In b (subtask_names m)) as Hb by (rewrite Es; apply in_or_app; right; left; auto).
    split; auto. exists (SpecRec.before b (subtask_names m)), (after b (subtask_names m)). split; [apply split_first; auto|].
    split; [eapply before_first; eauto|]. split; [rewrite Es; apply after_first; auto|].
    apply follows_total in Hf; auto. intros E0. rewrite E0 in Hf. destruct Hf. }
  destruct (widens_refines d m b Hw) as (w & Hne & Hv & Hr). exists (head m), w. split; auto. split; auto.
  destruct ms as [|m0 ms]; [destruct Hl|].
  destruct (cycle_around (lone d) (m0 :: ms) (m, b) Hall Hl m0 eq_refl) as [_ R]. cbn [fst snd] in R.
  eapply rt_after; [exact Hr|]. exact (expands_context d [] w [b] [head m] (lones_expand d _ _ R)).
Qed.
End Doc.

(** ** C58 *)
(** [NonRecursive]: every sequence of method applications, to any network, is
    bounded; so is every execution of every problem. *)
Theorem C58_non_recursive_iff : forall n lf dom md d,
  get_metadata he n lf dom = Ok md -> parse n dom = Ok (ADomain d) -> distinct_names d ->
  (md_recursion md = NonRecursive <-> forall l, ends (expand d) l)
  /\ (md_recursion md <> NonRecursive <-> comes_back d).
Proof.
  intros n lf dom md d E Ep Hd. pose proof (C26_non_recursive_iff he Hhe n lf dom md d E Ep Hd) as Hi.
  pose proof (recursive_cycle n lf dom md d E Ep Hd) as Hc.
  assert (comes_back d -> exists x, clos_trans string (decomposes d) x x) as Hb.
  { intros (x & l1 & l2 & Hr). exists x. apply (expand_from d x _ Hr). apply in_or_app. right. left. auto. }
  split; split.
  - intros Hr. destruct (weights d (proj1 Hi Hr)) as (W & _ & HW).
    apply (measure_ends (expand d) (fun l => list_sum (map W l))). intros x y [l1 m l2 Hm].
    specialize (HW m Hm). rewrite !map_app, !list_sum_app. cbn [map]. unfold head in HW.
    change (list_sum (?a :: ?l)) with (a + list_sum l). lia.
  - intros Hends. apply Hi. intros x Hx. apply decomposes_refines in Hx as (l1 & l2 & Hr).
    eapply back_forever; eauto.
  - intros Hr. apply Hc in Hr as (x & Hx). apply decomposes_refines in Hx as (l1 & l2 & Hr). exists x, l1, l2. auto.
  - intros Hr. apply Hc. auto.
Qed.
Theorem C58_executions_end : forall n lf dom md d,
  get_metadata he n lf dom = Ok md -> parse n dom = Ok (ADomain d) -> distinct_names d ->
  md_recursion md = NonRecursive -> forall p c, ends (step d p) c.
Proof.
  intros n lf dom md d E Ep Hd Hr p. pose proof (C26_non_recursive_iff he Hhe n lf dom md d E Ep Hd) as Hi.
  destruct (weights d (proj1 Hi Hr)) as (W & W1 & HW).
  apply (measure_ends (step d p) (fun c => list_sum (map (fun t => W (fst t)) (snd c)))).
  intros x y Hs. destruct Hs as [m b facts w1 w2 Hm Hb|a b facts facts' w1 w2 Ha Hf]; cbn [snd]; rewrite !map_app; cbn [map fst];
    rewrite !list_sum_app.
  - rewrite map_map. specialize (HW m Hm). unfold head in HW.
    assert (list_sum (map (fun s => W (fst (inst_task b (m_params m) s))) (htn_subtasks (m_tn m))) = list_sum (map W (subtask_names m))) as ->.
    { unfold subtask_names. rewrite map_map. reflexivity. }
    change (list_sum (?a :: ?l)) with (a + list_sum l). apply Nat.add_lt_mono_l, Nat.add_lt_mono_r; exact HW.
  - specialize (W1 (act_name a)). change (list_sum (?a :: ?l)) with (a + list_sum l). lia.
Qed.
(** What is left-recursive, recursive without growing, or growing and shrinking
    is reported as such. *)
Theorem C58_recursion_found : forall n lf dom md d,
  get_metadata he n lf dom = Ok md -> parse n dom = Ok (ADomain d) -> distinct_names d ->
  (forall m, In m (d_methods d) -> compound d (sym_name (m_task m))) ->
  (leads d -> 2 <= class (md_recursion md))
  /\ (all_total d -> alone d -> 3 <= class (md_recursion md))
  /\ (all_total d -> grows_and_shrinks d -> class (md_recursion md) = 4).
Proof.
  intros n lf dom md d E Ep Hd Hh. split; [|split].
  - eapply leads_class; eauto.
  - intros Ht. eapply alone_class; eauto.
  - intros Ht. eapply grows_class; eauto.
Qed.
(** In tame totally ordered domains [GrowingEmptyPrefix] and higher classes are
    reported for no other reason; in unforked ones this holds for every class. *)
Theorem C58_left_recursion_iff : forall n lf dom md d,
  get_metadata he n lf dom = Ok md -> parse n dom = Ok (ADomain d) -> distinct_names d ->
  (forall m, In m (d_methods d) -> compound d (sym_name (m_task m))) -> all_total d -> tame d ->
  (2 <= class (md_recursion md) <-> leads d).
Proof.
  intros n lf dom md d E Ep Hd Hh Ht Htm. split; [|eapply leads_class; eauto].
  eapply class_leads; eauto. intros x. eapply C24_exact_when_tame; eauto.
Qed.
Theorem C58_classes_exact : forall n lf dom md d,
  get_metadata he n lf dom = Ok md -> parse n dom = Ok (ADomain d) -> distinct_names d ->
  (forall m, In m (d_methods d) -> compound d (sym_name (m_task m))) -> all_total d -> tame d -> unforked d ->
  (1 <= class (md_recursion md) <-> comes_back d)
  /\ (2 <= class (md_recursion md) <-> leads d)
  /\ (3 <= class (md_recursion md) <-> alone d)
  /\ (class (md_recursion md) = 4 <-> grows_and_shrinks d).
Proof.
  intros n lf dom md d E Ep Hd Hh Ht Htm Hu.
  assert (forall x, In x (md_nullables md) -> vanishes d x) as Hn by (intros x; eapply C24_exact_when_tame; eauto).
  split; [|split; [|split]].
  - rewrite <- (proj2 (C58_non_recursive_iff n lf dom md d E Ep Hd)). rewrite <- class_zero. lia.
  - eapply C58_left_recursion_iff; eauto.
  - split; [eapply class_alone; eauto|eapply alone_class; eauto].
  - split; [eapply class_grows; eauto|eapply grows_class; eauto].
Qed.

(** ** C23: in tame domains exactly the tasks from which no action can be reached
    and that cannot vanish are warned about *)
Lemma refinement_reach g fuel : forall ts ws, refinement_warnings he fuel g ts = Ok ws ->
  forall t, In t ts -> exists r, Tdg.reachable he fuel g (task_name t) = Ok r.
Proof.
  induction ts as [|t ts IH]; simpl; intros ws E t' Ht; [destruct Ht|].
  apply bind_ok in E as (r & Er & E). apply bind_ok in E as (ws' & Ew & _). destruct Ht as [<-|Ht]; eauto.
Qed.
Theorem C23_warned_iff_when_tame : forall n dom prob ws d x,
  verify he n dom prob = Ok ws -> parse n dom = Ok (ADomain d) -> distinct_names d -> tame d ->
  ((exists l, In (NoPrimitiveRefinement x l) ws) <->
   compound d x /\ (forall a, primitive d a -> ~ reaches d x a) /\ ~ vanishes d x).
Proof.
  intros n dom prob ws d x E Ep Hd Ht. apply verify_ok_inv in E as (d' & Ep' & Ev & Hok & _); auto.
  assert (d' = d) as -> by congruence.
  unfold verify_domain in Ev. apply bind_ok in Ev as ([] & _ & Ev). apply bind_ok in Ev as (g & Eg & Ev).
  apply bind_ok in Ev as (ws' & Ew & Ev). injection Ev as ->.
  pose proof (refinement_list _ _ _ _ _ Ew) as El. pose proof (refinement_reach _ _ _ _ Ew) as Hr.
  assert (forall t, In t (d_tasks d) -> (warns g he n t = true <->
            (forall a, primitive d a -> ~ reaches d (task_name t) a) /\ ~ vanishes d (task_name t))) as Hw.
  { intros t Hi. assert (compound d (task_name t)) as Hc by (apply in_map; auto).
    destruct (Hr t) as (r & Er); [apply (decl_In he Hhe); auto|]. unfold warns. rewrite Er.
    destruct (reachable_names d g Eg Hd he Hhe n (task_name t) r Hc Er) as (Hp & _ & nulls & En & Hn).
    assert (In (task_name t) nulls <-> vanishes d (task_name t)) as Hv.
    { split; [eapply (nullables_vanish d g Eg Hd Ht he Hhe); eauto|].
      eapply (nullables_names d g Eg Hd he Hhe (accepted_heads d Hok)); eauto. }
    rewrite <- Hv, <- Hn. destruct (rs_primitives r) as [|a ps] eqn:Epr.
    - rewrite negb_true_iff. destruct (rs_nullable r); (split; [intros Hb; try discriminate Hb|intros [Hno Hnn]; auto]).
      + destruct (Hnn eq_refl).
      + split; [|discriminate]. intros a Ha Hra. apply (Hp a). auto.
    - split; [discriminate|]. intros [Hno _]. exfalso. destruct (proj1 (Hp a) (or_introl eq_refl)) as [Ha Hra].
      apply (Hno a Ha Hra). }
  split.
  - intros (l & Hi). rewrite El in Hi. apply in_map_iff in Hi as (t & Et & Hi). apply filter_In in Hi as [Hi Hwt].
    apply (decl_In he Hhe) in Hi. injection Et as <- <-. apply Hw in Hwt; auto. split; auto. apply in_map; auto.
  - intros (Hc & Hno). unfold compound in Hc. apply in_map_iff in Hc as (t & <- & Hi). exists (task_pos t). rewrite El.
    apply in_map_iff. exists t. split; auto. apply filter_In. split; [apply (decl_In he Hhe); auto|]. apply Hw; auto.
Qed.
(** In every domain a task is warned about if no action can be reached from it
    and it does not dissolve. *)
Theorem C23_never_missed : forall n dom prob ws d x,
  verify he n dom prob = Ok ws -> parse n dom = Ok (ADomain d) -> distinct_names d ->
  compound d x -> (forall a, primitive d a -> ~ reaches d x a) -> ~ dissolves d x ->
  exists l, In (NoPrimitiveRefinement x l) ws.
Proof.
  intros n dom prob ws d x E Ep Hd Hc Hno Hnd. apply verify_ok_inv in E as (d' & Ep' & Ev & _ & _); auto.
  assert (d' = d) as -> by congruence.
  unfold verify_domain in Ev. apply bind_ok in Ev as ([] & _ & Ev). apply bind_ok in Ev as (g & Eg & Ev).
  apply bind_ok in Ev as (ws' & Ew & Ev). injection Ev as ->.
  pose proof (refinement_list _ _ _ _ _ Ew) as El. pose proof (refinement_reach _ _ _ _ Ew) as Hr.
  pose proof Hc as Hi. unfold compound in Hi. apply in_map_iff in Hi as (t & <- & Hi). exists (task_pos t). rewrite El.
  apply in_map_iff. exists t. split; auto. apply filter_In. split; [apply (decl_In he Hhe); auto|].
  destruct (Hr t) as (r & Er); [apply (decl_In he Hhe); auto|]. unfold warns. rewrite Er.
  destruct (reachable_names d g Eg Hd he Hhe n (task_name t) r Hc Er) as (Hp & _ & nulls & En & Hn).
  destruct (rs_primitives r) as [|a ps] eqn:Epr.
  - rewrite negb_true_iff. destruct (rs_nullable r); auto. destruct Hnd.
    apply (nullables_bound d g Eg Hd he Hhe n nulls En). apply Hn; auto.
  - exfalso. destruct (proj1 (Hp a) (or_introl eq_refl)) as [Ha Hra]. apply (Hno a Ha Hra).
Qed.
End S.

Definition meaning_theorems :=
  (@C24_exact_when_tame, @C24_upper_bound, @C24_needs_empty_method, @C23_never_missed, @C23_warned_iff_when_tame, @C58_non_recursive_iff, @C58_executions_end, @C58_recursion_found,
   @C58_left_recursion_iff, @C58_classes_exact).

(** ** Concrete cases *)
Ltac methods := intros; repeat match goal with
  | H : In _ (d_methods _) |- _ => simpl in H
  | H : False |- _ => destruct H
  | H : _ \/ _ |- _ => destruct H
  end; subst.
(** All hypotheses hold of a domain of class 4. *)
Definition shrinking : string :=
  dm [tk "t"; tk "u"; tk "e"; ac "a"; me "m" "t" (tot ["u"; "e"]); me "n" "u" (tot ["t"]); me "k" "u" (tot ["a"]); me "o" "e" nothing].
Example C58_example : exists d md, @parse uni0 300 shrinking = Ok (ADomain d)
  /\ @get_metadata uni0 env_id 300 50 shrinking = Ok md /\ distinct_names d
  /\ (forall m, In m (d_methods d) -> compound d (sym_name (m_task m))) /\ all_total d /\ tame d /\ unforked d
  /\ class (md_recursion md) = 4 /\ md_nullables md = ["e"].
Proof.
  eexists. eexists. split; [vm_compute; reflexivity|]. split; [vm_compute; reflexivity|].
  split; [unfold distinct_names; simpl; nodup|].
  split; [unfold compound; methods; simpl; auto 10|]. split; [unfold all_total; methods; reflexivity|].
  match goal with |- tame ?d /\ _ => assert (forall x, In x ["t"; "u"; "a"] -> ~ vanishes d x) as Hnv end.
  { intros x Hx Hv. eapply (trapped _ ["t"; "u"; "a"]) in Hv as (y & [] & _); auto.
    methods; simpl in *; intuition (try discriminate); eauto 10. }
  split; [|split].
  - intros m x Hm Hx Hv. destruct (in_dec string_dec x ["t"; "u"; "a"]) as [Hi|Hi]; [destruct (Hnv x Hi Hv)|].
    right. methods; simpl in *; repeat match goal with H : _ \/ _ |- _ => destruct H | H : False |- _ => destruct H end; subst;
      try (exfalso; apply Hi; auto; fail). eexists. split; [right; right; right; left; reflexivity|]. split; reflexivity.
  - intros m a l1 b l2 Hm Es Ha Hb. exfalso. methods; unfold subtask_names in Es; simpl in Es; try discriminate Es.
    + injection Es as <- Es. destruct l1 as [|y l1]; [|destruct l1; discriminate Es]. injection Es as <- <-.
      apply clos_rt_rt1n in Hb. inversion Hb as [Ee|y z (m & Hm & Eh & Hy) _]; subst.
      methods; simpl in Eh; try discriminate Eh. destruct Hy.
    + injection Es as <- Es. destruct l1; discriminate Es.
    + injection Es as <- Es. destruct l1; discriminate Es.
  - split; reflexivity.
Qed.
(** A domain that is not tame: [y] dissolves without vanishing, [p] and [q] do
    not dissolve and are warned about. *)
Definition untamed : string :=
  dm [tk "base"; tk "a"; tk "x"; tk "y"; tk "p"; tk "q"; me "m1" "base" nothing; me "m2" "a" (tot ["base"]);
      me "m3" "x" (tot ["a"; "p"]); me "m4" "y" (tot ["x"]); me "m5" "q" (tot ["p"; "q"])].
Example C24_bound_example : exists d ws, @parse uni0 300 untamed = Ok (ADomain d)
  /\ @verify uni0 env_id 300 untamed None = Ok ws /\ distinct_names d
  /\ dissolves d "y" /\ compound d "q" /\ (forall a, primitive d a -> ~ reaches d "q" a) /\ ~ dissolves d "q".
Proof.
  eexists. eexists. split; [vm_compute; reflexivity|]. split; [vm_compute; reflexivity|].
  split; [unfold distinct_names; simpl; nodup|].
  match goal with |- dissolves ?d _ /\ _ => remember d as dd eqn:Ed end.
  assert (forall h l, In (h, l) [("base", []); ("a", ["base"]); ("x", ["a"; "p"]); ("y", ["x"]); ("q", ["p"; "q"])] ->
    exists m, In m (d_methods dd) /\ sym_name (m_task m) = h /\ subtask_names m = l) as Hms.
  { subst dd. intros h l Hi. simpl in Hi. intuition (try tauto);
      match goal with H : (_, _) = (_, _) |- _ => injection H as <- <- end.
    - eexists. split; [left; reflexivity|split; reflexivity].
    - eexists. split; [right; left; reflexivity|split; reflexivity].
    - eexists. split; [right; right; left; reflexivity|split; reflexivity].
    - eexists. split; [right; right; right; left; reflexivity|split; reflexivity].
    - eexists. split; [right; right; right; right; left; reflexivity|split; reflexivity]. }
  assert (dissolves dd "base") as Hb.
  { destruct (Hms "base" []) as (m & Hm & <- & El); [simpl; auto|]. apply ds_method; auto. rewrite El. intros y []. }
  assert (dissolves dd "a") as Ha.
  { destruct (Hms "a" ["base"]) as (m & Hm & <- & El); [simpl; auto|]. apply ds_method; auto. rewrite El.
    intros y [<-|[]]. exists "base". split; [apply rt_refl|auto]. }
  assert (reaches dd "x" "a") as Hxa.
  { destruct (Hms "x" ["a"; "p"]) as (m & Hm & Eh & El); [simpl; auto|]. apply rt_step. exists m. rewrite El. split; auto. split; auto. left; auto. }
  split; [|split; [subst dd; unfold compound; simpl; auto 10|split]].
  - destruct (Hms "y" ["x"]) as (m & Hm & <- & El); [simpl; auto|]. apply ds_method; auto. rewrite El.
    intros y [<-|[]]. eauto.
  - subst dd. intros a [].
  - assert (forall y z, decomposes dd y z -> (y = "p" \/ y = "q") -> z = "p" \/ z = "q") as Hstep.
    { subst dd. intros y z (m & Hm & Eh & Hy) Hq. methods; simpl in *; intuition (subst; try discriminate; auto). }
    assert (forall y z, reaches dd y z -> (y = "p" \/ y = "q") -> z = "p" \/ z = "q") as Hst.
    { intros y z Hr. induction Hr; eauto. }
    enough (forall x, dissolves dd x -> x = "p" \/ x = "q" -> False) as Hf by (intros Hq; apply (Hf "q"); auto).
    fix IH 2. intros x [m Hm Hs] Hx.
    assert (exists y, In y (subtask_names m) /\ (y = "p" \/ y = "q")) as (y & Hy & Hq).
    { clear IH Hs. subst dd. methods; simpl in *; try discriminate; exists "p"; auto. }
    destruct (Hs y Hy) as (z & Hz & Hdz). apply (IH z Hdz). eapply Hst; eauto.
Qed.
(** A domain without recursion. *)
Definition straight : string :=
  dm [tk "t"; tk "u"; ac "a"; me "m" "t" (tot ["u"; "a"]); me "n" "u" (tot ["a"; "a"])].
Example C58_non_recursive_example : exists d md, @parse uni0 300 straight = Ok (ADomain d)
  /\ @get_metadata uni0 env_id 300 50 straight = Ok md /\ distinct_names d /\ md_recursion md = NonRecursive.
Proof.
  eexists. eexists. split; [vm_compute; reflexivity|]. split; [vm_compute; reflexivity|].
  split; [unfold distinct_names; simpl; nodup|reflexivity].
Qed.
(** The order of partially ordered subtasks is disregarded before the recursive
    one: "empty recursion" is reported although every round starts with an action. *)
Theorem C58_partial_order_refuted : exists dom d md c, @parse uni0 300 dom = Ok (ADomain d)
  /\ @get_metadata uni0 env_id 300 50 dom = Ok md /\ distinct_names d /\ tame d /\ unforked d
  /\ md_recursion md = EmptyRecursion c /\ ~ leads d.
Proof.
  exists (dm [tk "t"; ac "a"; me "m" "t" ":subtasks (and (i (a)) (j (t))) :ordering (and (< i j))"]).
  do 3 eexists. split; [vm_compute; reflexivity|]. split; [vm_compute; reflexivity|].
  split; [unfold distinct_names; simpl; nodup|].
  match goal with |- tame ?d /\ _ => assert (forall x, In x ["t"; "a"] -> ~ vanishes d x) as Hnv end.
  { intros x Hx Hv. eapply (trapped _ ["t"; "a"]) in Hv as (y & [] & _); auto.
    methods; simpl in *; intuition (try discriminate); eauto 10. }
  split; [|split; [|split; [reflexivity|]]].
  - intros m x Hm Hx Hv. exfalso. apply (Hnv x); auto. methods. simpl in Hx. simpl. tauto.
  - intros m a l1 b l2 Hm Es Ha Hb. exfalso. methods. injection Es as <- Es.
    apply clos_rt_rt1n in Ha. inversion Ha as [Ee|y z (m & Hm & Eh & Hy) _]; subst. methods; discriminate Eh.
  - intros (x & l & Hr). destruct (first_step _ x _ Hr) as (m & Hm & Hx & He). methods. simpl in He.
    match type of He with expands ?d _ _ =>
      assert (forall k k', expands d k k' -> hd_error k = Some "a" -> hd_error k' = Some "a") as Hk end.
    { intros k k' Hk. induction Hk as [k k' [l1 m l2 Hm]| |]; auto. destruct l1 as [|y l1]; simpl; auto.
      methods; simpl in *; discriminate. }
    apply Hk in He; [discriminate He|reflexivity].
Qed.
