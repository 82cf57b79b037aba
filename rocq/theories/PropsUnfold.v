(** C88: subtasks can be unfolded.  Specification: SpecUnfold.v. *)
From Coq Require Import String NArith Bool List Lia PeanoNat Permutation Relations Operators_Properties.
From Verif Require Import Base Token Lexer Errors Ast Parser Graph Semantic Tdg Api SpecSem SemProofs SemFacts SemFormula VerifyTop SpecPrint SpecExec SpecExt SpecShape
  SpecAlpha SpecTdg PropsLex PropsParse PropsSem PropsExec PropsExt PropsTdg PropsGrow SpecInst PropsInst SpecUnfold.
Import ListNotations.
Open Scope list_scope.
Open Scope nat_scope.

(** ** Unfolded methods are well-formed *)
Lemma and_within g h f : within h (FAnd [f; g]) -> h = FAnd [f; g] \/ within h f \/ within h g.
Proof.
  intros H. apply within_step in H as [H | (x & Hc & Hx)]; auto. right. inversion Hc as [|x' fs Hin E| | | | | | |]; subst.
  destruct Hin as [<- | [<- | []]]; auto.
Qed.
Lemma and_within_open g h f : within_open h (FAnd [f; g]) -> h = FAnd [f; g] \/ within_open h f \/ within_open h g.
Proof.
  intros H. apply within_open_step in H as [H | (x & Ho & Hx)]; auto. right. inversion Ho as [x0 f0 Hc _]; subst. inversion Hc as [|x' fs Hin E| | | | | | |]; subst.
  destruct Hin as [<- | [<- | []]]; auto.
Qed.
Lemma conjoin_ok d l f g : opt_formula_ok d l f -> opt_formula_ok d l g -> opt_formula_ok d l (conjoin f g).
Proof.
  destruct f as [f|], g as [g|]; simpl; auto. intros (A1 & A2 & A3 & A4) (B1 & B2 & B3 & B4). split; [|split; [|split]]; auto.
  - intros h Hh. apply and_within in Hh as [-> | [Hh | Hh]]; [exact I|apply A1; auto|apply B1; auto].
  - intros q Hq. apply and_within in Hq as [E | [Hq | Hq]]; [discriminate|auto|auto].
  - intros q Hq. apply and_within_open in Hq as [E | [Hq | Hq]]; [discriminate|auto|auto].
Qed.

Section Unfold.
Variables (d : domain_ast) (ms : list method).
Hypothesis Hd : domain_ok d.
Hypothesis Hms : unfoldings d ms.

Lemma unfolding_ok m : In m ms -> method_ok d m.
Proof.
  intros Hm. destruct (Hms m Hm) as (m1 & r1 & m2 & r2 & outer & inner & bs & s & as_ & [[I1 H1] [I2 H2] [P1 P2] Es Eh Et Ep Esub Ho]).
  pose proof (method_inst _ _ _ _ H1 (domain_method d Hd _ I1)) as (A1 & A2 & A3 & A4 & A5).
  pose proof (method_inst _ _ _ _ H2 (domain_method d Hd _ I2)) as (B1 & B2 & B3 & B4 & B5).
  rewrite P1 in *. rewrite P2 in *. rewrite Es in A4. apply Forall_app in A4 as [A4 A6]. inversion A6 as [|? ? _ A7]; subst.
  split; auto. split; [rewrite Ep; apply conjoin_ok; auto|]. split; [|split; auto].
  - destruct Et as [E1 E2]. unfold call_ok in *. rewrite E1, E2. auto.
  - rewrite Esub. apply Forall_app. split; auto. apply Forall_app. auto.
Qed.

(** ** One step is two *)
Variable p : problem_ast.
Hypothesis Hc : no_clash d p.
Lemma instance_step m r m' b facts w1 w2 : In m (d_methods d) -> instance d m r m' -> respects d p b (m_params m') ->
  step d p (facts, w1 ++ (sym_name (m_task m'), map (inst b (m_params m')) (m_task_terms m')) :: w2)
           (facts, w1 ++ map (inst_task b (m_params m')) (htn_subtasks (m_tn m')) ++ w2).
Proof.
  intros Hin Hi Hb. pose proof (domain_method d Hd m Hin) as Hok.
  rewrite (chosen_head d m m' r Hi Hok b), (chosen_subtasks d m m' r Hi Hok b). apply st_method; auto. eapply chosen_respects; eauto.
Qed.
Lemma inst_names b l (v v' : list symbol) : names v = names v' -> map (inst b l) v = map (inst b l) v'.
Proof.
  revert v'. induction v as [|x v IH]; intros [|x' v'] E; try discriminate; auto. injection E as E1 E2. simpl. f_equal; auto.
  unfold inst. rewrite E1. auto.
Qed.
Lemma unfolding_steps m b facts w1 w2 : In m ms -> respects d p b (m_params m) ->
  clos_refl_trans config (step d p)
    (facts, w1 ++ (sym_name (m_task m), map (inst b (m_params m)) (m_task_terms m)) :: w2)
    (facts, w1 ++ map (inst_task b (m_params m)) (htn_subtasks (m_tn m)) ++ w2).
Proof.
  intros Hm Hb. destruct (Hms m Hm) as (m1 & r1 & m2 & r2 & outer & inner & bs & s & as_ & [[I1 H1] [I2 H2] [P1 P2] Es [Eh1 Eh2] [Et1 Et2] _ Esub _]).
  pose proof (instance_step m1 r1 outer b facts w1 w2 I1 H1) as S1. rewrite P1, <- Et1, <- Et2, Es in S1.
  pose proof (instance_step m2 r2 inner b facts (w1 ++ map (inst_task b (m_params m)) bs) (map (inst_task b (m_params m)) as_ ++ w2) I2 H2) as S2.
  rewrite P2, Eh1, (inst_names _ _ _ _ Eh2) in S2. rewrite Esub.
  rewrite !map_app in *. cbn [map] in S1. change (inst_task b (m_params m) s) with (sym_name (sub_task s), map (inst b (m_params m)) (sub_terms s)) in S1.
  rewrite <- !app_assoc in *. cbn [app] in *. eapply rt_trans; apply rt_step; eauto.
Qed.
Variable d' : domain_ast.
Hypothesis Hw : with_methods d d' ms.
Lemma unfolded_steps c c' : step d' p c c' -> clos_refl_trans config (step d p) c c'.
Proof.
  intros [m b facts w1 w2 Hm Hr|a b facts facts' w1 w2 Ha He].
  - rewrite (with_respects d d' ms Hw) in Hr. rewrite (wm_methods _ _ _ Hw) in Hm.
    apply in_app_or in Hm as [Hm|Hm]; [apply rt_step, st_method; auto|apply unfolding_steps; auto].
  - apply rt_step, st_action; [rewrite <- (wm_actions _ _ _ Hw); auto|].
    intros x Hx. destruct (He x Hx) as [H | (f & Ef & Hm)]; auto. right. exists f. split; auto. apply (with_mentions d d' ms Hw); auto.
Qed.
End Unfold.

(** ** Names *)
Section Names.
Variables (d d' : domain_ast) (ms : list method).
Hypothesis Hms : unfoldings d ms.
Hypothesis Hw : with_methods d d' ms.
Lemma names_inst m r m' : instance d m r m' -> subtask_names m' = subtask_names m.
Proof.
  intros Hi. unfold subtask_names. pose proof (is_subtasks _ _ _ _ Hi) as H.
  induction H as [|s s' l l' (_ & E & _) _ IH]; simpl; auto. f_equal; auto.
Qed.
Lemma names_unfold m : In m ms -> exists m1 m2 l1 l2, In m1 (d_methods d) /\ In m2 (d_methods d)
  /\ sym_name (m_task m) = sym_name (m_task m1) /\ subtask_names m1 = l1 ++ sym_name (m_task m2) :: l2
  /\ subtask_names m = l1 ++ subtask_names m2 ++ l2.
Proof.
  intros Hm. destruct (Hms m Hm) as (m1 & r1 & m2 & r2 & outer & inner & bs & s & as_ & [[I1 H1] [I2 H2] _ Es [Eh _] [Et _] _ Esub _]).
  set (nm := fun s : subtask => sym_name (sub_task s)). exists m1, m2, (map nm bs), (map nm as_). split; auto. split; auto.
  split; [rewrite Et; apply (is_task _ _ _ _ H1)|]. rewrite <- (names_inst _ _ _ H1), <- (names_inst _ _ _ H2).
  unfold subtask_names. rewrite Es, Esub, !map_app. cbn [map]. rewrite <- (is_task _ _ _ _ H2), Eh. auto.
Qed.
Lemma old_decomposes a b : decomposes d a b -> decomposes d' a b.
Proof. intros (m & Hm & E). exists m. split; auto. rewrite (wm_methods _ _ _ Hw). apply in_or_app. auto. Qed.
Lemma new_decomposes a b : decomposes d' a b -> clos_trans string (decomposes d) a b.
Proof.
  intros (m & Hm & <- & Hb). rewrite (wm_methods _ _ _ Hw) in Hm. apply in_app_or in Hm as [Hm|Hm]; [apply t_step; exists m; auto|].
  destruct (names_unfold m Hm) as (m1 & m2 & l1 & l2 & I1 & I2 & E & E1 & E2). rewrite E2 in Hb. rewrite E.
  assert (forall x, In x (l1 ++ sym_name (m_task m2) :: l2) -> decomposes d (sym_name (m_task m1)) x) as Hx.
  { intros x Hx. exists m1. rewrite E1. auto. }
  apply in_app_or in Hb as [Hb|Hb]; [apply t_step, Hx, in_or_app; auto|].
  apply in_app_or in Hb as [Hb|Hb]; [|apply t_step, Hx, in_or_app; right; right; auto].
  apply t_trans with (sym_name (m_task m2)); apply t_step; [apply Hx, in_or_app; right; left; auto|exists m2; auto].
Qed.
Lemma chains a b : clos_trans string (decomposes d') a b <-> clos_trans string (decomposes d) a b.
Proof.
  split; (induction 1 as [x y Hxy|x y z _ IH1 _ IH2]; [|eapply t_trans; eauto]).
  - apply new_decomposes; auto.
  - apply t_step, old_decomposes; auto.
Qed.
Lemma unfold_reaches a b : reaches d' a b <-> reaches d a b.
Proof.
  split; (induction 1 as [x y Hxy| |x y z _ IH1 _ IH2]; [|apply rt_refl|eapply rt_trans; eauto]).
  - apply new_decomposes in Hxy. clear - Hxy. induction Hxy; [apply rt_step; auto|eapply rt_trans; eauto].
  - apply rt_step, old_decomposes; auto.
Qed.
Lemma unfold_expands v w : expands d' v w <-> expands d v w.
Proof.
  split; (induction 1 as [x y Hxy| |x y z _ IH1 _ IH2]; [|apply rt_refl|eapply rt_trans; eauto]).
  - destruct Hxy as [l1 m l2 Hm]. rewrite (wm_methods _ _ _ Hw) in Hm. apply in_app_or in Hm as [Hm|Hm]; [apply rt_step; constructor; auto|].
    destruct (names_unfold m Hm) as (m1 & m2 & k1 & k2 & I1 & I2 & E & E1 & E2). rewrite E, E2.
    eapply rt_trans; [apply rt_step, (ex_method d l1 m1 l2 I1)|]. rewrite E1.
    pose proof (ex_method d (l1 ++ k1) m2 (k2 ++ l2) I2) as H. rewrite <- !app_assoc in *. cbn [app] in *. apply rt_step. exact H.
  - destruct Hxy as [l1 m l2 Hm]. apply rt_step. constructor. rewrite (wm_methods _ _ _ Hw). apply in_or_app. auto.
Qed.
End Names.

Section Props.
Context `{Unicode}.
Variable he : hash_env.
Hypothesis Hhe : hash_env_ok he.
Notation accepts dom prob := (exists ws, settles (fun k => verify he k dom prob) (Ok ws)).
Variables (n : nat) (dom dom' : string) (d d' : domain_ast) (ms : list method).
Hypothesis Ed : parse n dom = Ok (ADomain d).
Hypothesis Ed' : parse n dom' = Ok (ADomain d').
Hypothesis Hw : with_methods d d' ms.
Hypothesis Hms : unfoldings d ms.
Hypothesis Ha : accepts dom None.

(** ** C88 *)
Theorem C88_accepted : accepts dom' None <-> fresh (fun m => sym_name (m_name m)) (d_methods d) ms.
Proof.
  pose proof Ha as Hd. apply (domain_verdict he Hhe n dom d Ed) in Hd.
  rewrite (C55_extension he Hhe n dom dom' d d' _ _ _ _ _ _ Ed Ed' (with_extended d d' ms Hw) ltac:(intros ? ? _ []) Ha).
  split; [intros []; auto|]. intros Hf. pose proof Hd as (O1 & O2 & _). constructor.
  - rewrite (wm_reqs _ _ _ Hw). auto.
  - rewrite (wm_types _ _ _ Hw). auto.
  - split; [constructor|intros ? ? _ []].
  - constructor.
  - split; [constructor|intros ? ? _ []].
  - constructor.
  - split; [constructor|intros ? ? _ []].
  - constructor.
  - exact Hf.
  - apply Forall_forall. intros m Hm. eapply with_method; eauto. eapply unfolding_ok; eauto.
Qed.
(** And a problem is accepted with both domains or with neither. *)
Theorem C88_problems : forall prob p, parse n prob = Ok (AProblem p) -> fresh (fun m => sym_name (m_name m)) (d_methods d) ms ->
  (accepts dom' (Some prob) <-> accepts dom (Some prob)).
Proof.
  intros prob p Ep Hf. apply C88_accepted in Hf. apply (domain_verdict he Hhe n dom' d' Ed') in Hf.
  pose proof Ha as Hd. apply (domain_verdict he Hhe n dom d Ed) in Hd.
  rewrite (C22_problem_decided he Hhe n dom d prob p Ed Hd Ep), (C22_problem_decided he Hhe n dom' d' prob p Ed' Hf Ep).
  apply (with_problem d d' ms Hw).
Qed.
(** The same states can be reached. *)
Theorem C88_executions : forall p c, no_clash d p -> (SpecExec.reachable d' p c <-> SpecExec.reachable d p c).
Proof.
  intros p c Hc. pose proof Ha as Hd. apply (domain_verdict he Hhe n dom d Ed) in Hd. unfold SpecExec.reachable.
  split; intros (c0 & Hi & Hr); exists c0; (split; [apply (with_initial d d' ms Hw); auto|]); clear Hi;
    (induction Hr as [x y Hs| |x y z _ IH1 _ IH2]; [|apply rt_refl|eapply rt_trans; eauto]).
  - eapply unfolded_steps; eauto.
  - apply rt_step. eapply with_step; eauto.
Qed.
(** The same tasks can be reached, refined and made to vanish. *)
Theorem C88_tasks : forall t,
  (forall x, reaches d' t x <-> reaches d t x) /\ (refinable d' t <-> refinable d t) /\ (vanishes d' t <-> vanishes d t).
Proof.
  intros t. split; [intros x; eapply unfold_reaches; eauto|]. unfold refinable, vanishes, primitive. rewrite (wm_actions _ _ _ Hw).
  setoid_rewrite (unfold_expands d d' ms Hms Hw). split; reflexivity.
Qed.
(** Unfolding cannot make a domain recursive, nor remove a recursion. *)
Theorem C88_recursion : forall k k' lf lf' md md', distinct_names d ->
  get_metadata he k lf dom = Ok md -> get_metadata he k' lf' dom' = Ok md' ->
  (md_recursion md = NonRecursive <-> md_recursion md' = NonRecursive).
Proof.
  intros k k' lf lf' md md' Hdn E E'.
  assert (distinct_names d') as Hdn' by (unfold distinct_names; rewrite (wm_tasks _ _ _ Hw), (wm_actions _ _ _ Hw); auto).
  assert (exists d1 d1', parse k dom = Ok (ADomain d1) /\ parse k' dom' = Ok (ADomain d1')) as (d1 & d1' & P & P').
  { clear - E E'. unfold get_metadata, parse_as_domain in E, E'. apply bind_ok in E as (x & E & _). apply bind_ok in E' as (x' & E' & _).
    apply bind_ok in E as (y & E & Ey). apply bind_ok in E' as (y' & E' & Ey').
    destruct y; [|discriminate]. destruct y'; [|discriminate]. eauto. }
  rewrite <- (same_domain _ _ _ _ _ Ed P) in P. rewrite <- (same_domain _ _ _ _ _ Ed' P') in P'.
  rewrite (C26_non_recursive_iff he Hhe k lf dom md d E P Hdn), (C26_non_recursive_iff he Hhe k' lf' dom' md' d' E' P' Hdn').
  setoid_rewrite (chains d d' ms Hms Hw). reflexivity.
Qed.
(** The same tasks are warned about, if the same tasks are listed as nullable. *)
Theorem C88_warnings : forall k k' lf lf' prob prob' ws ws' md md' x, distinct_names d ->
  verify he n dom prob = Ok ws -> verify he n dom' prob' = Ok ws' ->
  get_metadata he k lf dom = Ok md -> get_metadata he k' lf' dom' = Ok md' ->
  (In x (md_nullables md) <-> In x (md_nullables md')) ->
  ((exists l, In (NoPrimitiveRefinement x l) ws) <-> (exists l, In (NoPrimitiveRefinement x l) ws')).
Proof.
  intros k k' lf lf' prob prob' ws ws' md md' x Hdn E E' M M' Hx.
  assert (distinct_names d') as Hdn' by (unfold distinct_names; rewrite (wm_tasks _ _ _ Hw), (wm_actions _ _ _ Hw); auto).
  rewrite (C66_warning_iff he Hhe n k lf dom prob ws md d x E M Ed Hdn), (C66_warning_iff he Hhe n k' lf' dom' prob' ws' md' d' x E' M' Ed' Hdn').
  unfold compound, primitive. rewrite (wm_tasks _ _ _ Hw), (wm_actions _ _ _ Hw), Hx. setoid_rewrite (unfold_reaches d d' ms Hms Hw). reflexivity.
Qed.
End Props.

(** ** A case *)
Open Scope string_scope.
Definition un_dom (inner more : string) : string :=
  "(define (domain d) (:types b - a) (:predicates (q ?x - a)) (:task t :parameters (?x - a)) (:task u :parameters (?x - a))" ++
  " (:action e :parameters (?x - " ++ inner ++ ") :effect (q ?x)) (:action f :parameters (?x - a) :effect (q ?x))" ++
  " (:method m1 :parameters (?x - a) :task (u ?x) :precondition (q ?x) :ordered-subtasks (and (f ?x) (t ?x) (f ?x)))" ++
  " (:method m2 :parameters (?y - " ++ inner ++ ") :task (t ?y) :precondition (not (q ?y)) :ordered-subtasks (and (e ?y) (e ?y)))" ++ more ++ ")" ++ nl.
Definition un_more : string :=
  " (:method m3 :parameters (?x - a) :task (u ?x) :precondition (and (q ?x) (not (q ?x)))" ++
  " :ordered-subtasks (and (f ?x) (e ?x) (e ?x) (f ?x)))".
Definition un_r (x : string) : string := if String.eqb x "y" then "x" else x.
Open Scope list_scope.
Example C88_example : exists d d' ms,
  @parse uni0 300 (un_dom "a" "") = Ok (ADomain d) /\ @parse uni0 300 (un_dom "a" un_more) = Ok (ADomain d')
  /\ with_methods d d' ms /\ unfoldings d ms /\ length ms = 1
  /\ fresh (fun m => sym_name (m_name m)) (d_methods d) ms
  /\ run (un_dom "a" "") None = Ok [] /\ run (un_dom "a" un_more) None = Ok [].
Proof.
  do 2 eexists. eexists [_]. split; [vm_compute; reflexivity|]. split; [vm_compute; reflexivity|].
  split; [constructor; reflexivity|]. split.
  { intros m [<- | []]. eexists _, (fun x => x), _, un_r, _, (ren_method un_r _), [_], _, [_]. constructor.
    - split; [left; reflexivity|]. constructor; try reflexivity.
      + repeat (constructor; [split; [reflexivity|split; reflexivity]|]). constructor.
      + split; [constructor; [intros []|constructor]|]. intros s t [<- | []] Et. injection Et as <-.
        eexists. split; [left; reflexivity|right; reflexivity].
      + intros q [<- | []]. exists (Some "a"). split; [eapply den_param; [left; reflexivity|reflexivity|reflexivity]|apply rt_refl].
      + intros x Hx. split; [reflexivity|intros []].
    - split; [right; left; reflexivity|]. constructor; try reflexivity.
      + repeat (constructor; [split; [reflexivity|split; reflexivity]|]). constructor.
      + split; [constructor; [intros []|constructor]|]. intros s t [<- | []] Et. injection Et as <-.
        eexists. split; [left; reflexivity|right; reflexivity].
      + intros q [<- | []]. exists (Some "a"). split; [eapply den_param; [left; reflexivity|reflexivity|reflexivity]|apply rt_refl].
      + intros x Hx. split; [|intros []]. unfold un_r. destruct (String.eqb_spec x "y") as [->|]; [destruct Hx; left; reflexivity|reflexivity].
    - split; reflexivity.
    - reflexivity.
    - split; reflexivity.
    - split; reflexivity.
    - reflexivity.
    - reflexivity.
    - exact I. }
  split; [reflexivity|]. split.
  { split; [constructor; [intros []|constructor]|]. intros x y [<- | [<- | []]] [<- | []]; discriminate. }
  split; vm_compute; reflexivity.
Qed.
(** A method may be for a part of the objects its task is for; unfolded without
    regard to that it is rejected. *)
Theorem C88_narrower_refuted :
  run (un_dom "b" "") None = Ok []
  /\ run (un_dom "b" un_more) None = Err (ESem (InconsistentTaskArgType (mkTypeErr (Some "b") (Some "a") "x" 1))).
Proof. vm_compute. auto. Qed.
Definition unfold_theorems := (@C88_accepted, @C88_problems, @C88_executions, @C88_tasks, @C88_recursion, @C88_warnings, C88_narrower_refuted).
