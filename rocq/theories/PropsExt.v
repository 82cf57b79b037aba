(** C55: documents can be checked piece by piece.  Specification: SpecExt.v. *)
From Coq Require Import String Ascii NArith Bool List Lia PeanoNat Relations.
From Verif Require Import Base Token Lexer Errors Ast Parser Graph Semantic Tdg Api AstLines StrFacts SpecLex SpecGrammar
  PropsLex PropsParse SpecSem SemProofs SemFacts VerifyTop PropsSem SpecExt.
Import ListNotations.
Open Scope list_scope.
Open Scope nat_scope.

Section Ext.
Variables d d' : domain_ast.
Variables ts cs : list symbol.
Variable ps : list predicate.
Variable tks : list task.
Variable acts : list action.
Variable ms : list method.
Hypothesis E_types : type_decls (d_types d') = type_decls (d_types d) ++ ts.
Hypothesis E_constants : constants_of d' = constants_of d ++ cs.
Hypothesis E_preds : d_preds d' = d_preds d ++ ps.
Hypothesis E_tasks : d_tasks d' = d_tasks d ++ tks.
Hypothesis E_actions : d_actions d' = d_actions d ++ acts.

Lemma ext_parent a b : parent (d_types d) a b -> parent (d_types d') a b.
Proof. intros (s & Hs & H1 & H2). exists s. rewrite E_types, in_app_iff. auto. Qed.
Lemma ext_subtype a b : subtype (d_types d) a b -> subtype (d_types d') a b.
Proof. induction 1; [apply rt_step, ext_parent; auto|apply rt_refl|eapply rt_trans; eauto]. Qed.
Lemma ext_fits a b : fits (d_types d) a b -> fits (d_types d') a b.
Proof. destruct a, b; simpl; auto. apply ext_subtype. Qed.
Lemma ext_declared l : types_declared (d_types d) l -> types_declared (d_types d') l.
Proof.
  intros Hd s t Hs Et. destruct (Hd s t Hs Et) as (x & Hx & E). exists x. rewrite E_types, in_app_iff. auto.
Qed.
Lemma first_named_app {A} (name : A -> string) n l l' x : first_named name n l x -> first_named name n (l ++ l') x.
Proof. induction 1; simpl; [apply fn_here|apply fn_later]; auto. Qed.
Lemma ext_denotes params n t : denotes params (constants_of d) n t -> denotes params (constants_of d') n t.
Proof.
  intros [q Hq E1 E2|c Hu Hf E]; [eapply den_param; eauto|]. apply den_const with (c := c); auto.
  rewrite E_constants. apply first_named_app; auto.
Qed.
Lemma ext_args params args formals : args_ok (d_types d) params (constants_of d) args formals ->
  args_ok (d_types d') params (constants_of d') args formals.
Proof.
  intros Ha. induction Ha as [|v f l l' (t & H1 & H2) Ha IH]; constructor; auto.
  exists t. split; [apply ext_denotes; auto|apply ext_fits; auto].
Qed.
Lemma ext_pred x : In x (d_preds d) -> In x (d_preds d').
Proof. rewrite E_preds, in_app_iff. auto. Qed.
Lemma ext_formula params f : formula_ok d params f -> formula_ok d' params f.
Proof.
  intros (H1 & H2 & H3 & H4). split; auto. split; [|split; [apply ext_declared; auto|]].
  - intros p Hp. destruct (H2 p Hp) as (def & Hi & E). exists def. split; auto. apply ext_pred; auto.
  - intros p Hp. destruct (H4 p Hp) as (def & Hi & E & Ha). exists def. split; [apply ext_pred; auto|]. split; auto. apply ext_args; auto.
Qed.
Lemma ext_opt params o : opt_formula_ok d params o -> opt_formula_ok d' params o.
Proof. destruct o; simpl; auto. apply ext_formula. Qed.
Lemma ext_action a : action_ok d a -> action_ok d' a.
Proof. intros (H1 & H2 & H3). repeat split; auto; apply ext_opt; auto. Qed.
Hypothesis Hh : hides_none d acts.
Lemma ext_callable h n formals : callable d h n formals -> callable d' h n formals.
Proof.
  intros [a Ha|h' t Ht Hu].
  - apply call_action. rewrite E_actions, in_app_iff. auto.
  - apply call_task; [rewrite E_tasks, in_app_iff; auto|]. intros E x Hx.
    rewrite E_actions, in_app_iff in Hx. destruct Hx as [Hx|Hx]; [apply Hu; auto|].
    intros Ex. apply (Hh t x); auto.
Qed.
Lemma ext_call h params task terms : call_ok d h params task terms -> call_ok d' h params task terms.
Proof. intros (fo & Hc & Ha). exists fo. split; [apply ext_callable; auto|apply ext_args; auto]. Qed.
Lemma ext_method m : method_ok d m -> method_ok d' m.
Proof.
  intros (H1 & H2 & H3 & H4 & H5). split; auto. split; [apply ext_opt; auto|]. split; [apply ext_call; auto|]. split; auto.
  eapply Forall_impl; [|exact H4]. intros s Hs. apply ext_call; auto.
Qed.

Lemma NoDup_map_app {A} (name : A -> string) l l' : NoDup (map name (l ++ l')) <-> NoDup (map name l) /\ fresh name l l'.
Proof.
  unfold fresh. induction l as [|x l IH]; simpl.
  - split; [intros Hn; split; [constructor|split; auto; intros ? ? []]|tauto].
  - split.
    + intros Hn. inversion Hn as [|y k H1 H2]; subst. apply IH in H2 as (H2 & H3 & H4). rewrite map_app, in_app_iff in H1.
      split; [constructor; tauto|]. split; auto. intros a b [<-|Ha] Hb; auto. intros E. apply H1. right. rewrite E. apply in_map; auto.
    + intros (Hn & H3 & H4). inversion Hn as [|y k H1 H2]; subst. constructor.
      * rewrite map_app, in_app_iff. intros [Hi|Hi]; auto. apply in_map_iff in Hi as (b & E & Hb). apply (H4 x b); auto.
      * apply IH. split; auto.
Qed.
Lemma ext_domain : d_methods d' = d_methods d ++ ms -> domain_ok d -> (domain_ok d' <-> additions_ok d d' ps tks acts ms).
Proof.
  intros E_methods (O1 & O2 & O3 & O4 & O5 & O6 & O7 & O8 & O9 & O10). unfold domain_ok.
  rewrite E_preds, E_tasks, E_actions, E_methods.
  rewrite !NoDup_map_app, !Forall_app. split.
  - intros (P1 & P2 & P3 & P4 & P5 & P6 & P7 & P8 & P9 & P10). apply mkAdditions; tauto.
  - intros [P1 P2 P3 P4 P5 P6 P7 P8 P9 P10]. split; auto. split; auto. split; auto.
    split; [split; auto; eapply Forall_impl; [|exact O4]; intros; apply ext_declared; auto|]. split; auto.
    split; [split; auto; eapply Forall_impl; [|exact O6]; intros; apply ext_declared; auto|]. split; auto.
    split; [split; auto; eapply Forall_impl; [|exact O8]; intros; apply ext_action; auto|]. split; auto.
    split; auto. eapply Forall_impl; [|exact O10]. intros; apply ext_method; auto.
Qed.

Lemma ext_object p n t : object_denotes d p n t -> object_denotes d' p n t.
Proof.
  intros [o Ho E1 E2|c Hu Hf E]; [eapply od_object; eauto|]. apply od_const with (c := c); auto.
  rewrite E_constants. apply first_named_app; auto.
Qed.
Lemma ext_term p params n t : term_denotes d p params n t -> term_denotes d' p params n t.
Proof.
  intros [o Ho E1 E2|q Hu Hf E|c Hu Hv Hf E]; [eapply td_object; eauto|eapply td_param; eauto|]. apply td_const with (c := c); auto.
  rewrite E_constants. apply first_named_app; auto.
Qed.
Lemma ext_fact p q : fact_ok d p q -> fact_ok d' p q.
Proof.
  intros (def & H1 & H2 & H3). exists def. split; [apply ext_pred; auto|]. split; auto. clear - H3 E_types E_constants.
  induction H3 as [|v f l l' (t & Ha & Hb) H3 IH]; constructor; auto. exists t. split; [apply ext_object; auto|apply ext_fits; auto].
Qed.
Lemma ext_problem p : problem_ok d p -> problem_ok d' p.
Proof.
  intros (H1 & H2 & H3 & H4 & H5). split; [apply ext_declared; auto|]. split; auto.
  split; [eapply Forall_impl; [|exact H3]; intros; apply ext_fact; auto|]. split.
  - destruct (p_init_tn p) as [t|]; auto. destruct H4 as [H4 H6]. split; auto. eapply Forall_impl; [|exact H6].
    intros s (fo & Hc & Ha). exists fo. split; [apply ext_callable; auto|]. clear - Ha E_types E_constants.
    induction Ha as [|v f l l' (ty & Hx & Hy) Ha IH]; constructor; auto. exists ty. split; [apply ext_term; auto|apply ext_fits; auto].
  - destruct (p_goal p); auto. intros q Hq. apply ext_fact; auto.
Qed.
End Ext.

Section Props.
Context `{Unicode}.
Variable he : hash_env.
Hypothesis Hhe : hash_env_ok he.
Notation accepts dom prob := (exists ws, settles (fun k => verify he k dom prob) (Ok ws)).

(** A domain with further declarations is accepted exactly if the further
    declarations are well-formed: what was accepted stays so. *)
Theorem C55_extension : forall n dom dom' d d' ts cs ps tks acts ms,
  parse n dom = Ok (ADomain d) -> parse n dom' = Ok (ADomain d') ->
  extended d d' ts cs ps tks acts ms -> hides_none d acts -> accepts dom None ->
  (accepts dom' None <-> additions_ok d d' ps tks acts ms).
Proof.
  intros n dom dom' d d' ts cs ps tks acts ms E1 E2 Hx Hh Ha. rewrite (domain_verdict he Hhe n dom' d' E2).
  apply (domain_verdict he Hhe n dom d E1) in Ha. destruct Hx. eapply ext_domain; eauto.
Qed.
(** Problems stay accepted, too. *)
Theorem C55_problems_stay : forall n dom dom' d d' ts cs ps tks acts ms s p,
  parse n dom = Ok (ADomain d) -> parse n dom' = Ok (ADomain d') -> parse n s = Ok (AProblem p) ->
  extended d d' ts cs ps tks acts ms -> hides_none d acts -> accepts dom None -> accepts dom' None ->
  accepts dom (Some s) -> accepts dom' (Some s).
Proof.
  intros n dom dom' d d' ts cs ps tks acts ms s p E1 E2 E3 Hx Hh Ha Ha' Hp.
  apply (domain_verdict he Hhe n dom d E1) in Ha. apply (domain_verdict he Hhe n dom' d' E2) in Ha'.
  apply (C22_problem_decided he Hhe n dom d s p E1 Ha E3) in Hp. apply (C22_problem_decided he Hhe n dom' d' s p E2 Ha' E3).
  destruct Hx. eapply ext_problem; eauto.
Qed.
(** Methods can be removed from an accepted domain. *)
Theorem C55_methods_removable : forall n dom dom' d d' ms,
  parse n dom = Ok (ADomain d) -> parse n dom' = Ok (ADomain d') ->
  extended d' d [] [] [] [] [] ms -> d_reqs d' = d_reqs d -> accepts dom None -> accepts dom' None.
Proof.
  intros n dom dom' d d' ms E1 E2 Hx Hr Ha. apply (domain_verdict he Hhe n dom' d' E2). apply (domain_verdict he Hhe n dom d E1) in Ha.
  destruct Ha as (O1 & O2 & O3 & O4 & O5 & O6 & O7 & O8 & O9 & O10).
  destruct Hx as [X1 X2 X3 X4 X5 X6]. rewrite X6, NoDup_map_app in O9. rewrite X6, Forall_app in O10.
  assert (forall a b, parent (d_types d') a b -> parent (d_types d) a b) as Hpa by (intros a b; eapply ext_parent; eauto).
  rewrite app_nil_r in *.
  assert (hides_none d []) as Hh by (intros ? ? _ []).
  rewrite X3 in O3, O4. rewrite X4 in O5, O6. rewrite X5 in O7, O8.
  symmetry in X1, X2, X3, X4, X5. rewrite <- (app_nil_r (type_decls (d_types d))) in X1. rewrite <- (app_nil_r (constants_of d)) in X2.
  rewrite <- (app_nil_r (d_preds d)) in X3. rewrite <- (app_nil_r (d_tasks d)) in X4. rewrite <- (app_nil_r (d_actions d)) in X5.
  split; [congruence|]. split.
  { assert (forall x y, clos_trans string (parent (d_types d')) x y -> clos_trans string (parent (d_types d)) x y) as Ht.
    { induction 1; [apply t_step; auto|eapply t_trans; eauto]. }
    intros a Ha. apply (O2 a). auto. }
  split; auto. split; [eapply Forall_impl; [|exact O4]; intros q; eapply ext_declared; eauto|].
  split; auto. split; [eapply Forall_impl; [|exact O6]; intros q; eapply ext_declared; eauto|].
  split; auto. split; [eapply Forall_impl; [|exact O8]; intros q; eapply ext_action; eauto|].
  split; [tauto|]. eapply Forall_impl; [|apply O10]. intros q. eapply ext_method; eauto.
Qed.
End Props.

(** An action with the name of a compound task takes its place in subtasks: it
    can invalidate a domain although it is well-formed itself. *)
Open Scope string_scope.
Open Scope list_scope.
Definition ext_small : string := dom_with (meth "?x - a" "(t ?x)" ":ordered-subtasks (and (t ?x))").
Definition ext_large : string :=
  dom_with (meth "?x - a" "(t ?x)" ":ordered-subtasks (and (t ?x))" ++ "(:types e - a) (:constants k - e) (:predicates (r ?z - e))"
            ++ "(:task u :parameters (?z - e)) (:action g :parameters (?z - e) :precondition (and (p ?z) (r ?z)))"
            ++ "(:method n :parameters (?z - e) :task (u ?z) :ordered-subtasks (and (t ?z) (g k)))").
Example C55_example : is_ok (run ext_small None) = true /\ is_ok (run ext_large None) = true
  /\ exists d d' ts cs ps tks acts ms, @parse uni0 300 ext_small = Ok (ADomain d) /\ @parse uni0 300 ext_large = Ok (ADomain d')
    /\ extended d d' ts cs ps tks acts ms /\ hides_none d acts
    /\ length ts = 1 /\ length cs = 1 /\ length ps = 1 /\ length tks = 1 /\ length acts = 1 /\ length ms = 1.
Proof.
  split; [vm_compute; reflexivity|]. split; [vm_compute; reflexivity|].
  eexists _, _, [_], [_], [_], [_], [_], [_]. split; [vm_compute; reflexivity|]. split; [vm_compute; reflexivity|].
  split; [apply mkExtended; reflexivity|]. split; [|repeat split].
  intros t a [<-|[]] [<-|[]]. discriminate.
Qed.
Theorem C55_hiding_refuted : exists dom dom' d d' acts, is_ok (run dom None) = true
  /\ @parse uni0 300 dom = Ok (ADomain d) /\ @parse uni0 300 dom' = Ok (ADomain d')
  /\ extended d d' [] [] [] [] acts [] /\ additions_ok d d' [] [] acts []
  /\ run dom' None = Err (ESem (InconsistentTaskArity (mkArity "t" 0 1 3))).
Proof.
  exists ext_small, (dom_with (meth "?x - a" "(t ?x)" ":ordered-subtasks (and (t ?x))" ++ "(:action t :parameters ())")).
  eexists _, _, [_]. split; [vm_compute; reflexivity|]. split; [vm_compute; reflexivity|]. split; [vm_compute; reflexivity|].
  split; [apply mkExtended; reflexivity|]. split; [|vm_compute; reflexivity].
  apply mkAdditions; simpl.
  - constructor.
  - intros a Ha.
    assert (forall x y, clos_trans string (parent (Some [mkSym "a" 1 (Some "c") (Some 1%N); mkSym "b" 1 (Some "c") (Some 1%N)])) x y -> y = "c" /\ x <> "c") as Hx.
    { induction 1 as [x y (s & Hs & E1 & E2)|x y z _ IH1 _ IH2]; [|split; tauto].
      destruct Hs as [<-|[<-|[]]]; simpl in *; split; congruence. }
    apply Hx in Ha. tauto.
  - split; [constructor|intros ? ? _ []].
  - constructor.
  - split; [constructor|intros ? ? _ []].
  - constructor.
  - split; [repeat constructor; simpl; tauto|]. intros x y [<-|[]] [<-|[]]. discriminate.
  - constructor; [|constructor]. split; [constructor|split; exact I].
  - split; [constructor|intros ? ? _ []].
  - constructor.
Qed.
Definition ext_theorems := (@C55_extension, @C55_problems_stay, @C55_methods_removable, @C55_hiding_refuted).
