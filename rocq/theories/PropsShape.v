(** Property theorems about what the analyses look at (C67).
    Specification: SpecShape.v. *)
From Coq Require Import String Ascii NArith Bool List Lia PeanoNat Permutation.
From Verif Require Import Base Token Lexer Errors Ast Parser Graph Semantic Tdg Api StrFacts AstRel VerifyTop
  ParserProofs PropsLex PropsParse SpecSem SemDomain PropsSem PropsTdg SpecShape Shape.
Import ListNotations.
Open Scope list_scope.
Open Scope nat_scope.

Section S.
Context `{Unicode}.
Variable he : hash_env.

(** Metadata are a function of the structure, whatever the outcome. *)
Theorem C67_metadata : forall n lf dom dom' d d',
  parse n dom = Ok (ADomain d) -> parse n dom' = Ok (ADomain d') -> shape_of d = shape_of d' ->
  get_metadata he n lf dom = get_metadata he n lf dom'.
Proof.
  intros n lf dom dom' d d' E E' Hs. unfold get_metadata, parse_as_domain. rewrite E, E'. cbn [obind]. apply metadata_shape; auto.
Qed.
(** So are the tasks that accepted documents are warned about. *)
Theorem C67_warnings : forall n dom dom' prob prob' ws ws' d d', hash_env_ok he ->
  parse n dom = Ok (ADomain d) -> parse n dom' = Ok (ADomain d') -> shape_of d = shape_of d' ->
  verify he n dom prob = Ok ws -> verify he n dom' prob' = Ok ws' ->
  Permutation (map (fun w => match w with NoPrimitiveRefinement x _ => x end) ws)
              (map (fun w => match w with NoPrimitiveRefinement x _ => x end) ws').
Proof.
  intros n dom dom' prob prob' ws ws' d d' Hhe E E' Hs Ev Ev'.
  assert (forall dom prob ws d, parse n dom = Ok (ADomain d) -> verify he n dom prob = Ok ws -> exists tb, verify_domain he n d = Ok tb /\ st_warnings tb = ws) as Hv.
  { clear. intros dom prob ws d E Ev. unfold verify, parse_as_domain in Ev. rewrite E in Ev. cbn [obind] in Ev.
    apply bind_ok in Ev as (tb & Et & Ev). exists tb. split; auto. destruct prob as [p|]; [|congruence].
    apply bind_ok in Ev as (past & _ & Ev). unfold verify_problem in Ev.
    do 5 (apply bind_ok in Ev as ([] & _ & Ev)). congruence. }
  destruct (Hv _ _ _ _ E Ev) as (tb & Et & <-). destruct (Hv _ _ _ _ E' Ev') as (tb' & Et' & <-).
  exact (warnings_shape he n d d' tb tb' Hhe Hs Et Et').
Qed.

(** Formulas are looked at up to [alike]: the whole outcome is the same. *)
Theorem C67_formulas : forall n dom dom' d d',
  parse n dom = Ok (ADomain d) -> parse n dom' = Ok (ADomain d') -> like_domain false d d' ->
  verify he n dom None = verify he n dom' None
  /\ forall prob prob' p p', parse n prob = Ok (AProblem p) -> parse n prob' = Ok (AProblem p') -> like_problem false p p' ->
     verify he n dom (Some prob) = verify he n dom' (Some prob').
Proof.
  intros n dom dom' d d' E E' Hd. pose proof (like_verify_domain false d d' Hd he n) as Ht.
  unfold verify, parse_as_domain, parse_as_problem. rewrite E, E'. cbn [obind]. unfold agree_table in Ht.
  destruct (verify_domain he n d) as [tb|e|x|], (verify_domain he n d') as [tb'|e'|x'|]; try contradiction; try discriminate; cbn [obind].
  - split; [f_equal; apply Ht|]. intros prob prob' p p' Ep Ep' Hp. rewrite Ep, Ep'. cbn [obind]. apply (like_verify_problem false tb tb' Ht p p' Hp).
  - destruct Ht as [Ht| ->]; [discriminate|auto].
  - destruct Ht as [Ht| ->]; [discriminate|auto].
  - auto.
Qed.
(** If conjuncts change places the verdict remains the same (another error may come first). *)
Theorem C67_reordered : forall n dom dom' d d',
  parse n dom = Ok (ADomain d) -> parse n dom' = Ok (ADomain d') -> like_domain true d d' ->
  (forall ws, verify he n dom None = Ok ws <-> verify he n dom' None = Ok ws)
  /\ forall prob prob' p p' ws, parse n prob = Ok (AProblem p) -> parse n prob' = Ok (AProblem p') -> like_problem true p p' ->
     verify he n dom (Some prob) = Ok ws <-> verify he n dom' (Some prob') = Ok ws.
Proof.
  intros n dom dom' d d' E E' Hd. pose proof (like_verify_domain true d d' Hd he n) as Ht.
  unfold verify, parse_as_domain, parse_as_problem. rewrite E, E'. cbn [obind]. unfold agree_table in Ht.
  destruct (verify_domain he n d) as [tb|e|x|], (verify_domain he n d') as [tb'|e'|x'|]; try contradiction; cbn [obind];
    try (split; intros; split; discriminate).
  split; [intros ws; replace (st_warnings tb') with (st_warnings tb) by apply Ht; tauto|].
  intros prob prob' p p' ws Ep Ep' Hp. rewrite Ep, Ep'. cbn [obind]. apply (like_verify_problem true tb tb' Ht p p' Hp).
Qed.
End S.

Open Scope string_scope.
Definition one_method (body : string) : string := dom_with (meth "?x - a" "(t ?x)" (body ++ " :ordered-subtasks (and (c ?x))")).
Definition formula1 : string := one_method ":precondition (and (not (p ?x)) (or (q) (forall (?z - a) (and (q) (p ?z)))))".
Definition formula2 : string := one_method ":precondition (and (p ?x) (q) (p ?x) (forall (?w) (not (q))) (forall (?w) (p ?z)) (not (= ?x ?x)))".
Definition goal1 : string := prob_with "(:objects o - a) (:init (q)) (:goal (or (p o) (q)))".
Definition goal2 : string := prob_with "(:objects o - a) (:init (q)) (:goal (and (p o) (not (and (q) (p o)))))".
Lemma forall2_refl {A} (R : A -> A -> Prop) : (forall x, R x x) -> forall l, Forall2 R l l.
Proof. intros Hr l. induction l; constructor; auto. Qed.
Example C67_example : exists d d' p p',
  @parse uni0 300 formula1 = Ok (ADomain d) /\ @parse uni0 300 formula2 = Ok (ADomain d') /\ like_domain false d d'
  /\ @parse uni0 300 goal1 = Ok (AProblem p) /\ @parse uni0 300 goal2 = Ok (AProblem p') /\ like_problem false p p'
  /\ d <> d' /\ p <> p' /\ shape_of d = shape_of d'
  /\ @verify uni0 env_id 300 formula1 (Some goal1) = Ok [].
Proof.
  destruct (is_ok_ex (@parse uni0 300 formula1)) as ([d|p] & E); [vm_compute; reflexivity| |vm_compute in E; discriminate].
  destruct (is_ok_ex (@parse uni0 300 formula2)) as ([d'|p] & E'); [vm_compute; reflexivity| |vm_compute in E'; discriminate].
  destruct (is_ok_ex (@parse uni0 300 goal1)) as ([dd|p] & Ep); [vm_compute; reflexivity|vm_compute in Ep; discriminate|].
  destruct (is_ok_ex (@parse uni0 300 goal2)) as ([dd|p'] & Ep'); [vm_compute; reflexivity|vm_compute in Ep'; discriminate|].
  exists d, d', p, p'. split; auto. split; auto.
  pose proof Ep as Eq. pose proof Ep' as Eq'. vm_compute in E, E', Eq, Eq'. injection E as <-. injection E' as <-. injection Eq as <-. injection Eq' as <-.
  assert (forall a, like_action false a a) as Ha.
  { intros [nm po ps pre eff]. repeat split; cbn; [destruct pre|destruct eff]; constructor; apply al_refl. }
  split.
  { unfold like_domain. cbn. repeat (split; [reflexivity|]). split; [apply forall2_refl; auto|].
    constructor; [|constructor]. unfold like_method. cbn. repeat (split; [reflexivity|]). constructor.
    match goal with |- alike _ _ (FAnd [?np; FOr [?q; FForAll ?vs (FAnd [?q1; ?pz])]]) (FAnd [?p; _; ?p2; FForAll ?ws (FNot ?q2); FForAll _ ?pz2; FNot (FEquals ?a ?b)]) =>
      apply al_trans with (FAnd [p; FOr [q; FForAll vs (FAnd [q1; pz])]]); [apply (al_part false false [] np p [_]); apply al_not|];
      apply al_trans with (FAnd [p; FAnd [q; FForAll vs (FAnd [q1; pz])]]); [apply (al_part false false [p] _ _ []); apply al_or|];
      apply al_trans with (FAnd [p; q; FForAll vs (FAnd [q1; pz])]); [apply (al_flat false false [p] [q; _] [])|];
      apply al_trans with (FAnd [p; q; FAnd [FForAll vs q1; FForAll vs pz]]); [apply (al_part false false [p; q] _ _ []); apply (al_forall_and _ _ vs [q1; pz])|];
      apply al_trans with (FAnd [p; q; FForAll vs q1; FForAll vs pz]); [apply (al_flat false false [p; q] [_; _] [])|];
      apply al_trans with (FAnd [p; q; p; FForAll vs q1; FForAll vs pz]); [apply al_sym; apply (al_twice false false [] p [q] [_; _])|];
      apply al_trans with (FAnd [p; q; p; FForAll ws (FNot q1); FForAll vs pz]); [apply (al_part false false [p; q; p] _ _ [_]); apply al_forall; apply al_sym, al_not|];
      apply al_trans with (FAnd [p; q; p; FForAll ws (FNot q1); FForAll ws pz]); [apply (al_part false false [p; q; p; _] _ _ []); apply al_forall, al_refl|];
      apply al_trans with (FAnd [p; q; p; FForAll ws (FNot q1); FForAll ws pz; FAnd []]);
        [apply al_sym; apply (al_flat false false [p; q; p; _; _] [] [])|];
      apply (al_part false false [p; q; p; _; _] _ _ []);
      apply al_trans with FEmpty; [apply al_none|]; apply al_sym; apply al_trans with (FEquals a b); [apply al_not|apply al_equal]
    end. }
  split; [exact Ep|]. split; [exact Ep'|]. split.
  { unfold like_problem. cbn. repeat (split; [reflexivity|]). constructor.
    match goal with |- alike _ _ (FOr [?p; ?q]) (FAnd [_; FNot (FAnd [_; _])]) =>
      apply al_trans with (FAnd [p; q]); [apply al_or|];
      apply al_trans with (FAnd [p; q; p]); [apply al_sym; apply (al_twice true false [] p [q] [])|];
      apply al_trans with (FAnd [p; FAnd [q; p]]); [apply al_sym; apply (al_flat true false [p] [q; p] [])|];
      apply (al_part true false [p] _ _ []); apply al_sym, al_not
    end. }
  split; [discriminate|]. split; [discriminate|]. split; [reflexivity|]. vm_compute. reflexivity.
Qed.

(** What does matter: whether an atom is quantified over, and whether there is a
    formula at all. *)
Theorem C67_forall_refuted :
  @verify uni0 env_id 300 (one_method ":precondition (forall (?z - a) (p ?u))") None = Ok []
  /\ run_error (one_method ":precondition (p ?u)") None = Some (ESem (UndefinedParameter (mkUndef "u" 3))).
Proof. split; vm_compute; reflexivity. Qed.
Theorem C67_empty_refuted :
  is_ok (@verify uni0 env_id 300 (dom_with "(:action e :parameters (?y - z))") None) = true
  /\ run_error (dom_with "(:action e :parameters (?y - z) :precondition ())") None = Some (ESem (UndefinedType (mkUndef "z" 3))).
Proof. split; vm_compute; reflexivity. Qed.
(** Which error is reported depends on the order of the conjuncts. *)
Theorem C67_order_refuted :
  run_error (one_method ":precondition (and (p ?u) (p ?v))") None = Some (ESem (UndefinedParameter (mkUndef "u" 3)))
  /\ run_error (one_method ":precondition (and (p ?v) (p ?u))") None = Some (ESem (UndefinedParameter (mkUndef "v" 3))).
Proof. split; vm_compute; reflexivity. Qed.

Definition all_C67 := (@C67_metadata, @C67_warnings, @C67_formulas, @C67_reordered, C67_forall_refuted, C67_empty_refuted, C67_order_refuted).
