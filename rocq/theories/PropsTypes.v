(** Property theorems about types (C69).  Specification: SpecTypes.v. *)
From Coq Require Import String Ascii NArith Bool List Lia PeanoNat Permutation Relations.
From Verif Require Import Base Token Lexer Errors Ast Parser Graph Semantic Tdg Api VerifyTop ParserProofs
  PropsLex PropsParse SpecPrint SpecSem SemDomain SemFacts PropsSem SpecShape Shape PropsShape SpecTypes TypesProofs.
Import ListNotations.
Open Scope list_scope.
Open Scope nat_scope.

(** A type is a subtype of another one exactly if it is contained in it
    whatever sets of objects the declarations are about. *)
Theorem C69_subtype_is_inclusion : forall types a b,
  subtype types a b <-> forall (O : Type) (I : string -> O -> Prop), respects types I -> forall x, I a x -> I b x.
Proof. intros types a b. exact (fits_always types (Some a) (Some b)). Qed.

Section S.
Context `{Unicode}.
Variable he : hash_env.
Hypothesis Hhe : hash_env_ok he.

(** Every argument of an atom outside quantifiers denotes a value that belongs
    to the type of the parameter. *)
Theorem C69_atoms_belong : forall n dom prob ws d params g p,
  verify he n dom prob = Ok ws -> parse n dom = Ok (ADomain d) -> dom_formula d params g -> within_open (FAtom p) g ->
  exists def, In def (d_preds d) /\ pred_name def = pred_name p
    /\ Forall2 (fun v f => exists t, denotes params (constants_of d) (sym_name v) t /\ always (d_types d) t (sym_type f))
         (pred_vars p) (pred_vars def).
Proof.
  intros n dom prob ws d params g p Ev Ep Hf Hw. destruct (C18_atoms_typed he n dom prob ws d params g p Ev Ep Hf Hw) as (def & Hi & En & Ha).
  exists def. split; auto. split; auto. unfold args_ok in Ha. induction Ha as [|v f l l' (t & Ht & Hfit) _ IH]; constructor; auto.
  exists t. split; auto. apply fits_always. auto.
Qed.
(** So does every argument of a method head or subtask. *)
Theorem C69_calls_belong : forall n dom prob ws d h params tk terms,
  verify he n dom prob = Ok ws -> parse n dom = Ok (ADomain d) -> dom_call d h params tk terms ->
  exists formals, callable d h (sym_name tk) formals
    /\ Forall2 (fun v f => exists t, denotes params (constants_of d) (sym_name v) t /\ always (d_types d) t (sym_type f)) terms formals.
Proof.
  intros n dom prob ws d h params tk terms Ev Ep Hc. pose proof (accepted he _ _ _ _ _ _ Ev Ep) as Hok.
  destruct (ok_call d Hok _ _ _ _ Hc) as (_ & formals & Hcall & Ha). exists formals. split; auto. unfold args_ok in Ha.
  clear Hcall Hc. induction Ha as [|v f l l' (t & Ht & Hfit) _ IH]; constructor; auto. exists t. split; auto. apply fits_always. auto.
Qed.
(** A reported type error comes with sets of objects that show it. *)
Theorem C69_type_error_witness : forall n dom d e,
  parse n dom = Ok (ADomain d) ->
  verify he n dom None = Err (ESem (InconsistentPredicateArgType e)) \/ verify he n dom None = Err (ESem (InconsistentTaskArgType e)) ->
  sometimes_not (d_types d) (ty_found e) (ty_expected e).
Proof.
  intros n dom d e Ep [E|E].
  - destruct (C18_type_errors_true he Hhe n dom d _ E Ep) as (params & g & p & def & i & v & f & t & _ & _ & _ & _ & _ & _ & _ & Hn & ->).
    apply not_fits_sometimes. exact Hn.
  - destruct (C19_call_errors_true he Hhe n dom d _ E Ep) as (h & params & tk & terms & formals & i & v & f & t & _ & _ & _ & _ & _ & Hn & ->).
    apply not_fits_sometimes. exact Hn.
Qed.

(** More subtypes, wider parameters of predicates and tasks, narrower constants
    and parameters of methods: what was accepted is accepted, with the same
    warnings. *)
Theorem C69_relaxed_domain : forall n dom dom' d d' ws,
  parse n dom = Ok (ADomain d) -> parse n dom' = Ok (ADomain d') -> relaxed d d' -> types_sound d' ->
  verify he n dom None = Ok ws ->
  exists ws', settles (fun k => verify he k dom' None) (Ok ws')
    /\ Permutation (map (fun w => match w with NoPrimitiveRefinement x _ => x end) ws)
                   (map (fun w => match w with NoPrimitiveRefinement x _ => x end) ws').
Proof.
  intros n dom dom' d d' ws E E' Hr Hs Ev. pose proof (accepted he _ _ _ _ _ _ Ev E) as Hok.
  pose proof (domain_relaxed d d' Hr Hs Hok) as Hok'. destruct (C21_domain_decided he Hhe n dom' d' E') as [_ Hv].
  destruct (Hv Hok') as (ws' & Hset). exists ws'. split; auto. destruct Hset as [_ (k & Hk)].
  assert (verify he (n + k) dom None = Ok ws) as E1 by (rewrite (verify_mono he n) by (auto; try lia; rewrite Ev; discriminate); auto).
  assert (parse (n + k) dom = Ok (ADomain d)) as E2 by (rewrite (parse_mono n) by (auto; try lia; rewrite E; discriminate); auto).
  assert (parse (n + k) dom' = Ok (ADomain d')) as E3 by (rewrite (parse_mono n) by (auto; try lia; rewrite E'; discriminate); auto).
  eapply (C67_warnings he (n + k) dom dom' None None ws ws' d d'); eauto using shape_relaxed. apply Hk. lia.
Qed.
(** The same for problems, with narrower objects. *)
Theorem C69_relaxed_problem : forall n dom dom' prob prob' d d' p p' ws,
  parse n dom = Ok (ADomain d) -> parse n dom' = Ok (ADomain d') -> parse n prob = Ok (AProblem p) -> parse n prob' = Ok (AProblem p') ->
  relaxed d d' -> types_sound d' -> relaxed_problem (d_types d') p p' -> types_declared (d_types d') (p_objects p') ->
  verify he n dom (Some prob) = Ok ws ->
  exists ws', settles (fun k => verify he k dom' (Some prob')) (Ok ws').
Proof.
  intros n dom dom' prob prob' d d' p p' ws E E' Ep Ep' Hr Hs Hpr Hd Ev. pose proof (accepted he _ _ _ _ _ _ Ev E) as Hok.
  pose proof (domain_relaxed d d' Hr Hs Hok) as Hok'. apply (C22_problem_decided he Hhe n dom' d' prob' p' E' Hok' Ep').
  eapply problem_relaxed; eauto. apply (C22_problem_decided he Hhe n dom d prob p E Hok Ep). exists ws.
  apply (settles_verify he n); auto. discriminate.
Qed.
End S.

Definition types_theorems := (@C69_subtype_is_inclusion, @C69_atoms_belong, @C69_calls_belong, @C69_type_error_witness,
  @C69_relaxed_domain, @C69_relaxed_problem).

(** ** What does not hold *)
Open Scope string_scope.
(** [types], type of the parameter of p, type of the parameter of the action. *)
Definition small_domain (types p x : string) : string :=
  "(define (domain d) (:types " ++ types ++ ") (:predicates (p ?y" ++ p ++ "))" ++ nl ++
  "(:task t :parameters (?x" ++ x ++ ")) (:method m :parameters (?x" ++ x ++ ") :task (t ?x) :precondition (p ?x)" ++ nl ++
  ":ordered-subtasks ()))".
Definition verdict (types p x : string) : outcome (list warning) := @verify uni0 env_id 300 (small_domain types p x) None.
Definition accepted_in (types p x : string) : bool := match verdict types p x with Ok _ => true | _ => false end.

(** Narrower predicates, wider arguments. *)
Theorem C69_other_way_refuted :
  accepted_in "a - b b - c" " - b" " - a" = true
  /\ accepted_in "a - b b - c" " - a" " - b" = false
  /\ accepted_in "a - b b - c" " - b" " - c" = false.
Proof. vm_compute. auto. Qed.
(** A predicate without type takes no typed arguments, and [object] is not a
    type unless it is declared. *)
Theorem C69_no_top_refuted :
  accepted_in "a - b" " - b" " - a" = true
  /\ verdict "a - b" "" " - a" = Err (ESem (InconsistentPredicateArgType (mkTypeErr None (Some "a") "x" 2)))
  /\ verdict "a - b" " - object" " - a" = Err (ESem (UndefinedType (mkUndef "object" 1)))
  /\ accepted_in "a - b b - object" " - object" " - a" = true.
Proof. vm_compute. auto. Qed.
(** Without the conditions on the new types. *)
Theorem C69_sound_needed_refuted :
  accepted_in "a - b" " - b" " - a" = true
  /\ verdict "a - b b - c c - a" " - b" " - a" = Err (ESem CyclicType).
Proof. vm_compute. auto. Qed.

(** ** Concrete cases *)
Example C69_error_example :
  verdict "a - b b - c" " - a" " - b" = Err (ESem (InconsistentPredicateArgType (mkTypeErr (Some "a") (Some "b") "x" 2))).
Proof. vm_compute. reflexivity. Qed.

Example C69_relaxed_example : exists d d' ws,
  @parse uni0 300 (small_domain "a b" " - b" " - b") = Ok (ADomain d)
  /\ @parse uni0 300 (small_domain "a b - c e - a" " - c" " - b") = Ok (ADomain d')
  /\ relaxed d d' /\ types_sound d' /\ @verify uni0 env_id 300 (small_domain "a b" " - b" " - b") None = Ok ws.
Proof.
  do 3 eexists. split; [vm_compute; reflexivity|]. split; [vm_compute; reflexivity|].
  split; [|split; [|vm_compute; reflexivity]].
  - assert (subtype (Some [mkSym "a" 1 (Some "c") (Some 1%N); mkSym "b" 1 (Some "c") (Some 1%N); mkSym "e" 1 (Some "a") (Some 1%N)]) "b" "c") as Hbc.
    { apply rt_step. exists (mkSym "b" 1 (Some "c") (Some 1%N)). simpl. auto. }
    repeat split.
    + intros a b (s & Hs & _ & Et). simpl in Hs. destruct Hs as [<-|[<-|[]]]; discriminate.
    + intros t (s & Hs & Ht). simpl in Hs. destruct Hs as [<-|[<-|[]]]; simpl in Ht; (destruct Ht as [<-|Ht]; [|discriminate]).
      * exists (mkSym "a" 1 (Some "c") (Some 1%N)). simpl. auto.
      * exists (mkSym "b" 1 (Some "c") (Some 1%N)). simpl. auto.
    + constructor.
    + constructor; [|constructor]. split; [reflexivity|]. constructor; [exact Hbc|constructor].
    + constructor; [|constructor]. split; [reflexivity|]. constructor; [apply rt_refl|constructor].
    + constructor; [|constructor]. repeat split. constructor; [|constructor]. split; [reflexivity|apply rt_refl].
  - assert (forall x y, parent (Some [mkSym "a" 1 (Some "c") (Some 1%N); mkSym "b" 1 (Some "c") (Some 1%N); mkSym "e" 1 (Some "a") (Some 1%N)]) x y ->
      (x = "a" /\ y = "c") \/ (x = "b" /\ y = "c") \/ (x = "e" /\ y = "a")) as Hp.
    { intros x y (s & Hs & <- & Et). simpl in Hs. destruct Hs as [<-|[<-|[<-|[]]]]; simpl in Et; injection Et as <-; auto. }
    split; [|repeat split; repeat constructor].
    + intros x Hx.
      assert (forall u v, clos_trans string (parent (Some [mkSym "a" 1 (Some "c") (Some 1%N); mkSym "b" 1 (Some "c") (Some 1%N); mkSym "e" 1 (Some "a") (Some 1%N)])) u v ->
        u <> "c" /\ (v = "c" \/ (u = "e" /\ v = "a"))) as Hc.
      { induction 1 as [u v Huv|u v w _ [I1 I2] _ [I3 I4]].
        - apply Hp in Huv as [[-> ->]|[[-> ->]|[-> ->]]]; split; auto; discriminate.
        - split; auto. destruct I2 as [->|[-> ->]]; [congruence|]. destruct I4 as [->|[E _]]; [auto|discriminate]. }
      destruct (Hc _ _ Hx) as [H1 [H2|[H2 H3]]]; [congruence|]. subst. discriminate.
    + intros s t [<-|[]] Et. injection Et as <-. exists (mkSym "b" 1 (Some "c") (Some 1%N)). simpl. auto.
    + intros s t [<-|[]] Et. injection Et as <-. exists (mkSym "b" 1 (Some "c") (Some 1%N)). simpl. auto.
    + intros s t [<-|[]] Et. injection Et as <-. exists (mkSym "b" 1 (Some "c") (Some 1%N)). simpl. auto.
Qed.

Definition one_object (t : string) : string := "(define (problem e) (domain d) (:objects o - " ++ t ++ ") (:init (p o)) (:goal (p o)))".
Example C69_relaxed_problem_example : exists d p p' ws,
  @parse uni0 300 (small_domain "a b - c e - a" " - c" " - b") = Ok (ADomain d)
  /\ @parse uni0 300 (one_object "a") = Ok (AProblem p) /\ @parse uni0 300 (one_object "e") = Ok (AProblem p')
  /\ relaxed_problem (d_types d) p p' /\ types_declared (d_types d) (p_objects p')
  /\ @verify uni0 env_id 300 (small_domain "a b - c e - a" " - c" " - b") (Some (one_object "a")) = Ok ws.
Proof.
  do 4 eexists. do 3 (split; [vm_compute; reflexivity|]). split; [|split; [|vm_compute; reflexivity]].
  - repeat split. constructor; [|constructor]. split; [reflexivity|]. apply rt_step. exists (mkSym "e" 1 (Some "a") (Some 1%N)). simpl. auto.
  - intros s t [<-|[]] Et. injection Et as <-. exists (mkSym "e" 1 (Some "a") (Some 1%N)). simpl. auto.
Qed.
