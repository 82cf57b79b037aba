(** C62: documents in the standard form are read as written.
    Specification: SpecHddl.v. *)
From Coq Require Import String Ascii NArith ZArith Bool List Lia.
From Verif Require Import Base Token Lexer Errors Ast Parser Semantic Api StrFacts SpecLex LexProofs2 SpecGrammar
  PropsLex PropsParse PropsSem SpecHddl.
Import ListNotations.
Open Scope list_scope.

Lemma hformula ts f : HFormula ts f -> GFormula ts f /\ f <> FEmpty.
Proof.
  intros Hf. induction Hf using HFormula_mut with
    (P0 := fun ts f _ => GFormula ts f) (P1 := fun ts fs _ => forall l, GMembers (ts ++ [rp l]) fs); auto.
  - split; [apply gfo_atom; auto|discriminate].
  - split; [apply gfo_equal|discriminate].
  - split; [apply gfo_not; auto|discriminate].
  - split; [apply gfo_and; auto|discriminate].
  - split; [apply gfo_or; auto|discriminate].
  - split; [apply gfo_forall; auto|discriminate].
  - split; [apply gfo_exists; auto|discriminate].
  - apply gfo_empty.
  - tauto.
  - intros l. apply gm_end. apply gfo_close.
  - intros l. rewrite <- app_assoc. apply gm_cons; auto; tauto.
Qed.
Lemma hgd ts f : HGd ts f -> GFormula ts f.
Proof. intros [l1 l2|ts' f' Hf]; [apply gfo_empty|apply hformula; auto]. Qed.
Lemma hopt k ts o : HOpt k ts o -> GOptFormula k ts o.
Proof. intros [|l ts' f Hf]; constructor. apply hgd; auto. Qed.
Lemma hnetwork ts h l : HNetwork ts h -> GHtn (ts ++ [rp l]) h false.
Proof.
  intros [l1 us s Hs|l1 us s vs p o ws c Hs Ho Hc]; [apply gh_total; auto|].
  cbn [app]. rewrite <- !app_assoc. apply gh_partial with (s := s); auto. destruct Ho as [|l2 os o Ho].
  - cbn [app]. destruct Hc as [|l3 cs c Hc]; [apply gcl_close|]. cbn [app]. eapply gcl_constraints; eauto. apply gcl_close.
  - cbn [app]. apply gcl_ordering with (l' := o); auto. cbn [app].
    destruct Hc as [|l3 cs c Hc]; [apply gcl_close|]. cbn [app]. eapply gcl_constraints; eauto. apply gcl_close.
Qed.
Lemma hblock ts b : HBlock ts b -> GBlock ts b false.
Proof.
  intros [l1 l2 us r Hr|l1 l2 us r Hr|l1 l2 us r Hr|l1 l2 us r Hr|l1 l2 n ln l3 l4 us ps l5 Hp
         |l1 l2 n ln l3 l4 us ps vs pre ws eff l5 Hp Hv Hw|l1 l2 n ln l3 l4 us ps l5 l6 t lt vs ters ws pre xs h l7 Hp Ht Hw Hx].
  - apply gbl_reqs; auto.
  - apply gbl_types; auto.
  - apply gbl_constants; auto.
  - apply gbl_preds; auto.
  - apply (gbl_task l1 l2 (id n ln :: kw KParameters l3 :: lp l4 :: us)). apply gt; auto.
  - apply gbl_action. apply (gac (id n ln :: kw KParameters l3 :: lp l4 :: us)); [apply gt; auto| |]; apply hopt; auto.
  - apply gbl_method. apply gme; auto; [apply hopt; auto|apply hnetwork; auto].
Qed.
Lemma hpblock ts b : HPBlock ts b -> GPBlock ts b false.
Proof.
  intros [l1 l2 us r Hr|l1 l2 us r Hr|l1 l2 us h l3 Hh|l1 l2 l3 l4 us ps vs h l5 Hp Hh|l1 l2 us r Hr].
  - apply gpb_reqs; auto.
  - apply gpb_objects; auto.
  - apply gpb_htn. apply gi_plain. apply hnetwork; auto.
  - apply gpb_htn. apply gi_params; auto. apply hnetwork; auto.
  - apply gpb_init; auto.
Qed.
Lemma hblocks ts bs l : HMany HBlock ts bs -> GBlocks (ts ++ [rp l]) bs.
Proof.
  induction 1 as [|us b vs bs Hb Hm IH]; [apply gbs_end|]. rewrite <- app_assoc. apply gbs_cons; auto. apply hblock; auto.
Qed.
Lemma hpblocks ts bs us g : HMany HPBlock ts bs -> GPBlocks us g -> GPBlocks (ts ++ us) (bs ++ g).
Proof.
  intros Hm Hg. induction Hm as [|vs b ws bs Hb Hm IH]; auto. rewrite <- app_assoc. apply gpbs_cons; auto. apply hpblock; auto.
Qed.
(** The parser stops at the parenthesis that closes the goal. *)
Lemma hdocument ts a : HDocument ts a -> exists us vs, ts = us ++ vs /\ GDocument us a.
Proof.
  intros [l1 l2 l3 l4 n ln l5 us bs l6 Hm|l1 l2 l3 l4 n ln l5 l6 l7 m lm l8 us bs vs g l9 Hm Hg].
  - do 2 eexists. split; [symmetry; apply app_nil_r|]. apply gd_domain. apply hblocks; auto.
  - destruct Hg as [|k1 k2 ws f k3 Hf].
    + do 2 eexists. split; [symmetry; apply app_nil_r|]. apply gd_problem. cbn [app]. apply hpblocks; auto. apply gpbs_end.
    + exists (lp l1 :: kw KDefine l2 :: lp l3 :: kw KProblem l4 :: id n ln :: rp l5 :: lp l6 :: kw KDomain l7 :: id m lm :: rp l8
              :: us ++ (lp k1 :: kw KGoal k2 :: ws) ++ [rp k3]), [rp l9].
      split; [cbn [app]; do 10 f_equal; rewrite <- !app_assoc; cbn [app]; rewrite <- app_assoc; reflexivity|].
      apply gd_problem. apply hpblocks; auto. apply gpbs_cons; [apply gpb_goal; apply hgd; auto|apply gpbs_end].
Qed.

Lemma last_some_first {A B} (f : A -> option B) x l :
  last_some f (x :: l) = match last_some f l with Some y => Some y | None => f x end.
Proof.
  unfold last_some. cbn [fold_left]. assert (forall o, fold_left (fun o x => match f x with Some y => Some y | None => o end) l o
    = match fold_left (fun o x => match f x with Some y => Some y | None => o end) l None with Some y => Some y | None => o end) as R.
  { induction l as [|y l IH]; intros o; auto. cbn [fold_left]. destruct (f y) as [z|]; [|apply IH].
    rewrite (IH (Some z)). destruct (fold_left _ l None); auto. }
  rewrite R. destruct (f x); reflexivity.
Qed.

(** ** C62 *)
(** A document that begins with a standard document is accepted, and the tree is
    that of the standard. *)
Theorem C62_standard_accepted `{Unicode} : forall program ts st a,
  Reads (lex_new program) ts st -> HDocument ts a -> exists n, parse n program = Ok a.
Proof.
  intros program ts st a Hr Hd. apply hdocument in Hd as (us & vs & -> & Hd).
  assert (forall s us vs st', Reads s (us ++ vs) st' -> exists s1, Reads s us s1) as Hpre.
  { clear. intros s us. revert s. induction us as [|x us IH]; intros s vs st' Hr; [exists s; constructor|].
    inversion Hr; subst. destruct (IH _ _ _ H5) as (s1 & H1). exists s1. econstructor; eauto. }
  destruct (Hpre _ _ _ _ Hr) as (s1 & Hr1). apply C10_parser_is_grammar. eauto.
Qed.
(** Nothing is lost, added or moved: the declarations of the tree are those of the
    blocks, in their order. *)
Definition kind_of (b : dblock) : nat :=
  match b with
  | BReqs _ => 0 | BTypes _ => 1 | BConstants _ => 2 | BPreds _ => 3 | BTask _ => 4 | BAction _ => 5 | BMethod _ => 6 | BFuncs _ => 7
  end.
Definition pkind_of (b : pblock) : nat :=
  match b with QReqs _ => 0 | QObjects _ => 1 | QHtn _ => 2 | QInit _ => 3 | QGoal _ => 4 end.
(** The blocks of one kind. *)
Definition only {B} (kind : B -> nat) (k : nat) (bs : list B) : list B := filter (fun b => Nat.eqb (kind b) k) bs.
(** The contents of the blocks that [c] makes, one after the other. *)
Definition contents {A B} (c : list A -> B) (bs : list B) (l : list A) : Prop :=
  exists ls, bs = map c ls /\ l = List.concat ls.
Lemma contents_cons {A B} (c : list A -> B) x bs l : contents c bs l -> contents c (c x :: bs) (x ++ l).
Proof. intros (ls & -> & ->). exists (x :: ls). auto. Qed.
Lemma contents_nil {A B} (c : list A -> B) : contents c [] [].
Proof. exists []. auto. Qed.
Definition listed {A} (o : option (list A)) : list A := match o with Some l => l | None => [] end.
Lemma listed_some {A} (l : list A) : listed (some_if l) = l.
Proof. destruct l; auto. Qed.
Theorem C62_nothing_lost `{Unicode} : forall program l1 l2 l3 l4 n ln l5 ts bs l6 st k a,
  Reads (lex_new program) (lp l1 :: kw KDefine l2 :: lp l3 :: kw KDomain l4 :: id n ln :: rp l5 :: ts ++ [rp l6]) st ->
  HMany HBlock ts bs -> parse k program = Ok a ->
  exists d, a = ADomain d /\ d_name d = n
    /\ contents BReqs (only kind_of 0 bs) (d_reqs d)
    /\ contents BTypes (only kind_of 1 bs) (listed (d_types d))
    /\ contents BConstants (only kind_of 2 bs) (listed (d_constants d))
    /\ contents BPreds (only kind_of 3 bs) (d_preds d)
    /\ only kind_of 4 bs = map BTask (d_tasks d)
    /\ only kind_of 5 bs = map BAction (d_actions d)
    /\ only kind_of 6 bs = map BMethod (d_methods d).
Proof.
  intros program l1 l2 l3 l4 n ln l5 ts bs l6 st k a Hr Hm E. exists (domain_of n bs). split.
  { destruct (proj1 (C10_parser_is_grammar program a) (ex_intro _ k E)) as (us & st' & H1 & H2).
    eapply C10_unambiguous; [exact H1|exact H2|exact Hr|apply gd_domain, hblocks; auto]. }
  split; [reflexivity|]. clear. unfold domain_of. cbn [d_reqs d_types d_constants d_preds d_tasks d_actions d_methods].
  rewrite !listed_some.
  induction bs as [|b bs (I0 & I1 & I2 & I3 & I4 & I5 & I6)]; [repeat split; apply contents_nil|].
  unfold only in *.
  destruct b; cbn [filter kind_of Nat.eqb flat_map app map]; repeat split;
    first [assumption|apply contents_cons; assumption|f_equal; assumption].
Qed.
(** The same for problems, which have at most one task network and one initial
    state. *)
Theorem C62_problem_nothing_lost `{Unicode} : forall program l1 l2 l3 l4 n ln l5 l6 l7 m lm l8 ts bs us g l9 st k a,
  Reads (lex_new program) (lp l1 :: kw KDefine l2 :: lp l3 :: kw KProblem l4 :: id n ln :: rp l5
    :: lp l6 :: kw KDomain l7 :: id m lm :: rp l8 :: ts ++ us ++ [rp l9]) st ->
  HMany HPBlock ts bs -> HGoal us g -> parse k program = Ok a ->
  List.length (only pkind_of 2 bs) <= 1 -> List.length (only pkind_of 3 bs) <= 1 ->
  exists p, a = AProblem p
    /\ contents QReqs (only pkind_of 0 bs) (p_reqs p)
    /\ contents QObjects (only pkind_of 1 bs) (p_objects p)
    /\ only pkind_of 2 bs = map QHtn (match p_init_tn p with Some t => [t] | None => [] end)
    /\ contents QInit (only pkind_of 3 bs) (p_init p)
    /\ g = map QGoal (match p_goal p with Some f => [f] | None => [] end).
Proof.
  intros program l1 l2 l3 l4 n ln l5 l6 l7 m lm l8 ts bs us g l9 st k a Hr Hm Hg E L2 L3.
  exists (problem_of (bs ++ g)). split.
  { destruct (C62_standard_accepted program _ _ _ Hr (hd_problem l1 l2 l3 l4 n ln l5 l6 l7 m lm l8 ts bs us g l9 Hm Hg)) as (j & Ej).
    destruct (proj1 (C10_parser_is_grammar program _) (ex_intro _ k E)) as (vs & st' & H1 & H2).
    destruct (proj1 (C10_parser_is_grammar program _) (ex_intro _ j Ej)) as (ws & st2 & H3 & H4).
    eapply C10_unambiguous; [exact H1|exact H2|exact H3|exact H4]. }
  assert (Forall (fun b => forall f, b <> QGoal f) bs) as Hno.
  { clear - Hm. induction Hm as [|xs b ys bs Hb Hm IH]; constructor; auto. intros f ->. inversion Hb. }
  assert (forall f, p_goal (problem_of (bs ++ [QGoal f])) = Some f) as G1.
  { intros f. unfold problem_of. cbn [p_goal]. unfold last_some. rewrite fold_left_app. reflexivity. }
  assert (p_goal (problem_of bs) = None) as G0.
  { clear - Hno. unfold problem_of. cbn [p_goal]. unfold last_some.
    induction Hno as [|b bs Hb Hno IH]; auto. cbn [fold_left]. destruct b; auto; exfalso; eapply Hb; reflexivity. }
  assert (g = [] \/ exists f, g = [QGoal f]) as Hgo by (destruct Hg; eauto).
  assert (contents QReqs (only pkind_of 0 bs) (p_reqs (problem_of bs))
    /\ contents QObjects (only pkind_of 1 bs) (p_objects (problem_of bs))
    /\ only pkind_of 2 bs = map QHtn (match p_init_tn (problem_of bs) with Some t => [t] | None => [] end)
    /\ contents QInit (only pkind_of 3 bs) (p_init (problem_of bs))) as (A0 & A1 & A2 & A3).
  { clear - L2 L3. unfold problem_of. cbn [p_reqs p_objects p_init_tn p_init].
    induction bs as [|b bs IH]; [repeat split; apply contents_nil|].
    unfold only in *. rewrite !last_some_first. cbn [filter] in L2, L3.
    destruct b; cbn [filter pkind_of Nat.eqb flat_map app map List.length] in *.
    - destruct (IH L2 L3) as (I0 & I1 & I2 & I3). repeat split; auto.
      + apply contents_cons; auto.
      + destruct (last_some (fun b => match b with QHtn t => Some t | _ => None end) bs); auto.
      + destruct (last_some (fun b => match b with QInit l => Some l | _ => None end) bs); auto.
    - destruct (IH L2 L3) as (I0 & I1 & I2 & I3). repeat split; auto.
      + apply contents_cons; auto.
      + destruct (last_some (fun b => match b with QHtn t => Some t | _ => None end) bs); auto.
      + destruct (last_some (fun b => match b with QInit l => Some l | _ => None end) bs); auto.
    - destruct (filter (fun b => Nat.eqb (pkind_of b) 2) bs) eqn:F; cbn [List.length] in *; [|lia].
      destruct (IH ltac:(lia) L3) as (I0 & I1 & I2 & I3). repeat split; auto.
      + destruct (last_some (fun b => match b with QHtn t => Some t | _ => None end) bs); [discriminate|reflexivity].
      + destruct (last_some (fun b => match b with QInit l => Some l | _ => None end) bs); auto.
    - destruct (IH L2 L3) as (I0 & I1 & I2 & I3). repeat split; auto.
      + destruct (last_some (fun b => match b with QHtn t => Some t | _ => None end) bs); auto.
      + destruct (last_some (fun b => match b with QInit l => Some l | _ => None end) bs); auto.
    - destruct (filter (fun b => Nat.eqb (pkind_of b) 3) bs) eqn:F; cbn [List.length] in *; [|lia].
      destruct (IH L2 ltac:(lia)) as (I0 & I1 & I2 & I3). repeat split; auto.
      + destruct (last_some (fun b => match b with QHtn t => Some t | _ => None end) bs); auto.
      + assert (last_some (fun b => match b with QInit l => Some l | _ => None end) bs = None) as ->.
        { clear - F. unfold last_some. induction bs as [|b bs IH]; auto. cbn [filter] in F.
          destruct b; cbn [pkind_of Nat.eqb] in F; try discriminate; cbn [fold_left]; auto. }
        exists [l]. cbn. rewrite app_nil_r. auto. }
  destruct Hgo as [-> | (f & ->)].
  - rewrite app_nil_r, G0. repeat split; auto.
  - rewrite G1. unfold problem_of in *. cbn [p_reqs p_objects p_init_tn p_init] in *.
    rewrite !flat_map_app. unfold last_some in *. rewrite !fold_left_app. cbn [flat_map fold_left]. rewrite !app_nil_r.
    repeat split; auto.
Qed.
Definition standard_theorems := (@C62_standard_accepted, @C62_nothing_lost, @C62_problem_nothing_lost).

(** ** Concrete cases *)
Open Scope string_scope.
Definition std_dom : string :=
  "(define (domain d) (:types a b - c) (:predicates (p ?x - a) (q))" ++ nl ++
  " (:task t :parameters (?x - a))" ++ nl ++
  " (:method m :parameters (?x - a) :task (t ?x) :precondition ()" ++ nl ++
  "   :subtasks (and (i (t ?x)) (j (c ?x))) :ordering (and (< i j)) :constraints (not (= ?x ?x)))" ++ nl ++
  " (:action c :parameters (?y - a) :precondition (and (p ?y) (not (q))) :effect (q)))" ++ nl.
Definition std_prob : string :=
  "(define (problem e) (:domain d) (:objects o - a)" ++ nl ++
  " (:htn :parameters () :ordered-subtasks (and (t o))) (:init (p o)) (:goal (or (q) (not (p o)))))" ++ nl.
Lemma reads_step `{Unicode} st t l st1 ts st2 : get_token st = (LTok t, st1) -> line st1 = l -> Reads st1 ts st2 -> Reads st ((t, l) :: ts) st2.
Proof. intros G <- Hr. econstructor; eauto. Qed.
Ltac read_all := repeat (eapply reads_step; [vm_compute; reflexivity|reflexivity|]); apply rd_nil.
Open Scope list_scope.
Example C62_example_domain : exists ts st a, @Reads uni0 (lex_new std_dom) ts st /\ HDocument ts a.
Proof.
  do 3 eexists. split.
  2:{ eapply (hd_domain 1 1 1 1 "d" 1 1 _ _ 5). eapply hm_cons; [|eapply hm_cons; [|eapply hm_cons; [|eapply hm_cons; [|eapply hm_cons; [|apply hm_nil]]]]].
    - eapply (hb_types 1 1). eapply (ga_group [("a", 1); ("b", 1)]%N 1 "c" 1). eapply (ga_end [] 1).
    - eapply (hb_preds 1 1). eapply (gp_cons 1 "p" 1); [eapply (ga_group [("x", 1)]%N 1 "a" 1); eapply (ga_end [] 1)|].
      eapply (gp_cons 1 "q" 1); [eapply (ga_end [] 1)|eapply (gp_end 1)].
    - eapply (hb_task 2 2 "t" 2 2 2 _ _ 2). eapply (ga_group [("x", 2)]%N 2 "a" 2). eapply (ga_end [] 2).
    - eapply (hb_method 3 3 "m" 3 3 3 _ _ 3 3 "t" 3 _ _ _ _ _ _ 4).
      + eapply (ga_group [("x", 3)]%N 3 "a" 3). eapply (ga_end [] 3).
      + eapply (ga_end [("x", 3)]%N 3).
      + eapply (ho_some _ 3). eapply (hg_empty 3 3).
      + eapply (hn_partial 4).
        * eapply (gss_and 4 4). eapply (gsl_cons 4); [eapply (gs_id "i" 4 4 "t" 4 [("x", 4)]%N 4 4)|].
          eapply (gsl_cons 4); [eapply (gs_id "j" 4 4 "c" 4 [("x", 4)]%N 4 4)|eapply (gsl_end 4)].
        * eapply (hor_some 4). eapply (gos_and 4 4). eapply (gol_cons 4); [eapply (go 4 "i" 4 [("j", 4)]%N 4)|eapply (gol_end 4)].
        * eapply (hco_some 4). eapply (gcs_one 4). eapply (gc_not 4 4 4 "x" 4 "x" 4 4 4).
    - eapply (hb_action 5 5 "c" 5 5 5 _ _ _ _ _ _ 5).
      + eapply (ga_group [("y", 5)]%N 5 "a" 5). eapply (ga_end [] 5).
      + eapply (ho_some _ 5). eapply hg_some. eapply (hf_and 5 5 _ _ 5). eapply hl_cons; [eapply (hf_atom 5 "p" 5); eapply (ga_end [("y", 5)]%N 5)|].
        eapply hl_cons; [|eapply hl_nil]. eapply (hf_not 5 5 _ _ 5). eapply hg_some. eapply (hf_atom 5 "q" 5). eapply (ga_end [] 5).
      + eapply (ho_some _ 5). eapply hg_some. eapply (hf_atom 5 "q" 5). eapply (ga_end [] 5). }
  cbn. unfold lp, rp, kw, oper, id. read_all.
Qed.
Example C62_example_problem : exists ts st a, @Reads uni0 (lex_new std_prob) ts st /\ HDocument ts a.
Proof.
  do 3 eexists. split.
  2:{ eapply (hd_problem 1 1 1 1 "e" 1 1 1 1 "d" 1 1 _ _ _ _ 2).
    - eapply hm_cons; [|eapply hm_cons; [|eapply hm_cons; [|apply hm_nil]]].
      + eapply (hp_objects 1 1). eapply (ga_group [("o", 1)]%N 1 "a" 1). eapply (ga_end [] 1).
      + eapply (hp_htn_params 2 2 2 2 _ _ _ _ 2); [eapply (ga_end [] 2)|]. eapply (hn_total 2). eapply (gss_and 2 2).
        eapply (gsl_cons 2); [eapply (gs_plain "t" 2 [("o", 2)]%N 2)|eapply (gsl_end 2)].
      + eapply (hp_init 2 2). eapply (gp_cons 2 "p" 2); [eapply (ga_end [("o", 2)]%N 2)|eapply (gp_end 2)].
    - eapply (hgo_some 2 2 _ _ 2). eapply hg_some. eapply (hf_or 2 2 _ _ 2). eapply hl_cons; [eapply (hf_atom 2 "q" 2); eapply (ga_end [] 2)|].
      eapply hl_cons; [|eapply hl_nil]. eapply (hf_not 2 2 _ _ 2). eapply hg_some. eapply (hf_atom 2 "p" 2). eapply (ga_end [("o", 2)]%N 2). }
  cbn. unfold lp, rp, kw, oper, id. read_all.
Qed.

(** What of HDDL is not read as written.  The declaration is followed by an
    action. *)
Open Scope string_scope.
Definition dev (body : string) : string := "(define (domain d) (:predicates (p)) (:task t :parameters ())" ++ nl ++ body ++ " (:action z :parameters ()))" ++ nl.
(** Implications, conditional effects, alternatives of types, empty conjuncts and
    constraints, numeric functions and their effects, and methods without a task
    network are rejected. *)
Theorem C62_rejected_refuted : Forall (fun body => exists e, @parse uni0 300 (dev body) = Err (ESyn e) /\ se_line e = 2%N)
  ["(:action a :parameters () :precondition (imply (p) (p)))";
   "(:action a :parameters () :effect (when (p) (p)))";
   "(:action a :parameters (?x - (either a b)))";
   "(:action a :parameters () :precondition (and () (p)))";
   "(:method m :parameters () :task (t) :subtasks () :constraints (and ()))";
   "(:functions (total-cost) - number)";
   "(:action a :parameters () :effect (increase (total-cost) 1))";
   "(:method m :parameters () :task (t))"].
Proof. repeat constructor; eexists; (split; [vm_compute; reflexivity|reflexivity]). Qed.
(** After a method with a precondition but without a task network, and after one
    with ordered subtasks and constraints, the action is lost. *)
Theorem C62_lost_refuted : Forall (fun body => exists d, @parse uni0 300 (dev body) = Ok (ADomain d)
    /\ List.length (d_methods d) = 1 /\ d_actions d = [])
  ["(:method m :parameters () :task (t) :precondition (p))";
   "(:method m :parameters () :task (t) :ordered-subtasks () :constraints ())"].
Proof. repeat constructor; eexists; (split; [vm_compute; reflexivity|split; reflexivity]). Qed.
(** Of several initial states, task networks or goals only the last is kept. *)
Theorem C62_replaced_refuted : exists p q, @parse uni0 300 ("(define (problem e) (:domain d) (:init (p)) (:init (q)))" ++ nl) = Ok (AProblem p)
  /\ map pred_name (p_init p) = ["q"]
  /\ @parse uni0 300 ("(define (problem e) (:domain d) (:htn :ordered-subtasks (and (t))) (:init (p)) (:htn :ordered-subtasks ()))" ++ nl)
     = Ok (AProblem q)
  /\ option_map (fun t => List.length (htn_subtasks (itn_tn t))) (p_init_tn q) = Some 0.
Proof. do 2 eexists. split; [vm_compute; reflexivity|]. split; [reflexivity|]. split; [vm_compute; reflexivity|reflexivity]. Qed.
Definition standard_refuted := (C62_rejected_refuted, C62_lost_refuted, C62_replaced_refuted).
