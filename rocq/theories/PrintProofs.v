(** The canonical tokens of a tree are a sentence of the grammar that denotes
    it; the canonical text reads as these tokens. *)
From Coq Require Import String Ascii NArith ZArith Bool List Lia PeanoNat.
From Verif Require Import Base Token Lexer Errors Ast Parser
  StrFacts SpecLex LexProofs LexProofs2 LexProofs3 SpecGrammar GrammarSound GrammarComplete GrammarTop SpecPrint FormulaInd.
Import ListNotations.
Open Scope list_scope.

Section Tokens.
Variable L : N.

(** All tokens in line [L]. *)
Definition on (ts : list token) : list tok := map (fun t => (t, L)) ts.

Lemma on_app a b : on (a ++ b) = on a ++ on b.
Proof. apply map_app. Qed.

Lemma untyped_at s : is_untyped s -> untyped (sym_name s, L) = sym_at L s.
Proof. destruct s as [n p t q]. intros [E1 E2]. simpl in *. subst. reflexivity. Qed.

Lemma names_ids l : on (names_tokens l) = ids (map (fun s => (sym_name s, L)) l).
Proof. unfold on, names_tokens, ids. rewrite !map_map. reflexivity. Qed.

Lemma names_untyped l : Forall is_untyped l ->
  map untyped (map (fun s => (sym_name s, L)) l) = map (sym_at L) l.
Proof.
  intros Hl. rewrite map_map. apply map_ext_in. intros s Hs.
  apply untyped_at. rewrite Forall_forall in Hl. auto.
Qed.

Lemma flat_untyped l : Forall is_untyped l -> flat_map sym_tokens l = names_tokens l.
Proof.
  induction 1 as [|s l [E _] _ IH]; simpl; auto. rewrite IH. unfold sym_tokens. rewrite E. reflexivity.
Qed.

Lemma args_tokens l : wf_args l -> GArgs (on (syms_tokens l)) (map (sym_at L) l).
Proof.
  intros (a & b & -> & Ha & Hb). unfold syms_tokens. induction Ha as [|s a [Ht Hp] _ IH]; simpl.
  - rewrite flat_untyped, on_app, names_ids, <- names_untyped by auto. apply ga_end.
  - destruct s as [n p [t|] [q|]]; simpl in Ht, Hp; try congruence.
    apply (ga_group [(n, L)] L t L _ _ IH).
Qed.

Lemma at_not_empty f : f <> FEmpty -> formula_at L f <> FEmpty.
Proof. destruct f; simpl; congruence. Qed.

Lemma formula_ok f : wf_formula f ->
  GFormula (on (formula_tokens f)) (formula_at L f).
Proof.
  revert f.
  assert (Hmem : forall fs,
    Forall (fun f => wf_formula f -> GFormula (on (formula_tokens f)) (formula_at L f)) fs ->
    (fix members fs := match fs with
       | [] => True | g :: r => wf_formula g /\ g <> FEmpty /\ members r end) fs ->
    GMembers (on (flat_map formula_tokens fs ++ [RP])) (map (formula_at L) fs)).
  { induction 1 as [|f fs Hf _ IH]; intros Hw.
    - apply gm_end. apply (gfo_close L).
    - destruct Hw as (H1 & H2 & H3). cbn [flat_map map]. rewrite <- app_assoc, on_app.
      apply gm_cons; auto. apply at_not_empty; auto. }
  assert (Hno : forall fs,
    (fix members fs := match fs with
       | [] => True | g :: r => wf_formula g /\ g <> FEmpty /\ members r end) fs ->
    existsb weighted fs = false).
  { induction fs as [|f fs IH]; simpl; auto. intros (H1 & H2 & H3).
    destruct f; simpl; auto. destruct H1. }
  assert (Hbr : forall fs,
    Forall (fun f => match f with
      FWeighted _ g => wf_formula g -> GFormula (on (formula_tokens g)) (formula_at L g) | _ => True end) fs ->
    (fix branches fs := match fs with
                  | [] => True
                  | FWeighted _ g :: r => wf_formula g /\ g <> FEmpty /\ branches r
                  | _ :: _ => False end) fs ->
    GBranches (on (flat_map formula_tokens fs ++ [RP])) (map (formula_at L) fs)).
  { induction 1 as [|f fs Hf _ IH]; intros Hw.
    - constructor.
    - destruct f; try destruct Hw as []. destruct H0 as (H2 & H3). cbn [flat_map map formula_tokens formula_at].
      cbn [app]. rewrite <- app_assoc. unfold on. cbn [map]. rewrite map_app. apply gb_cons; [apply Hf; auto|apply at_not_empty; auto|apply IH; auto]. }
  assert (Hall : forall f, (wf_formula f -> GFormula (on (formula_tokens f)) (formula_at L f))
      /\ match f with FWeighted _ g => wf_formula g -> GFormula (on (formula_tokens g)) (formula_at L g)
         | _ => True end); [|intros f; apply Hall].
  apply formula_nested_ind.
  - split; auto. intros _. apply gfo_empty.
  - intros p. split; auto. intros Hw. simpl. apply gfo_atom. apply args_tokens. exact Hw.
  - intros f [IH _]. split; auto. intros Hw. cbn [formula_tokens formula_at]. unfold on. cbn [map].
    rewrite map_app. apply gfo_not. apply IH. exact Hw.
  - intros fs IH. split; auto. intros Hw. cbn [formula_tokens formula_at wf_formula] in *.
    destruct Hw as [Hw|[Hne Hw]].
    + rewrite (Hno _ Hw). apply gfo_and. apply Hmem; auto.
      eapply Forall_impl; [|exact IH]. intros f [H1 _]. exact H1.
    + replace (existsb weighted fs) with true.
      * apply gfo_prob. apply Hbr; auto. eapply Forall_impl; [|exact IH]. intros f [_ H1]. exact H1.
      * destruct fs as [|f fs]; [congruence|]. destruct f; try destruct Hw. reflexivity.
  - intros fs IH. split; auto. intros Hw. apply gfo_or. apply Hmem; auto.
    eapply Forall_impl; [|exact IH]. intros f [H1 _]. exact H1.
  - intros fs IH. split; auto. intros Hw. apply gfo_xor. apply Hmem; auto.
    eapply Forall_impl; [|exact IH]. intros f [H1 _]. exact H1.
  - intros ps qs _ _. split; auto. intros [].
  - intros v f [IH _]. split; auto. intros [Hv Hw]. cbn [formula_tokens formula_at]. unfold on. cbn [map].
    rewrite !map_app. apply gfo_exists; [apply args_tokens; auto|apply IH; auto].
  - intros v f [IH _]. split; auto. intros [Hv Hw]. cbn [formula_tokens formula_at]. unfold on. cbn [map].
    rewrite !map_app. apply gfo_forall; [apply args_tokens; auto|apply IH; auto].
  - intros w f [IH _]. split; auto. intros [].
  - intros a b. split; auto. intros _. apply gfo_equal.
Qed.

Lemma subtask_ok s : wf_subtask s -> exists us, on (subtask_tokens s) = lp L :: us /\ GSubtask us (subtask_at L s).
Proof.
  destruct s as [i t l]. intros (H1 & H2 & H3). simpl in *. unfold subtask_tokens, subtask_at. cbn [sub_id sub_task sub_terms].
  eexists. split; [reflexivity|]. destruct i as [i|]; simpl option_map.
  - unfold on. cbn [map]. rewrite map_app. change (map (fun t0 => (t0, L)) (names_tokens l)) with (on (names_tokens l)).
    rewrite names_ids, <- names_untyped, <- !untyped_at by auto. apply gs_id.
  - unfold on. cbn [map]. rewrite map_app. change (map (fun t0 => (t0, L)) (names_tokens l)) with (on (names_tokens l)).
    rewrite names_ids, <- names_untyped, <- !untyped_at by auto. apply gs_plain.
Qed.

Lemma subtasks_ok l : Forall wf_subtask l ->
  GSubtasks (on (and_block (map subtask_tokens l))) (map (subtask_at L) l).
Proof.
  intros Hl. apply (gss_and L L (on (concat (map subtask_tokens l) ++ [RP]))).
  induction Hl as [|s l Hs Hl IH]; cbn [map concat].
  - constructor.
  - rewrite <- app_assoc, on_app. destruct (subtask_ok s Hs) as (us & -> & Hg).
    simpl. apply gsl_cons; auto.
Qed.

Lemma constrs_ok l : GConstraints (on (and_block (map constr_tokens l))) l.
Proof.
  apply (gcs_and L L (on (concat (map constr_tokens l) ++ [RP]))).
  induction l as [|c l IH]; cbn [map concat].
  - constructor.
  - rewrite <- app_assoc, on_app. destruct c as [a b|a b]; simpl on at 1.
    + apply (gcl_cons L [oper OEqual L; id a L; id b L; rp L]); [constructor|exact IH].
    + apply (gcl_cons L [oper ONot L; lp L; oper OEqual L; id a L; id b L; rp L; rp L]); [constructor|exact IH].
Qed.

Lemma orders_ok l :
  GOrderings (on (and_block (map (fun o => [LP; TOp OLess; TIdent (fst o); TIdent (snd o); RP]) l))) l.
Proof.
  apply (gos_and L L (on (concat (map (fun o => [LP; TOp OLess; TIdent (fst o); TIdent (snd o); RP]) l) ++ [RP]))).
  induction l as [|[a b] l IH]; cbn [map concat].
  - constructor.
  - change ((a, b) :: l) with ([(a, b)] ++ l).
    apply (gol_cons L [oper OLess L; id a L; id b L; rp L] [(a, b)]); [|exact IH].
    apply (go L a L [(b, L)] L).
Qed.

Lemma htn_ok h : wf_htn h -> GHtn (on (htn_tokens h)) (htn_at L h) false.
Proof.
  destruct h as [s o [|l] c]; intros [Hs Ho]; unfold htn_tokens, htn_at;
    cbn [htn_subtasks htn_ordering_pos htn_orderings htn_constraints] in *.
  - subst o. simpl option_map. cbn [on map]. rewrite map_app. destruct c as [c|].
    + apply gh_total_constraints; [apply subtasks_ok; auto|apply constrs_ok].
    + apply gh_total. apply subtasks_ok; auto.
  - cbn [on map]. rewrite map_app. eapply gh_partial; [apply subtasks_ok; auto|].
    change (map (fun t => (t, L))) with on. rewrite on_app.
    assert (Hc : forall o' l', GClauses (map (subtask_at L) s) o' l' None
       (on (match c with None => [] | Some c => TKeyword KConstraints :: and_block (map constr_tokens c) end ++ [RP]))
       (mkHtn (map (subtask_at L) s) o' (Partial l') c)).
    { intros o' l'. rewrite on_app. destruct c as [c|].
      - eapply gcl_constraints; [apply constrs_ok|constructor].
      - constructor. }
    destruct o as [o|].
    + eapply gcl_ordering; [apply orders_ok|]. simpl. apply Hc.
    + rewrite (Ho eq_refl). apply Hc.
Qed.

Lemma opt_formula_ok k o : wf_opt wf_formula o ->
  GOptFormula k (on (opt_formula_tokens k o)) (option_map (formula_at L) o).
Proof.
  destruct o as [f|]; simpl; intros Hw.
  - apply gof_some. apply formula_ok; auto.
  - constructor.
Qed.

Lemma task_ok n l : wf_args l -> GTask (on (task_tokens n l)) (mkTask n L (map (sym_at L) l)).
Proof. intros Hw. apply gt. apply args_tokens; auto. Qed.

Lemma method_ok m : wf_method m -> GBlock (on (method_tokens m)) (BMethod (method_at L m)) false.
Proof.
  intros (H1 & H2 & H3 & H4 & H5 & H6). unfold method_tokens, method_at. cbn [on map].
  apply gbl_method. rewrite <- !untyped_at by auto.
  change (map (fun t => (t, L))) with on. unfold task_tokens. cbn [app].
  cbn [on map]. change (map (fun t => (t, L))) with on. rewrite on_app.
  cbn [on map]. change (map (fun t => (t, L))) with on. rewrite !on_app.
  apply gme; auto.
  - apply args_tokens; auto.
  - apply args_tokens; auto.
  - apply opt_formula_ok; auto.
  - apply htn_ok; auto.
Qed.

Lemma action_ok a : wf_action a -> GBlock (on (action_tokens a)) (BAction (action_at L a)) false.
Proof.
  intros (H1 & H2 & H3). unfold action_tokens, action_at. cbn [on map].
  change (map (fun t => (t, L))) with on. rewrite !on_app.
  apply gbl_action. apply gac; [apply task_ok; auto|apply opt_formula_ok; auto|apply opt_formula_ok; auto].
Qed.

Lemma reqs_ok l : GReqs (on (map TReq l ++ [RP])) l.
Proof. induction l; simpl; constructor; auto. Qed.

Lemma preds_ok l : Forall (fun p => wf_args (pred_vars p)) l ->
  GPreds (on (flat_map pred_tokens l ++ [RP])) (map (pred_at L) l).
Proof.
  induction 1 as [|p l Hp _ IH].
  - constructor.
  - cbn [flat_map map]. rewrite <- app_assoc, on_app. unfold pred_tokens at 1. cbn [on map app].
    apply gp_cons; auto. apply args_tokens; auto.
Qed.

Lemma funcs_ok l : Forall (fun p => wf_args (func_vars p)) l ->
  GFuncs (on (flat_map func_tokens l ++ [RP])) (map (func_at L) l).
Proof.
  induction 1 as [|p l Hp _ IH].
  - constructor.
  - cbn [flat_map map]. rewrite <- app_assoc, on_app. unfold func_tokens at 1. cbn [on map app].
    apply gf_cons; auto. apply args_tokens; auto.
Qed.

Lemma one_sym s : is_typed s \/ is_untyped s -> GArgs (on (sym_tokens s ++ [RP])) [sym_at L s].
Proof.
  intros Hs. replace (sym_tokens s ++ [RP]) with (syms_tokens [s])
    by (unfold syms_tokens; simpl; rewrite app_nil_r; reflexivity).
  apply (args_tokens [s]). destruct Hs as [Hs|Hs].
  - exists [s], []. split; [reflexivity|]. split; [constructor; [auto|constructor]|constructor].
  - exists [], [s]. split; [reflexivity|]. split; [constructor|constructor; [auto|constructor]].
Qed.

(** Sequences of closed domain blocks. *)
Inductive GSeq : list tok -> list dblock -> Prop :=
| gse_nil : GSeq [] []
| gse_cons ts b us bs : GBlock ts b false -> GSeq us bs -> GSeq (ts ++ us) (b :: bs).

Lemma gseq_app ts bs us cs : GSeq ts bs -> GSeq us cs -> GSeq (ts ++ us) (bs ++ cs).
Proof.
  induction 1 as [|ts b vs bs Hb Hs IH]; intros Hu; simpl; auto.
  rewrite <- app_assoc. constructor; auto.
Qed.
Lemma gseq_one ts b : GBlock ts b false -> GSeq ts [b].
Proof. intros Hb. rewrite <- (app_nil_r ts). constructor; [auto|constructor]. Qed.
Lemma gseq_close ts bs : GSeq ts bs -> GBlocks (ts ++ [rp L]) bs.
Proof.
  induction 1 as [|ts b vs bs Hb Hs IH]; simpl.
  - constructor.
  - rewrite <- app_assoc. apply gbs_cons; auto.
Qed.
Lemma gseq_map {A} (f : A -> list token) (g : A -> dblock) (P : A -> Prop) l :
  (forall x, P x -> GBlock (on (f x)) (g x) false) -> Forall P l ->
  GSeq (on (flat_map f l)) (map g l).
Proof.
  intros Hf. induction 1 as [|x l Hx _ IH]; simpl; [constructor|].
  rewrite on_app. constructor; auto.
Qed.

Lemma gpseq_app ts bs us cs : GPSeq ts bs -> GPSeq us cs -> GPSeq (ts ++ us) (bs ++ cs).
Proof.
  induction 1 as [|ts b vs bs Hb Hs IH]; intros Hu; simpl; auto.
  rewrite <- app_assoc. constructor; auto.
Qed.
Lemma gpseq_one ts b : GPBlock ts b false -> GPSeq ts [b].
Proof. intros Hb. rewrite <- (app_nil_r ts). constructor; [auto|constructor]. Qed.

Lemma gpseq_map {A} (f : A -> list token) (g : A -> pblock) (P : A -> Prop) l :
  (forall x, P x -> GPBlock (on (f x)) (g x) false) -> Forall P l ->
  GPSeq (on (flat_map f l)) (map g l).
Proof.
  intros Hf. induction 1 as [|x l Hx _ IH]; simpl; [constructor|].
  rewrite on_app. constructor; auto.
Qed.

Definition domain_blocks (d : domain_ast) : list dblock :=
  [BReqs (d_reqs d)]
  ++ match d_types d with None => [] | Some l => map (fun s => BTypes [sym_at L s]) l end
  ++ match d_constants d with None => [] | Some l => map (fun s => BConstants [sym_at L s]) l end
  ++ [BPreds (map (pred_at L) (d_preds d))] ++ [BFuncs (map (func_at L) (d_funcs d))]
  ++ map (fun t => BTask (task_at L t)) (d_tasks d)
  ++ map (fun t => BMethod (method_at L t)) (d_methods d)
  ++ map (fun t => BAction (action_at L t)) (d_actions d).

Lemma flat_map_one {A B} (f : A -> B) l : flat_map (fun x => [f x]) l = map f l.
Proof. induction l; simpl; congruence. Qed.
Lemma flat_map_none {A B} (l : list A) : flat_map (fun _ => @nil B) l = [].
Proof. induction l; simpl; auto. Qed.

Lemma flat_map_map {A B C} (f : A -> B) (g : B -> list C) l :
  flat_map g (map f l) = flat_map (fun x => g (f x)) l.
Proof. induction l; simpl; congruence. Qed.

Lemma domain_blocks_of d : wf_domain d -> domain_of (d_name d) (domain_blocks d) = domain_at L d.
Proof.
  intros (H1 & H2 & _). unfold domain_of, domain_blocks, domain_at.
  destruct d as [nm ty co rq pd tk me ac fu]. cbn [d_name d_types d_constants d_reqs d_preds d_tasks d_methods d_actions d_funcs] in *.
  f_equal; rewrite !flat_map_app, !flat_map_map; cbn [flat_map];
    rewrite ?flat_map_none, ?flat_map_one, ?app_nil_r; cbn [app].
  - destruct ty as [tl|], co as [cl|]; simpl in *; rewrite ?flat_map_map, ?flat_map_none, ?flat_map_one, ?app_nil_r;
      try reflexivity; destruct tl; simpl; tauto || reflexivity.
  - destruct ty as [tl|], co as [cl|]; simpl in *; rewrite ?flat_map_map, ?flat_map_none, ?flat_map_one, ?app_nil_r;
      try reflexivity; destruct cl; simpl; tauto || reflexivity.
  - destruct ty as [tl|], co as [cl|]; simpl; rewrite ?flat_map_map, ?flat_map_none, ?app_nil_r; reflexivity.
  - destruct ty as [tl|], co as [cl|]; simpl; rewrite ?flat_map_map, ?flat_map_none, ?app_nil_r; reflexivity.
  - destruct ty as [tl|], co as [cl|]; simpl; rewrite ?flat_map_map, ?flat_map_none, ?app_nil_r; reflexivity.
  - destruct ty as [tl|], co as [cl|]; simpl; rewrite ?flat_map_map, ?flat_map_none, ?app_nil_r; reflexivity.
  - destruct ty as [tl|], co as [cl|]; simpl; rewrite ?flat_map_map, ?flat_map_none, ?app_nil_r; reflexivity.
  - destruct ty as [tl|], co as [cl|]; simpl; rewrite ?flat_map_map, ?flat_map_none, ?app_nil_r; reflexivity.
Qed.

Lemma domain_ok d : wf_domain d -> GDocument (on (domain_tokens d)) (ADomain (domain_at L d)).
Proof.
  intros Hw. rewrite <- domain_blocks_of by auto.
  destruct Hw as (H1 & H2 & H3 & H4 & H5 & H6 & H7).
  assert (Hb : GBlocks (on (req_tokens (d_reqs d)
    ++ match d_types d with None => [] | Some l => decl_tokens KTypes l end
    ++ match d_constants d with None => [] | Some l => decl_tokens KConstants l end
    ++ (LP :: TKeyword KPredicates :: flat_map pred_tokens (d_preds d) ++ [RP])
    ++ (LP :: TKeyword KFunctions :: flat_map func_tokens (d_funcs d) ++ [RP])
    ++ flat_map (fun t => LP :: TKeyword KTask :: task_tokens (task_name t) (task_params t) ++ [RP]) (d_tasks d)
    ++ flat_map method_tokens (d_methods d)
    ++ flat_map action_tokens (d_actions d)) ++ [rp L]) (domain_blocks d)).
  { apply gseq_close. unfold domain_blocks. rewrite !on_app.
    apply gseq_app; [|apply gseq_app; [|apply gseq_app; [|apply gseq_app; [|apply gseq_app; [|apply gseq_app; [|apply gseq_app]]]]]].
    - apply gseq_one. apply gbl_reqs. apply reqs_ok.
    - destruct (d_types d); [|constructor]. eapply gseq_map; [|apply H1].
      intros s Hs. apply gbl_types. apply one_sym. exact Hs.
    - destruct (d_constants d); [|constructor]. eapply gseq_map; [|apply H2].
      intros s Hs. apply gbl_constants. apply one_sym. exact Hs.
    - apply gseq_one. apply gbl_preds. apply preds_ok; auto.
    - apply gseq_one. apply gbl_funcs. apply funcs_ok; auto.
    - eapply gseq_map; [|exact H5]. intros t Ht. cbn [on map]. rewrite map_app. apply gbl_task. apply task_ok; auto.
    - eapply gseq_map; [|exact H6]. intros t Ht. apply method_ok; auto.
    - eapply gseq_map; [|exact H7]. intros t Ht. apply action_ok; auto. }
  unfold domain_tokens. cbn [app on map].
  apply gd_domain. match goal with |- GBlocks ?x _ => match type of Hb with GBlocks ?y _ => replace x with y; [exact Hb|] end end.
  change [rp L] with (on [RP]). rewrite <- on_app. unfold on. f_equal.
  repeat (rewrite <- app_assoc || cbn [app]). reflexivity.
Qed.

Definition problem_blocks (p : problem_ast) : list pblock :=
  [QReqs (p_reqs p)] ++ map (fun s => QObjects [sym_at L s]) (p_objects p)
  ++ match p_init_tn p with None => []
     | Some t => [QHtn (mkInit (option_map (map (sym_at L)) (itn_params t)) (htn_at L (itn_tn t)))] end
  ++ [QInit (map (pred_at L) (p_init p))]
  ++ match p_goal p with None => [] | Some f => [QGoal (formula_at L f)] end.

Lemma last_some_app {A B} (f : A -> option B) l l' :
  last_some f (l ++ l') = match last_some f l' with Some y => Some y | None => last_some f l end.
Proof.
  unfold last_some. rewrite fold_left_app.
  generalize (fold_left (fun o x => match f x with Some y => Some y | None => o end) l None) as o.
  induction l' as [|x l' IH] using rev_ind; intros o; simpl; [destruct o; reflexivity|].
  rewrite !fold_left_app. simpl. destruct (f x); auto.
Qed.
Lemma last_some_none {A B C} (f : B -> option C) (g : A -> B) l :
  (forall x, f (g x) = None) -> last_some f (map g l) = None.
Proof.
  intros Hf. induction l as [|x l IH]; auto. unfold last_some in *. simpl. rewrite Hf. exact IH.
Qed.

Lemma problem_blocks_of p : problem_of (problem_blocks p) = problem_at L p.
Proof.
  unfold problem_of, problem_blocks, problem_at.
  destruct p as [rq tn it gl ob]. cbn [p_reqs p_init_tn p_init p_goal p_objects].
  f_equal.
  - rewrite !flat_map_app, !flat_map_map, flat_map_none. destruct tn, gl; simpl; rewrite ?app_nil_r; reflexivity.
  - rewrite !last_some_app, last_some_none by reflexivity. destruct tn, gl; reflexivity.
  - rewrite !last_some_app, last_some_none by reflexivity. destruct tn, gl; reflexivity.
  - rewrite !last_some_app, last_some_none by reflexivity. destruct tn, gl; reflexivity.
  - rewrite !flat_map_app, !flat_map_map, flat_map_one. destruct tn, gl; simpl; rewrite ?app_nil_r; reflexivity.
Qed.

Lemma problem_ok p : wf_problem p -> GDocument (on (problem_tokens p)) (AProblem (problem_at L p)).
Proof.
  intros (H1 & H2 & H3 & H4). rewrite <- problem_blocks_of.
  assert (Hb : GPBlocks (on (req_tokens (p_reqs p)
    ++ decl_tokens KObjects (p_objects p)
    ++ match p_init_tn p with
       | None => []
       | Some t => LP :: TKeyword KHTN
                   :: match itn_params t with
                      | None => [] | Some l => TKeyword KParameters :: LP :: syms_tokens l end
                   ++ htn_tokens (itn_tn t)
       end
    ++ (LP :: TKeyword KInit :: flat_map pred_tokens (p_init p) ++ [RP])
    ++ match p_goal p with None => [] | Some f => LP :: TKeyword KGoal :: formula_tokens f end) ++ [rp L])
    (problem_blocks p)).
  { rewrite <- (app_nil_r (problem_blocks p)). apply gpseq_close; [|constructor]. unfold problem_blocks. rewrite !on_app.
    apply gpseq_app; [|apply gpseq_app; [|apply gpseq_app; [|apply gpseq_app]]].
    - apply gpseq_one. apply gpb_reqs. apply reqs_ok.
    - eapply gpseq_map; [|exact H1]. intros s Hs. apply gpb_objects. apply one_sym. exact Hs.
    - destruct (p_init_tn p) as [t|]; [|constructor]. apply gpseq_one. destruct H2 as [Hp Ht].
      cbn [on map]. change (map (fun t0 => (t0, L))) with on. apply gpb_htn.
      destruct t as [[ps|] h]; cbn [itn_params itn_tn option_map] in *; rewrite on_app.
      + cbn [on map app]. apply (gi_params L L); [apply args_tokens; auto|apply htn_ok; auto].
      + apply gi_plain. apply htn_ok; auto.
    - apply gpseq_one. apply gpb_init. apply preds_ok; auto.
    - destruct (p_goal p); [|constructor]. apply gpseq_one. apply gpb_goal. apply formula_ok. exact H4. }
  unfold problem_tokens. cbn [app on map].
  apply gd_problem. match goal with |- GPBlocks ?x _ => match type of Hb with GPBlocks ?y _ => replace x with y; [exact Hb|] end end.
  change [rp L] with (on [RP]). rewrite <- on_app. unfold on. f_equal.
  repeat (rewrite <- app_assoc || cbn [app]). reflexivity.
Qed.

Lemma ast_ok a : wf_ast a -> GDocument (on (ast_tokens a)) (ast_at L a).
Proof. destruct a; [apply domain_ok|apply problem_ok]. Qed.
End Tokens.
