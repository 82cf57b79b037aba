(** Renaming the identifiers of a document: the grammar follows (C43, C45). *)
From Coq Require Import String Ascii NArith ZArith Bool List Permutation PeanoNat Lia.
From Verif Require Import Base Token Lexer Errors Ast AstRel Parser StrFacts SpecLex LexProofs2 LexProofs3 ParserProofs SpecGrammar GrammarTop SpecSim SimTop.
Import ListNotations.
Open Scope list_scope.
Open Scope nat_scope.

Section Ren.
Variable f : string -> string.
Notation rn := (ren_uniform f).
Notation T := (map (ren_tok f)).

Lemma T_app a b : T (a ++ b) = T a ++ T b.
Proof. apply map_app. Qed.
Lemma T_ids ns : T (ids ns) = ids (map (fun n => (f (fst n), snd n)) ns).
Proof. unfold ids. rewrite !map_map. reflexivity. Qed.
Lemma ren_untyped ns : map untyped (map (fun n => (f (fst n), snd n)) ns) = ren_vars rn (map untyped ns).
Proof. unfold ren_vars. rewrite !map_map. reflexivity. Qed.
Lemma ren_with_type t l ns :
  map (with_type (f t) l) (map (fun n => (f (fst n), snd n)) ns) = ren_vars rn (map (with_type t l) ns).
Proof. unfold ren_vars. rewrite !map_map. reflexivity. Qed.

Ltac go := rewrite ?T_app; cbn [map ren_tok fst snd lp rp kw oper id]; rewrite ?T_app, ?T_ids.

Lemma args_ren ts vs : GArgs ts vs -> GArgs (T ts) (ren_vars rn vs).
Proof.
  induction 1 as [ns l|ns l t lt ts r _ IH].
  - go. rewrite <- ren_untyped. apply ga_end.
  - go. unfold ren_vars at 1. rewrite map_app. fold (ren_vars rn). change (map (ren_sym rn (fV rn))) with (ren_vars rn).
    rewrite <- ren_with_type. apply ga_group; auto.
Qed.
Lemma reqs_ren ts r : GReqs ts r -> GReqs (T ts) r.
Proof. induction 1; go; constructor; auto. Qed.
Lemma preds_ren ts r : GPreds ts r -> GPreds (T ts) (map (ren_pred rn) r).
Proof. induction 1; go; [constructor|]. apply gp_cons; auto using args_ren. Qed.
Definition ren_fn (g : func) : func := mkFunc (f (func_name g)) (func_pos g) (ren_vars rn (func_vars g)).
Lemma funcs_ren ts r : GFuncs ts r -> GFuncs (T ts) (map ren_fn r).
Proof. induction 1; go; [constructor|]. apply gf_cons; auto using args_ren. Qed.
Lemma nonempty g : g <> FEmpty -> ren_formula rn g <> FEmpty.
Proof. destruct g; simpl; congruence. Qed.
Lemma formula_ren ts g : GFormula ts g -> GFormula (T ts) (ren_formula rn g).
Proof.
  revert ts g. apply (GFormula_mut (fun ts g _ => GFormula (T ts) (ren_formula rn g))
    (fun ts l _ => GMembers (T ts) (map (ren_formula rn) l)) (fun ts l _ => GBranches (T ts) (map (ren_formula rn) l)));
    intros; go; cbn [ren_formula map]; try (constructor; auto using args_ren, nonempty; fail).
Qed.
Lemma opt_formula_ren k ts g : GOptFormula k ts g -> GOptFormula k (T ts) (option_map (ren_formula rn) g).
Proof. destruct 1; go; constructor. apply formula_ren; auto. Qed.
Lemma task_ren ts t : GTask ts t -> GTask (T ts) (ren_task rn t).
Proof. destruct 1; go. apply gt. apply args_ren; auto. Qed.
Lemma action_ren ts a : GAction ts a -> GAction (T ts) (ren_action rn a).
Proof.
  destruct 1 as [ts n ln params us pre vs eff l H1 H2 H3]. go.
  apply (gac (T ts) (f n) ln (ren_vars rn params)); auto using opt_formula_ren. apply (task_ren _ _ H1).
Qed.
Definition ren_pairs : list (string * string) -> list (string * string) := map (fun e => (f (fst e), f (snd e))).
Lemma order_ren ts o : GOrder ts o -> GOrder (T ts) (ren_pairs o).
Proof.
  destruct 1. go. unfold ren_pairs. rewrite map_map. cbn [fst snd].
  replace (map (fun x => (f t1, f (fst x))) ns) with (map (fun n => (f t1, fst n)) (map (fun n => (f (fst n), snd n)) ns)).
  - apply go.
  - rewrite map_map. reflexivity.
Qed.
Lemma order_list_ren ts o : GOrderList ts o -> GOrderList (T ts) (ren_pairs o).
Proof.
  induction 1; go; [constructor|]. unfold ren_pairs. rewrite map_app. apply gol_cons; auto. apply order_ren; auto.
Qed.
Lemma orderings_ren ts o : GOrderings ts o -> GOrderings (T ts) (ren_pairs o).
Proof.
  destruct 1; go; [constructor|apply gos_one, order_ren; auto|apply gos_and, order_list_ren; auto].
Qed.
Lemma subtask_ren ts s : GSubtask ts s -> GSubtask (T ts) (ren_subtask rn s).
Proof.
  destruct 1; go; unfold ren_subtask; cbn [sub_id sub_task sub_terms option_map]; rewrite <- ren_untyped.
  - apply (gs_plain (f n) ln).
  - apply (gs_id (f i) li l1 (f n) ln).
Qed.
Lemma subtask_list_ren ts s : GSubtaskList ts s -> GSubtaskList (T ts) (map (ren_subtask rn) s).
Proof. induction 1; go; [constructor|]. apply gsl_cons; auto using subtask_ren. Qed.
Lemma subtasks_ren ts s : GSubtasks ts s -> GSubtasks (T ts) (map (ren_subtask rn) s).
Proof. destruct 1; go; [constructor|apply gss_one, subtask_ren; auto|apply gss_and, subtask_list_ren; auto]. Qed.
Lemma constraint_ren ts c : GConstraint ts c -> GConstraint (T ts) (ren_constr rn c).
Proof. destruct 1; go; constructor. Qed.
Lemma constraint_list_ren ts c : GConstraintList ts c -> GConstraintList (T ts) (map (ren_constr rn) c).
Proof. induction 1; go; [constructor|]. apply gcl_cons; auto using constraint_ren. Qed.
Lemma constraints_ren ts c : GConstraints ts c -> GConstraints (T ts) (map (ren_constr rn) c).
Proof. destruct 1; go; [constructor|apply gcs_one, constraint_ren; auto|apply gcs_and, constraint_list_ren; auto]. Qed.
Lemma clauses_ren s o l c ts h : GClauses s o l c ts h ->
  GClauses (map (ren_subtask rn) s) o (ren_pairs l) (option_map (map (ren_constr rn)) c) (T ts) (ren_htn rn h).
Proof.
  induction 1; go.
  - apply gcl_close.
  - eapply gcl_ordering; [apply orderings_ren; eassumption|]. unfold ren_pairs in *. rewrite <- map_app. auto.
  - eapply gcl_constraints; [apply constraints_ren; eassumption|]. auto.
Qed.
Lemma htn_ren ts h b : GHtn ts h b -> GHtn (T ts) (ren_htn rn h) b.
Proof.
  destruct 1; go.
  - apply gh_open.
  - eapply gh_partial; [apply subtasks_ren; eassumption|]. apply (clauses_ren s None [] None); auto.
  - apply gh_total, subtasks_ren; auto.
  - apply (gh_total_constraints l (T ts) (map (ren_subtask rn) s) l' (T us) (map (ren_constr rn) c));
      auto using subtasks_ren, constraints_ren.
Qed.
Definition ren_init (t : init_tn) : init_tn := mkInit (option_map (ren_vars rn) (itn_params t)) (ren_htn rn (itn_tn t)).
Lemma init_ren ts h b : GInitTn ts h b -> GInitTn (T ts) (ren_init h) b.
Proof.
  destruct 1; go.
  - apply gi_plain, htn_ren; auto.
  - apply gi_params; auto using args_ren, htn_ren.
Qed.
Lemma method_ren ts m b : GMethod ts m b -> GMethod (T ts) (ren_method rn m) b.
Proof.
  destruct 1 as [n ln l1 l2 ts params l3 l4 t lt us terms vs pre ws h b H1 H2 H3 H4 H5]. go.
  cbn [map]. rewrite !T_app.
  apply (gme (f n) ln l1 l2 (T ts) (ren_vars rn params) l3 l4 (f t) lt (T us) (ren_vars rn terms) (T vs)
             (option_map (ren_formula rn) pre) (T ws) (ren_htn rn h) b); auto using args_ren, opt_formula_ren, htn_ren.
  intros E. apply H5. destruct pre; auto; discriminate.
Qed.
Definition ren_block (b : dblock) : dblock :=
  match b with
  | BReqs l => BReqs l
  | BTypes l => BTypes (map (ren_sym rn f) l)
  | BConstants l => BConstants (ren_vars rn l)
  | BPreds l => BPreds (map (ren_pred rn) l)
  | BFuncs l => BFuncs (map ren_fn l)
  | BTask t => BTask (ren_task rn t)
  | BMethod m => BMethod (ren_method rn m)
  | BAction a => BAction (ren_action rn a)
  end.
Lemma block_ren ts b o : GBlock ts b o -> GBlock (T ts) (ren_block b) o.
Proof.
  destruct 1; go; cbn [ren_block]; constructor;
    auto using reqs_ren, preds_ren, funcs_ren, task_ren, method_ren, action_ren; apply args_ren; auto.
Qed.
Lemma blocks_ren ts bs : GBlocks ts bs -> GBlocks (T ts) (map ren_block bs).
Proof.
  induction 1; go; [constructor|apply gbs_open, block_ren; auto|apply gbs_cons; auto using block_ren].
Qed.
Definition ren_pblock (b : pblock) : pblock :=
  match b with
  | QReqs l => QReqs l
  | QObjects l => QObjects (ren_vars rn l)
  | QHtn t => QHtn (ren_init t)
  | QGoal g => QGoal (ren_formula rn g)
  | QInit l => QInit (map (ren_pred rn) l)
  end.
Lemma pblock_ren ts b o : GPBlock ts b o -> GPBlock (T ts) (ren_pblock b) o.
Proof.
  destruct 1; go; cbn [ren_pblock]; constructor; auto using reqs_ren, preds_ren, formula_ren, init_ren; apply args_ren; auto.
Qed.
Lemma pblocks_ren ts bs : GPBlocks ts bs -> GPBlocks (T ts) (map ren_pblock bs).
Proof.
  induction 1; go; [constructor|constructor|apply gpbs_open, pblock_ren; auto|apply gpbs_cons; auto using pblock_ren].
Qed.

Lemma flat_map_ren {A B C} (g : A -> list B) (h : A -> A) (k : B -> C) (g' : A -> list C) l :
  (forall a, g' (h a) = map k (g a)) -> flat_map g' (map h l) = map k (flat_map g l).
Proof. intros E. induction l as [|a l IH]; simpl; auto. rewrite map_app, E, IH. auto. Qed.
Lemma some_if_map {A B} (k : A -> B) l : some_if (map k l) = option_map (map k) (some_if l).
Proof. destruct l; auto. Qed.
Lemma last_some_map {A B C} (g : A -> option B) (h : A -> A) (k : B -> C) (g' : A -> option C) l :
  (forall a, g' (h a) = option_map k (g a)) -> last_some g' (map h l) = option_map k (last_some g l).
Proof.
  intros E. unfold last_some.
  assert (forall o, fold_left (fun o x => match g' x with Some y => Some y | None => o end) (map h l) (option_map k o)
    = option_map k (fold_left (fun o x => match g x with Some y => Some y | None => o end) l o)) as Hf; [|apply (Hf None)].
  induction l as [|a l IH]; intros o; simpl; auto. rewrite E. destruct (g a); simpl; [apply (IH (Some b))|apply IH].
Qed.
Definition with_name (n : string) (fs : list func) (d : domain_ast) : domain_ast :=
  mkDomain n (d_types d) (d_constants d) (d_reqs d) (d_preds d) (d_tasks d) (d_methods d) (d_actions d) fs.
Lemma domain_of_ren n bs : domain_of (f n) (map ren_block bs)
  = with_name (f n) (map ren_fn (d_funcs (domain_of n bs))) (ren_domain rn (domain_of n bs)).
Proof.
  unfold domain_of, with_name, ren_domain. cbn [d_types d_constants d_reqs d_preds d_tasks d_methods d_actions d_funcs].
  rewrite <- !some_if_map. f_equal.
  - f_equal. apply flat_map_ren. intros []; reflexivity.
  - unfold ren_vars. rewrite <- some_if_map. f_equal. apply flat_map_ren. intros []; reflexivity.
  - induction bs as [|[] bs IH]; simpl; auto. rewrite IH; auto.
  - apply flat_map_ren. intros []; reflexivity.
  - apply flat_map_ren. intros []; reflexivity.
  - apply flat_map_ren. intros []; reflexivity.
  - apply flat_map_ren. intros []; reflexivity.
  - apply flat_map_ren. intros []; reflexivity.
Qed.
Lemma problem_of_ren bs : problem_of (map ren_pblock bs) = ren_problem rn (problem_of bs).
Proof.
  unfold problem_of, ren_problem. cbn [p_reqs p_init_tn p_init p_goal p_objects].
  rewrite (last_some_map (fun b => match b with QInit l => Some l | _ => None end) ren_pblock (map (ren_pred rn))
             (fun b => match b with QInit l => Some l | _ => None end)) by (intros []; reflexivity).
  f_equal.
  - induction bs as [|[] bs IH]; simpl; auto. rewrite IH; auto.
  - apply (last_some_map (fun b => match b with QHtn t => Some t | _ => None end)). intros []; reflexivity.
  - destruct (last_some _ bs); auto.
  - apply last_some_map. intros []; reflexivity.
  - apply flat_map_ren. intros []; reflexivity.
Qed.

Theorem document_ren ts a : GDocument ts a -> exists a', GDocument (T ts) a' /\ ast_sim rn eq a a'.
Proof.
  destruct 1.
  - exists (ADomain (domain_of (f n) (map ren_block bs))). split; [go; apply gd_domain, blocks_ren; auto|].
    rewrite domain_of_ren. constructor. destruct (ren_domain_sim rn (domain_of n bs)). constructor; auto.
  - exists (AProblem (problem_of (map ren_pblock bs))). split; [go; apply gd_problem, pblocks_ren; auto|].
    rewrite problem_of_ren. constructor. apply ren_problem_sim.
Qed.
End Ren.

(** ** Reading and streams *)
Section Docs.
Context `{Unicode}.
Definition as_item (t : token * N) : lex_out * N := (LTok (fst t), snd t).
Definition ren_item (f : string -> string) (i : lex_out * N) : lex_out * N :=
  (match fst i with LTok (TIdent x) => LTok (TIdent (f x)) | o => o end, snd i).
Lemma reads_stream st ts st' : Reads st ts st' -> stream (length ts) st = map as_item ts.
Proof. induction 1 as [st|st t st1 ts st2 E _ IH]; simpl; auto. rewrite E, IH. reflexivity. Qed.
Lemma stream_reads ts : forall st, stream (length ts) st = map as_item ts -> exists st', Reads st ts st'.
Proof.
  induction ts as [|[t l] ts IH]; intros st E.
  - exists st. constructor.
  - cbn [length stream map] in E. destruct (get_token st) as [o st1] eqn:Eg. unfold as_item in E at 1. cbn [fst snd] in E.
    injection E as -> <- E. destruct (IH _ E) as (st' & Hr). exists st'. econstructor; eauto.
Qed.
Lemma ren_as_item f t : ren_item f (as_item t) = as_item (ren_tok f t).
Proof. destruct t as [[] l]; reflexivity. Qed.
Lemma renamed_reads f s s' ts st : renamed f s s' -> Reads (lex_new s) ts st ->
  exists st', Reads (lex_new s') (map (ren_tok f) ts) st'.
Proof.
  intros Hs Hr. apply stream_reads. rewrite map_length, Hs, (reads_stream _ _ _ Hr), !map_map.
  apply map_ext. intros t. apply (ren_as_item f t).
Qed.
Lemma renamed_reads_back f s s' ts' st' : renamed f s s' -> Reads (lex_new s') ts' st' ->
  exists ts st, Reads (lex_new s) ts st /\ map (ren_tok f) ts = ts'.
Proof.
  intros Hs Hr. apply reads_stream in Hr. rewrite Hs in Hr. fold (ren_item f) in Hr.
  assert (exists ts, stream (length ts') (lex_new s) = map as_item ts /\ map (ren_tok f) ts = ts') as (ts & E & Et).
  { clear Hs. revert Hr. generalize (stream (length ts') (lex_new s)) as l. revert ts'.
    intros ts' l. revert ts'. induction l as [|[o x] l IH]; intros [|[t y] ts'] E; try discriminate.
    - exists []; auto.
    - cbn [map] in E. unfold ren_item in E at 1. unfold as_item in E at 1. cbn [fst snd] in E. injection E as E0 -> E.
      destruct (IH _ E) as (ts & -> & <-).
      destruct o as [u| | |]; try discriminate. exists ((u, y) :: ts). split; [reflexivity|]. cbn [map]. f_equal.
      unfold ren_tok. cbn [fst snd]. f_equal. destruct u; congruence. }
  assert (length ts' = length ts) as El by (rewrite <- Et, map_length; auto).
  rewrite El in E. destruct (stream_reads _ _ E) as (st & Hr'). eauto.
Qed.

(** A renaming can be undone on the names of a list of tokens. *)
Definition undo (f : string -> string) (ts : list (token * N)) (y : string) : string :=
  match find (fun t => match fst t with TIdent x => String.eqb (f x) y | _ => false end) ts with
  | Some (TIdent x, _) => x
  | _ => y
  end.
Lemma undo_ok f ts : injective f -> map (ren_tok (undo f ts)) (map (ren_tok f) ts) = ts.
Proof.
  intros Hf. rewrite map_map. transitivity (map (fun t => t) ts); [|apply map_id]. apply map_ext_in.
  intros [t l] Ht. destruct t as [| | | | | |]; try reflexivity. unfold ren_tok. cbn [fst snd]. f_equal. f_equal.
  unfold undo. match goal with |- context [find ?p ts] => destruct (find p ts) as [[u lu]|] eqn:E end.
  - apply find_some in E as [_ E]. cbn [fst] in E. destruct u; try discriminate. apply String.eqb_eq, Hf in E. auto.
  - apply find_none with (x := (TIdent s, l)) in E; auto. cbn [fst] in E. rewrite String.eqb_refl in E. discriminate.
Qed.

Lemma renamed_parse f s s' n a : renamed f s s' -> parse n s = Ok a ->
  exists a' n', parse n' s' = Ok a' /\ ast_sim (ren_uniform f) eq a a'.
Proof.
  intros Hs E. apply parse_sound in E as (ts & st & Hr & Hg). destruct (renamed_reads _ _ _ _ _ Hs Hr) as (st' & Hr').
  destruct (document_ren f ts a Hg) as (a' & Hg' & Ha). exists a', (length (map (ren_tok f) ts)).
  split; auto. eapply parse_complete; eauto.
Qed.
Lemma renamed_parse_back f s s' n a : injective f -> renamed f s s' -> parse n s' = Ok a -> exists a' n', parse n' s = Ok a'.
Proof.
  intros Hf Hs E. apply parse_sound in E as (ts' & st' & Hr & Hg).
  destruct (renamed_reads_back _ _ _ _ _ Hs Hr) as (ts & st & Hr' & <-).
  destruct (document_ren (undo f ts) _ _ Hg) as (a' & Hg' & _). rewrite undo_ok in Hg' by auto.
  exists a', (length ts). eapply parse_complete; eauto.
Qed.
Lemma renamed_doc f s s' n a : renamed f s s' -> parse n s = Ok a ->
  exists n0, forall m, n0 <= m -> doc_sim (ren_uniform f) eq m s s'.
Proof.
  intros Hs E. destruct (renamed_parse _ _ _ _ _ Hs E) as (a' & n' & E' & Ha). exists (n + n'). intros m Hm.
  unfold doc_sim. rewrite (parse_mono n m), (parse_mono n' m) by (try lia; congruence). rewrite E, E'. constructor; auto.
Qed.

(** A renaming that leaves the words of a document alone. *)
Definition keep_ids (f : string -> string) : renaming := mkRen f f f f f (fun x => x).
Lemma formula_ids f g g' : formula_sim (ren_uniform f) eq g g' -> formula_sim (keep_ids f) eq g g'.
Proof.
  intros Hg. apply (formula_sim_mut (ren_uniform f) eq (fun g g' _ => formula_sim (keep_ids f) eq g g')
    (fun l l' _ => formulas_sim (keep_ids f) eq l l')) in Hg; auto; intros; try (constructor; auto; fail).
  destruct p0. constructor. apply mkPredSim; auto.
  eapply Forall2_impl; [exact ps_vars|]. intros x y []. apply mkSymSim; auto.
Qed.
Lemma vars_ids f l l' : vars_sim (ren_uniform f) eq l l' -> vars_sim (keep_ids f) eq l l'.
Proof. intros Hl. eapply Forall2_impl; [exact Hl|]. intros x y []. apply mkSymSim; auto. Qed.
Lemma opt_formula_ids f o o' : opt_rel (formula_sim (ren_uniform f) eq) o o' -> opt_rel (formula_sim (keep_ids f) eq) o o'.
Proof. intros Ho. eapply opt_impl; [exact Ho|]. intros. apply formula_ids; auto. Qed.
Lemma subtasks_ids f l l' : Forall2 (subtask_sim (ren_uniform f) eq) l l' -> l = l' ->
  Forall2 (subtask_sim (keep_ids f) eq) l l'.
Proof.
  induction 1 as [|x y l l' Hx _ IH]; intros E; constructor; injection E as -> E; auto.
  destruct Hx. apply mkSubSim; auto using vars_ids. destruct (sub_id y); constructor; auto.
Qed.
Lemma htn_ids f t : htn_sim (ren_uniform f) eq t t -> htn_sim (keep_ids f) eq t t.
Proof.
  intros []. apply mkHtnSim; auto using subtasks_ids. destruct (htn_orderings t); simpl; auto.
  transitivity (map (fun x => x) l); [symmetry; apply map_id|]. apply map_ext. intros []; auto.
Qed.
Lemma methods_ids f l l' : Forall2 (method_sim (ren_uniform f) eq) l l' -> l = l' ->
  Forall2 (method_sim (keep_ids f) eq) l l'.
Proof.
  induction 1 as [|x y l l' Hx _ IH]; intros E; constructor; injection E as -> E; auto.
  destruct Hx. apply mkMethodSim; auto using vars_ids, htn_ids, opt_formula_ids.
Qed.
Lemma domain_ids f d : domain_sim (ren_uniform f) eq d d -> domain_sim (keep_ids f) eq d d.
Proof.
  intros []. apply mkDomainSim; auto using methods_ids.
  - eapply opt_impl; [exact ds_types|]. intros a b Ha. eapply Forall2_impl; [exact Ha|]. intros x y []. apply mkSymSim; auto.
  - eapply opt_impl; [exact ds_constants|]. intros. apply vars_ids; auto.
  - eapply Forall2_impl; [exact ds_preds|]. intros x y []. apply mkPredSim; auto using vars_ids.
  - eapply Forall2_impl; [exact ds_tasks|]. intros x y []. apply mkTaskSim; auto using vars_ids.
  - eapply Forall2_impl; [exact ds_actions|]. intros x y []. apply mkActionSim; auto using vars_ids, opt_formula_ids.
Qed.
Lemma problem_ids f p : problem_sim (ren_uniform f) eq p p -> problem_sim (keep_ids f) eq p p.
Proof.
  intros []. apply mkProblemSim; auto using opt_formula_ids, vars_ids.
  - destruct (p_init_tn p) as [t|]; constructor. inversion prs_tn as [|a b Ht]; subst. destruct Ht.
    apply mkInitSim; auto using htn_ids. eapply opt_impl; [exact is_params|]. intros. apply vars_ids; auto.
  - eapply Forall2_impl; [exact prs_init|]. intros x y []. apply mkPredSim; auto using vars_ids.
Qed.
Lemma ast_ids f a : ast_sim (ren_uniform f) eq a a -> ast_sim (keep_ids f) eq a a.
Proof. intros Ha. inversion Ha; subst; constructor; auto using domain_ids, problem_ids. Qed.

Definition words (ts : list (token * N)) : list string :=
  flat_map (fun t => match fst t with TIdent x => [x] | _ => [] end) ts.
Lemma words_In ts x : In x (words ts) <-> In (TIdent x) (map fst ts).
Proof.
  unfold words. rewrite in_flat_map, in_map_iff. split.
  - intros ([t l] & Ht & Hx). exists (t, l). destruct t; simpl in *; try tauto. destruct Hx as [->|[]]; auto.
  - intros ([t l] & E & Ht). exists (t, l). simpl in *. subst. simpl. auto.
Qed.
Lemma doc_self s n : exists L, (forall x, In x L -> word_of s x) /\
  forall f, (forall x, In x L -> f x = x) -> doc_sim (ren_uniform f) eq n s s /\ doc_sim (keep_ids f) eq n s s.
Proof.
  unfold doc_sim. destruct (parse n s) as [a|e|p|] eqn:E.
  - apply parse_sound in E as (ts & st & Hr & Hg). exists (words ts). split.
    { intros x Hx. apply words_In in Hx. exists ts, st. auto. }
    intros f Hf. assert (ast_sim (ren_uniform f) eq a a) as Ha.
    { destruct (document_ren f ts a Hg) as (a' & Hg' & Ha). replace (map (ren_tok f) ts) with ts in Hg'.
      - rewrite <- (grammar_unique _ _ _ _ _ _ _ Hr Hg Hr Hg') in Ha. auto.
      - transitivity (map (fun t => t) ts); [symmetry; apply map_id|]. apply map_ext_in. intros [t l] Ht.
        destruct t; try reflexivity. unfold ren_tok. cbn [fst snd]. rewrite Hf; auto. apply words_In.
        apply (in_map fst) in Ht. auto. }
    split; constructor; auto using ast_ids.
  - exists []. split; [intros x []|]. intros f _. assert (Hh := parse_history s n). rewrite E in Hh.
    destruct e as [[]|[]|e]; [split; constructor; constructor; reflexivity|split; constructor; constructor; reflexivity|].
    exfalso. inversion Hh.
  - exists []. split; [intros x []|]. intros f _. split; constructor.
  - exists []. split; [intros x []|]. intros f _. split; constructor.
Qed.

Fixpoint longest (l : list string) : nat := match l with [] => 0 | s :: l' => max (String.length s) (longest l') end.
Fixpoint xs (n : nat) : string := match n with O => ""%string | S n' => String "x" (xs n') end.
Lemma fresh (l : list string) : exists s, ~ In s l.
Proof.
  exists (xs (S (longest l))). assert (forall n, String.length (xs n) = n) as Hx by (induction n; simpl; auto).
  intros Hi. assert (forall s, In s l -> String.length s <= longest l) as Hl.
  { clear. induction l as [|a l IH]; simpl; [tauto|]. intros s [->|Hs]; [lia|]. apply IH in Hs. lia. }
  apply Hl in Hi. rewrite Hx in Hi. lia.
Qed.
Definition swap (a b x : string) : string := if String.eqb x a then b else if String.eqb x b then a else x.
Lemma swap_inj a b : injective (swap a b).
Proof.
  intros x y. unfold swap.
  destruct (String.eqb_spec x a), (String.eqb_spec x b), (String.eqb_spec y a), (String.eqb_spec y b); congruence.
Qed.
Lemma uniform_ok f : injective f -> renaming_ok (ren_uniform f).
Proof. intros Hf. constructor; auto. Qed.
Lemma keep_ok f : injective f -> renaming_ok (keep_ids f).
Proof. intros Hf. constructor; auto. intros x y E; exact E. Qed.

(** A name outside [L] can be moved away while everything in [L] and [K] stays. *)
Lemma move_away x (L K : list string) : ~ In x L ->
  exists f, injective f /\ (forall y, In y L -> f y = y) /\ ~ In (f x) K /\ f x <> x.
Proof.
  intros Hx. destruct (fresh (x :: L ++ K)) as (b & Hb). exists (swap x b). split; [apply swap_inj|].
  assert (b <> x /\ ~ In b L /\ ~ In b K) as (H1 & H2 & H3).
  { split; [intros ->; apply Hb; left; auto|]. split; intros Hi; apply Hb; right; apply in_or_app; auto. }
  split; [|unfold swap; rewrite String.eqb_refl; auto].
  intros y Hy. unfold swap. destruct (String.eqb_spec y x) as [->|]; [contradiction|].
  destruct (String.eqb_spec y b) as [->|]; [contradiction|auto].
Qed.
End Docs.
