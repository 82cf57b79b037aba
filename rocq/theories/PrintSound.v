(** Every tree a document denotes can be written down again. *)
From Coq Require Import String Ascii NArith ZArith Bool List Lia PeanoNat.
From Verif Require Import Base Token Lexer Errors Ast Parser
  StrFacts SpecLex LexProofs LexProofs2 LexProofs3 PropsLex SpecGrammar GrammarSound GrammarComplete GrammarTop
  SpecPrint FormulaInd PrintProofs PrintText.
Import ListNotations.
Open Scope list_scope.

(** Tokens with content have printable content. *)
Definition okt (x : tok) : Prop :=
  match fst x with TIdent _ | TNumber _ | TReq _ => printable (fst x) | _ => True end.

Notation pr := (Forall printable).

Ltac fsplit :=
  unfold lp, rp, kw, oper, id in *;
  repeat (rewrite ?Forall_app, ?Forall_cons_iff in *; cbn [fst snd] in *);
  unfold okt in *; cbn [fst] in *;
  repeat match goal with H : _ /\ _ |- _ => destruct H end.
Ltac pfin := repeat (rewrite ?Forall_app, ?Forall_cons_iff); repeat match goal with |- _ /\ _ => split end; auto;
  try exact I; try (apply Forall_nil); try assumption.

Lemma ids_names ns : Forall okt (ids ns) -> pr (map (fun n => TIdent (fst n)) ns).
Proof. unfold ids. rewrite !Forall_map. apply Forall_impl. intros a Ha. exact Ha. Qed.

Lemma flat_sym_typed t lt ns : Forall okt (ids ns) -> printable (TIdent t) ->
  pr (flat_map sym_tokens (map (with_type t lt) ns)).
Proof.
  intros Hn Ht. apply ids_names in Hn. induction ns as [|[n l] ns IH]; simpl; [constructor|].
  inversion Hn; subst. constructor; [assumption|]. constructor; [exact I|]. constructor; [assumption|]. apply IH; auto.
Qed.

Lemma args_wf ts l : GArgs ts l -> Forall okt ts -> wf_args l /\ pr (syms_tokens l).
Proof.
  induction 1 as [ns l|ns l t lt ts r Hg IH]; intros Ht.
  - fsplit. apply ids_names in H. split.
    + exists [], (map untyped ns). split; [reflexivity|]. split; [constructor|].
      apply Forall_map. apply Forall_forall. intros x _. split; reflexivity.
    + unfold syms_tokens. pfin. clear -H. induction ns; simpl; [constructor|].
      inversion H; subst. constructor; auto.
  - fsplit. destruct (IH ltac:(assumption)) as [(a & b & -> & Ha & Hb) Hp]. split.
    + exists (map (with_type t lt) ns ++ a), b. rewrite app_assoc. split; [reflexivity|].
      split; auto. apply Forall_app. split; auto.
      apply Forall_map. apply Forall_forall. intros x _. split; simpl; discriminate.
    + unfold syms_tokens in *. rewrite flat_map_app, <- app_assoc. apply Forall_app. split; auto.
      apply flat_sym_typed; auto.
Qed.

Lemma reqs_wf ts l : GReqs ts l -> Forall okt ts -> pr (map TReq l).
Proof. induction 1; intros Ht; fsplit; simpl; constructor; auto. Qed.

Lemma preds_wf ts l : GPreds ts l -> Forall okt ts ->
  Forall (fun p => wf_args (pred_vars p)) l /\ pr (flat_map pred_tokens l).
Proof.
  induction 1 as [|l n ln ts vars us ps Ha Hs IH]; intros Ht; fsplit.
  - split; constructor.
  - destruct (args_wf _ _ Ha) as [H1' H2']; auto. destruct (IH ltac:(assumption)) as [H3' H4'].
    split; [constructor; auto|]. cbn [flat_map]. unfold pred_tokens at 1. cbn [app]. pfin.
Qed.

Lemma funcs_wf ts l : GFuncs ts l -> Forall okt ts ->
  Forall (fun p => wf_args (func_vars p)) l /\ pr (flat_map func_tokens l).
Proof.
  induction 1 as [|l n ln ts vars us ps Ha Hs IH]; intros Ht; fsplit.
  - split; constructor.
  - destruct (args_wf _ _ Ha) as [H1' H2']; auto. destruct (IH ltac:(assumption)) as [H3' H4'].
    split; [constructor; auto|]. cbn [flat_map]. unfold func_tokens at 1. cbn [app]. pfin.
Qed.

Fixpoint members_wf (fs : list formula) : Prop :=
  match fs with [] => True | g :: r => wf_formula g /\ g <> FEmpty /\ members_wf r end.
Fixpoint branches_wf (fs : list formula) : Prop :=
  match fs with
  | [] => True
  | FWeighted _ g :: r => wf_formula g /\ g <> FEmpty /\ branches_wf r
  | _ :: _ => False end.

Lemma formula_wf ts f : GFormula ts f -> Forall okt ts -> wf_formula f /\ pr (formula_tokens f).
Proof.
  revert ts f. apply (GFormula_mut
    (fun ts f _ => Forall okt ts -> wf_formula f /\ pr (formula_tokens f))
    (fun ts fs _ => Forall okt ts -> members_wf fs /\ pr (flat_map formula_tokens fs))
    (fun ts fs _ => Forall okt ts -> branches_wf fs /\ pr (flat_map formula_tokens fs))).
  - intros l _. split; simpl; auto. pfin.
  - intros l1 l2 _. split; simpl; auto. pfin.
  - intros l n ln ts vars Ha Ht. fsplit. destruct (args_wf _ _ Ha) as [H1' H2']; auto.
    split; auto. cbn [formula_tokens]. pfin.
  - intros l1 l2 ts f l3 Hf IH Ht. fsplit. destruct (IH ltac:(assumption)) as [H3' H4'].
    split; auto. cbn [formula_tokens]. pfin.
  - intros l1 l2 ts fs Hf IH Ht. fsplit. destruct (IH ltac:(assumption)) as [H3' H4'].
    split; [left; exact H3'|]. cbn [formula_tokens]. destruct (existsb weighted fs); pfin.
  - intros l1 l2 ts fs Hf IH Ht. fsplit. destruct (IH ltac:(assumption)) as [H3' H4'].
    split; [exact H3'|]. cbn [formula_tokens]. pfin.
  - intros l1 l2 ts fs Hf IH Ht. fsplit. destruct (IH ltac:(assumption)) as [H3' H4'].
    split; [exact H3'|]. cbn [formula_tokens]. pfin.
  - intros l1 l2 a la b lb l3 Ht. fsplit. split; [exact I|]. cbn [formula_tokens]. pfin.
  - intros l1 l2 l3 ts vars us f l4 Ha Hf IH Ht. fsplit. destruct (args_wf _ _ Ha) as [H1' H2']; auto.
    destruct (IH ltac:(assumption)) as [H3' H4']. split; [split; auto|]. cbn [formula_tokens]. pfin.
  - intros l1 l2 l3 ts vars us f l4 Ha Hf IH Ht. fsplit. destruct (args_wf _ _ Ha) as [H1' H2']; auto.
    destruct (IH ltac:(assumption)) as [H3' H4']. split; [split; auto|]. cbn [formula_tokens]. pfin.
  - intros l1 l2 ts fs Hf IH Ht. fsplit. destruct (IH ltac:(assumption)) as [H3' H4'].
    split.
    + cbn [wf_formula]. destruct fs as [|f fs]; [left; exact I|right; split; [discriminate|exact H3']].
    + cbn [formula_tokens]. destruct (existsb weighted fs); pfin.
  - intros ts _ _ _. split; [exact I|constructor].
  - intros ts f us fs Hf IHf Hne Hm IHm Ht. fsplit.
    destruct (IHf ltac:(assumption)) as [H1' H2']. destruct (IHm ltac:(assumption)) as [H3' H4'].
    split; [split; auto|]. cbn [flat_map]. pfin.
  - intros l _. split; [exact I|constructor].
  - intros w l ts f us fs Hf IHf Hne Hm IHm Ht. fsplit.
    destruct (IHf ltac:(assumption)) as [H1' H2']. destruct (IHm ltac:(assumption)) as [H3' H4'].
    split; [split; auto|]. cbn [flat_map formula_tokens app]. pfin.
Qed.

Lemma opt_formula_wf k ts o : GOptFormula k ts o -> Forall okt ts ->
  wf_opt wf_formula o /\ pr (opt_formula_tokens k o).
Proof.
  destruct 1 as [|l ts f Hf]; intros Ht; fsplit.
  - split; [exact I|constructor].
  - destruct (formula_wf _ _ Hf) as [H1' H2']; auto. split; auto. cbn [opt_formula_tokens]. pfin.
Qed.

Lemma task_wf ts t : GTask ts t -> Forall okt ts ->
  wf_args (task_params t) /\ pr (task_tokens (task_name t) (task_params t)).
Proof.
  destruct 1 as [n ln l1 l2 ts params Ha]; intros Ht; fsplit.
  destruct (args_wf _ _ Ha) as [H1' H2']; auto. split; auto. unfold task_tokens. cbn [task_name task_params]. pfin.
Qed.

Lemma action_wf ts a : GAction ts a -> Forall okt ts -> wf_action a /\ pr (action_tokens a).
Proof.
  destruct 1 as [ts n ln params us pre vs eff l Ht0 Hp He]; intros Ht; fsplit.
  destruct (task_wf _ _ Ht0) as [H1' H2']; auto. destruct (opt_formula_wf _ _ _ Hp) as [H3' H4']; auto.
  destruct (opt_formula_wf _ _ _ He) as [H5' H6']; auto.
  split; [split; auto|]. unfold action_tokens. cbn [act_name act_params act_pre act_eff task_name task_params] in *. pfin.
Qed.

Lemma untyped_all ns : Forall is_untyped (map untyped ns).
Proof. apply Forall_map. apply Forall_forall. intros x _. split; reflexivity. Qed.
Lemma names_untyped_tokens ns : names_tokens (map untyped ns) = map (fun n => TIdent (fst n)) ns.
Proof. unfold names_tokens. rewrite map_map. reflexivity. Qed.

Lemma subtask_wf ts s : GSubtask ts s -> Forall okt ts -> wf_subtask s /\ pr (subtask_tokens s).
Proof.
  destruct 1; intros Ht; fsplit; (split; [repeat split; simpl; auto using untyped_all|]);
    unfold subtask_tokens; cbn [sub_id sub_task sub_terms untyped sym_name fst]; rewrite names_untyped_tokens;
    pfin; apply ids_names; auto.
Qed.

Lemma subtask_list_wf ts s : GSubtaskList ts s -> Forall okt ts ->
  Forall wf_subtask s /\ pr (concat (map subtask_tokens s)).
Proof.
  induction 1 as [|l ts s us ss Hs Hl IH]; intros Ht; fsplit.
  - split; constructor.
  - destruct (subtask_wf _ _ Hs) as [H1' H2']; auto. destruct (IH ltac:(assumption)) as [H3' H4'].
    split; [constructor; auto|]. cbn [map concat]. pfin.
Qed.

Lemma subtasks_wf ts s : GSubtasks ts s -> Forall okt ts ->
  Forall wf_subtask s /\ pr (concat (map subtask_tokens s)).
Proof.
  destruct 1 as [l1 l2|l ts s Hs|l1 l2 ts ss Hs]; intros Ht; fsplit.
  - split; constructor.
  - destruct (subtask_wf _ _ Hs) as [H1' H2']; auto. split; [constructor; auto|]. cbn [map concat]. pfin.
  - eapply subtask_list_wf; eauto.
Qed.

Lemma constr_wf ts c : GConstraint ts c -> Forall okt ts -> pr (constr_tokens c).
Proof. destruct 1; intros Ht; fsplit; simpl; pfin. Qed.

Lemma constrs_wf ts c : GConstraints ts c -> Forall okt ts -> pr (concat (map constr_tokens c)).
Proof.
  assert (forall ts c, GConstraintList ts c -> Forall okt ts -> pr (concat (map constr_tokens c))) as Hl.
  { induction 1 as [|l ts' c' us cs Hc Hl IH]; intros Ht; fsplit; cbn [map concat]; pfin.
    eapply constr_wf; eauto. }
  destruct 1 as [l1 l2|l ts c Hc|l1 l2 ts cs Hc]; intros Ht; fsplit.
  - constructor.
  - cbn [map concat]. pfin. eapply constr_wf; eauto.
  - eapply Hl; eauto.
Qed.

Definition order_tokens (o : string * string) : list token :=
  [LP; TOp OLess; TIdent (fst o); TIdent (snd o); RP].

Lemma order_wf ts o : GOrder ts o -> Forall okt ts -> pr (concat (map order_tokens o)).
Proof.
  destruct 1 as [l1 t1 lt ns l2]; intros Ht. fsplit. apply ids_names in H1.
  induction ns as [|n ns IH]; [constructor|]. inversion H1; subst. cbn [map concat order_tokens fst snd app].
  repeat (constructor; [assumption || exact I|]). apply IH; auto.
Qed.

Lemma orders_wf ts o : GOrderings ts o -> Forall okt ts -> pr (concat (map order_tokens o)).
Proof.
  assert (forall ts c, GOrderList ts c -> Forall okt ts -> pr (concat (map order_tokens c))) as Hl.
  { induction 1 as [|l ts' c' us cs Hc Hl IH]; intros Ht; fsplit; [constructor|].
    rewrite map_app, concat_app. pfin. eapply order_wf; eauto. }
  destruct 1 as [l1 l2|l ts c Hc|l1 l2 ts cs Hc]; intros Ht; fsplit.
  - constructor.
  - eapply order_wf; eauto.
  - eapply Hl; eauto.
Qed.

Lemma pr_and l : pr (concat l) -> pr (and_block l).
Proof. intros Hl. unfold and_block. pfin. Qed.

Lemma clauses_wf s o l c ts h : GClauses s o l c ts h -> Forall okt ts ->
  Forall wf_subtask s -> pr (concat (map subtask_tokens s)) ->
  (o = None -> l = []) -> pr (concat (map order_tokens l)) ->
  match c with Some c => pr (concat (map constr_tokens c)) | None => True end ->
  wf_htn h /\ pr (htn_tokens h).
Proof.
  induction 1 as [o l c r|o l c p ts l' us h Ho Hc IH|o l c p ts c' us h Ho Hc IH]; intros Ht Hs Hs' Hn Hl Hc'.
  - split; [split; auto|]. unfold htn_tokens. cbn [htn_orderings htn_subtasks htn_ordering_pos htn_constraints].
    constructor; [exact I|]. rewrite !Forall_app. split; [apply pr_and; auto|].
    split; [destruct o; [constructor; [exact I|]; apply pr_and; exact Hl|constructor]|].
    destruct c; [split; [constructor; [exact I|]; apply pr_and; auto|pfin]|pfin].
  - fsplit. apply IH; auto; [discriminate|]. rewrite map_app, concat_app. apply Forall_app; split; auto.
    eapply orders_wf; eauto.
  - fsplit. apply IH; auto. eapply constrs_wf; eauto.
Qed.

Lemma htn_wf ts h b : GHtn ts h b -> Forall okt ts -> wf_htn h /\ pr (htn_tokens h).
Proof.
  destruct 1 as [|l ts s us h Hs Hc|l ts s r Hs|l ts s l' us c Hs Hc]; intros Ht; fsplit.
  - split; [split; [constructor|simpl; auto]|]. unfold htn_tokens, and_block. simpl. pfin.
  - destruct (subtasks_wf _ _ Hs) as [H1' H2']; auto. eapply clauses_wf; eauto. constructor.
  - destruct (subtasks_wf _ _ Hs) as [H1' H2']; auto. split; [split; auto; reflexivity|].
    unfold htn_tokens. cbn [htn_orderings htn_subtasks htn_constraints].
    constructor; [exact I|]. rewrite !Forall_app. split; [apply pr_and; auto|pfin].
  - destruct (subtasks_wf _ _ Hs) as [H1' H2']; auto. split; [split; auto; reflexivity|].
    unfold htn_tokens. cbn [htn_orderings htn_subtasks htn_constraints].
    constructor; [exact I|]. rewrite !Forall_app. split; [apply pr_and; auto|].
    constructor; [exact I|]. apply pr_and. eapply constrs_wf; eauto.
Qed.

Lemma method_wf ts m b : GMethod ts m b -> Forall okt ts -> wf_method m /\ pr (method_tokens m).
Proof.
  destruct 1 as [n ln l1 l2 ts params l3 l4 t lt us terms vs pre ws h b H1 H2 H3 H4 H5]; intros Ht; fsplit.
  destruct (args_wf _ _ H1) as [H1' H2']; auto. destruct (args_wf _ _ H2) as [H3' H4']; auto.
  destruct (opt_formula_wf _ _ _ H3) as [H5' H6']; auto. destruct (htn_wf _ _ _ H4) as [H7' H8']; auto.
  split; [split; [split; reflexivity|split; [split; reflexivity|auto]]|].
  unfold method_tokens, task_tokens. cbn [m_name m_task m_params m_task_terms m_pre m_tn untyped sym_name fst app]. pfin.
Qed.

(** ** Domains *)
Definition block_wf (b : dblock) : Prop :=
  match b with
  | BReqs l => pr (map TReq l)
  | BTypes l | BConstants l => wf_args l /\ pr (syms_tokens l)
  | BPreds l => Forall (fun p => wf_args (pred_vars p)) l /\ pr (flat_map pred_tokens l)
  | BFuncs l => Forall (fun p => wf_args (func_vars p)) l /\ pr (flat_map func_tokens l)
  | BTask t => wf_args (task_params t) /\ pr (task_tokens (task_name t) (task_params t))
  | BMethod m => wf_method m /\ pr (method_tokens m)
  | BAction a => wf_action a /\ pr (action_tokens a)
  end.

Lemma block_ok ts b o : GBlock ts b o -> Forall okt ts -> block_wf b.
Proof.
  destruct 1; intros Ht; fsplit; cbn [block_wf].
  - eapply reqs_wf; eauto.
  - eapply args_wf; eauto.
  - eapply args_wf; eauto.
  - eapply preds_wf; eauto.
  - eapply funcs_wf; eauto.
  - eapply task_wf; eauto.
  - eapply method_wf; eauto.
  - eapply action_wf; eauto.
Qed.

Lemma blocks_ok ts bs : GBlocks ts bs -> Forall okt ts -> Forall block_wf bs.
Proof.
  induction 1 as [l|ts b l Hb|ts b us bs Hb Hs IH]; intros Ht; fsplit.
  - constructor.
  - constructor; [eapply block_ok; eauto|constructor].
  - constructor; [eapply block_ok; eauto|auto].
Qed.

Lemma flat_map_all {A B} (P : B -> Prop) (f : A -> list B) l :
  Forall (fun x => Forall P (f x)) l -> Forall P (flat_map f l).
Proof. induction 1; simpl; [constructor|]. apply Forall_app; auto. Qed.

Lemma args_decl l : wf_args l /\ pr (syms_tokens l) -> wf_decl l /\ pr (flat_map sym_tokens l).
Proof.
  intros [(a & b & -> & Ha & Hb) Hp]. unfold syms_tokens in Hp. apply Forall_app in Hp as [Hp _].
  split; auto. apply Forall_app. split.
  - eapply Forall_impl; [|exact Ha]. auto.
  - eapply Forall_impl; [|exact Hb]. auto.
Qed.

Lemma decl_pr k l : pr (flat_map sym_tokens l) -> pr (decl_tokens k l).
Proof.
  unfold decl_tokens. induction l as [|s l IH]; intros Hl; [constructor|].
  cbn [flat_map] in *. apply Forall_app in Hl as [H1 H2]. apply Forall_app. split; auto. pfin.
Qed.

Lemma flat_map_flat {A B C} (f : A -> list B) (g : B -> list C) l :
  flat_map g (flat_map f l) = flat_map (fun x => flat_map g (f x)) l.
Proof. induction l; simpl; auto. rewrite flat_map_app. congruence. Qed.

Lemma decls_wf {A} (f : A -> list symbol) (P : A -> Prop) k bs :
  (forall b, P b -> wf_decl (f b) /\ pr (flat_map sym_tokens (f b))) -> Forall P bs ->
  wf_decls (some_if (flat_map f bs))
  /\ pr (match some_if (flat_map f bs) with None => [] | Some l => decl_tokens k l end).
Proof.
  intros Hf Hb.
  assert (wf_decl (flat_map f bs) /\ pr (flat_map sym_tokens (flat_map f bs))) as [H1 H2].
  { split.
    - apply flat_map_all. eapply Forall_impl; [|exact Hb]. intros b Pb. apply Hf; auto.
    - rewrite flat_map_flat. apply flat_map_all. eapply Forall_impl; [|exact Hb]. intros b Pb. apply Hf; auto. }
  destruct (flat_map f bs) as [|s l]; simpl some_if.
  - split; [exact I|constructor].
  - split; [split; [discriminate|exact H1]|apply decl_pr; exact H2].
Qed.

Lemma domain_wf n bs : printable (TIdent n) -> Forall block_wf bs ->
  wf_domain (domain_of n bs) /\ pr (domain_tokens (domain_of n bs)).
Proof.
  intros Hn Hb.
  destruct (decls_wf (fun b => match b with BTypes l => l | _ => [] end) block_wf KTypes bs) as [T1 T2]; auto.
  { intros b Pb. destruct b; try (split; constructor). apply args_decl; exact Pb. }
  destruct (decls_wf (fun b => match b with BConstants l => l | _ => [] end) block_wf KConstants bs) as [C1 C2]; auto.
  { intros b Pb. destruct b; try (split; constructor). apply args_decl; exact Pb. }
  assert (forall B (P : B -> Prop) (f : dblock -> list B), (forall b, block_wf b -> Forall P (f b)) ->
            Forall P (flat_map f bs)) as HF.
  { intros B P f Hf. apply flat_map_all. eapply Forall_impl; [|exact Hb]. exact Hf. }
  assert (forall B (f : dblock -> list B) (g : B -> list token), (forall b, block_wf b -> pr (flat_map g (f b))) ->
            pr (flat_map g (flat_map f bs))) as HG.
  { intros B f g Hf. rewrite flat_map_flat. apply HF. exact Hf. }
  split.
  - unfold wf_domain, domain_of. cbn [d_types d_constants d_preds d_funcs d_tasks d_methods d_actions].
    split; [exact T1|]. split; [exact C1|].
    split; [apply HF; intros [] Pb; simpl in Pb; try constructor; tauto|].
    split; [apply HF; intros [] Pb; simpl in Pb; try constructor; tauto|].
    split; [apply HF; intros [] Pb; simpl in Pb; repeat constructor; tauto|].
    split; [apply HF; intros [] Pb; simpl in Pb; try constructor; try tauto; constructor|].
    apply HF; intros [] Pb; simpl in Pb; try constructor; try tauto; constructor.
  - unfold domain_tokens, domain_of, req_tokens. cbn [d_name d_types d_constants d_reqs d_preds d_funcs d_tasks d_methods d_actions].
    pfin.
    + clear -Hb. rewrite flat_map_concat_map, concat_map, map_map.
      induction Hb as [|b bs Hb _ IH]; simpl; [constructor|]. apply Forall_app; split; auto.
      destruct b; simpl; try constructor. exact Hb.
    + apply HG. intros [] Pb; simpl in Pb; try constructor; tauto.
    + apply HG. intros [] Pb; simpl in Pb; try constructor; tauto.
    + apply HG. intros [] Pb; simpl in Pb; try apply Forall_nil.
      cbn [flat_map]. rewrite app_nil_r. pfin; tauto.
    + apply HG. intros [] Pb; simpl in Pb; try apply Forall_nil.
      cbn [flat_map]. rewrite app_nil_r. pfin; tauto.
    + apply HG. intros [] Pb; simpl in Pb; try apply Forall_nil.
      cbn [flat_map]. rewrite app_nil_r. pfin; tauto.
Qed.

(** ** Problems *)
Definition pblock_wf (b : pblock) : Prop :=
  match b with
  | QReqs l => pr (map TReq l)
  | QObjects l => wf_args l /\ pr (syms_tokens l)
  | QHtn t => (wf_opt wf_args (itn_params t) /\ wf_htn (itn_tn t))
      /\ match itn_params t with None => True | Some l => pr (syms_tokens l) end /\ pr (htn_tokens (itn_tn t))
  | QGoal f => wf_formula f /\ pr (formula_tokens f)
  | QInit l => Forall (fun p => wf_args (pred_vars p)) l /\ pr (flat_map pred_tokens l)
  end.

Lemma pblock_ok ts b o : GPBlock ts b o -> Forall okt ts -> pblock_wf b.
Proof.
  destruct 1 as [| |l1 l2 ts r b Hi| |]; intros Ht; fsplit; cbn [pblock_wf].
  - eapply reqs_wf; eauto.
  - eapply args_wf; eauto.
  - destruct Hi as [ts h b Hh|l1' l2' ts params us h b Ha Hh]; cbn [itn_params itn_tn wf_opt].
    + destruct (htn_wf _ _ _ Hh) as [H1' H2']; auto.
    + fsplit. destruct (args_wf _ _ Ha) as [H1' H2']; auto. destruct (htn_wf _ _ _ Hh) as [H3' H4']; auto.
  - eapply formula_wf; eauto.
  - eapply preds_wf; eauto.
Qed.

Lemma pblocks_ok ts bs : GPBlocks ts bs -> Forall okt ts -> Forall pblock_wf bs.
Proof.
  induction 1 as [l|l|ts b l Hb|ts b us bs Hb Hs IH]; intros Ht; fsplit.
  - constructor.
  - constructor.
  - constructor; [eapply pblock_ok; eauto|constructor].
  - constructor; [eapply pblock_ok; eauto|auto].
Qed.

Lemma last_some_wf {A B} (f : A -> option B) (P : A -> Prop) (Q : B -> Prop) l :
  (forall x y, P x -> f x = Some y -> Q y) -> Forall P l ->
  match last_some f l with Some y => Q y | None => True end.
Proof.
  intros Hf. induction l as [|x l IH] using rev_ind; intros Hl; [exact I|].
  apply Forall_app in Hl as [H1 H2]. inversion H2; subst.
  unfold last_some in *. rewrite fold_left_app. simpl. destruct (f x) eqn:E; [eapply Hf; eauto|apply IH; auto].
Qed.

Lemma problem_wf bs : Forall pblock_wf bs ->
  wf_problem (problem_of bs) /\ pr (problem_tokens (problem_of bs)).
Proof.
  intros Hb.
  assert (H1 := last_some_wf (fun b => match b with QHtn t => Some t | _ => None end) pblock_wf
    (fun t => pblock_wf (QHtn t)) bs ltac:(intros [] y Hy E; try discriminate; injection E as <-; exact Hy) Hb).
  assert (H2 := last_some_wf (fun b => match b with QInit t => Some t | _ => None end) pblock_wf
    (fun t => pblock_wf (QInit t)) bs ltac:(intros [] y Hy E; try discriminate; injection E as <-; exact Hy) Hb).
  assert (H3 := last_some_wf (fun b => match b with QGoal t => Some t | _ => None end) pblock_wf
    (fun t => pblock_wf (QGoal t)) bs ltac:(intros [] y Hy E; try discriminate; injection E as <-; exact Hy) Hb).
  set (f := fun b => match b with QObjects l => l | _ => [] end).
  assert (wf_decl (flat_map f bs) /\ pr (flat_map sym_tokens (flat_map f bs))) as [H4 H5].
  { rewrite flat_map_flat. split; apply flat_map_all; (eapply Forall_impl; [|exact Hb]);
      intros [] Pb; try (constructor; fail); apply args_decl; exact Pb. }
  unfold problem_of, wf_problem, problem_tokens. cbn [p_reqs p_init_tn p_init p_goal p_objects].
  cbn [pblock_wf] in *.
  destruct (last_some (fun b => match b with QHtn t => Some t | _ => None end) bs) as [t|];
  destruct (last_some (fun b => match b with QInit t => Some t | _ => None end) bs) as [i|];
  destruct (last_some (fun b => match b with QGoal t => Some t | _ => None end) bs) as [g|];
  cbn [wf_opt];
  (split; [repeat match goal with |- _ /\ _ => split end; try exact I; try tauto; constructor|]).
  all: unfold req_tokens; pfin; try tauto; try (apply decl_pr; exact H5).
  all: try (clear -Hb; rewrite flat_map_concat_map, concat_map, map_map;
      induction Hb as [|b bs Hb _ IH]; simpl; [constructor|]; apply Forall_app; split; auto;
      destruct b; simpl; try constructor; exact Hb).
  all: try (split; [|discriminate]; simpl; unfold word_byte; vm_compute; auto; fail).
  all: try (destruct (itn_params t); [|constructor]; pfin; tauto).
Qed.

Theorem document_wf ts a : GDocument ts a -> Forall okt ts -> wf_ast a /\ pr (ast_tokens a).
Proof.
  destruct 1; intros Ht; fsplit.
  - apply domain_wf; auto. eapply blocks_ok; eauto.
  - apply problem_wf. eapply pblocks_ok; eauto.
Qed.

Section Final.
Context `{Unicode}.
Lemma reads_okt st ts st' : Reads st ts st' -> Forall okt ts.
Proof.
  induction 1 as [|st t st1 ts st2 Eg _ IH]; constructor; auto.
  apply C07_content in Eg. unfold okt; cbn [fst]. destruct t; auto.
Qed.

Theorem parse_wf n program a : parse n program = Ok a -> wf_ast a /\ pr (ast_tokens a).
Proof.
  intros E. assert (exists n, parse n program = Ok a) as Hex by eauto.
  apply parse_iff_grammar in Hex as (ts & st' & Hr & Hg).
  eapply document_wf; eauto. eapply reads_okt; eauto.
Qed.

(** Writing a parsed document and reading it again gives the same tree. *)
Theorem reparse n program a : parse n program = Ok a ->
  exists n0, forall m, (n0 <= m)%nat -> parse m (ast_text a) = Ok (ast_at 1 a).
Proof.
  intros E. apply parse_wf in E as [H1 H2]. exists (length (ast_tokens a)).
  intros m Hm. apply text_round_trip; auto.
Qed.
End Final.
