(** Property theorems about the text of formulas: C85.  The parser shows the
    effects of every action.  Specification: SpecFormula.v, SpecStack.v. *)
From Coq Require Import String Ascii NArith ZArith Bool List Lia PeanoNat.
From Verif Require Import Base Token Lexer Errors Ast Parser Semantic Api Stack FormulaText Graph Tdg StrFacts SpecLex LexProofs LexProofs2 LexProofs3
  SpecPrint PrintText PrintSound PropsLex PropsParse FormulaInd ParserProofs ParserStream SpecStack StackProofs PropsStack SpecFormula FormulaTextProofs.
Import ListNotations.
Open Scope list_scope.
Open Scope nat_scope.

(** ** The formulas of a document *)
Lemma syms_words vs : Forall printable (syms_tokens vs) -> Forall (fun v => str_all word_byte (sym_name v)) vs.
Proof.
  unfold syms_tokens. rewrite Forall_app. intros [Hf _]. induction vs as [|v vs IH]; constructor.
  - cbn [flat_map] in Hf. apply Forall_app in Hf as [Hf _]. unfold sym_tokens in Hf. destruct (sym_type v); inversion Hf as [|? ? Hw]; subst; apply Hw.
  - cbn [flat_map] in Hf. apply Forall_app in Hf as [_ Hf]. auto.
Qed.
Lemma named_words vs : Forall (fun v => str_all word_byte (sym_name v)) vs -> ~ In ""%string (map sym_name vs) ->
  Forall (fun v => word (sym_name v)) vs.
Proof.
  intros Hv Hn. rewrite Forall_forall in *. intros v Hi. split; auto. intros E. apply Hn. rewrite <- E. apply in_map; auto.
Qed.

(** A formula, or a branch of a probabilistic effect. *)
Definition wf_part (f : formula) : Prop := match f with FWeighted _ g => wf_formula g | _ => wf_formula f end.
Lemma wf_whole f : wf_formula f -> wf_part f.
Proof. destruct f; intros Hf; try exact Hf. destruct Hf. Qed.
Definition members_of := fix members fs := match fs with
  | [] => True | g :: r => wf_formula g /\ g <> FEmpty /\ members r end.
Definition branches_of := fix branches fs := match fs with
  | [] => True
  | FWeighted _ g :: r => wf_formula g /\ g <> FEmpty /\ branches r
  | _ :: _ => False end.
Lemma members_parts fs : members_of fs -> Forall wf_part fs.
Proof.
  induction fs as [|g fs IH]; intros Hm; constructor; destruct Hm as (Hg & _ & Hm); auto using wf_whole.
Qed.
Lemma branches_parts fs : branches_of fs -> Forall wf_part fs.
Proof.
  induction fs as [|g fs IH]; intros Hm; constructor; destruct g; try destruct Hm; cbn [wf_part]; auto. apply IH. apply H0.
Qed.
Lemma parts_of f fs : f = FAnd fs \/ f = FOr fs \/ f = FXor fs -> wf_formula f -> Forall wf_part fs.
Proof.
  intros [->|[->| ->]] Hw; cbn [wf_formula] in Hw.
  - destruct Hw as [Hw|[_ Hw]]; [apply members_parts|apply branches_parts]; exact Hw.
  - apply members_parts. exact Hw.
  - apply members_parts. exact Hw.
Qed.

Lemma list_worded fs :
  Forall (fun f => wf_part f -> Forall printable (formula_tokens f) -> ~ unnamed f -> worded f) fs ->
  Forall wf_part fs -> Forall printable (flat_map formula_tokens fs) -> ~ Exists unnamed fs -> Forall worded fs.
Proof.
  induction 1 as [|f fs Hf _ IH]; intros Hw Hp Hu; constructor; inversion Hw; subst; cbn [flat_map] in Hp; apply Forall_app in Hp as [Hp1 Hp2].
  - apply Hf; auto.
  - apply IH; auto.
Qed.
Lemma part_worded f : wf_part f -> Forall printable (formula_tokens f) -> ~ unnamed f -> worded f.
Proof.
  induction f as [|p|f IH|fs IH|fs IH|fs IH|ps qs _ _|vs f IH|vs f IH|w f IH|a b] using formula_nested_ind; intros Hw Hp Hu.
  - constructor.
  - cbn [formula_tokens] in Hp. inversion Hp as [|? ? _ Hp1]; subst. inversion Hp1 as [|? ? Hn Hp2]; subst.
    constructor; [split; [|apply Hn]|apply syms_words; auto]. intros E. apply Hu. constructor. exact E.
  - cbn [formula_tokens] in Hp. inversion Hp as [|? ? _ Hp1]; subst. inversion Hp1 as [|? ? _ Hp2]; subst.
    apply Forall_app in Hp2 as [Hp2 _]. constructor. apply IH; auto.
    + apply wf_whole. exact Hw.
    + intros Hn. apply Hu. constructor. exact Hn.
  - cbn [formula_tokens] in Hp. inversion Hp as [|? ? _ Hp1]; subst. inversion Hp1 as [|? ? _ Hp2]; subst.
    apply Forall_app in Hp2 as [Hp2 _]. constructor. apply list_worded; auto; [apply (parts_of (FAnd fs)); [tauto|exact Hw]|intros Hn; apply Hu; constructor; exact Hn].
  - cbn [formula_tokens] in Hp. inversion Hp as [|? ? _ Hp1]; subst. inversion Hp1 as [|? ? _ Hp2]; subst.
    apply Forall_app in Hp2 as [Hp2 _]. constructor. apply list_worded; auto; [apply (parts_of (FOr fs)); [tauto|exact Hw]|intros Hn; apply Hu; constructor; exact Hn].
  - cbn [formula_tokens] in Hp. inversion Hp as [|? ? _ Hp1]; subst. inversion Hp1 as [|? ? _ Hp2]; subst.
    apply Forall_app in Hp2 as [Hp2 _]. constructor. apply list_worded; auto; [apply (parts_of (FXor fs)); [tauto|exact Hw]|intros Hn; apply Hu; constructor; exact Hn].
  - destruct Hw.
  - cbn [formula_tokens] in Hp. inversion Hp as [|? ? _ Hp1]; subst. inversion Hp1 as [|? ? _ Hp2]; subst. inversion Hp2 as [|? ? _ Hp3]; subst.
    apply Forall_app in Hp3 as [Hv Hp3]. apply Forall_app in Hp3 as [Hp3 _]. destruct Hw as [_ Hw]. constructor.
    + apply named_words; [apply syms_words; auto|]. intros Hn. apply Hu. constructor. auto.
    + apply IH; auto; [apply wf_whole; exact Hw|]. intros Hn. apply Hu. constructor. auto.
  - cbn [formula_tokens] in Hp. inversion Hp as [|? ? _ Hp1]; subst. inversion Hp1 as [|? ? _ Hp2]; subst. inversion Hp2 as [|? ? _ Hp3]; subst.
    apply Forall_app in Hp3 as [Hv Hp3]. apply Forall_app in Hp3 as [Hp3 _]. destruct Hw as [_ Hw]. constructor.
    + apply named_words; [apply syms_words; auto|]. intros Hn. apply Hu. constructor. auto.
    + apply IH; auto; [apply wf_whole; exact Hw|]. intros Hn. apply Hu. constructor. auto.
  - cbn [formula_tokens] in Hp. inversion Hp as [|? ? _ Hp1]; subst. cbn [wf_part] in Hw. constructor. apply IH; auto; [apply wf_whole; exact Hw|].
    intros Hn. apply Hu. constructor. exact Hn.
  - cbn [formula_tokens] in Hp. inversion Hp as [|? ? _ Hp1]; subst. inversion Hp1 as [|? ? _ Hp2]; subst.
    inversion Hp2 as [|? ? Ha Hp3]; subst. inversion Hp3 as [|? ? Hb _]; subst. constructor; [apply Ha|apply Hb].
Qed.

Lemma opt_tokens k o f : In f (opt_list o) -> incl (formula_tokens f) (opt_formula_tokens k o).
Proof. destruct o as [g|]; intros []; [subst|contradiction]. intros t Ht. right. exact Ht. Qed.
Lemma formula_in_tokens a f : In f (formulas_of a) -> incl (formula_tokens f) (ast_tokens a).
Proof.
  destruct a as [d|p]; cbn [formulas_of ast_tokens].
  - intros Hi t Ht. apply in_app_iff in Hi as [Hi|Hi]; apply in_flat_map in Hi as (x & Hx & Hi).
    + assert (In t (flat_map action_tokens (d_actions d))) as Hin.
      { apply in_flat_map. exists x. split; auto. unfold action_tokens. right; right. apply in_or_app; right.
        apply in_app_iff in Hi as [Hi|Hi]; apply in_or_app; [left; eapply opt_tokens; eauto|right; apply in_or_app; left; eapply opt_tokens; eauto]. }
      unfold domain_tokens. repeat rewrite ?in_app_iff; cbn [In]; repeat rewrite ?in_app_iff; cbn [In]; repeat rewrite ?in_app_iff. tauto.
    + assert (In t (flat_map method_tokens (d_methods d))) as Hin.
      { apply in_flat_map. exists x. split; auto. unfold method_tokens. right; right. apply in_or_app; right. right; right; right.
        apply in_or_app; right. apply in_or_app; left. eapply opt_tokens; eauto. }
      unfold domain_tokens. repeat rewrite ?in_app_iff; cbn [In]; repeat rewrite ?in_app_iff; cbn [In]; repeat rewrite ?in_app_iff. tauto.
  - intros Hi t Ht. unfold problem_tokens. destruct (p_goal p) as [g|]; [|destruct Hi]. destruct Hi as [<-|[]].
    repeat rewrite ?in_app_iff; cbn [In]; repeat rewrite ?in_app_iff; cbn [In]; repeat rewrite ?in_app_iff. cbn [In]. tauto.
Qed.
Lemma opt_in {A} (P : A -> Prop) o f : wf_opt P o -> In f (opt_list o) -> P f.
Proof. destruct o; intros Ho []; [subst; exact Ho|contradiction]. Qed.
Lemma formula_in_wf a f : wf_ast a -> In f (formulas_of a) -> wf_formula f.
Proof.
  destruct a as [d|p]; cbn [formulas_of wf_ast]; intros Hw Hi.
  - destruct Hw as (_ & _ & _ & _ & _ & Hm & Ha). rewrite Forall_forall in Hm, Ha.
    apply in_app_iff in Hi as [Hi|Hi]; apply in_flat_map in Hi as (x & Hx & Hi).
    + apply Ha in Hx as (_ & H1 & H2). apply in_app_iff in Hi as [Hi|Hi]; (eapply (opt_in wf_formula); [|eassumption]; assumption).
    + apply Hm in Hx as (_ & _ & _ & _ & H1 & _). (eapply (opt_in wf_formula); [|eassumption]; assumption).
  - destruct Hw as (_ & _ & _ & Hg). (eapply (opt_in wf_formula); [|eassumption]; assumption).
Qed.

Section Formula.
Context `{Unicode}.

Lemma document_worded n program a f : parse n program = Ok a -> In f (formulas_of a) -> ~ unnamed f -> worded f.
Proof.
  intros E Hi Hu. apply parse_wf in E as [Hw Hp]. apply part_worded; auto.
  - apply wf_whole. eapply formula_in_wf; eauto.
  - apply incl_Forall with (l1 := ast_tokens a); auto. apply formula_in_tokens; auto.
Qed.

(** Two formulas of documents have the same text only if they are the same, apart
    from what the text leaves out. *)
Theorem C85_document : forall n program a f n' program' a' g,
  parse n program = Ok a -> In f (formulas_of a) -> ~ unnamed f ->
  parse n' program' = Ok a' -> In g (formulas_of a') -> ~ unnamed g ->
  (formula_text f = formula_text g <-> blur f = blur g).
Proof.
  intros n program a f n' program' a' g E1 I1 U1 E2 I2 U2. pose proof (document_worded _ _ _ _ E1 I1 U1). pose proof (document_worded _ _ _ _ E2 I2 U2).
  split; [apply text_tells; assumption|apply blur_text].
Qed.

(** In a document read within [d] calls, the texts of the formulas need at most
    [2 * d] calls. *)
Theorem C85_calls : forall d n program a f,
  parse_in d n program = Fits (Ok a) -> In f (formulas_of a) -> formula_text_in (2 * d) f = Fits (formula_text f).
Proof.
  intros d n program a f E Hf. pose proof (parse_in_agrees d n program _ E) as Ep.
  destruct (parse_in_exact n program _ Ep) as (k & Hk & Hd). rewrite Hd in E. destruct (Nat.ltb_spec d k); [discriminate|].
  assert (exists j, nested f j /\ j <= k) as (j & Hj & Hl).
  { destruct a as [a|p].
    - apply depth_deepest in Hk as [Hk _]. auto.
    - cbn [formulas_of opt_list] in Hf. destruct (p_goal p) as [g|] eqn:Eg; [|destruct Hf]. destruct Hf as [<-|[]].
      apply Hk. exact Eg. }
  apply nested_height in Hj. rewrite text_in_exact. destruct (Nat.ltb_spec (2 * d) (height f)); auto. lia.
Qed.
End Formula.

(** The same for all formulas with proper names, implications included. *)
Theorem C85_formula : forall f g, worded f -> worded g -> (formula_text f = formula_text g <-> blur f = blur g).
Proof. intros. split; [apply text_tells; auto|apply blur_text]. Qed.

(** The calls for the text of a formula nest exactly as deep as it is high. *)
Theorem C85_depth : forall d f, formula_text_in d f = if d <? height f then Overflow else Fits (formula_text f).
Proof. intros. apply text_in_exact. Qed.

(** ** A name may be missing *)
Definition blank_domain (pred effect : string) : string :=
  "(define (domain d) (:predicates (" ++ pred ++ ")) (:action a :parameters () :effect " ++ effect ++ "))".
Theorem C85_unnamed_refuted `{Unicode} : exists dom dom' d d' f g,
  parse 300 dom = Ok (ADomain d) /\ map act_eff (d_actions d) = [Some f]
  /\ parse 300 dom' = Ok (ADomain d') /\ map act_eff (d_actions d') = [Some g]
  /\ formula_text f = formula_text g /\ blur f <> blur g.
Proof.
  exists (blank_domain "?" "(?)"), (blank_domain "?" "(and)").
  do 4 eexists. split; [vm_compute; reflexivity|]. split; [vm_compute; reflexivity|]. split; [vm_compute; reflexivity|].
  split; [vm_compute; reflexivity|]. split; [vm_compute; reflexivity|discriminate].
Qed.

(** ** Concrete cases *)
Open Scope string_scope.
Definition chance_domain : string :=
  "(define (domain d) (:predicates (p ?x) (q)) (:action a :parameters (?x) " ++
  ":effect (and (not (p ?x)) (forall (?y - t) (p ?y)) (or (q)) (probabilistic 0.50 (= ?x c)))))".
Example C85_example : exists d f, @parse uni0 300 chance_domain = Ok (ADomain d)
  /\ map act_eff (d_actions d) = [Some f] /\ In f (formulas_of (ADomain d)) /\ ~ unnamed f
  /\ formula_text f = "(" ++ sym_not ++ "(p(x,))" ++ and_sep ++ sym_forall ++ "y: p(y,)" ++ and_sep ++ "(q())" ++ and_sep
       ++ "(weight: 0.5, formula: x = c))"
  /\ height f = 4 /\ formula_text_in 3 f = Overflow /\ formula_text_in 4 f = Fits (formula_text f)
  /\ (exists a, @parse_in uni0 3 300 chance_domain = Fits (Ok a)).
Proof.
  do 2 eexists. split; [vm_compute; reflexivity|]. split; [vm_compute; reflexivity|]. split; [left; reflexivity|]. split.
  { intros Hu. repeat match goal with
      | H : unnamed _ |- _ => inversion H; clear H; subst
      | H : Exists _ (_ :: _) |- _ => inversion H; clear H; subst
      | H : Exists _ [] |- _ => inversion H
      | H : _ \/ _ |- _ => destruct H
      | H : In _ _ |- _ => cbn in H
      | H : False |- _ => destruct H
      | H : _ = _ |- _ => discriminate H
      end. }
  split; [vm_compute; reflexivity|]. split; [vm_compute; reflexivity|]. split; [vm_compute; reflexivity|]. split; [vm_compute; reflexivity|].
  eexists. vm_compute. reflexivity.
Qed.
(** The connective of one formula, types and lines are left out. *)
Example C85_example_blur :
  let p := mkPred "p" 1 [mkSym "x" 1 (Some "t") (Some 1%N)] in let q := mkPred "p" 2 [mkSym "x" 2 None None] in
  worded (FOr [FAtom p]) /\ worded (FXor [FAtom q]) /\ blur (FOr [FAtom p]) = blur (FXor [FAtom q])
  /\ worded (FOr [FAtom p; FEmpty]) /\ worded (FXor [FAtom p; FEmpty]) /\ blur (FOr [FAtom p; FEmpty]) <> blur (FXor [FAtom p; FEmpty]).
Proof.
  assert (word "p") as Hp by (split; [discriminate|split; [left; reflexivity|exact I]]).
  assert (str_all word_byte "x") as Hx by (split; [left; reflexivity|exact I]).
  cbv zeta. repeat split; try reflexivity; try discriminate; repeat (constructor; auto).
Qed.

Definition formula_theorems := (@C85_document, @C85_calls, @C85_formula, @C85_depth).
