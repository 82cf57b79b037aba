(** Lines of a tree related to itself by a relation on lines. *)
From Coq Require Import String NArith List.
From Verif Require Import Base Token Lexer Errors Ast AstRel AstLines.
Import ListNotations.
Open Scope list_scope.

Section Lines.
Variable Q : N -> Prop.
Variable RL : N -> N -> Prop.
Hypothesis RLQ : forall x y, RL x y -> Q x.
Notation al := (Forall Q).

Lemma al_flat {A} (f : A -> list N) (R : A -> A -> Prop) l l' :
  (forall x y, R x y -> al (f x)) -> Forall2 R l l' -> al (flat_map f l).
Proof. intros Hf. induction 1; simpl; [constructor|]. apply Forall_app; split; eauto. Qed.
Lemma al_opt {A} (f : A -> list N) (R : A -> A -> Prop) o o' :
  (forall x y, R x y -> al (f x)) -> opt_rel R o o' -> al (opt_lines f o).
Proof. intros Hf. destruct 1; simpl; eauto. Qed.

Lemma sym_al x y : sym_rel RL x y -> al (sym_lines x).
Proof. destruct 1; unfold sym_lines; simpl; repeat constructor; eauto. Qed.
Lemma plain_al x y : plain_rel RL x y -> al (sym_lines x).
Proof. destruct 1; unfold sym_lines; simpl; repeat constructor; eauto. Qed.
Lemma syms_al l l' : syms_rel RL l l' -> al (flat_map sym_lines l).
Proof. apply al_flat. exact sym_al. Qed.
Lemma pred_al x y : pred_rel RL x y -> al (pred_lines x).
Proof. destruct 1. constructor; simpl; [eauto|eapply syms_al; eauto]. Qed.
Lemma func_al x y : func_rel RL x y -> al (func_lines x).
Proof. destruct 1. constructor; simpl; [eauto|eapply syms_al; eauto]. Qed.
Lemma task_al x y : task_rel RL x y -> al (task_lines x).
Proof. destruct 1. constructor; simpl; [eauto|eapply syms_al; eauto]. Qed.
Lemma formula_al x y : formula_rel RL x y -> al (formula_lines x).
Proof.
  revert x y. apply (formula_rel_mut RL (fun f f' _ => al (formula_lines f))
    (fun l l' _ => al (flat_map formula_lines l))); intros; simpl; auto; try apply Forall_app; auto.
  - eapply pred_al; eauto.
  - split; auto. eapply syms_al; eauto.
  - split; auto. eapply syms_al; eauto.
Qed.
Lemma subtask_al x y : subtask_rel RL x y -> al (subtask_lines x).
Proof.
  destruct 1. unfold subtask_lines. cbn [sub_id sub_task sub_terms]. rewrite !Forall_app. split; [|split].
  - eapply al_opt; [exact plain_al|eauto].
  - eapply plain_al; eauto.
  - eapply al_flat; [exact plain_al|eauto].
Qed.
Lemma htn_al x y : htn_rel RL x y -> al (htn_lines x).
Proof.
  destruct 1; unfold htn_lines; simpl; rewrite !Forall_app; split.
  - eapply al_flat; [exact subtask_al|eauto].
  - constructor.
  - eapply al_flat; [exact subtask_al|eauto].
  - eapply al_opt; [|eauto]. intros; simpl; eauto.
Qed.
Lemma method_al x y : method_rel RL x y -> al (method_lines x).
Proof.
  destruct 1. unfold method_lines. cbn [m_name m_task m_task_terms m_params m_pre m_tn]. rewrite !Forall_app. repeat split.
  - eapply plain_al; eauto.
  - eapply plain_al; eauto.
  - eapply syms_al; eauto.
  - eapply syms_al; eauto.
  - eapply al_opt; [exact formula_al|eauto].
  - eapply htn_al; eauto.
Qed.
Lemma action_al x y : action_rel RL x y -> al (action_lines x).
Proof.
  destruct 1. unfold action_lines. simpl. constructor; eauto. rewrite !Forall_app. repeat split.
  - eapply syms_al; eauto.
  - eapply al_opt; [exact formula_al|eauto].
  - eapply al_opt; [exact formula_al|eauto].
Qed.
Lemma ast_al x y : ast_rel RL x y -> al (ast_lines x).
Proof.
  destruct 1 as [? ? []|? ? []]; unfold ast_lines, domain_lines, problem_lines; simpl; rewrite !Forall_app; repeat split.
  - eapply al_opt; [exact syms_al|eauto].
  - eapply al_opt; [exact syms_al|eauto].
  - eapply al_flat; [exact pred_al|eauto].
  - eapply al_flat; [exact func_al|eauto].
  - eapply al_flat; [exact task_al|eauto].
  - eapply al_flat; [exact method_al|eauto].
  - eapply al_flat; [exact action_al|eauto].
  - eapply syms_al; eauto.
  - eapply al_opt; [|eauto]. intros x y []. simpl. apply Forall_app. split.
    + eapply al_opt; [exact syms_al|eauto].
    + eapply htn_al; eauto.
  - eapply al_flat; [exact pred_al|eauto].
  - eapply al_opt; [exact formula_al|eauto].
Qed.
Lemma err_al x y : err_rel RL x y -> al (err_lines x).
Proof. destruct 1; simpl; repeat constructor; eauto. Qed.
End Lines.
