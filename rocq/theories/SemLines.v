(** Every line in a semantic error is a line of the document. *)
From Coq Require Import String NArith Bool List Relations.
From Verif Require Import Base Token Lexer Errors Ast AstLines SpecSem SemFormula.
Import ListNotations.
Open Scope list_scope.

Lemma in_flat {A} (f : A -> list N) l x n : In x l -> In n (f x) -> In n (flat_map f l).
Proof. intros Hx Hn. apply in_flat_map. eauto. Qed.

Lemma child_lines f g n : child f g -> In n (formula_lines f) -> In n (formula_lines g).
Proof.
  intros Hc Hn. destruct Hc; simpl; auto; try (eapply in_flat; eauto; fail); apply in_or_app;
    first [right; assumption | left; eapply in_flat; eauto; fail | right; eapply in_flat; eauto].
Qed.
Lemma within_lines f g n : within f g -> In n (formula_lines f) -> In n (formula_lines g).
Proof. induction 1; auto. eapply child_lines; eauto. Qed.

Lemma formula_dom_lines d params g n : dom_formula d params g -> In n (formula_lines g) -> In n (domain_lines d).
Proof.
  intros Hd Hn. unfold domain_lines. rewrite !in_app_iff. destruct Hd as [a g Hi E|a g Hi E|m g Hi E].
  - do 6 right. eapply in_flat; eauto. right. rewrite !in_app_iff. right; left. rewrite E. auto.
  - do 6 right. eapply in_flat; eauto. right. rewrite !in_app_iff. right; right. rewrite E. auto.
  - do 5 right; left. eapply in_flat; eauto. unfold method_lines. rewrite !in_app_iff. do 4 right; left. rewrite E. auto.
Qed.
Lemma scope_lines d l s n : dom_scope d l -> In s l -> In n (sym_lines s) -> In n (domain_lines d).
Proof.
  intros Hd Hs Hn. unfold domain_lines. rewrite !in_app_iff. destruct Hd as [a Hi|m Hi].
  - do 6 right. eapply in_flat; eauto. right. rewrite !in_app_iff. left. eapply in_flat; eauto.
  - do 5 right; left. eapply in_flat; eauto. unfold method_lines. rewrite !in_app_iff. do 3 right; left. eapply in_flat; eauto.
Qed.
Lemma typed_lines d l s n : dom_typed d l -> In s l -> In n (sym_lines s) -> In n (domain_lines d).
Proof.
  intros Hd Hs Hn. destruct Hd as [p Hi|t Hi|params g Hf].
  - unfold domain_lines. rewrite !in_app_iff. do 2 right; left. eapply in_flat; eauto. right. eapply in_flat; eauto.
  - unfold domain_lines. rewrite !in_app_iff. do 4 right; left. eapply in_flat; eauto. right. eapply in_flat; eauto.
  - eapply scope_lines; eauto. destruct Hf; constructor; auto.
Qed.
Lemma call_lines d h params task terms s n : dom_call d h params task terms -> In s (task :: terms) ->
  In n (sym_lines s) -> In n (domain_lines d).
Proof.
  intros Hd Hs Hn. unfold domain_lines. rewrite !in_app_iff. do 5 right; left.
  destruct Hd as [m Hi|m x Hi Hx]; eapply in_flat; eauto; unfold method_lines; rewrite !in_app_iff.
  - destruct Hs as [->|Hs]; [right; left; auto|]. do 2 right; left. eapply in_flat; eauto.
  - do 5 right. unfold htn_lines. rewrite in_app_iff. left. eapply in_flat; eauto.
    unfold subtask_lines. rewrite !in_app_iff. destruct Hs as [->|Hs]; [right; left; auto|]. do 2 right. eapply in_flat; eauto.
Qed.
Lemma atom_lines g p n : within (FAtom p) g -> In n (pred_lines p) -> In n (formula_lines g).
Proof. intros Hw Hn. eapply within_lines; eauto. Qed.

Lemma repeated_lines {A} (name : A -> string) (pos : A -> N) (l : list A) e n :
  repeated name pos l e -> In n [dup_first e; dup_second e] -> exists x, In x l /\ pos x = n.
Proof.
  intros (l1 & x & l2 & y & l3 & -> & _ & _ & _ & E1 & E2) [<-|[<-|[]]].
  - exists x. split; auto. apply in_or_app. right. left. auto.
  - exists y. split; auto. apply in_or_app. right. right. apply in_or_app. right. left. auto.
Qed.

Lemma argument_lines d params v n : dom_argument d params v -> In n (sym_lines v) -> In n (domain_lines d).
Proof.
  intros Hd Hn. destruct Hd as [params g p v Hf Hw Hi|h params task terms v Hc Hi].
  - eapply formula_dom_lines; eauto. eapply atom_lines; [apply within_open_within; eauto|]. right. eapply in_flat; eauto.
  - eapply call_lines; eauto. right. auto.
Qed.

Theorem domain_violation_lines d s n : domain_violation d s -> In n (sem_lines s) -> In n (domain_lines d).
Proof.
  assert (forall s, In (sym_pos s) (sym_lines s)) as Hs by (intros; left; auto).
  assert (forall p, In (pred_pos p) (pred_lines p)) as Hpp by (intros; left; auto).
  assert (forall p v, In v (pred_vars p) -> In (sym_pos v) (pred_lines p)) as Hpv
    by (intros; right; eapply in_flat; eauto).
  intros Hv Hn. destruct Hv; simpl in Hn; try tauto.
  - apply (repeated_lines _ _ _ _ n) in H as (x & Hx & <-); auto. unfold domain_lines. rewrite !in_app_iff.
    do 2 right; left. eapply in_flat; eauto.
  - apply (repeated_lines _ _ _ _ n) in H as (x & Hx & <-); auto. unfold domain_lines. rewrite !in_app_iff.
    do 4 right; left. eapply in_flat; eauto. left; auto.
  - apply (repeated_lines _ _ _ _ n) in H as (x & Hx & <-); auto. unfold domain_lines. rewrite !in_app_iff.
    do 6 right. eapply in_flat; eauto. left; auto.
  - apply (repeated_lines _ _ _ _ n) in H as (x & Hx & <-); auto. unfold domain_lines. rewrite !in_app_iff.
    do 5 right; left. eapply in_flat; eauto. unfold method_lines. rewrite in_app_iff. left; auto.
  - apply (repeated_lines _ _ _ _ n) in H0 as (x & Hx & <-); auto. eapply scope_lines; eauto.
  - destruct Hn as [<-|[]]. eapply typed_lines; eauto. unfold sym_lines. rewrite H2. simpl. auto.
  - destruct Hn as [<-|[]]. eapply formula_dom_lines; eauto. eapply atom_lines; eauto.
  - destruct Hn as [<-|[]]. eapply formula_dom_lines; eauto. eapply atom_lines; eauto.
  - destruct Hn as [<-|[]]. eapply argument_lines; eauto.
  - destruct Hn as [<-|[]]. eapply formula_dom_lines; eauto. eapply atom_lines; [apply within_open_within; eauto|].
    apply Hpv. eapply nth_error_In; eauto.
  - destruct Hn as [<-|[]]. eapply call_lines; eauto. left; auto.
  - destruct Hn as [<-|[]]. eapply call_lines; eauto. left; auto.
  - destruct Hn as [<-|[]]. eapply call_lines; eauto. left; auto.
  - destruct Hn as [<-|[]]. eapply call_lines; eauto. left; auto.
  - destruct Hn as [<-|[]]. eapply call_lines; eauto. right. eapply nth_error_In; eauto.
  - destruct Hn as [<-|[]]. unfold domain_lines. rewrite !in_app_iff. do 5 right; left. eapply in_flat; eauto.
    unfold method_lines. rewrite !in_app_iff. do 5 right. unfold htn_lines. rewrite in_app_iff. right. rewrite H2. simpl. auto.
Qed.

Lemma prob_atom_lines p q n : prob_atom p q -> In n (pred_lines q) -> In n (problem_lines p).
Proof.
  intros Ha Hn. unfold problem_lines. rewrite !in_app_iff. destruct Ha as [q Hi|g q E Hw].
  - do 2 right; left. eapply in_flat; eauto.
  - do 3 right. rewrite E. simpl. eapply atom_lines; eauto. apply within_open_within; auto.
Qed.
Lemma prob_call_lines p t task terms s n : prob_call p t task terms -> In s (task :: terms) ->
  In n (sym_lines s) -> In n (problem_lines p).
Proof.
  intros Hc Hs Hn. destruct Hc as [t x E Hx]. unfold problem_lines. rewrite !in_app_iff. right; left. rewrite E. simpl.
  rewrite in_app_iff. right. unfold htn_lines. rewrite in_app_iff. left. eapply in_flat; eauto.
  unfold subtask_lines. rewrite !in_app_iff. destruct Hs as [->|Hs]; [right; left; auto|]. do 2 right. eapply in_flat; eauto.
Qed.

Theorem problem_violation_lines d p s n : problem_violation d p s -> In n (sem_lines s) -> In n (problem_lines p).
Proof.
  assert (forall s, In (sym_pos s) (sym_lines s)) as Hs by (intros; left; auto).
  assert (forall p, In (pred_pos p) (pred_lines p)) as Hpp by (intros; left; auto).
  assert (forall p v, In v (pred_vars p) -> In (sym_pos v) (pred_lines p)) as Hpv
    by (intros; right; eapply in_flat; eauto).
  intros Hv Hn. destruct Hv; simpl in Hn; try (destruct Hn as [<-|[]]; [idtac]).
  - unfold problem_lines. rewrite !in_app_iff. left. eapply in_flat; eauto. unfold sym_lines. rewrite H1. simpl. auto.
  - apply (repeated_lines _ _ _ _ n) in H as (x & Hx & <-); auto. unfold problem_lines. rewrite !in_app_iff.
    left. eapply in_flat; eauto.
  - eapply prob_atom_lines; eauto.
  - eapply prob_atom_lines; eauto.
  - eapply prob_atom_lines; eauto.
  - eapply prob_call_lines; eauto. right; auto.
  - eapply prob_atom_lines; eauto. apply Hpv. eapply nth_error_In; eauto.
  - eapply prob_call_lines; eauto. left; auto.
  - eapply prob_call_lines; eauto. left; auto.
  - subst. eapply prob_call_lines; eauto. right; eapply nth_error_In; eauto.
  - subst. eapply prob_call_lines; eauto. right; eapply nth_error_In; eauto.
  - unfold problem_lines. rewrite !in_app_iff. right; left. rewrite H. simpl.
    rewrite in_app_iff. right. unfold htn_lines. rewrite in_app_iff. right. rewrite H2. simpl. auto.
Qed.
