(** Induction principle for formulas (nested through lists). *)
From Coq Require Import List.
From Verif Require Import Ast.
Import ListNotations.

(** Induction on formulas through the lists. *)
Lemma formula_nested_ind (P : formula -> Prop) :
  P FEmpty -> (forall p, P (FAtom p)) -> (forall f, P f -> P (FNot f)) ->
  (forall fs, Forall P fs -> P (FAnd fs)) -> (forall fs, Forall P fs -> P (FOr fs)) ->
  (forall fs, Forall P fs -> P (FXor fs)) ->
  (forall ps qs, Forall P ps -> Forall P qs -> P (FImply ps qs)) ->
  (forall v f, P f -> P (FExists v f)) -> (forall v f, P f -> P (FForAll v f)) ->
  (forall w f, P f -> P (FWeighted w f)) -> (forall a b, P (FEquals a b)) ->
  forall f, P f.
Proof.
  intros H1 H2 H3 H4 H5 H6 H7 H8 H9 H10 H11.
  fix IH 1. intros f. destruct f as [|p|f|fs|fs|fs|ps qs|v f|v f|w f|a b].
  - exact H1.
  - apply H2.
  - apply H3, IH.
  - apply H4. induction fs as [|g fs IHfs]; constructor; [apply IH|exact IHfs].
  - apply H5. induction fs as [|g fs IHfs]; constructor; [apply IH|exact IHfs].
  - apply H6. induction fs as [|g fs IHfs]; constructor; [apply IH|exact IHfs].
  - apply H7.
    + induction ps as [|g ps IHps]; constructor; [apply IH|exact IHps].
    + induction qs as [|g qs IHqs]; constructor; [apply IH|exact IHqs].
  - apply H8, IH.
  - apply H9, IH.
  - apply H10, IH.
  - apply H11.
Qed.
