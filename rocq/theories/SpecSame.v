(** Domains that declare the same tasks, actions and ways of decomposition, in
    any order and perhaps repeatedly (specification for C80). *)
From Coq Require Import String List Permutation.
From Verif Require Import Base Token Errors Ast SpecTdg SpecRec SpecShape.
Import ListNotations.

(** The same constraints, in any order. *)
Definition same_orders (o o' : ordering) : Prop :=
  match o, o' with
  | Total, Total => True
  | Partial l, Partial l' => Permutation l l'
  | _, _ => False
  end.
(** The same task is decomposed in the same way; names, parameters, arguments,
    preconditions and constraints of the methods may differ. *)
Definition same_use (m m' : method) : Prop :=
  head m = head m' /\ map sub_shape (htn_subtasks (m_tn m)) = map sub_shape (htn_subtasks (m_tn m'))
  /\ same_orders (htn_orderings (m_tn m)) (htn_orderings (m_tn m')).
(** Every method of the one has such a counterpart in the other. *)
Definition covers (d d' : domain_ast) : Prop :=
  forall m, In m (d_methods d) -> exists m', In m' (d_methods d') /\ same_use m m'.
Definition same_structure (d d' : domain_ast) : Prop :=
  (forall x, compound d x <-> compound d' x) /\ (forall x, primitive d x <-> primitive d' x)
  /\ covers d d' /\ covers d' d.
