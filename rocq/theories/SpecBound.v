(** How far a domain without recursion can be unfolded (specification for C82). *)
From Coq Require Import List PeanoNat.
From Verif Require Import Base Ast.

(** No method has more than [b] subtasks. *)
Definition at_most (b : nat) (d : domain_ast) : Prop :=
  forall m, In m (d_methods d) -> length (htn_subtasks (m_tn m)) <= b.
(** 1 + b + b^2 + ... + b^t *)
Fixpoint powers (b t : nat) : nat := match t with O => 1 | S t' => powers b t' + b ^ t end.
