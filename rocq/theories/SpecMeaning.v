(** What the classes of recursion promise about refinements and executions
    (specification for C58).  Everything is stated with the one-step relations
    [expand] (SpecTdg.v) and [step] (SpecExec.v). *)
From Coq Require Import String List Relations.
From Verif Require Import Base Token Errors Ast SpecTdg.
Import ListNotations.
Open Scope list_scope.

(** Exactly [k] steps. *)
Inductive steps {A} (R : A -> A -> Prop) : nat -> A -> A -> Prop :=
| ss_0 x : steps R 0 x x
| ss_S k x y z : R x y -> steps R k y z -> steps R (S k) x z.
(** No sequence of steps from [x] is longer than some number. *)
Definition ends {A} (R : A -> A -> Prop) (x : A) : Prop := exists b, forall k y, steps R k x y -> k <= b.

Section Spec.
Variable d : domain_ast.

Definition refines_to : list string -> list string -> Prop := clos_trans (list string) (expand d).
(** A task that brings itself back: somewhere; as the first task of the network;
    as the only task; with nothing but tasks that can vanish after it. *)
Definition comes_back : Prop := exists x l1 l2, refines_to [x] (l1 ++ x :: l2).
Definition leads : Prop := exists x l, refines_to [x] (x :: l).
Definition alone : Prop := exists x, refines_to [x] [x].
Definition grows_and_shrinks : Prop := exists x l, l <> [] /\ Forall (vanishes d) l /\ refines_to [x] (x :: l).

(** A task that could vanish if any task could be traded for any one task it
    leads to: some method has only subtasks that lead to such a task. *)
Inductive dissolves : string -> Prop :=
| ds_method m : In m (d_methods d) ->
    (forall y, In y (subtask_names m) -> exists z, reaches d y z /\ dissolves z) -> dissolves (sym_name (m_task m)).

(** Every method is totally ordered. *)
Definition all_total : Prop := forall m, In m (d_methods d) -> htn_orderings (m_tn m) = Total.
(** Whenever a vanishing task is a subtask of a method, the head of the method
    vanishes too or the subtask has a method without subtasks. *)
Definition tame : Prop := forall m x, In m (d_methods d) -> In x (subtask_names m) -> vanishes d x ->
  vanishes d (sym_name (m_task m))
  \/ exists m', In m' (d_methods d) /\ sym_name (m_task m') = x /\ htn_subtasks (m_tn m') = [].
(** Whenever the first and a later subtask of a method both lead back to its
    head, everything before the later one vanishes. *)
Definition unforked : Prop := forall m a l1 b l2, In m (d_methods d) -> subtask_names m = a :: l1 ++ b :: l2 ->
  reaches d a (sym_name (m_task m)) -> reaches d b (sym_name (m_task m)) -> Forall (vanishes d) (a :: l1).
End Spec.
