(** Decomposition of tasks, stated on names (specification for C23-C27). *)
From Coq Require Import String List Relations.
From Verif Require Import Base Token Errors Ast.
Import ListNotations.
Open Scope list_scope.

Section Spec.
Variable d : domain_ast.

Definition compound (n : string) : Prop := In n (map task_name (d_tasks d)).
Definition primitive (n : string) : Prop := In n (map act_name (d_actions d)).

(** No name is declared twice, neither among the tasks and actions nor across. *)
Definition distinct_names : Prop := NoDup (map task_name (d_tasks d) ++ map act_name (d_actions d)).

(** The names of the subtasks of a method, in order. *)
Definition subtask_names (m : method) : list string := map (fun s => sym_name (sub_task s)) (htn_subtasks (m_tn m)).

(** A method for [a] has a subtask [b]. *)
Definition decomposes (a b : string) : Prop :=
  exists m, In m (d_methods d) /\ sym_name (m_task m) = a /\ In b (subtask_names m).
Definition reaches : string -> string -> Prop := clos_refl_trans string decomposes.

(** Application of one method to one task of a network.  Networks are lists of
    task names; ordering constraints do not restrict which networks can be
    reached, because methods have no conditions on the order of application. *)
Inductive expand : list string -> list string -> Prop :=
| ex_method l1 m l2 : In m (d_methods d) ->
    expand (l1 ++ sym_name (m_task m) :: l2) (l1 ++ subtask_names m ++ l2).
Definition expands : list string -> list string -> Prop := clos_refl_trans (list string) expand.

(** [t] can be turned into a (possibly empty) network of actions; into nothing. *)
Definition refinable (t : string) : Prop := exists w, expands [t] w /\ Forall primitive w.
Definition vanishes (t : string) : Prop := expands [t] [].
End Spec.
