(** A method in which a subtask is replaced by the subtasks of a method for it
    (specification for C88). *)
From Coq Require Import String NArith List.
From Verif Require Import Base Token Errors Ast SpecSem SpecAlpha SpecInst.
Import ListNotations.
Open Scope list_scope.

Definition conjoin (f g : option formula) : option formula :=
  match f, g with
  | Some f, Some g => Some (FAnd [f; g])
  | Some f, None => Some f
  | None, g => g
  end.
(** [outer] and [inner] are instances of methods of [d] with the parameters of
    [m]; the head of [inner] is the subtask [s] of [outer]. *)
Record unfolded (d : domain_ast) (m1 : method) (r1 : string -> string) (m2 : method) (r2 : string -> string)
    (outer inner m : method) (before : list subtask) (s : subtask) (after : list subtask) : Prop := mkUnfolded {
  un_outer : In m1 (d_methods d) /\ instance d m1 r1 outer;
  un_inner : In m2 (d_methods d) /\ instance d m2 r2 inner;
  un_params : m_params outer = m_params m /\ m_params inner = m_params m;
  un_subtask : htn_subtasks (m_tn outer) = before ++ s :: after;
  un_head : sym_name (m_task inner) = sym_name (sub_task s) /\ names (m_task_terms inner) = names (sub_terms s);
  un_task : sym_name (m_task m) = sym_name (m_task outer) /\ m_task_terms m = m_task_terms outer;
  un_pre : m_pre m = conjoin (m_pre outer) (m_pre inner);
  un_subtasks : htn_subtasks (m_tn m) = before ++ htn_subtasks (m_tn inner) ++ after;
  un_order : order_acyclic (htn_orderings (m_tn m))
}.
Definition unfoldings (d : domain_ast) (ms : list method) : Prop :=
  forall m, In m ms -> exists m1 r1 m2 r2 outer inner before s after, unfolded d m1 r1 m2 r2 outer inner m before s after.
