(** Task networks that do the same tasks but order them differently, and total
    orders written out as constraints (specification for C71). *)
From Coq Require Import String List Permutation.
From Verif Require Import Base Token Errors Ast AstRel SpecSem SpecRec.
Import ListNotations.
Open Scope list_scope.

(** The same subtasks with the same arguments; identifiers, orderings and
    constraints are free. *)
Definition same_call (s s' : subtask) : Prop := sub_task s = sub_task s' /\ sub_terms s = sub_terms s'.
Definition same_calls (a b : htn) : Prop := Forall2 same_call (htn_subtasks a) (htn_subtasks b).
(** ... and neither order contradicts itself. *)
Definition both_orderly (a b : htn) : Prop :=
  same_calls a b /\ order_acyclic (htn_orderings a) /\ order_acyclic (htn_orderings b).

(** The constraints that put [ids] one after the other. *)
Fixpoint chain (ids : list string) : list (string * string) :=
  match ids with
  | [] => []
  | i :: r => match r with [] => [] | j :: _ => (i, j) :: chain r end
  end.
(** [a] has ordered subtasks; [b] says the same by different identifiers for its
    subtasks and a constraint for each pair of neighbours, in any order. *)
Definition spelled_out (a b : htn) : Prop :=
  htn_orderings a = Total /\ same_calls a b
  /\ exists ids l, map id_of (htn_subtasks b) = map Some ids /\ NoDup ids
       /\ htn_orderings b = Partial l /\ Permutation l (chain ids).
Definition same_or_spelled_out (a b : htn) : Prop := a = b \/ spelled_out a b.

(** Documents that are alike but for the task networks. *)
Section Documents.
Variable R : htn -> htn -> Prop.
Definition method_rel (m m' : method) : Prop :=
  m_name m = m_name m' /\ m_task m = m_task m' /\ m_task_terms m = m_task_terms m' /\ m_params m = m_params m'
  /\ m_pre m = m_pre m' /\ R (m_tn m) (m_tn m').
Definition domain_rel (d d' : domain_ast) : Prop :=
  d_types d = d_types d' /\ d_constants d = d_constants d' /\ d_reqs d = d_reqs d' /\ d_preds d = d_preds d'
  /\ d_tasks d = d_tasks d' /\ d_actions d = d_actions d' /\ Forall2 method_rel (d_methods d) (d_methods d').
Definition problem_rel (p p' : problem_ast) : Prop :=
  p_objects p = p_objects p' /\ p_init p = p_init p' /\ p_goal p = p_goal p'
  /\ opt_rel (fun t t' => itn_params t = itn_params t' /\ R (itn_tn t) (itn_tn t')) (p_init_tn p) (p_init_tn p').
End Documents.
