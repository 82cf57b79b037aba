(** Plans and the parts of a domain that matter for them (specification for C72). *)
From Coq Require Import String List Relations.
From Verif Require Import Base Token Errors Ast SpecSem SpecTdg SpecExec.
Import ListNotations.
Open Scope list_scope.

(** The names of the initial tasks. *)
Definition initial_names (p : problem_ast) : list string :=
  match p_init_tn p with
  | None => []
  | Some t => map (fun s => sym_name (sub_task s)) (htn_subtasks (itn_tn t))
  end.

(** From [c] on all tasks can be done (preconditions and the order of tasks are
    disregarded, so this is necessary for a plan). *)
Definition completes (d : domain_ast) (p : problem_ast) (c : config) : Prop :=
  exists facts, clos_refl_trans config (step d p) c (facts, []).
(** The same with the order of tasks. *)
Definition ocompletes (d : domain_ast) (p : problem_ast) (c : oconfig) : Prop :=
  exists c', clos_refl_trans oconfig (ostep d p) c c' /\ net_tasks (snd c') = [].

(** [d'] is [d] without the tasks and actions whose names are not kept, and
    without the methods for such tasks. *)
Definition restricted (keep : string -> bool) (d d' : domain_ast) : Prop :=
  d_types d' = d_types d /\ d_constants d' = d_constants d /\ d_reqs d' = d_reqs d /\ d_preds d' = d_preds d
  /\ d_tasks d' = filter (fun t => keep (task_name t)) (d_tasks d)
  /\ d_actions d' = filter (fun a => keep (act_name a)) (d_actions d)
  /\ d_methods d' = filter (fun m => keep (sym_name (m_task m))) (d_methods d).
