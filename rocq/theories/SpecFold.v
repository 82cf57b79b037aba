(** A problem written as a part of its domain (C86). *)
From Coq Require Import String NArith List.
From Verif Require Import Base Token Errors Ast SpecSem.
Import ListNotations.
Open Scope list_scope.

(** [d'] is [d] with the objects of [p] as constants, the facts and the goal as
    effect and precondition of an action [start], and the initial task network as
    the method of a task [top]. *)
Record folded (d : domain_ast) (p : problem_ast) (d' : domain_ast) (start : action) (top : task) (ms : list method) : Prop := mkFolded {
  fold_reqs : d_reqs d' = d_reqs d;
  fold_types : d_types d' = d_types d;
  fold_constants : constants_of d' = constants_of d ++ p_objects p;
  fold_preds : d_preds d' = d_preds d;
  fold_tasks : d_tasks d' = d_tasks d ++ [top];
  fold_actions : d_actions d' = d_actions d ++ [start];
  fold_methods : d_methods d' = d_methods d ++ ms;
  fold_top : task_params top = [];
  fold_params : act_params start = [];
  fold_goal : act_pre start = p_goal p;
  fold_facts : act_eff start = Some (FAnd (map FAtom (p_init p)));
  fold_network : match p_init_tn p with
    | None => ms = []
    | Some t => exists m, ms = [m] /\ sym_name (m_task m) = task_name top /\ m_task_terms m = []
                  /\ m_params m = tn_params t /\ m_pre m = None /\ m_tn m = itn_tn t
    end
}.

(** The added names are new. *)
Record new_names (d : domain_ast) (p : problem_ast) (start : action) (top : task) (ms : list method) : Prop := mkNew {
  new_action : unnamed act_name (act_name start) (d_actions d) /\ unnamed task_name (act_name start) (d_tasks d);
  new_task : unnamed act_name (task_name top) (d_actions d) /\ unnamed task_name (task_name top) (d_tasks d);
  new_both : act_name start <> task_name top;
  new_methods : forall m x, In m ms -> In x (d_methods d) -> sym_name (m_name x) <> sym_name (m_name m);
  new_subtasks : forall t s, p_init_tn p = Some t -> In s (htn_subtasks (itn_tn t)) ->
    sym_name (sub_task s) <> act_name start /\ sym_name (sub_task s) <> task_name top
}.

(** No name has two meanings in the problem. *)
Record separate (d : domain_ast) (p : problem_ast) : Prop := mkSeparate {
  sep_constants : forall o c, In o (p_objects p) -> In c (constants_of d) -> sym_name o <> sym_name c;
  sep_params : forall t, p_init_tn p = Some t -> NoDup (map sym_name (tn_params t))
    /\ forall o q, In o (p_objects p) -> In q (tn_params t) -> sym_name o <> sym_name q
}.

(** Only connectives that are checked alike in actions and in goals. *)
Definition simple (g : formula) : Prop :=
  forall h, within h g -> match h with FForAll _ _ | FExists _ _ | FImply _ _ => False | _ => True end.
