(** Documents that grow one part at a time, in the order in which the parts are
    checked.  [grows d d1 d2]: [d1] and [d2] consist of the first parts of [d],
    and [d2] has one part more than [d1].  Only the tree types are used. *)
From Coq Require Import String NArith List.
From Verif Require Import Base Token Ast.
Import ListNotations.
Open Scope list_scope.

(** A domain with the constants and functions of [d]. *)
Definition part (d : domain_ast) reqs types preds tasks actions methods : domain_ast :=
  mkDomain (d_name d) types (d_constants d) reqs preds tasks methods actions (d_funcs d).

Definition without_formulas (a : action) : action := mkAction (act_name a) (act_pos a) (act_params a) None None.
Definition without_effect (a : action) : action := mkAction (act_name a) (act_pos a) (act_params a) (act_pre a) None.

(** A method with other subtasks and ordering constraints. *)
Definition with_network (m : method) (subs : list subtask) (o : ordering) : method :=
  mkMethod (m_name m) (m_task m) (m_task_terms m) (m_params m) (m_pre m)
           (mkHtn subs (htn_ordering_pos (m_tn m)) o (htn_constraints (m_tn m))).

Inductive grows (d : domain_ast) : domain_ast -> domain_ast -> Prop :=
| gr_requirements :
    grows d (part d [] None [] [] [] []) (part d (d_reqs d) None [] [] [] [])
| gr_types :
    grows d (part d (d_reqs d) None [] [] [] []) (part d (d_reqs d) (d_types d) [] [] [] [])
| gr_predicate l x r : d_preds d = l ++ x :: r ->
    grows d (part d (d_reqs d) (d_types d) l [] [] []) (part d (d_reqs d) (d_types d) (l ++ [x]) [] [] [])
| gr_task l x r : d_tasks d = l ++ x :: r ->
    grows d (part d (d_reqs d) (d_types d) (d_preds d) l [] [])
            (part d (d_reqs d) (d_types d) (d_preds d) (l ++ [x]) [] [])
| gr_action l x r : d_actions d = l ++ x :: r ->
    grows d (part d (d_reqs d) (d_types d) (d_preds d) (d_tasks d) l [])
            (part d (d_reqs d) (d_types d) (d_preds d) (d_tasks d) (l ++ [without_formulas x]) [])
| gr_precondition l x r : d_actions d = l ++ x :: r ->
    grows d (part d (d_reqs d) (d_types d) (d_preds d) (d_tasks d) (l ++ [without_formulas x]) [])
            (part d (d_reqs d) (d_types d) (d_preds d) (d_tasks d) (l ++ [without_effect x]) [])
| gr_effect l x r : d_actions d = l ++ x :: r ->
    grows d (part d (d_reqs d) (d_types d) (d_preds d) (d_tasks d) (l ++ [without_effect x]) [])
            (part d (d_reqs d) (d_types d) (d_preds d) (d_tasks d) (l ++ [x]) [])
| gr_method l x r : d_methods d = l ++ x :: r ->
    grows d (part d (d_reqs d) (d_types d) (d_preds d) (d_tasks d) (d_actions d) l)
            (part d (d_reqs d) (d_types d) (d_preds d) (d_tasks d) (d_actions d) (l ++ [with_network x [] Total]))
| gr_subtask l x r k s q : d_methods d = l ++ x :: r -> htn_subtasks (m_tn x) = k ++ s :: q ->
    grows d (part d (d_reqs d) (d_types d) (d_preds d) (d_tasks d) (d_actions d) (l ++ [with_network x k Total]))
            (part d (d_reqs d) (d_types d) (d_preds d) (d_tasks d) (d_actions d) (l ++ [with_network x (k ++ [s]) Total]))
| gr_ordering l x r : d_methods d = l ++ x :: r ->
    grows d (part d (d_reqs d) (d_types d) (d_preds d) (d_tasks d) (d_actions d)
                  (l ++ [with_network x (htn_subtasks (m_tn x)) Total]))
            (part d (d_reqs d) (d_types d) (d_preds d) (d_tasks d) (d_actions d) (l ++ [x])).

(** Problems: objects, facts, the ordering constraints of the initial task
    network, its subtasks, the goal. *)
Definition ppart (p : problem_ast) objects init tn goal : problem_ast := mkProblem (p_reqs p) tn init goal objects.
Definition tn_upto (t : init_tn) (subs : list subtask) : init_tn :=
  mkInit (itn_params t)
         (mkHtn subs (htn_ordering_pos (itn_tn t)) (htn_orderings (itn_tn t)) (htn_constraints (itn_tn t))).

Inductive pgrows (p : problem_ast) : problem_ast -> problem_ast -> Prop :=
| pg_objects : pgrows p (ppart p [] [] None None) (ppart p (p_objects p) [] None None)
| pg_fact l x r : p_init p = l ++ x :: r ->
    pgrows p (ppart p (p_objects p) l None None) (ppart p (p_objects p) (l ++ [x]) None None)
| pg_ordering t : p_init_tn p = Some t ->
    pgrows p (ppart p (p_objects p) (p_init p) None None)
             (ppart p (p_objects p) (p_init p) (Some (tn_upto t [])) None)
| pg_subtask t k s q : p_init_tn p = Some t -> htn_subtasks (itn_tn t) = k ++ s :: q ->
    pgrows p (ppart p (p_objects p) (p_init p) (Some (tn_upto t k)) None)
             (ppart p (p_objects p) (p_init p) (Some (tn_upto t (k ++ [s]))) None)
| pg_goal :
    pgrows p (ppart p (p_objects p) (p_init p) (p_init_tn p) None) p.
