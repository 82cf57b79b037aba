(** Methods of which some parameters have been chosen, identified or given
    narrower types (specification for C87). *)
From Coq Require Import String NArith List.
From Verif Require Import Base Token Errors Ast SpecSem SpecPrint SpecAlpha.
Import ListNotations.
Open Scope list_scope.

(** [m'] is [m] with [r x] for each parameter [x]; its own parameters are what
    is still to be chosen. *)
Record instance (d : domain_ast) (m : method) (r : string -> string) (m' : method) : Prop := mkInstance {
  is_task : sym_name (m_task m') = sym_name (m_task m);
  is_terms : names (m_task_terms m') = map r (names (m_task_terms m));
  is_pre : option_map (formula_at 1%N) (m_pre m') = option_map (fun f => formula_at 1%N (ren_formula r f)) (m_pre m);
  is_subtasks : Forall2 (fun s s' => option_map sym_name (sub_id s') = option_map sym_name (sub_id s) /\ sym_name (sub_task s') = sym_name (sub_task s)
    /\ names (sub_terms s') = map r (names (sub_terms s))) (htn_subtasks (m_tn m)) (htn_subtasks (m_tn m'));
  is_order : htn_orderings (m_tn m') = htn_orderings (m_tn m);
  is_params : NoDup (names (m_params m')) /\ types_declared (d_types d) (m_params m');
  (* every choice has a fitting type *)
  is_fits : forall q, In q (m_params m) ->
    exists t, denotes (m_params m') (constants_of d) (r (sym_name q)) t /\ fits (d_types d) t (sym_type q);
  (* constants stay what they are *)
  is_rest : forall x, ~ In x (names (m_params m)) -> r x = x /\ (In x (names (constants_of d)) -> ~ In x (names (m_params m')))
}.

(** [d'] is [d] with further methods. *)
Record with_methods (d d' : domain_ast) (ms : list method) : Prop := mkWith {
  wm_reqs : d_reqs d' = d_reqs d;
  wm_types : d_types d' = d_types d;
  wm_constants : d_constants d' = d_constants d;
  wm_preds : d_preds d' = d_preds d;
  wm_tasks : d_tasks d' = d_tasks d;
  wm_actions : d_actions d' = d_actions d;
  wm_methods : d_methods d' = d_methods d ++ ms
}.
Definition instances (d : domain_ast) (ms : list method) : Prop :=
  forall m', In m' ms -> exists m r, In m (d_methods d) /\ instance d m r m'.
