(** What the analyses should look at (specification for C67): the structure of
    a domain, and formulas up to everything but their atoms. *)
From Coq Require Import String List.
From Verif Require Import Base Token Ast AstRel.
Import ListNotations.
Open Scope list_scope.

(** ** The structure of a domain: names of tasks and actions, and what each
    method does, without parameters, types and formulas. *)
Record method_shape := mkMShape {
  ms_name : string;
  ms_head : string;
  ms_subtasks : list (option string * string);
  ms_order : ordering
}.
Record shape := mkShape {
  sh_tasks : list string;
  sh_actions : list string;
  sh_methods : list method_shape
}.
Definition sub_shape (s : subtask) : option string * string := (option_map sym_name (sub_id s), sym_name (sub_task s)).
Definition shape_of (d : domain_ast) : shape :=
  mkShape (map task_name (d_tasks d)) (map act_name (d_actions d))
    (map (fun m => mkMShape (sym_name (m_name m)) (sym_name (m_task m)) (map sub_shape (htn_subtasks (m_tn m))) (htn_orderings (m_tn m)))
         (d_methods d)).

(** ** Formulas up to connectives.  [goal]: the rules for goals of problems;
    [swap]: conjuncts may change places. *)
Section Alike.
Variables goal swap : bool.
Inductive alike : formula -> formula -> Prop :=
| al_refl f : alike f f
| al_sym f g : alike f g -> alike g f
| al_trans f g h : alike f g -> alike g h -> alike f h
(** Polarity, weights, equalities and the kind of connective do not matter. *)
| al_not f : alike (FNot f) f
| al_weight w f : alike (FWeighted w f) f
| al_equal a b : alike (FEquals a b) FEmpty
| al_or fs : alike (FOr fs) (FAnd fs)
| al_xor fs : alike (FXor fs) (FAnd fs)
(** Nesting and repetition do not matter. *)
| al_none : alike (FAnd []) FEmpty
| al_one f : alike (FAnd [f]) f
| al_flat fs gs hs : alike (FAnd (fs ++ FAnd gs :: hs)) (FAnd (fs ++ gs ++ hs))
| al_twice fs f gs hs : alike (FAnd (fs ++ f :: gs ++ f :: hs)) (FAnd (fs ++ f :: gs ++ hs))
| al_part fs f g hs : alike f g -> alike (FAnd (fs ++ f :: hs)) (FAnd (fs ++ g :: hs))
(** What is quantified over does not matter. *)
| al_forall vs ws f g : alike f g -> alike (FForAll vs f) (FForAll ws g)
| al_forall_and vs fs : alike (FForAll vs (FAnd fs)) (FAnd (map (FForAll vs) fs))
| al_swap fs f g hs : swap = true -> alike (FAnd (fs ++ f :: g :: hs)) (FAnd (fs ++ g :: f :: hs))
(** In a goal, implications are like the others and quantified parts count for nothing. *)
| al_imply ps qs : goal = true -> alike (FImply ps qs) (FAnd (ps ++ qs))
| al_goal_forall vs f : goal = true -> alike (FForAll vs f) FEmpty
| al_goal_exists vs f : goal = true -> alike (FExists vs f) FEmpty.
End Alike.

Section Like.
Variable swap : bool.
Definition like_action (a a' : action) : Prop :=
  act_name a = act_name a' /\ act_pos a = act_pos a' /\ act_params a = act_params a'
  /\ opt_rel (alike false swap) (act_pre a) (act_pre a') /\ opt_rel (alike false swap) (act_eff a) (act_eff a').
Definition like_method (m m' : method) : Prop :=
  m_name m = m_name m' /\ m_task m = m_task m' /\ m_task_terms m = m_task_terms m' /\ m_params m = m_params m'
  /\ m_tn m = m_tn m' /\ opt_rel (alike false swap) (m_pre m) (m_pre m').
(** The name of the domain and the functions are free, too. *)
Definition like_domain (d d' : domain_ast) : Prop :=
  d_types d = d_types d' /\ d_constants d = d_constants d' /\ d_reqs d = d_reqs d' /\ d_preds d = d_preds d'
  /\ d_tasks d = d_tasks d' /\ Forall2 like_action (d_actions d) (d_actions d') /\ Forall2 like_method (d_methods d) (d_methods d').
Definition like_problem (p p' : problem_ast) : Prop :=
  p_init_tn p = p_init_tn p' /\ p_init p = p_init p' /\ p_objects p = p_objects p'
  /\ opt_rel (alike true swap) (p_goal p) (p_goal p').
End Like.
