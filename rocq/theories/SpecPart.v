(** Documents from whose bodies something was removed, and documents with only
    one thing left in them (specification for C76). *)
From Coq Require Import String NArith List.
From Verif Require Import Base Token Ast SpecSem SpecUnused.
Import ListNotations.
Open Scope list_scope.

(** ** Removing *)

(** [thin g f]: [f] with members of conjunctions and disjunctions removed. *)
Inductive thin : formula -> formula -> Prop :=
| th_same f : thin f f
| th_not g f : thin g f -> thin (FNot g) (FNot f)
| th_and gs fs : thins gs fs -> thin (FAnd gs) (FAnd fs)
| th_or gs fs : thins gs fs -> thin (FOr gs) (FOr fs)
| th_xor gs fs : thins gs fs -> thin (FXor gs) (FXor fs)
| th_imply gs fs hs ks : thins gs fs -> thins hs ks -> thin (FImply gs hs) (FImply fs ks)
| th_exists v g f : thin g f -> thin (FExists v g) (FExists v f)
| th_forall v g f : thin g f -> thin (FForAll v g) (FForAll v f)
| th_weighted w g f : thin g f -> thin (FWeighted w g) (FWeighted w f)
with thins : list formula -> list formula -> Prop :=
| ths_nil fs : thins [] fs
| ths_cons g f gs fs : In f fs -> thin g f -> thins gs fs -> thins (g :: gs) fs.
Definition opt_thin (o' o : option formula) : Prop :=
  match o', o with None, _ => True | Some g, Some f => thin g f | Some _, None => False end.

(** Fewer subtasks and constraints. *)
Record thin_htn (h' h : htn) : Prop := mkThinHtn {
  tn_subtasks : incl (htn_subtasks h') (htn_subtasks h);
  tn_orderings : match htn_orderings h', htn_orderings h with
                 | Total, _ => True | Partial l', Partial l => incl l' l | Partial l', Total => l' = [] end
}.
Record thin_action (a' a : action) : Prop := mkThinAction {
  ta_name : act_name a' = act_name a; ta_params : act_params a' = act_params a;
  ta_pre : opt_thin (act_pre a') (act_pre a); ta_eff : opt_thin (act_eff a') (act_eff a)
}.
Record thin_method (m' m : method) : Prop := mkThinMethod {
  tm_name : sym_name (m_name m') = sym_name (m_name m); tm_params : m_params m' = m_params m;
  tm_task : m_task m' = m_task m; tm_terms : m_task_terms m' = m_task_terms m;
  tm_pre : opt_thin (m_pre m') (m_pre m); tm_tn : thin_htn (m_tn m') (m_tn m)
}.
(** Whole methods may be removed as well. *)
Record thin_domain (d' d : domain_ast) : Prop := mkThinDomain {
  td_reqs : d_reqs d' = d_reqs d; td_types : d_types d' = d_types d; td_constants : d_constants d' = d_constants d;
  td_preds : d_preds d' = d_preds d; td_tasks : d_tasks d' = d_tasks d;
  td_actions : Forall2 thin_action (d_actions d') (d_actions d);
  td_methods : exists kept gone, interleaved kept gone (d_methods d) /\ Forall2 thin_method (d_methods d') kept
}.
Record thin_problem (p' p : problem_ast) : Prop := mkThinProblem {
  tp_objects : p_objects p' = p_objects p;
  tp_init : incl (p_init p') (p_init p);
  tp_goal : opt_thin (p_goal p') (p_goal p);
  tp_tn : match p_init_tn p', p_init_tn p with
          | None, _ => True | Some t', Some t => itn_params t' = itn_params t /\ thin_htn (itn_tn t') (itn_tn t) | Some _, None => False end
}.

(** ** One thing left *)

(** [slice g f]: one path through [f] down to something without members. *)
Inductive slice : formula -> formula -> Prop :=
| sl_leaf f : (forall g, ~ child g f) -> slice f f
| sl_not g f : slice g f -> slice (FNot g) (FNot f)
| sl_and g f fs : In f fs -> slice g f -> slice (FAnd [g]) (FAnd fs)
| sl_or g f fs : In f fs -> slice g f -> slice (FOr [g]) (FOr fs)
| sl_xor g f fs : In f fs -> slice g f -> slice (FXor [g]) (FXor fs)
| sl_imply1 g f fs ks : In f fs -> slice g f -> slice (FImply [g] []) (FImply fs ks)
| sl_imply2 g f fs ks : In f ks -> slice g f -> slice (FImply [] [g]) (FImply fs ks)
| sl_exists v g f : slice g f -> slice (FExists v g) (FExists v f)
| sl_forall v g f : slice g f -> slice (FForAll v g) (FForAll v f)
| sl_weighted w g f : slice g f -> slice (FWeighted w g) (FWeighted w f).

Definition no_tn : htn := mkHtn [] None Total None.
Definition one_task (s : subtask) : htn := mkHtn [s] None Total None.
Definition only_order (h : htn) : htn := mkHtn [] (htn_ordering_pos h) (htn_orderings h) None.

Definition action_body (a : action) (pre eff : option formula) : action := mkAction (act_name a) (act_pos a) (act_params a) pre eff.
Definition method_body (m : method) (pre : option formula) (h : htn) : method :=
  mkMethod (m_name m) (m_task m) (m_task_terms m) (m_params m) pre h.
Definition bare_action (a : action) : action := action_body a None None.
Definition bare_method (m : method) : method := method_body m None no_tn.
Definition bodies (d : domain_ast) (acts : list action) (ms : list method) : domain_ast :=
  mkDomain (d_name d) (d_types d) (d_constants d) (d_reqs d) (d_preds d) (d_tasks d) ms acts (d_funcs d).
(** [y] in the place of [x], everything else bare. *)
Definition in_place {A B} (bare : A -> B) (x : A) (y : B) (l : list A) (l' : list B) : Prop :=
  exists l1 l2, l = l1 ++ x :: l2 /\ l' = map bare l1 ++ y :: map bare l2.

(** The declarations of [d] with at most one thing in their bodies: a path
    through one formula, one subtask, or one ordering block. *)
Inductive piece (d : domain_ast) : domain_ast -> Prop :=
| pc_bare : piece d (bodies d (map bare_action (d_actions d)) (map bare_method (d_methods d)))
| pc_pre a f g acts : act_pre a = Some f -> slice g f ->
    in_place bare_action a (action_body a (Some g) None) (d_actions d) acts -> piece d (bodies d acts (map bare_method (d_methods d)))
| pc_eff a f g acts : act_eff a = Some f -> slice g f ->
    in_place bare_action a (action_body a None (Some g)) (d_actions d) acts -> piece d (bodies d acts (map bare_method (d_methods d)))
| pc_mpre m f g ms : m_pre m = Some f -> slice g f ->
    in_place bare_method m (method_body m (Some g) no_tn) (d_methods d) ms -> piece d (bodies d (map bare_action (d_actions d)) ms)
| pc_subtask m s ms : In s (htn_subtasks (m_tn m)) ->
    in_place bare_method m (method_body m None (one_task s)) (d_methods d) ms -> piece d (bodies d (map bare_action (d_actions d)) ms)
| pc_order m ms :
    in_place bare_method m (method_body m None (only_order (m_tn m))) (d_methods d) ms -> piece d (bodies d (map bare_action (d_actions d)) ms).

Definition contents (p : problem_ast) tn init goal : problem_ast := mkProblem (p_reqs p) tn init goal (p_objects p).
(** The objects with at most one fact, path through the goal, initial subtask
    or ordering block. *)
Inductive ppiece (p : problem_ast) : problem_ast -> Prop :=
| pp_bare : ppiece p (contents p None [] None)
| pp_fact q : In q (p_init p) -> ppiece p (contents p None [q] None)
| pp_goal f g : p_goal p = Some f -> slice g f -> ppiece p (contents p None [] (Some g))
| pp_subtask t s : p_init_tn p = Some t -> In s (htn_subtasks (itn_tn t)) ->
    ppiece p (contents p (Some (mkInit (itn_params t) (one_task s))) [] None)
| pp_order t : p_init_tn p = Some t ->
    ppiece p (contents p (Some (mkInit (itn_params t) (only_order (itn_tn t)))) [] None).
