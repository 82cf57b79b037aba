(** Documents that differ in the names of parameters, chosen separately for
    every declaration (specification for C74). *)
From Coq Require Import String List.
From Verif Require Import Base Token Errors Ast SpecSem.
Import ListNotations.
Open Scope list_scope.

(** A renaming and its inverse.  (A renaming of finitely many names that keeps
    them apart extends to one of this kind.) *)
Definition inverse (f g : string -> string) : Prop := (forall x, g (f x) = x) /\ (forall x, f (g x) = x).

Section Rename.
Variable r : string -> string.
Definition ren_sym (s : symbol) : symbol := mkSym (r (sym_name s)) (sym_pos s) (sym_type s) (sym_type_pos s).
Definition ren_atom (q : predicate) : predicate := mkPred (pred_name q) (pred_pos q) (map ren_sym (pred_vars q)).
Fixpoint ren_formula (f : formula) : formula :=
  match f with
  | FEmpty => FEmpty
  | FAtom q => FAtom (ren_atom q)
  | FNot g => FNot (ren_formula g)
  | FAnd fs => FAnd (map ren_formula fs)
  | FOr fs => FOr (map ren_formula fs)
  | FXor fs => FXor (map ren_formula fs)
  | FImply ps qs => FImply (map ren_formula ps) (map ren_formula qs)
  | FExists vs g => FExists (map ren_sym vs) (ren_formula g)
  | FForAll vs g => FForAll (map ren_sym vs) (ren_formula g)
  | FWeighted w g => FWeighted w (ren_formula g)
  | FEquals a b => FEquals (r a) (r b)
  end.
Definition ren_sub (s : subtask) : subtask := mkSub (sub_id s) (sub_task s) (map ren_sym (sub_terms s)).
Definition ren_constr (c : constr) : constr :=
  match c with CEqual a b => CEqual (r a) (r b) | CNotEqual a b => CNotEqual (r a) (r b) end.
Definition ren_htn (h : htn) : htn :=
  mkHtn (map ren_sub (htn_subtasks h)) (htn_ordering_pos h) (htn_orderings h) (option_map (map ren_constr) (htn_constraints h)).
Definition ren_action (a : action) : action :=
  mkAction (act_name a) (act_pos a) (map ren_sym (act_params a)) (option_map ren_formula (act_pre a)) (option_map ren_formula (act_eff a)).
Definition ren_method (m : method) : method :=
  mkMethod (m_name m) (m_task m) (map ren_sym (m_task_terms m)) (map ren_sym (m_params m)) (option_map ren_formula (m_pre m)) (ren_htn (m_tn m)).
Definition ren_init_tn (t : init_tn) : init_tn := mkInit (option_map (map ren_sym) (itn_params t)) (ren_htn (itn_tn t)).
End Rename.

(** The names a formula uses without binding them. *)
Inductive free : formula -> string -> Prop :=
| fr_atom q v : In v (pred_vars q) -> free (FAtom q) (sym_name v)
| fr_left a b : free (FEquals a b) a
| fr_right a b : free (FEquals a b) b
| fr_child g f x : open_child g f -> free g x -> free f x
| fr_exists vs g x : ~ In x (map sym_name vs) -> free g x -> free (FExists vs g) x
| fr_forall vs g x : ~ In x (map sym_name vs) -> free g x -> free (FForAll vs g) x.

Definition names (l : list symbol) : list string := map sym_name l.
(** What an action, method or initial task network uses but does not declare. *)
Definition action_free (a : action) (x : string) : Prop :=
  ~ In x (names (act_params a)) /\ exists f, (act_pre a = Some f \/ act_eff a = Some f) /\ free f x.
Definition method_free (m : method) (x : string) : Prop :=
  ~ In x (names (m_params m))
  /\ ((exists f, m_pre m = Some f /\ free f x) \/ In x (names (m_task_terms m))
      \/ exists s, In s (htn_subtasks (m_tn m)) /\ In x (names (sub_terms s))).
Definition tn_free (t : init_tn) (x : string) : Prop :=
  ~ In x (names (tn_params t)) /\ exists s, In s (htn_subtasks (itn_tn t)) /\ In x (names (sub_terms s)).

(** Declarations that differ in the names of their parameters only. *)
Definition alpha_pred (q q' : predicate) : Prop :=
  pred_name q' = pred_name q /\ map sym_type (pred_vars q') = map sym_type (pred_vars q).
Definition alpha_task (t t' : task) : Prop :=
  task_name t' = task_name t /\ map sym_type (task_params t') = map sym_type (task_params t).
Definition alpha_action (a a' : action) : Prop :=
  exists r s, inverse r s /\ a' = ren_action r a /\ forall x, action_free a x -> r x = x.
Definition alpha_method (m m' : method) : Prop :=
  exists r s, inverse r s /\ m' = ren_method r m /\ forall x, method_free m x -> r x = x.
Record alpha_domain (d d' : domain_ast) : Prop := mkAlphaDomain {
  al_reqs : d_reqs d' = d_reqs d;
  al_types : d_types d' = d_types d;
  al_constants : d_constants d' = d_constants d;
  al_preds : Forall2 alpha_pred (d_preds d) (d_preds d');
  al_tasks : Forall2 alpha_task (d_tasks d) (d_tasks d');
  al_actions : Forall2 alpha_action (d_actions d) (d_actions d');
  al_methods : Forall2 alpha_method (d_methods d) (d_methods d')
}.
(** The parameters of the initial task network must keep clear of the objects,
    which hide them. *)
Inductive alpha_problem (p p' : problem_ast) : Prop :=
| al_none : p_init_tn p = None -> p_init_tn p' = None -> p_objects p' = p_objects p -> p_init p' = p_init p -> p_goal p' = p_goal p ->
    alpha_problem p p'
| al_some t r s : p_init_tn p = Some t -> p_init_tn p' = Some (ren_init_tn r t) -> inverse r s ->
    (forall x, In x (names (p_objects p)) -> r x = x) -> (forall x, tn_free t x -> r x = x) ->
    p_objects p' = p_objects p -> p_init p' = p_init p -> p_goal p' = p_goal p ->
    alpha_problem p p'.
