(** Extending a domain by further declarations (specification for C55). *)
From Coq Require Import String List Relations.
From Verif Require Import Base Token Errors Ast SpecSem.
Import ListNotations.
Open Scope list_scope.

(** [d'] is [d] with further declarations behind those of [d]; the requirements
    may differ. *)
Record extended (d d' : domain_ast) (ts cs : list symbol) (ps : list predicate) (tks : list task) (acts : list action) (ms : list method) : Prop := mkExtended {
  ext_types : type_decls (d_types d') = type_decls (d_types d) ++ ts;
  ext_constants : constants_of d' = constants_of d ++ cs;
  ext_preds : d_preds d' = d_preds d ++ ps;
  ext_tasks : d_tasks d' = d_tasks d ++ tks;
  ext_actions : d_actions d' = d_actions d ++ acts;
  ext_methods : d_methods d' = d_methods d ++ ms
}.

(** What has to hold of the additions: new names, and well-formed additions. *)
Definition fresh {A} (name : A -> string) (old new : list A) : Prop :=
  NoDup (map name new) /\ forall x y, In x old -> In y new -> name x <> name y.
Record additions_ok (d d' : domain_ast) (ps : list predicate) (tks : list task) (acts : list action) (ms : list method) : Prop := mkAdditions {
  add_requirements : NoDup (d_reqs d');
  add_types_acyclic : types_acyclic (d_types d');
  add_preds_fresh : fresh pred_name (d_preds d) ps;
  add_preds_typed : Forall (fun p => types_declared (d_types d') (pred_vars p)) ps;
  add_tasks_fresh : fresh task_name (d_tasks d) tks;
  add_tasks_typed : Forall (fun t => types_declared (d_types d') (task_params t)) tks;
  add_actions_fresh : fresh act_name (d_actions d) acts;
  add_actions_ok : Forall (action_ok d') acts;
  add_methods_fresh : fresh (fun m => sym_name (m_name m)) (d_methods d) ms;
  add_methods_ok : Forall (method_ok d') ms
}.
(** An action hides a compound task of its name in subtasks. *)
Definition hides_none (d : domain_ast) (acts : list action) : Prop :=
  forall t a, In t (d_tasks d) -> In a acts -> task_name t <> act_name a.
