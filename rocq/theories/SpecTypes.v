(** Specification for types (C69): what a type hierarchy means in terms of sets
    of objects, and when one document makes weaker demands than another. *)
From Coq Require Import String NArith List.
From Verif Require Import Base Token Ast SpecPrint SpecSem.
Import ListNotations.
Open Scope list_scope.

(** ** Types as sets *)

(** An assignment of sets of objects to type names in which a type is contained
    in the parents written for it. *)
Definition respects (types : option (list symbol)) {O : Type} (I : string -> O -> Prop) : Prop :=
  forall a b x, parent types a b -> I a x -> I b x.

(** Every value of type [found] is one of type [expected], whatever the sets
    are.  Typed and untyped values do not mix. *)
Definition always (types : option (list symbol)) (found expected : option string) : Prop :=
  match found, expected with
  | Some f, Some e => forall (O : Type) (I : string -> O -> Prop), respects types I -> forall x, I f x -> I e x
  | None, None => True
  | _, _ => False
  end.

(** Some value of type [found] is not one of type [expected]. *)
Definition sometimes_not (types : option (list symbol)) (found expected : option string) : Prop :=
  match found, expected with
  | Some f, Some e => exists (I : string -> string -> Prop) x, respects types I /\ I f x /\ ~ I e x
  | None, None => False
  | _, _ => True
  end.

(** ** Weaker demands.  [T]: the types of the document with the weaker demands. *)
Section Relaxed.
Variable T : option (list symbol).

(** The same name, with a smaller type (for what is passed). *)
Definition narrower (s s' : symbol) : Prop :=
  sym_name s = sym_name s' /\ fits T (sym_type s') (sym_type s).
(** A larger type (for what is expected); the names are free. *)
Definition wider (f f' : symbol) : Prop := fits T (sym_type f) (sym_type f').

Definition wider_pred (p p' : predicate) : Prop :=
  pred_name p = pred_name p' /\ Forall2 wider (pred_vars p) (pred_vars p').
Definition wider_task (t t' : task) : Prop :=
  task_name t = task_name t' /\ Forall2 wider (task_params t) (task_params t').

(** Equal up to lines: moved to line 1 they are equal. *)
Definition narrower_method (m m' : method) : Prop :=
  sym_name (m_name m) = sym_name (m_name m')
  /\ sym_name (m_task m) = sym_name (m_task m')
  /\ map sym_name (m_task_terms m) = map sym_name (m_task_terms m')
  /\ option_map (formula_at 1%N) (m_pre m) = option_map (formula_at 1%N) (m_pre m')
  /\ htn_at 1%N (m_tn m) = htn_at 1%N (m_tn m')
  /\ Forall2 narrower (m_params m) (m_params m').
End Relaxed.

(** [d'] has at least the types and the subtypes of [d], wider parameters of
    predicates and tasks, narrower constants and parameters of methods, and
    otherwise differs from [d] in lines only.  (Actions are both used and
    checked: their parameters remain the same.) *)
Definition relaxed (d d' : domain_ast) : Prop :=
  (forall a b, parent (d_types d) a b -> subtype (d_types d') a b)
  /\ (forall t, declared_type (d_types d) t -> declared_type (d_types d') t)
  /\ d_reqs d = d_reqs d'
  /\ Forall2 (narrower (d_types d')) (constants_of d) (constants_of d')
  /\ Forall2 (wider_pred (d_types d')) (d_preds d) (d_preds d')
  /\ Forall2 (wider_task (d_types d')) (d_tasks d) (d_tasks d')
  /\ map (action_at 1%N) (d_actions d) = map (action_at 1%N) (d_actions d')
  /\ Forall2 (narrower_method (d_types d')) (d_methods d) (d_methods d').

(** The new types are declared, and there is no cycle. *)
Definition types_sound (d : domain_ast) : Prop :=
  types_acyclic (d_types d)
  /\ Forall (fun p => types_declared (d_types d) (pred_vars p)) (d_preds d)
  /\ Forall (fun t => types_declared (d_types d) (task_params t)) (d_tasks d)
  /\ Forall (fun m => types_declared (d_types d) (m_params m)) (d_methods d).

(** Problems: narrower objects and parameters of the initial network. *)
Definition relaxed_problem (T : option (list symbol)) (p p' : problem_ast) : Prop :=
  Forall2 (narrower T) (p_objects p) (p_objects p')
  /\ map (pred_at 1%N) (p_init p) = map (pred_at 1%N) (p_init p')
  /\ option_map (formula_at 1%N) (p_goal p) = option_map (formula_at 1%N) (p_goal p')
  /\ match p_init_tn p, p_init_tn p' with
     | None, None => True
     | Some t, Some t' => htn_at 1%N (itn_tn t) = htn_at 1%N (itn_tn t') /\ Forall2 (narrower T) (tn_params t) (tn_params t')
     | _, _ => False
     end.
