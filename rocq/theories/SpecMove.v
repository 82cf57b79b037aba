(** Declaring something as a constant of the domain or as an object of the
    problem (specification for C73). *)
From Coq Require Import String List.
From Verif Require Import Base Token Errors Ast SpecSem SpecUnused.
Import ListNotations.
Open Scope list_scope.

(** The domain with other constants, the problem with other objects. *)
Definition set_constants (o : option (list symbol)) (d : domain_ast) : domain_ast :=
  mkDomain (d_name d) (d_types d) o (d_reqs d) (d_preds d) (d_tasks d) (d_methods d) (d_actions d) (d_funcs d).
Definition set_objects (l : list symbol) (p : problem_ast) : problem_ast :=
  mkProblem (p_reqs p) (p_init_tn p) (p_init p) (p_goal p) l.

(** The constants [cs] of [d] are objects in [p'] instead, wherever they are
    written and in any order among the others. *)
Record moved (d : domain_ast) (p : problem_ast) (d' : domain_ast) (p' : problem_ast) (cs cs' : list symbol) : Prop := mkMoved {
  mv_domain : exists o, d' = set_constants o d;
  mv_problem : exists l, p' = set_objects l p;
  mv_constants : interleaved (constants_of d') cs (constants_of d);
  mv_objects : interleaved (p_objects p) cs' (p_objects p');
  mv_same : Forall2 (fun c c' => sym_name c = sym_name c' /\ sym_type c = sym_type c') cs cs'
}.
(** Nothing in the domain refers to them. *)
Definition domain_free (d : domain_ast) (cs : list symbol) : Prop :=
  forall c params v, In c cs -> dom_argument d params v -> unnamed sym_name (sym_name v) params -> sym_name c <> sym_name v.
(** No parameter of the initial task network has the name of one of them. *)
Definition params_free (p : problem_ast) (cs : list symbol) : Prop :=
  forall t q c, p_init_tn p = Some t -> In q (tn_params t) -> In c cs -> sym_name q <> sym_name c.
