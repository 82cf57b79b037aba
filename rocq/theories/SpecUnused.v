(** Removing declarations that nothing refers to (specification for C61). *)
From Coq Require Import String List Relations.
From Verif Require Import Base Token Errors Ast SpecSem.
Import ListNotations.
Open Scope list_scope.

(** [full] consists of the elements of [kept] and those of [gone], each in
    their order. *)
Inductive interleaved {A} : list A -> list A -> list A -> Prop :=
| il_nil : interleaved [] [] []
| il_kept x kept gone full : interleaved kept gone full -> interleaved (x :: kept) gone (x :: full)
| il_gone x kept gone full : interleaved kept gone full -> interleaved kept (x :: gone) (x :: full).

(** [d'] is [d] without some declarations, written anywhere. *)
Record pruned (d d' : domain_ast) (ts cs : list symbol) (ps : list predicate) (tks : list task) (acts : list action) (ms : list method) : Prop := mkPruned {
  pr_reqs : d_reqs d' = d_reqs d;
  pr_types : interleaved (type_decls (d_types d')) ts (type_decls (d_types d));
  pr_constants : interleaved (constants_of d') cs (constants_of d);
  pr_preds : interleaved (d_preds d') ps (d_preds d);
  pr_tasks : interleaved (d_tasks d') tks (d_tasks d);
  pr_actions : interleaved (d_actions d') acts (d_actions d);
  pr_methods : interleaved (d_methods d') ms (d_methods d)
}.

(** The types written in a domain or problem, declarations of types excluded
    except for the parents they name. *)
Inductive mentions (d : domain_ast) : string -> Prop :=
| mt_parent s t : In s (type_decls (d_types d)) -> sym_type s = Some t -> mentions d t
| mt_constant s t : In s (constants_of d) -> sym_type s = Some t -> mentions d t
| mt_typed l s t : dom_typed d l -> In s l -> sym_type s = Some t -> mentions d t
| mt_scope l s t : dom_scope d l -> In s l -> sym_type s = Some t -> mentions d t.
Inductive prob_mentions (p : problem_ast) : string -> Prop :=
| pm_object s t : In s (p_objects p) -> sym_type s = Some t -> prob_mentions p t
| pm_param i s t : p_init_tn p = Some i -> In s (tn_params i) -> sym_type s = Some t -> prob_mentions p t.

(** A declaration of a type can go if its name is mentioned nowhere, and if its
    parent is then still declared or mentioned nowhere either. *)
Definition types_unused (d' : domain_ast) (mentioned : string -> Prop) (ts : list symbol) : Prop :=
  forall s, In s ts -> ~ mentioned (sym_name s)
    /\ forall b, sym_type s = Some b -> mentioned b -> declared_type (d_types d') b.

(** Nothing in [d'] refers to the declarations. *)
Record unused (d' : domain_ast) (ts cs : list symbol) (ps : list predicate) (tks : list task) (acts : list action) : Prop := mkUnused {
  un_types : types_unused d' (mentions d') ts;
  un_constants : forall c params v, In c cs -> dom_argument d' params v -> unnamed sym_name (sym_name v) params ->
    sym_name c <> sym_name v;
  un_preds : forall q params g a, In q ps -> dom_formula d' params g -> within (FAtom a) g -> pred_name q <> pred_name a;
  un_tasks : forall t h params task terms, In t tks -> dom_call d' h params task terms -> task_name t <> sym_name task;
  un_actions : forall a params task terms, In a acts -> dom_call d' false params task terms -> act_name a <> sym_name task
}.
(** Nothing in the problem does. *)
Record prob_unused (d' : domain_ast) (p : problem_ast) (ts cs : list symbol) (ps : list predicate) (tks : list task) (acts : list action) : Prop := mkProbUnused {
  pu_types : types_unused d' (fun t => mentions d' t \/ prob_mentions p t) ts;
  pu_facts : forall c q v, In c cs -> prob_atom p q -> In v (pred_vars q) -> sym_name c <> sym_name v;
  pu_terms : forall c t task terms v, In c cs -> prob_call p t task terms -> In v terms -> sym_name c <> sym_name v;
  pu_preds : forall x q, In x ps -> prob_atom p q -> pred_name x <> pred_name q;
  pu_tasks : forall x t task terms, In x tks -> prob_call p t task terms -> task_name x <> sym_name task;
  pu_actions : forall a t task terms, In a acts -> prob_call p t task terms -> act_name a <> sym_name task
}.
