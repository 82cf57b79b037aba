(** Declarative well-formedness of domains and problems, and what each error
    asserts about the document.  Independent of the analyser: only the tree
    types, list membership and transitive closures are used. *)
From Coq Require Import String NArith List Relations.
From Verif Require Import Base Token Errors Ast.
Import ListNotations.
Open Scope list_scope.

(** ** Types *)
Section Types.
Variable types : option (list symbol).

Definition type_decls : list symbol := match types with None => [] | Some l => l end.

(** "a - b" is written in a [:types] block. *)
Definition parent (a b : string) : Prop :=
  exists s, In s type_decls /\ sym_name s = a /\ sym_type s = Some b.
Definition subtype : string -> string -> Prop := clos_refl_trans string parent.
Definition types_acyclic : Prop := forall a, ~ clos_trans string parent a a.

(** A name that occurs in a [:types] block, as a type or as a parent. *)
Definition declared_type (t : string) : Prop :=
  exists s, In s type_decls /\ (sym_name s = t \/ sym_type s = Some t).
Definition types_declared (l : list symbol) : Prop :=
  forall s t, In s l -> sym_type s = Some t -> declared_type t.

(** A value of type [found] may be used where [expected] is declared.  Typed
    and untyped values do not mix. *)
Definition fits (found expected : option string) : Prop :=
  match found, expected with
  | Some f, Some e => subtype f e
  | None, None => True
  | _, _ => False
  end.
End Types.

(** ** Names *)

(** [x] is the first element of [l] called [n]. *)
Inductive first_named {A} (name : A -> string) (n : string) : list A -> A -> Prop :=
| fn_here x l : name x = n -> first_named name n (x :: l) x
| fn_later y l x : name y <> n -> first_named name n l x -> first_named name n (y :: l) x.

(** [n] names no element of [l]. *)
Definition unnamed {A} (name : A -> string) (n : string) (l : list A) : Prop :=
  forall x, In x l -> name x <> n.

(** In an action or method: parameters hide constants. *)
Inductive denotes (params constants : list symbol) (n : string) (t : option string) : Prop :=
| den_param p : In p params -> sym_name p = n -> sym_type p = t -> denotes params constants n t
| den_const c : unnamed sym_name n params -> first_named sym_name n constants c -> sym_type c = t ->
    denotes params constants n t.

(** Arguments against formal parameters. *)
Definition args_ok types params constants (args formals : list symbol) : Prop :=
  Forall2 (fun v f => exists t, denotes params constants (sym_name v) t /\ fits types t (sym_type f))
          args formals.

(** ** Formulas *)

(** Immediate subformulas. *)
Inductive child : formula -> formula -> Prop :=
| ch_not f : child f (FNot f)
| ch_and f fs : In f fs -> child f (FAnd fs)
| ch_or f fs : In f fs -> child f (FOr fs)
| ch_xor f fs : In f fs -> child f (FXor fs)
| ch_imply1 f ps qs : In f ps -> child f (FImply ps qs)
| ch_imply2 f ps qs : In f qs -> child f (FImply ps qs)
| ch_exists v f : child f (FExists v f)
| ch_forall v f : child f (FForAll v f)
| ch_weighted w f : child f (FWeighted w f).

(** Quantified subformulas excluded. *)
Inductive open_child : formula -> formula -> Prop :=
| oc g f : child g f -> (forall v h, f <> FExists v h /\ f <> FForAll v h) -> open_child g f.

(** Subformulas at any depth; outside quantifiers. *)
Definition within : formula -> formula -> Prop := clos_refl_trans formula child.
Definition within_open : formula -> formula -> Prop := clos_refl_trans formula open_child.

(** Formulas the analyser handles: no existential quantifier, no implication. *)
Definition supported (f : formula) : Prop :=
  forall g, within g f -> match g with FExists _ _ | FImply _ _ => False | _ => True end.

(** ** Domains *)
Definition constants_of (d : domain_ast) : list symbol :=
  match d_constants d with Some l => l | None => [] end.

Definition formula_ok (d : domain_ast) (params : list symbol) (g : formula) : Prop :=
  supported g
  /\ (forall p, within (FAtom p) g ->
        exists def, In def (d_preds d) /\ pred_name def = pred_name p
                    /\ length (pred_vars p) = length (pred_vars def))
  /\ types_declared (d_types d) params
  /\ (forall p, within_open (FAtom p) g ->
        exists def, In def (d_preds d) /\ pred_name def = pred_name p
                    /\ args_ok (d_types d) params (constants_of d) (pred_vars p) (pred_vars def)).

Definition opt_formula_ok d params (o : option formula) : Prop :=
  match o with None => True | Some g => formula_ok d params g end.

Definition action_ok (d : domain_ast) (a : action) : Prop :=
  NoDup (map sym_name (act_params a))
  /\ opt_formula_ok d (act_params a) (act_pre a)
  /\ opt_formula_ok d (act_params a) (act_eff a).

(** What a method head ([true]) or a subtask ([false]) of that name refers to:
    for subtasks, actions hide compound tasks. *)
Inductive callable (d : domain_ast) : bool -> string -> list symbol -> Prop :=
| call_action a : In a (d_actions d) -> callable d false (act_name a) (act_params a)
| call_task head t :
    In t (d_tasks d) -> (head = false -> unnamed act_name (task_name t) (d_actions d)) ->
    callable d head (task_name t) (task_params t).

Definition call_ok (d : domain_ast) (head : bool) (params : list symbol) (task : symbol) (terms : list symbol) : Prop :=
  exists formals, callable d head (sym_name task) formals
                  /\ args_ok (d_types d) params (constants_of d) terms formals.

Definition before (l : list (string * string)) (a b : string) : Prop := In (a, b) l.
Definition order_acyclic (o : ordering) : Prop :=
  match o with
  | Total => True
  | Partial l => forall a, ~ clos_trans string (before l) a a
  end.

Definition method_ok (d : domain_ast) (m : method) : Prop :=
  NoDup (map sym_name (m_params m))
  /\ opt_formula_ok d (m_params m) (m_pre m)
  /\ call_ok d true (m_params m) (m_task m) (m_task_terms m)
  /\ Forall (fun s => call_ok d false (m_params m) (sub_task s) (sub_terms s)) (htn_subtasks (m_tn m))
  /\ order_acyclic (htn_orderings (m_tn m)).

Definition domain_ok (d : domain_ast) : Prop :=
  NoDup (d_reqs d)
  /\ types_acyclic (d_types d)
  /\ NoDup (map pred_name (d_preds d))
  /\ Forall (fun p => types_declared (d_types d) (pred_vars p)) (d_preds d)
  /\ NoDup (map task_name (d_tasks d))
  /\ Forall (fun t => types_declared (d_types d) (task_params t)) (d_tasks d)
  /\ NoDup (map act_name (d_actions d))
  /\ Forall (action_ok d) (d_actions d)
  /\ NoDup (map (fun m => sym_name (m_name m)) (d_methods d))
  /\ Forall (method_ok d) (d_methods d).

(** ** What the errors of domain verification assert *)

(** The error names the first element whose name was used before, and the
    element that used it first. *)
Definition repeated {A} (name : A -> string) (pos : A -> N) (l : list A) (e : dup_err) : Prop :=
  exists l1 x l2 y l3,
    l = l1 ++ x :: l2 ++ y :: l3 /\ NoDup (map name (l1 ++ x :: l2))
    /\ name x = dup_symbol e /\ name y = dup_symbol e
    /\ pos x = dup_first e /\ pos y = dup_second e.

(** A formula of the domain and the parameters of the enclosing declaration. *)
Inductive dom_formula (d : domain_ast) : list symbol -> formula -> Prop :=
| df_pre a g : In a (d_actions d) -> act_pre a = Some g -> dom_formula d (act_params a) g
| df_eff a g : In a (d_actions d) -> act_eff a = Some g -> dom_formula d (act_params a) g
| df_method m g : In m (d_methods d) -> m_pre m = Some g -> dom_formula d (m_params m) g.

(** Method heads and subtasks. *)
Inductive dom_call (d : domain_ast) : bool -> list symbol -> symbol -> list symbol -> Prop :=
| dc_head m : In m (d_methods d) -> dom_call d true (m_params m) (m_task m) (m_task_terms m)
| dc_sub m s : In m (d_methods d) -> In s (htn_subtasks (m_tn m)) ->
    dom_call d false (m_params m) (sub_task s) (sub_terms s).

(** Parameter lists of actions and methods; lists whose types are checked (the
    parameters of an action or method only count if it has a formula). *)
Inductive dom_scope (d : domain_ast) : list symbol -> Prop :=
| ds_action a : In a (d_actions d) -> dom_scope d (act_params a)
| ds_method m : In m (d_methods d) -> dom_scope d (m_params m).
Inductive dom_typed (d : domain_ast) : list symbol -> Prop :=
| dt_pred p : In p (d_preds d) -> dom_typed d (pred_vars p)
| dt_task t : In t (d_tasks d) -> dom_typed d (task_params t)
| dt_formula params g : dom_formula d params g -> dom_typed d params.

(** An argument of an atom outside quantifiers, or of a head or subtask. *)
Inductive dom_argument (d : domain_ast) : list symbol -> symbol -> Prop :=
| da_atom params g p v : dom_formula d params g -> within_open (FAtom p) g -> In v (pred_vars p) ->
    dom_argument d params v
| da_call h params task terms v : dom_call d h params task terms -> In v terms -> dom_argument d params v.

Inductive domain_violation (d : domain_ast) : sem_err -> Prop :=
| dv_requirement r l1 l2 l3 :
    d_reqs d = l1 ++ r :: l2 ++ r :: l3 -> domain_violation d (DuplicateRequirement r)
| dv_types a : clos_trans string (parent (d_types d)) a a -> domain_violation d CyclicType
| dv_predicate e : repeated pred_name pred_pos (d_preds d) e -> domain_violation d (DuplicatePredicate e)
| dv_task e : repeated task_name task_pos (d_tasks d) e -> domain_violation d (DuplicateCompoundTask e)
| dv_action e : repeated act_name act_pos (d_actions d) e -> domain_violation d (DuplicateAction e)
| dv_method e :
    repeated (fun m => sym_name (m_name m)) (fun m => sym_pos (m_name m)) (d_methods d) e ->
    domain_violation d (DuplicateMethod e)
| dv_parameter l e : dom_scope d l -> repeated sym_name sym_pos l e -> domain_violation d (DuplicateParameter e)
| dv_type l s t p :
    dom_typed d l -> In s l -> sym_type s = Some t -> sym_type_pos s = Some p ->
    ~ declared_type (d_types d) t -> domain_violation d (UndefinedType (mkUndef t p))
| dv_undef_predicate params g p :
    dom_formula d params g -> within (FAtom p) g -> unnamed pred_name (pred_name p) (d_preds d) ->
    domain_violation d (UndefinedPredicate (mkUndef (pred_name p) (pred_pos p)))
| dv_predicate_arity params g p def :
    dom_formula d params g -> within (FAtom p) g -> In def (d_preds d) -> pred_name def = pred_name p ->
    length (pred_vars def) <> length (pred_vars p) ->
    domain_violation d (InconsistentPredicateArity
      (mkArity (pred_name p) (length (pred_vars def)) (length (pred_vars p)) (pred_pos p)))
| dv_undef_parameter params v :
    dom_argument d params v ->
    unnamed sym_name (sym_name v) params -> unnamed sym_name (sym_name v) (constants_of d) ->
    domain_violation d (UndefinedParameter (mkUndef (sym_name v) (sym_pos v)))
| dv_predicate_type params g p def i v f t :
    dom_formula d params g -> within_open (FAtom p) g -> In def (d_preds d) -> pred_name def = pred_name p ->
    nth_error (pred_vars p) i = Some v -> nth_error (pred_vars def) i = Some f ->
    denotes params (constants_of d) (sym_name v) t -> ~ fits (d_types d) t (sym_type f) ->
    domain_violation d (InconsistentPredicateArgType (mkTypeErr (sym_type f) t (sym_name v) (sym_pos v)))
| dv_undef_task params task terms :
    dom_call d true params task terms -> (forall formals, ~ callable d true (sym_name task) formals) ->
    domain_violation d (UndefinedTask (mkUndef (sym_name task) (sym_pos task)))
| dv_undef_subtask params task terms :
    dom_call d false params task terms -> (forall formals, ~ callable d false (sym_name task) formals) ->
    domain_violation d (UndefinedSubtask (mkUndef (sym_name task) (sym_pos task)))
(** For method heads the error swaps the expected and the found number. *)
| dv_head_arity params task terms formals :
    dom_call d true params task terms -> callable d true (sym_name task) formals ->
    length formals <> length terms ->
    domain_violation d (InconsistentTaskArity
      (mkArity (sym_name task) (length terms) (length formals) (sym_pos task)))
| dv_subtask_arity params task terms formals :
    dom_call d false params task terms -> callable d false (sym_name task) formals ->
    length formals <> length terms ->
    domain_violation d (InconsistentTaskArity
      (mkArity (sym_name task) (length formals) (length terms) (sym_pos task)))
| dv_task_type h params task terms formals i v f t :
    dom_call d h params task terms -> callable d h (sym_name task) formals ->
    nth_error terms i = Some v -> nth_error formals i = Some f ->
    denotes params (constants_of d) (sym_name v) t -> ~ fits (d_types d) t (sym_type f) ->
    domain_violation d (InconsistentTaskArgType (mkTypeErr (sym_type f) t (sym_name v) (sym_pos v)))
| dv_ordering m p l a :
    In m (d_methods d) -> htn_orderings (m_tn m) = Partial l -> clos_trans string (before l) a a ->
    htn_ordering_pos (m_tn m) = Some p -> domain_violation d (CyclicOrdering p).

(** ** Problems, for a domain [d] *)

(** In facts and goals: objects hide constants. *)
Inductive object_denotes (d : domain_ast) (p : problem_ast) (n : string) (t : option string) : Prop :=
| od_object o : In o (p_objects p) -> sym_name o = n -> sym_type o = t -> object_denotes d p n t
| od_const c : unnamed sym_name n (p_objects p) -> first_named sym_name n (constants_of d) c ->
    sym_type c = t -> object_denotes d p n t.

(** In the initial task network: objects hide parameters, which hide constants. *)
Inductive term_denotes (d : domain_ast) (p : problem_ast) (params : list symbol) (n : string) (t : option string) : Prop :=
| td_object o : In o (p_objects p) -> sym_name o = n -> sym_type o = t -> term_denotes d p params n t
| td_param q : unnamed sym_name n (p_objects p) -> first_named sym_name n params q ->
    sym_type q = t -> term_denotes d p params n t
| td_const c : unnamed sym_name n (p_objects p) -> unnamed sym_name n params ->
    first_named sym_name n (constants_of d) c -> sym_type c = t -> term_denotes d p params n t.

Definition fact_ok (d : domain_ast) (p : problem_ast) (q : predicate) : Prop :=
  exists def, In def (d_preds d) /\ pred_name def = pred_name q
    /\ Forall2 (fun v f => exists t, object_denotes d p (sym_name v) t /\ fits (d_types d) t (sym_type f))
               (pred_vars q) (pred_vars def).

Definition tn_params (t : init_tn) : list symbol := match itn_params t with Some l => l | None => [] end.

Definition init_task_ok (d : domain_ast) (p : problem_ast) (t : init_tn) (s : subtask) : Prop :=
  exists formals, callable d false (sym_name (sub_task s)) formals
    /\ Forall2 (fun v f => exists ty, term_denotes d p (tn_params t) (sym_name v) ty
                                      /\ fits (d_types d) ty (sym_type f))
               (sub_terms s) formals.

Definition problem_ok (d : domain_ast) (p : problem_ast) : Prop :=
  types_declared (d_types d) (p_objects p)
  /\ NoDup (map sym_name (p_objects p))
  /\ Forall (fact_ok d p) (p_init p)
  /\ match p_init_tn p with
     | None => True
     | Some t => order_acyclic (htn_orderings (itn_tn t))
                 /\ Forall (init_task_ok d p t) (htn_subtasks (itn_tn t))
     end
  /\ match p_goal p with
     | None => True
     | Some g => forall q, within_open (FAtom q) g -> fact_ok d p q
     end.

(** Facts and goal atoms. *)
Inductive prob_atom (p : problem_ast) : predicate -> Prop :=
| pa_init q : In q (p_init p) -> prob_atom p q
| pa_goal g q : p_goal p = Some g -> within_open (FAtom q) g -> prob_atom p q.

Inductive prob_call (p : problem_ast) : init_tn -> symbol -> list symbol -> Prop :=
| pc t s : p_init_tn p = Some t -> In s (htn_subtasks (itn_tn t)) -> prob_call p t (sub_task s) (sub_terms s).

Inductive problem_violation (d : domain_ast) (p : problem_ast) : sem_err -> Prop :=
| pv_type s t tp :
    In s (p_objects p) -> sym_type s = Some t -> sym_type_pos s = Some tp ->
    ~ declared_type (d_types d) t -> problem_violation d p (UndefinedType (mkUndef t tp))
| pv_object e : repeated sym_name sym_pos (p_objects p) e -> problem_violation d p (DuplicateObject e)
| pv_undef_predicate q :
    prob_atom p q -> unnamed pred_name (pred_name q) (d_preds d) ->
    problem_violation d p (UndefinedPredicate (mkUndef (pred_name q) (pred_pos q)))
| pv_predicate_arity q def :
    prob_atom p q -> In def (d_preds d) -> pred_name def = pred_name q ->
    length (pred_vars def) <> length (pred_vars q) ->
    problem_violation d p (InconsistentPredicateArity
      (mkArity (pred_name q) (length (pred_vars def)) (length (pred_vars q)) (pred_pos q)))
| pv_undef_object q v :
    prob_atom p q -> In v (pred_vars q) -> (forall t, ~ object_denotes d p (sym_name v) t) ->
    problem_violation d p (UndefinedObject (mkUndef (sym_name v) (sym_pos v)))
| pv_undef_term t task terms v :
    prob_call p t task terms -> In v terms -> (forall ty, ~ term_denotes d p (tn_params t) (sym_name v) ty) ->
    problem_violation d p (UndefinedObject (mkUndef (sym_name v) (sym_pos v)))
(** The error names the predicate instead of the argument; for an object it
    reports the type written at the argument instead of that of the object. *)
| pv_predicate_type q def i v f t shown :
    prob_atom p q -> In def (d_preds d) -> pred_name def = pred_name q ->
    nth_error (pred_vars q) i = Some v -> nth_error (pred_vars def) i = Some f ->
    object_denotes d p (sym_name v) t -> ~ fits (d_types d) t (sym_type f) ->
    (unnamed sym_name (sym_name v) (p_objects p) /\ shown = t
     \/ In (sym_name v) (map sym_name (p_objects p)) /\ shown = sym_type v) ->
    problem_violation d p (InconsistentPredicateArgType (mkTypeErr (sym_type f) shown (pred_name q) (sym_pos v)))
| pv_undef_subtask t task terms :
    prob_call p t task terms -> (forall formals, ~ callable d false (sym_name task) formals) ->
    problem_violation d p (UndefinedSubtask (mkUndef (sym_name task) (sym_pos task)))
| pv_task_arity t task terms formals :
    prob_call p t task terms -> callable d false (sym_name task) formals ->
    length formals <> length terms ->
    problem_violation d p (InconsistentTaskArity
      (mkArity (sym_name task) (length formals) (length terms) (sym_pos task)))
(** For a constant the error is reported as a predicate error. *)
| pv_task_type t task terms formals i v f ty e :
    prob_call p t task terms -> callable d false (sym_name task) formals ->
    nth_error terms i = Some v -> nth_error formals i = Some f ->
    term_denotes d p (tn_params t) (sym_name v) ty -> ~ fits (d_types d) ty (sym_type f) ->
    e = mkTypeErr (sym_type f) ty (sym_name task) (sym_pos v) ->
    problem_violation d p
      (InconsistentTaskArgType e)
| pv_const_type t task terms formals i v f ty e :
    prob_call p t task terms -> callable d false (sym_name task) formals ->
    nth_error terms i = Some v -> nth_error formals i = Some f ->
    term_denotes d p (tn_params t) (sym_name v) ty -> ~ fits (d_types d) ty (sym_type f) ->
    unnamed sym_name (sym_name v) (p_objects p) -> unnamed sym_name (sym_name v) (tn_params t) ->
    e = mkTypeErr (sym_type f) ty (sym_name task) (sym_pos v) ->
    problem_violation d p (InconsistentPredicateArgType e)
| pv_ordering t pos l a :
    p_init_tn p = Some t -> htn_orderings (itn_tn t) = Partial l -> clos_trans string (before l) a a ->
    htn_ordering_pos (itn_tn t) = Some pos -> problem_violation d p (CyclicOrdering pos).
