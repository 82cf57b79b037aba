(** Ground execution of a planning problem: what a planner does with an accepted
    document (specification for C53, C54).  Only the syntax trees and the typing
    relations of SpecSem.v are used. *)
From Coq Require Import String List Relations Permutation.
From Verif Require Import Base Token Errors Ast SpecSem.
Import ListNotations.
Open Scope list_scope.

Section Exec.
Variable d : domain_ast.
Variable p : problem_ast.

(** The object named [o] may be used for the parameter [f]. *)
Definition value (o : string) (f : symbol) : Prop :=
  exists t, object_denotes d p o t /\ fits (d_types d) t (sym_type f).

(** A choice of objects for parameters of these types. *)
Definition binding := string -> string.
Definition respects (b : binding) (params : list symbol) : Prop :=
  forall n q, first_named sym_name n params q -> value (b n) q.

(** Terms: a parameter is replaced by the object chosen for it, everything else
    stands for itself. *)
Definition inst (b : binding) (params : list symbol) (v : symbol) : string :=
  if in_dec string_dec (sym_name v) (map sym_name params) then b (sym_name v) else sym_name v.

(** A ground task or fact: a name and objects. *)
Definition ground := (string * list string)%type.
Definition inst_task b params (s : subtask) : ground := (sym_name (sub_task s), map (inst b params) (sub_terms s)).
Definition inst_atom b params (q : predicate) : ground := (pred_name q, map (inst b params) (pred_vars q)).

(** The ground atoms a formula talks about. *)
Inductive mentions : binding -> list symbol -> formula -> ground -> Prop :=
| me_atom b params q : mentions b params (FAtom q) (inst_atom b params q)
| me_child b params g f x : open_child g f -> mentions b params g x -> mentions b params f x
| me_forall b b' params vs f x : (forall n, ~ In n (map sym_name vs) -> b' n = b n) -> respects b' vs ->
    mentions b' (vs ++ params) f x -> mentions b params (FForAll vs f) x
| me_exists b b' params vs f x : (forall n, ~ In n (map sym_name vs) -> b' n = b n) -> respects b' vs ->
    mentions b' (vs ++ params) f x -> mentions b params (FExists vs f) x.
Definition mentions_opt b params (o : option formula) x : Prop :=
  exists f, o = Some f /\ mentions b params f x.

(** What is true and what is left to do.  The tasks are listed in some order;
    any of them may be treated next, so the executions that obey the ordering
    constraints are among those considered, and no precondition restricts them. *)
Definition config := (list ground * list ground)%type.

(** The parameters of the initial task network that no object hides. *)
Definition visible (t : init_tn) : list symbol :=
  filter (fun q => if in_dec string_dec (sym_name q) (map sym_name (p_objects p)) then false else true) (tn_params t).
Definition facts0 : list ground := map (fun q => (pred_name q, map sym_name (pred_vars q))) (p_init p).
Inductive initial : config -> Prop :=
| in_none : p_init_tn p = None -> initial (facts0, [])
| in_tn t b : p_init_tn p = Some t -> respects b (visible t) ->
    initial (facts0, map (inst_task b (visible t)) (htn_subtasks (itn_tn t))).

Inductive step : config -> config -> Prop :=
(* a method replaces a task by its subtasks *)
| st_method m b facts w1 w2 : In m (d_methods d) -> respects b (m_params m) ->
    step (facts, w1 ++ (sym_name (m_task m), map (inst b (m_params m)) (m_task_terms m)) :: w2)
         (facts, w1 ++ map (inst_task b (m_params m)) (htn_subtasks (m_tn m)) ++ w2)
(* an action is performed; every new fact is one that its effect mentions *)
| st_action a b facts facts' w1 w2 : In a (d_actions d) ->
    (forall x, In x facts' -> In x facts \/ mentions_opt b (act_params a) (act_eff a) x) ->
    step (facts, w1 ++ (act_name a, map (fun q => b (sym_name q)) (act_params a)) :: w2) (facts', w1 ++ w2).

Definition reachable (c : config) : Prop := exists c0, initial c0 /\ clos_refl_trans config step c0 c.

(** Well-typed ground facts and tasks. *)
Definition fact_fits (x : ground) : Prop :=
  exists def, In def (d_preds d) /\ pred_name def = fst x /\ Forall2 value (snd x) (pred_vars def).
Definition task_fits (x : ground) : Prop :=
  exists formals, callable d false (fst x) formals /\ Forall2 value (snd x) formals.

(** No object has the name of a constant. *)
Definition no_clash : Prop :=
  forall o c, In o (p_objects p) -> In c (constants_of d) -> sym_name o <> sym_name c.
Definition quantifier_free (f : formula) : Prop :=
  forall g, within g f -> match g with FForAll _ _ | FExists _ _ => False | _ => True end.
End Exec.

(** ** Ordering constraints *)
(** The subtasks at positions [i] and [j] are ordered. *)
Definition ordered_at (tn : htn) (i j : nat) : Prop :=
  match htn_orderings tn with
  | Total => i < j < length (htn_subtasks tn)
  | Partial l => exists x y a b, nth_error (htn_subtasks tn) i = Some x /\ nth_error (htn_subtasks tn) j = Some y
      /\ sub_id x = Some a /\ sub_id y = Some b /\ clos_trans string (before l) (sym_name a) (sym_name b)
  end.

(** [w] lists the positions of all subtasks, each once and before those that
    are ordered after it. *)
Definition linearization (tn : htn) (w : list nat) : Prop :=
  Permutation w (seq 0 (length (htn_subtasks tn)))
  /\ forall w1 i w2 j w3, w = w1 ++ i :: w2 ++ j :: w3 -> ~ ordered_at tn j i.

(** Networks of ground tasks with unique identities and an order on these. *)
Record net := mkNet {
  net_tasks : list (nat * ground);
  net_lt : nat -> nat -> Prop
}.
(** A task network with identities [ids] for its subtasks. *)
Definition order_of (tn : htn) (ids : list nat) (a b : nat) : Prop :=
  exists i j, nth_error ids i = Some a /\ nth_error ids j = Some b /\ ordered_at tn i j.
Definition net_of (b : binding) (params : list symbol) (tn : htn) (ids : list nat) : net :=
  mkNet (combine ids (map (inst_task b params) (htn_subtasks tn))) (order_of tn ids).

(** [i] is replaced by the network of a method: its tasks inherit the position
    of [i]; what was ordered through [i] remains ordered. *)
Definition replace_lt (lt : nat -> nat -> Prop) (i : nat) (ids : list nat) (inner : nat -> nat -> Prop) (a b : nat) : Prop :=
  (~ In a ids /\ a <> i /\ ~ In b ids /\ b <> i /\ lt a b)
  \/ (~ In a ids /\ In b ids /\ lt a i)
  \/ (In a ids /\ ~ In b ids /\ lt i b)
  \/ (In a ids /\ In b ids /\ inner a b)
  \/ (~ In a ids /\ ~ In b ids /\ lt a i /\ lt i b).

(** Executions that obey the order: only tasks without predecessor are performed. *)
Definition oconfig := (list ground * net)%type.
Inductive oinitial (d : domain_ast) (p : problem_ast) : oconfig -> Prop :=
| oi_none : p_init_tn p = None -> oinitial d p (facts0 p, mkNet [] (fun _ _ => False))
| oi_tn t b ids : p_init_tn p = Some t -> respects d p b (visible p t) ->
    NoDup ids -> length ids = length (htn_subtasks (itn_tn t)) ->
    oinitial d p (facts0 p, net_of b (visible p t) (itn_tn t) ids).
Inductive ostep (d : domain_ast) (p : problem_ast) : oconfig -> oconfig -> Prop :=
| os_method m b ids facts w1 i w2 lt : In m (d_methods d) -> respects d p b (m_params m) ->
    NoDup ids -> length ids = length (htn_subtasks (m_tn m)) ->
    (forall j, In j ids -> ~ In j (map fst (w1 ++ w2)) /\ j <> i) ->
    ostep d p (facts, mkNet (w1 ++ (i, (sym_name (m_task m), map (inst b (m_params m)) (m_task_terms m))) :: w2) lt)
      (facts, mkNet (w1 ++ net_tasks (net_of b (m_params m) (m_tn m) ids) ++ w2)
                    (replace_lt lt i ids (order_of (m_tn m) ids)))
| os_action a b facts facts' w1 i w2 lt : In a (d_actions d) ->
    (forall x, In x facts' -> In x facts \/ mentions_opt d p b (act_params a) (act_eff a) x) ->
    (forall j, In j (map fst (w1 ++ w2)) -> ~ lt j i) ->
    ostep d p (facts, mkNet (w1 ++ (i, (act_name a, map (fun q => b (sym_name q)) (act_params a))) :: w2) lt)
      (facts', mkNet (w1 ++ w2) lt).
Definition oreachable d p (c : oconfig) : Prop := exists c0, oinitial d p c0 /\ clos_refl_trans oconfig (ostep d p) c0 c.
(** Identities and order forgotten. *)
Definition forget (c : oconfig) : config := (fst c, map snd (net_tasks (snd c))).
