(** Semantic analysis: src/semantic_analyzer (analyzers, type_checker,
    undefined_elements); the task decomposition graph is in Tdg.v.

    Hash sets keyed by a name are modelled by the list of inserted elements in
    insertion order: inserting an element whose name is already present keeps
    the old element (HashSet::insert), so a lookup finds the FIRST element of
    that name.  HashMap::insert / from_iter replace, so a lookup in a map finds
    the LAST binding. *)
From Coq Require Import String NArith Bool List.
From Verif Require Import Base Token Lexer Errors Ast Graph.
Import ListNotations.
Open Scope list_scope.
Open Scope outcome_scope.

(** Err(SemanticErrorType) converted by [?] (generic.rs 16-20). *)
Definition sem {A} (e : sem_err) : outcome A := Err (ESem e).

(** HashSet<&Symbol>::get (symbol.rs 28-47: equality on names). *)
Definition find_symbol (name : string) (l : list symbol) : option symbol :=
  find (fun x => String.eqb (sym_name x) name) l.
(** HashMap keyed by parameter name built with from_iter: last binding wins. *)
Definition find_symbol_last (name : string) (l : list symbol) : option symbol :=
  find_symbol name (rev l).
(** HashSet<&Predicate>::get (predicate.rs 33-45). *)
Definition find_predicate (name : string) (l : list predicate) : option predicate :=
  find (fun x => String.eqb (pred_name x) name) l.
(** HashSet<&Task>::get / contains (task.rs 26-51). *)
Definition find_task (name : string) (l : list task) : option task :=
  find (fun x => String.eqb (task_name x) name) l.
(** HashSet<&Action>::get / contains / iter().find (action.rs 19-37). *)
Definition find_action (name : string) (l : list action) : option action :=
  find (fun x => String.eqb (act_name x) name) l.

(** generic_type_checker.rs 9-36: the graph of declared types. *)
Definition type_edges (types : option (list symbol)) : edges :=
  match types with
  | None => []
  | Some l =>
    flat_map (fun t => match sym_type t with
                       | None => []
                       | Some parent => [(sym_name t, parent)]
                       end) l
  end.
Definition type_nodes (types : option (list symbol)) : list string :=
  match types with
  | None => []
  | Some l =>
    flat_map (fun t => sym_name t :: match sym_type t with
                                     | None => []
                                     | Some parent => [parent]
                                     end) l
  end.

(** generic_type_checker.rs 38-45. *)
Definition verify_type_hierarchy (types : option (list symbol)) : outcome unit :=
  if acyclicb (type_edges types) then Ok tt else sem CyclicType.

(** generic_type_checker.rs 47-62, with its callers' [return Err]. *)
Definition check_type_declarations (types : option (list symbol)) (params : list symbol)
  : outcome unit :=
  for_each (fun p =>
    match sym_type p with
    | None => Ok tt
    | Some t =>
      if mem_str t (type_nodes types) then Ok tt
      else match sym_type_pos p with
           | Some tp => sem (UndefinedType (mkUndef t tp))
           | None => Panic PanicUnwrap
           end
    end) params.

(** generic_type_checker.rs 64-90. *)
Definition is_var_type_consistent (types : option (list symbol))
           (found expected : option string) : bool :=
  match found, expected with
  | Some f, Some e => String.eqb f e || has_path (type_edges types) f e
  | None, None => true
  | None, Some _ => false
  | Some _, None => false
  end.

(** undefined_elements.rs 3-54.  The recursion over sub-formulas is a nested
    fixpoint; [check_all] is the [for] loop of lines 37-39. *)
Fixpoint check_predicate_declarations (preds : list predicate) (f : formula) : outcome unit :=
  let fix check_all (fs : list formula) : outcome unit :=
    match fs with
    | [] => Ok tt
    | g :: fs' => check_predicate_declarations preds g ;;; check_all fs'
    end in
  match f with
  | FEmpty => Ok tt
  | FAtom p =>
    match find_predicate (pred_name p) preds with
    | Some d =>
      if Nat.eqb (length (pred_vars p)) (length (pred_vars d)) then Ok tt
      else sem (InconsistentPredicateArity
                  (mkArity (pred_name p) (length (pred_vars d)) (length (pred_vars p))
                           (pred_pos p)))
    | None => sem (UndefinedPredicate (mkUndef (pred_name p) (pred_pos p)))
    end
  | FNot g => check_predicate_declarations preds g
  | FAnd fs | FOr fs | FXor fs => check_all fs
  | FForAll _ g => check_predicate_declarations preds g
  | FEquals _ _ => Ok tt
  | FWeighted _ g => check_predicate_declarations preds g
  | FImply _ _ | FExists _ _ => Panic PanicFormula
  end.

(** domain_type_checker.rs 57-77 and 132-154: the type of each argument, from
    the parameters (last binding) or else the constants. *)
Fixpoint arg_types (params constants args : list symbol)
  : outcome (list (symbol * option string)) :=
  match args with
  | [] => Ok []
  | v :: args' =>
    match find_symbol_last (sym_name v) params with
    | Some p => r <-- arg_types params constants args' ;; Ok ((v, sym_type p) :: r)
    | None =>
      match find_symbol (sym_name v) constants with
      | Some c => r <-- arg_types params constants args' ;; Ok ((v, sym_type c) :: r)
      | None => sem (UndefinedParameter (mkUndef (sym_name v) (sym_pos v)))
      end
    end
  end.

(** domain_type_checker.rs 92-105, 170-184, 202-216: pairwise comparison of
    found and expected types (the shorter list ends the loop). *)
Fixpoint check_arg_types (types : option (list symbol)) (mk : type_err -> sem_err)
         (found : list (symbol * option string)) (expected : list (option string))
  : outcome unit :=
  match found, expected with
  | (v, f) :: found', e :: expected' =>
    if is_var_type_consistent types f e then check_arg_types types mk found' expected'
    else sem (mk (mkTypeErr e f (sym_name v) (sym_pos v)))
  | _, _ => Ok tt
  end.

(** domain_type_checker.rs 55-115: one atom of the formula. *)
Definition check_atom (types : option (list symbol)) (params constants : list symbol)
           (preds : list predicate) (p : predicate) : outcome unit :=
  match find_predicate (pred_name p) preds with
  | Some def =>
    inst <-- arg_types params constants (pred_vars p) ;;
    let expected := map sym_type (pred_vars def) in
    if negb (Nat.eqb (length inst) (length expected)) then
      sem (InconsistentPredicateArity
             (mkArity (pred_name p) (length expected) (length inst) (pred_pos p)))
    else check_arg_types types InconsistentPredicateArgType inst expected
  | None => sem (UndefinedPredicate (mkUndef (pred_name p) (pred_pos p)))
  end.

(** domain_type_checker.rs 36-118. *)
Definition check_formula (types : option (list symbol)) (atoms : list predicate)
           (params constants : list symbol) (preds : list predicate) : outcome unit :=
  check_type_declarations types params ;;;
  for_each (check_atom types params constants preds) atoms.

(** domain_type_checker.rs 120-227. *)
Definition is_task_consistent (types : option (list symbol)) (tsk : symbol)
           (terms params constants : list symbol) (tasks : list task)
           (actions : list action) : outcome unit :=
  found <-- arg_types params constants terms ;;
  match find_action (sym_name tsk) actions with
  | Some def =>
    let expected := map sym_type (act_params def) in
    if negb (Nat.eqb (length terms) (length expected)) then
      sem (InconsistentTaskArity
             (mkArity (sym_name tsk) (length expected) (length terms) (sym_pos tsk)))
    else check_arg_types types InconsistentTaskArgType found expected
  | None =>
    match find_task (sym_name tsk) tasks with
    | Some def =>
      let expected := map sym_type (task_params def) in
      if negb (Nat.eqb (length found) (length expected)) then
        sem (InconsistentTaskArity
               (mkArity (sym_name tsk) (length expected) (length found) (sym_pos tsk)))
      else check_arg_types types InconsistentTaskArgType found expected
    | None => sem (UndefinedSubtask (mkUndef (sym_name tsk) (sym_pos tsk)))
    end
  end.

(** domain_analyzer.rs 272-282. *)
Fixpoint check_duplicate_requirements (seen reqs : list requirement) : outcome unit :=
  match reqs with
  | [] => Ok tt
  | r :: reqs' =>
    if existsb (requirement_eqb r) seen then sem (DuplicateRequirement r)
    else check_duplicate_requirements (r :: seen) reqs'
  end.

(** Lookup of the recorded position in [.._positions] followed by unwrap. *)
Fixpoint position_of (name : string) (seen : list (string * N)) : outcome N :=
  match seen with
  | [] => Panic PanicUnwrap
  | (n, p) :: seen' => if String.eqb n name then Ok p else position_of name seen'
  end.

(** The duplicate check repeated in domain_analyzer.rs 46-56, 61-71, 107-117,
    122-132, 227-237, 253-263 and problem_analyzer.rs 32-43: [seen] holds the
    (name, position) pairs inserted so far. *)
Definition check_fresh (mk : dup_err -> sem_err) (seen : list (string * N))
           (name : string) (p : N) : outcome unit :=
  if mem_str name (map fst seen) then
    first <-- position_of name seen ;; sem (mk (mkDup name first p))
  else Ok tt.

(** A loop whose body starts with the duplicate check of its element. *)
Fixpoint each_fresh {A} (mk : dup_err -> sem_err) (name : A -> string) (p : A -> N)
         (body : list A -> A -> outcome unit) (before : list A) (l : list A) : outcome unit :=
  match l with
  | [] => Ok tt
  | x :: l' =>
    check_fresh mk (map (fun y => (name y, p y)) before) (name x) (p x) ;;;
    body before x ;;;
    each_fresh mk name p body (before ++ [x]) l'
  end.

(** domain_analyzer.rs 58-72, 119-133. *)
Definition check_params_fresh (params : list symbol) : outcome unit :=
  each_fresh DuplicateParameter sym_name sym_pos (fun _ _ => Ok tt) [] params.

(** domain_analyzer.rs 223-246. *)
Definition verify_predicates (d : domain_ast) : outcome unit :=
  each_fresh DuplicatePredicate pred_name pred_pos
    (fun _ p => check_type_declarations (d_types d) (pred_vars p)) [] (d_preds d).

(** domain_analyzer.rs 249-270. *)
Definition verify_compound_tasks (d : domain_ast) : outcome unit :=
  each_fresh DuplicateCompoundTask task_name task_pos
    (fun _ t => check_type_declarations (d_types d) (task_params t)) [] (d_tasks d).

(** domain_analyzer.rs 32-40. *)
Definition declared_constants (d : domain_ast) : list symbol :=
  match d_constants d with Some l => l | None => [] end.

(** domain_analyzer.rs 74-86, 88-100, 135-147: an optional formula. *)
Definition verify_formula (d : domain_ast) (params : list symbol) (f : option formula)
  : outcome unit :=
  match f with
  | None => Ok tt
  | Some g =>
    check_predicate_declarations (d_preds d) g ;;;
    check_formula (d_types d) (prop_preds g) params (declared_constants d) (d_preds d)
  end.

(** domain_analyzer.rs 57-100. *)
Definition verify_action (d : domain_ast) (a : action) : outcome unit :=
  check_params_fresh (act_params a) ;;;
  verify_formula d (act_params a) (act_pre a) ;;;
  verify_formula d (act_params a) (act_eff a).

(** htn.rs 44-57. *)
Definition is_acyclic (o : ordering) : bool :=
  match o with
  | Total => true
  | Partial l => acyclicb l
  end.

(** domain_analyzer.rs 194-198 and problem_analyzer.rs 53-59. *)
Definition verify_ordering (tn : htn) : outcome unit :=
  if is_acyclic (htn_orderings tn) then Ok tt
  else match htn_ordering_pos tn with
       | Some p => sem (CyclicOrdering p)
       | None => Panic PanicUnwrap
       end.

(** domain_analyzer.rs 148-170 (expected and found arity are swapped there). *)
Definition verify_method_task (d : domain_ast) (m : method) : outcome unit :=
  match find_task (sym_name (m_task m)) (d_tasks d) with
  | None => sem (UndefinedTask (mkUndef (sym_name (m_task m)) (sym_pos (m_task m))))
  | Some def =>
    if Nat.eqb (length (m_task_terms m)) (length (task_params def)) then Ok tt
    else sem (InconsistentTaskArity
                (mkArity (sym_name (m_task m)) (length (m_task_terms m))
                         (length (task_params def)) (sym_pos (m_task m))))
  end.

(** domain_analyzer.rs 118-198. *)
Definition verify_method (d : domain_ast) (m : method) : outcome unit :=
  check_params_fresh (m_params m) ;;;
  verify_formula d (m_params m) (m_pre m) ;;;
  verify_method_task d m ;;;
  is_task_consistent (d_types d) (m_task m) (m_task_terms m) (m_params m)
                     (declared_constants d) (d_tasks d) [] ;;;
  for_each (fun s =>
    is_task_consistent (d_types d) (sub_task s) (sub_terms s) (m_params m)
                       (declared_constants d) (d_tasks d) (d_actions d))
    (htn_subtasks (m_tn m)) ;;;
  verify_ordering (m_tn m).

(** domain_analyzer.rs 20-199: every check of verify_domain that can fail. *)
Definition check_domain (d : domain_ast) : outcome unit :=
  check_duplicate_requirements [] (d_reqs d) ;;;
  verify_type_hierarchy (d_types d) ;;;
  verify_predicates d ;;;
  verify_compound_tasks d ;;;
  each_fresh DuplicateAction act_name act_pos (fun _ a => verify_action d a) [] (d_actions d) ;;;
  each_fresh DuplicateMethod (fun m => sym_name (m_name m)) (fun m => sym_pos (m_name m))
             (fun _ m => verify_method d m) [] (d_methods d).

(** symbol_table.rs 7-14 (the type hierarchy is represented by the type
    declarations it is built from). *)
Record symbol_table := mkTable {
  st_warnings : list warning;
  st_constants : list symbol;
  st_predicates : list predicate;
  st_tasks : list task;
  st_actions : list action;
  st_types : option (list symbol)
}.

(** problem_type_checker.rs 50-96: one argument of an init or goal atom.  The
    error for an object reports [found.symbol_type], the (absent) type of the
    argument occurrence. *)
Definition check_pred_arg (tb : symbol_table) (objects : list symbol) (pname : string)
           (expected found : symbol) : outcome unit :=
  match find_symbol_last (sym_name found) objects with
  | Some o =>
    if is_var_type_consistent (st_types tb) (sym_type o) (sym_type expected) then Ok tt
    else sem (InconsistentPredicateArgType
                (mkTypeErr (sym_type expected) (sym_type found) pname (sym_pos found)))
  | None =>
    match find_symbol (sym_name found) (st_constants tb) with
    | Some c =>
      if is_var_type_consistent (st_types tb) (sym_type c) (sym_type expected) then Ok tt
      else sem (InconsistentPredicateArgType
                  (mkTypeErr (sym_type expected) (sym_type c) pname (sym_pos found)))
    | None => sem (UndefinedObject (mkUndef (sym_name found) (sym_pos found)))
    end
  end.

(** problem_type_checker.rs 36-108. *)
Definition check_predicate_instantiation (tb : symbol_table) (objects : list symbol)
           (p : predicate) : outcome unit :=
  match find_predicate (pred_name p) (st_predicates tb) with
  | Some def =>
    if negb (Nat.eqb (length (pred_vars def)) (length (pred_vars p))) then
      sem (InconsistentPredicateArity
             (mkArity (pred_name p) (length (pred_vars def)) (length (pred_vars p)) (pred_pos p)))
    else for_each (fun ef => check_pred_arg tb objects (pred_name p) (fst ef) (snd ef))
                  (combine (pred_vars def) (pred_vars p))
  | None => sem (UndefinedPredicate (mkUndef (pred_name p) (pred_pos p)))
  end.

(** problem_type_checker.rs 126-205 and 217-296: one term of a subtask of the
    initial task network. *)
Definition check_subtask_arg (tb : symbol_table) (objects : list symbol)
           (params : option (list symbol)) (tname : string) (expected found : symbol)
  : outcome unit :=
  match find_symbol_last (sym_name found) objects with
  | Some o =>
    if is_var_type_consistent (st_types tb) (sym_type o) (sym_type expected) then Ok tt
    else sem (InconsistentTaskArgType
                (mkTypeErr (sym_type expected) (sym_type o) tname (sym_pos found)))
  | None =>
    match match params with
          | Some ps => find_symbol (sym_name found) ps
          | None => None
          end with
    | Some p =>
      if is_var_type_consistent (st_types tb) (sym_type p) (sym_type expected) then Ok tt
      else sem (InconsistentTaskArgType
                  (mkTypeErr (sym_type expected) (sym_type p) tname (sym_pos found)))
    | None =>
      match find_symbol (sym_name found) (st_constants tb) with
      | Some c =>
        if is_var_type_consistent (st_types tb) (sym_type c) (sym_type expected) then Ok tt
        else sem (InconsistentPredicateArgType
                    (mkTypeErr (sym_type expected) (sym_type c) tname (sym_pos found)))
      | None => sem (UndefinedObject (mkUndef (sym_name found) (sym_pos found)))
      end
    end
  end.

(** problem_type_checker.rs 111-304. *)
Definition check_subtask_instantiation (tb : symbol_table) (objects : list symbol)
           (params : option (list symbol)) (s : subtask) : outcome unit :=
  let tname := sym_name (sub_task s) in
  let check (formals : list symbol) :=
    if negb (Nat.eqb (length formals) (length (sub_terms s))) then
      sem (InconsistentTaskArity
             (mkArity tname (length formals) (length (sub_terms s)) (sym_pos (sub_task s))))
    else for_each (fun ef => check_subtask_arg tb objects params tname (fst ef) (snd ef))
                  (combine formals (sub_terms s)) in
  match find_action tname (st_actions tb) with
  | Some a => check (act_params a)
  | None =>
    match find_task tname (st_tasks tb) with
    | Some t => check (task_params t)
    | None => sem (UndefinedSubtask (mkUndef tname (sym_pos (sub_task s))))
    end
  end.

(** problem_analyzer.rs 20-85. *)
Definition verify_problem (tb : symbol_table) (p : problem_ast) : outcome (list warning) :=
  check_type_declarations (st_types tb) (p_objects p) ;;;
  each_fresh DuplicateObject sym_name sym_pos (fun _ _ => Ok tt) [] (p_objects p) ;;;
  for_each (check_predicate_instantiation tb (p_objects p)) (p_init p) ;;;
  match p_init_tn p with
  | None => Ok tt
  | Some tn =>
    verify_ordering (itn_tn tn) ;;;
    for_each (check_subtask_instantiation tb (p_objects p) (itn_params tn))
             (htn_subtasks (itn_tn tn))
  end ;;;
  match p_goal p with
  | None => Ok tt
  | Some g => for_each (check_predicate_instantiation tb (p_objects p)) (prop_preds g)
  end ;;;
  Ok (st_warnings tb).
