(** Bounded sanity checks, not proofs: the documents of the repository's own
    semantic unit tests (src/semantic_analyzer/tests) and of
    tests/integration_flawed.rs are run through the model.  The comment of each
    example quotes what the Rust test asserts; the right-hand side is the text
    the model gives ("OK " and the warnings, or "ERR " and the error; for
    metadata the printed description).  File generated from the test sources. *)
From Coq Require Import String List Arith.
From Verif Require Import Base Token Lexer Errors Ast Parser Semantic Tdg Api Json Lsp Cli PropsLex.
Import ListNotations.
Open Scope string_scope.

Definition rendered {A} (show : A -> string) (r : outcome A) : string :=
  match r with
  | Ok a => show a
  | Err e => "ERR " ++ match show_parsing_error e with Some m => m | None => "?" end
  | Panic _ => "PANIC"
  | OutOfFuel => "FUEL"
  end.
Definition verified (domain : string) (problem : option string) : string :=
  let n := 4 * String.length domain + match problem with Some p => 4 * String.length p | None => 0 end in
  rendered (fun ws => "OK " ++ String.concat " | " (map show_warning ws))
           (@verify uni0 env_id n domain problem).
Definition described (domain : string) : string :=
  let n := 4 * String.length domain in
  rendered show_metadata (@get_metadata uni0 env_id n n domain).

Definition depot_domain : string := "
    (define (domain Depot)
            (:requirements :negative-preconditions
                :hierarchy
                :typing
                :method-preconditions
            )

            (:types place locatable - object depot distributor - place truck hoist surface - locatable pallet crate - surface)

            (:predicates (at ?x - locatable ?y - place) (on ?x - crate ?y - surface) (in ?x - crate ?y - truck) (lifting ?x - hoist ?y - crate) (available ?x - hoist) (clear ?x - surface))

            (:task do_put_on
            :parameters (?c - crate ?s2 - surface) )

            (:task do_clear
            :parameters (?s1 - surface ?p1 - place) )

            (:task do_get_truck
            :parameters (?t - truck ?p1 - place) )

            (:task do_lift_crate
            :parameters (?c - crate ?p - place ?h - hoist) )

            (:task do_load_truck
            :parameters (?c - crate ?s - surface ?p - place ?t - truck) )

            (:task do_unload_truck
            :parameters (?c - crate ?s - surface ?p - place ?t - truck) )

            (:method m0_do_put_on
            :parameters ( ?c - crate  ?s2 - surface )
            :task (do_put_on ?c ?s2)
            :precondition(and (on ?c ?s2))
            :ordered-subtasks(and (t1 (nop))) ) 

            (:method m1_do_put_on
            :parameters ( ?c - crate  ?s2 - surface ?p - place ?h - hoist )
            :task (do_put_on ?c ?s2)
            :precondition(and (at ?c ?p))
            :ordered-subtasks(and (t1 (do_clear ?c ?p)) (t2 (do_clear ?s2 ?p)) (t3 (do_lift_crate ?c ?p ?h)) (t4 (Drop ?h ?c ?s2 ?p))) ) 

            (:method m2_do_put_on
            :parameters ( ?c - crate  ?s2 - surface ?p - place ?t - truck ?h - hoist )
            :task (do_put_on ?c ?s2)
            :precondition(and (in ?c ?t))
            :ordered-subtasks(and (t1 (do_get_truck ?t ?p)) (t2 (do_clear ?s2 ?p)) (t3 (Unload ?h ?c ?t ?p)) (t4 (Drop ?h ?c ?s2 ?p))) ) 

            (:method m3_do_put_on
            :parameters ( ?c - crate  ?s2 - surface ?s1 - surface ?p1 - place ?t - truck ?p2 - place )
            :task (do_put_on ?c ?s2)
            :precondition()
            :ordered-subtasks(and (t1 (do_load_truck ?c ?s1 ?p1 ?t)) (t2 (Drive ?t ?p1 ?p2)) (t3 (do_unload_truck ?c ?s2 ?p2 ?t))) ) 

            (:method m4_do_clear
            :parameters ( ?s1 - surface  ?p1 - place )
            :task (do_clear ?s1 ?p1)
            :precondition(and (clear ?s1) (at ?s1 ?p1))
            :ordered-subtasks(and (t1 (nop))) ) 

            (:method m5_do_clear
            :parameters ( ?s1 - surface  ?p1 - place ?c - crate ?t - truck ?h1 - hoist )
            :task (do_clear ?s1 ?p1)
            :precondition(and (not (clear ?s1)) (on ?c ?s1) (at ?s1 ?p1) (at ?h1 ?p1))
            :ordered-subtasks(and (t1 (do_clear ?c ?p1)) (t2 (Lift ?h1 ?c ?s1 ?p1)) (t3 (do_get_truck ?t ?p1)) (t4 (Load ?h1 ?c ?t ?p1))) ) 

            (:method m6_do_get_truck
            :parameters ( ?t - truck  ?p1 - place )
            :task (do_get_truck ?t ?p1)
            :precondition(and (at ?t ?p1))
            :ordered-subtasks(and (t1 (nop))) ) 

            (:method m7_do_get_truck
            :parameters ( ?t - truck  ?p1 - place ?p2 - place )
            :task (do_get_truck ?t ?p1)
            :precondition(and (not (at ?t ?p1)))
            :ordered-subtasks(and (t1 (Drive ?t ?p2 ?p1))) ) 

            (:method m8_do_lift_crate
            :parameters ( ?c - crate  ?p - place  ?h - hoist ?t - truck )
            :task (do_lift_crate ?c ?p ?h)
            :precondition(and (in ?c ?t) (at ?h ?p))
            :ordered-subtasks(and (t1 (do_get_truck ?t ?p)) (t2 (Unload ?h ?c ?t ?p))) ) 

            (:method m9_do_lift_crate
            :parameters ( ?c - crate  ?p - place  ?h - hoist ?s - surface )
            :task (do_lift_crate ?c ?p ?h)
            :precondition(and (on ?c ?s) (at ?c ?p) (at ?s ?p) (at ?h ?p))
            :ordered-subtasks(and (t1 (Lift ?h ?c ?s ?p))) ) 

            (:method m10_do_load_trcaruck
            :parameters ( ?c - crate  ?s - surface  ?p - place  ?t - truck ?h - hoist )
            :task (do_load_truck ?c ?s ?p ?t)
            :precondition(and (at ?c ?p) (at ?s ?p) (on ?c ?s) (at ?h ?p))
            :ordered-subtasks(and (t1 (do_get_truck ?t ?p)) (t2 (do_clear ?c ?p)) (t3 (Lift ?h ?c ?s ?p)) (t4 (Load ?h ?c ?t ?p))) ) 

            (:method m11_do_unload_truck
            :parameters ( ?c - crate  ?s - surface  ?p - place  ?t - truck ?h - hoist )
            :task (do_unload_truck ?c ?s ?p ?t)
            :precondition(and (in ?c ?t) (at ?t ?p) (at ?h ?p) (at ?s ?p))
            :ordered-subtasks(and (t1 (do_clear ?s ?p)) (t2 (Unload ?h ?c ?t ?p)) (t3 (Drop ?h ?c ?s ?p))) ) 

            (:action Drive
            :parameters (?x - truck ?y - place ?z - place)
            :precondition (and (at ?x ?y))
            :effect (and (not (at ?x ?y)) (at ?x ?z)))

            (:action Lift
            :parameters (?x - hoist ?y - crate ?z - surface ?p - place)
            :precondition (and (at ?x ?p) (available ?x) (at ?y ?p) (on ?y ?z) (clear ?y))
            :effect (and (not (at ?y ?p)) (lifting ?x ?y) (not (clear ?y)) (not (available ?x)) (clear ?z) (not (on ?y ?z))))

            (:action Drop
            :parameters (?x - hoist ?y - crate ?z - surface ?p - place)
            :precondition (and (at ?x ?p) (at ?z ?p) (clear ?z) (lifting ?x ?y))
            :effect (and (available ?x) (not (lifting ?x ?y)) (at ?y ?p) (not (clear ?z)) (clear ?y) (on ?y ?z)))

            (:action Load
            :parameters (?x - hoist ?y - crate ?z - truck ?p - place)
            :precondition (and (at ?x ?p) (at ?z ?p) (lifting ?x ?y))
            :effect (and (not (lifting ?x ?y)) (in ?y ?z) (available ?x)))

            (:action Unload
            :parameters (?x - hoist ?y - crate ?z - truck ?p - place)
            :precondition (and (at ?x ?p) (at ?z ?p) (available ?x) (in ?y ?z))
            :effect (and (not (in ?y ?z)) (not (available ?x)) (lifting ?x ?y)))

            (:action nop
            :parameters ()
            :precondition ()
            :effect ())
))".

(** cyclic_method_ordering_test: SemanticErrorType::CyclicOrderingDeclaration; assert_eq!(pos.line, 21) *)
Example t_cyclic_method_ordering_test :
  verified "(define (domain bal)
                (:predicates 
                    (hold ?a_1 ?a_2)
                    (pred_2)
                    (at ?a_1)
                )
                (:task deliver_abs_1 :parameters(?p1))
                (:task deliver_abs_2 :parameters(?p1))
                (:task deliver_abs_3 :parameters(?p1))
                (:task deliver_abs_4 :parameters(?p1))

                (:method m_1
                    :parameters (?p1 ?p2 ?p3 ?p4) 
                    :task (deliver_abs_1 ?p1)
                    :subtasks (and
                        (t1 (deliver_abs_1 ?p1))
                        (t2 (deliver_abs_2 ?p2))
                        (t3 (deliver_abs_3 ?p3))
                        (t4 (deliver_abs_4 ?p4))
                    )
                    :ordering (and
                        (< t1 t2)
                        (< t2 t3)
                        (< t3 t4)
                        (< t4 t1)
                    )
                )
             ) " None = "ERR line 21: task ordering is cyclic.".
Proof. vm_compute. reflexivity. Qed.

(** cyclic_types_test: SemanticErrorType::CyclicTypeDeclaration *)
Example t_cyclic_types_test :
  verified "(define (domain bal)
            (:types
            t1 t2 - t3
            t4 t5 - t6
            t3 t6 - t7
            t7 - t1
            )
        ) " None = "ERR Type hierarchy is cyclic.".
Proof. vm_compute. reflexivity. Qed.

(** objects_duplicate_test: SemanticErrorType::DuplicateObjectDeclaration; assert_eq!(x.symbol, ''a''); assert_eq!(x.first_pos.line, 3); assert_eq!(x.second_pos.line, 6) *)
Example t_objects_duplicate_test :
  verified "(define (domain bal)
            (:types t1 t2)
            (:predicates 
                (at ?a )
                (hold ?a ?b)
            )
            (:action a_1
             :parameters (p_1 p_2  p_3)
             :precondition (not (at p_1))
             :effect (and (not (hold p_2 p_3)) (at p_2))
            )
            (:action a_2
             :parameters (p_1 p_2)
             :precondition (not (at p_1))
             :effect (and (not (at p_2)))
            )
            )
         ) " (Some "(define (problem p1) (domain bal)
                    (:objects
                        a b c - t1
                        d - t1
                        t
                        a -t2
                        )
                    )") = "ERR object 'a' is first defined in line 3, and then redefined in line 6.".
Proof. vm_compute. reflexivity. Qed.

(** requirements_duplicate_test: SemanticErrorType::DuplicateRequirementDeclaration *)
Example t_requirements_duplicate_test :
  verified "(define (domain bal)
            (:requirements :hierarchy :method-preconditions :hierarchy :negative-preconditions)

         ) " None = "ERR requirement :hierarchy".
Proof. vm_compute. reflexivity. Qed.

(** predicates_duplicate_test: SemanticErrorType::DuplicatePredicateDeclaration; assert_eq!(x.symbol, ''pred_1''); assert_eq!(x.first_pos.line, 4) *)
Example t_predicates_duplicate_test :
  verified "(define (domain bal)
            (:types t_1 t_2)
            (:predicates 
                (pred_1 ?a_1 ?a_2 - t_1 ?a_3 - t_2)
                (pred_2)
                (pred_1 a_1 a_2)
            )
         ) " None = "ERR predicate 'pred_1' is first defined in line 4, and then redefined in line 6.".
Proof. vm_compute. reflexivity. Qed.

(** action_duplicate_test: SemanticErrorType::DuplicateActionDeclaration; assert_eq!(x.symbol, ''a_1''); assert_eq!(x.first_pos.line, 7); assert_eq!(x.second_pos.line, 17) *)
Example t_action_duplicate_test :
  verified "(define (domain bal)
            (:types t1 t2)
            (:predicates 
                (at ?a )
                (hold ?a ?b)
            )
            (:action a_1
             :parameters (p_1 p_2  p_3)
             :precondition (not (at p_1))
             :effect (and (not (hold p_2 p_3)) (at p_2))
            )
            (:action a_2
             :parameters (p_1 p_2)
             :precondition (not (at p_1))
             :effect (and (not (at p_2)))
            )
            (:action a_1
             :parameters (p_1 p_2 p_3 p4 p5)
             :precondition (not (at p_1))
             :effect (and (not (hold p_2 p_3)) (at p_2))
            )
         ) " None = "ERR action 'a_1' is first defined in line 7, and then redefined in line 17.".
Proof. vm_compute. reflexivity. Qed.

(** parameter_duplicate_test: SemanticErrorType::DuplicateParameterDeclaration; assert_eq!(x.symbol, ''p_1''); assert_eq!(x.first_pos.line, 8); assert_eq!(x.second_pos.line, 8) *)
Example t_parameter_duplicate_test :
  verified "(define (domain bal)
            (:types t1 t2)
            (:predicates 
                (at ?a )
                (hold ?a ?b)
            )
            (:action a_1
             :parameters (?p_1 ?p_2 ?p_3 ?p_1)
             :precondition (not (at p_1))
             :effect (and (not (hold p_2 p_3)) (at p_2))
            )
         ) " None = "ERR parameter 'p_1' is first defined in line 8, and then redefined in line 8.".
Proof. vm_compute. reflexivity. Qed.

(** compound_task_duplicate_test: SemanticErrorType::DuplicateCompoundTaskDeclaration; assert_eq!(x.symbol, ''c_1''); assert_eq!(x.first_pos.line, 2); assert_eq!(x.second_pos.line, 8) *)
Example t_compound_task_duplicate_test :
  verified "(define (domain bal)
                (:task c_1
                 :parameters (p_1 p_2 p_3)
                )
                (:task c_2
                 :parameters (p_1)
                )
                (:task c_1
                 :parameters (p_1 p_2)
                )
             ) " None = "ERR compound task 'c_1' is first defined in line 2, and then redefined in line 8.".
Proof. vm_compute. reflexivity. Qed.

(** method_duplicate_test: SemanticErrorType::DuplicateMethodDeclaration; assert_eq!(x.symbol, ''m_1''); assert_eq!(x.first_pos.line, 7); assert_eq!(x.second_pos.line, 22) *)
Example t_method_duplicate_test :
  verified "(define (domain bal)
                (:task deliver_abs :parameters (?a ?b ?c))
                (:action pickup
                    :parameters(?p1 ?l1)
                    :precondition ()
                )
                (:method m_1
                    :parameters (?p1 ?l1 ?l2 ?l3) 
                    :task (deliver_abs ?p1 ?l1 ?l2)
                    :subtasks (and
                        (pickup ?p1 ?l1)
                        (deliver_abs ?p1 ?l2 ?l3)
                    )
                )
                (:method m_2
                    :parameters (?p1 ?l1 ?l2) 
                    :task (deliver_abs ?p1 ?l1 ?l2)
                    :subtasks (and
                        (pickup ?p1 ?l1)
                    )
                )
                (:method m_1
                    :parameters (?p1 ?l1 ?l2 ?l3) 
                    :task (deliver_abs ?p1 ?l1 ?l2)
                    :subtasks (and
                        (deliver_abs ?p1 ?l2 ?l3)
                    )
                )
             ) " None = "ERR method 'm_1' is first defined in line 7, and then redefined in line 22.".
Proof. vm_compute. reflexivity. Qed.

(** p_undeclared_type_test: SemanticErrorType::UndefinedType; assert_eq!(ty.symbol, ''car''); assert_eq!(ty.position.line, 6) *)
Example t_p_undeclared_type_test :
  verified depot_domain (Some "(define (problem p1)
            (:domain d)
            (:objects
                x1 x2 - place
                truck1 truck2 -locatable
                ve1 - car 
            )
            (:htn
                :parameters ()
                :ordered-subtasks (and
                    (abs_1)
                )
            )
    ") = "ERR line 6: type car is not defined.".
Proof. vm_compute. reflexivity. Qed.

(** p_undefined_object_test: SemanticErrorType::UndefinedObject; assert_eq!(undefined.symbol, ''x3''); assert_eq!(undefined.position.line, 10) *)
Example t_p_undefined_object_test :
  verified depot_domain (Some "(define (problem p1)
            (:domain d)
            (:objects
                x1 x2 - place
                truck1 truck2 -truck
            )
            (:htn
                :parameters ()
                :ordered-subtasks (and
                    (do_get_truck truck1 x3)
                )
            )
    ") = "ERR line 10: object x3 is not defined.".
Proof. vm_compute. reflexivity. Qed.

(** p_duplicate_object_definition_test: SemanticErrorType::DuplicateObjectDeclaration *)
Example t_p_duplicate_object_definition_test :
  verified depot_domain (Some "
        (define (problem p1)
            (:domain d)
            (:objects
                x1 x2 - place
                truck1 truck2 -locatable
                x1 - object
            )
            (:htn
                :parameters ()
                :ordered-subtasks (and
                    (abs_1)
                )
            )
    ") = "ERR object 'x1' is first defined in line 5, and then redefined in line 7.".
Proof. vm_compute. reflexivity. Qed.

(** p_cyclic_init_tn_ordering_test: SemanticErrorType::CyclicOrderingDeclaration; assert_eq!(pos.line, 14) *)
Example t_p_cyclic_init_tn_ordering_test :
  verified depot_domain (Some "(define (problem p1)
            (:domain d)
            (:objects
                x1 x2 - place
                truck1 truck2 -locatable
                crate1 crate2 - crate
            )
            (:htn
                :subtasks (and
                    (t1 (do_put_on crate1 truck1))
                    (t2 (do_put_on crate2 truck1))
                    (t3 (do_put_on crate2 truck1))
                )
                :ordering (and
                    (< t1 t2)
                    (< t2 t3)
                    (< t3 t1)
                )
            )
    ") = "ERR line 14: task ordering is cyclic.".
Proof. vm_compute. reflexivity. Qed.

(** p_inconsistent_goal_predicate_test: SemanticErrorType::InconsistentPredicateArity; assert_eq!(ty.symbol, ''at''); assert_eq!(ty.expected_arity, 2); assert_eq!(ty.found_arity, 1) *)
Example t_p_inconsistent_goal_predicate_test :
  verified depot_domain (Some "
        (define (problem p1)
            (:domain d)
            (:objects
                x1 x2 - place
                truck1 truck2 -locatable
            )
            (:htn
                :parameters ()
                :ordered-subtasks ()
            )
            (:goal
                (and
                    (at truck1 x1)
                    (at truck1)
                )
            )
    ") = "ERR line 15: predicate at takes 2 parameters, but 1 are given.".
Proof. vm_compute. reflexivity. Qed.

(** p_inconsistent_init_predicate_test: SemanticErrorType::InconsistentPredicateArgType *)
Example t_p_inconsistent_init_predicate_test :
  verified depot_domain (Some "
        (define (problem p1)
            (:domain d)
            (:objects
                x1 x2 - place
                truck1 truck2 -locatable
                crate1 - crate
            )
            (:htn
                :parameters ()
                :ordered-subtasks ()
            )
            (:init
                (at truck1 crate1)
            )
    ") = "ERR line 14: Type error for variable at. Expected object of type 'place', but did not find any typing.".
Proof. vm_compute. reflexivity. Qed.

(** p_inconsistent_subtask_test: SemanticErrorType::InconsistentTaskArgType *)
Example t_p_inconsistent_subtask_test :
  verified depot_domain (Some "
        (define (problem p1)
            (:domain d)
            (:objects
                x1 x2 - place
                truck1 truck2 -locatable
                crate1 crate2 - crate
            )
            (:htn
                :parameters ()
                :subtasks (and
                    (t1 (do_get_truck truck1 truck2))
                )
            )
    ") = "ERR line 12: Type error for variable do_get_truck. Expected object of type 'truck', but found 'locatable'.".
Proof. vm_compute. reflexivity. Qed.

(** tdg_correctness_test: assert_eq!(reachable_abs_1.compounds.len(), 3); assert_eq!(reachable_abs_1.primitives.len(), 1); assert_eq!(reachable_abs_1.compounds.contains(''abs_1''), true); assert_eq!(reachable_abs_1.compounds.contains(''abs_2''), true); assert_eq!(reachable_abs_1.compounds.contains(''abs_3''), true); assert_eq!(reachable_abs_1.primitives.contains(''p_1''), true); assert_eq!(reachable_abs_1.nullable, true); assert_eq!(reachable_p_2.primitives.len(), 1); assert_eq!(reachable_p_2.primitives.contains(''p_2''), true); assert_eq!(reachable_p_2.nullable, false) *)
Example t_tdg_correctness_test :
  described "(define (domain bal)
            (:predicates 
                (at ?l)
            )
            (:action p_1
            :parameters(?l1)
            :precondition (at ?l1)
            )
            (:action p_2
            :parameters(?l1)
            :precondition (at ?l1)
            )
            (:task abs_1 :parameters(?a))
            (:task abs_2 :parameters(?a))
            (:task abs_3 :parameters(?a))

            (:method m_1
                :parameters (?p1) 
                :task (abs_1 ?p1)
                :ordered-subtasks (and
                    (t1 (abs_1 ?p1))
                    (t2 (abs_2 ?p1))
                    (t3 (abs_3 ?p1))
                    (t4 (p_1 ?p1))
                )
            )
            (:method m_2
                :parameters (?p1) 
                :task (abs_1 ?p1)
                :ordered-subtasks ()
            )
        ) " = "Description
	Hierarchy type: Growing empty prefix recursion
	Cycle: [abs_1]-(m_1)->[abs_1]
	Nullable Tasks:
		abs_1
	Number of actions: 2
	Number of abstract tasks: 3
	Number of methods: 2
".
Proof. vm_compute. reflexivity. Qed.

(** tdg_non_recursive_test: RecursionType::NonRecursive *)
Example t_tdg_non_recursive_test :
  described "(define (domain bal)
            (:predicates 
                (at ?l)
            )
            (:action p_1
            :parameters(?l1)
            :precondition (at ?l1)
            )
            (:action p_2
            :parameters(?l1)
            :precondition (at ?l1)
            )
            (:task abs_1 :parameters(?a))
            (:task abs_2 :parameters(?a))
            (:task abs_3 :parameters(?a))

            (:method m_1
                :parameters (?p1) 
                :task (abs_1 ?p1)
                :ordered-subtasks (and
                    (t2 (abs_2 ?p1))
                    (t3 (abs_3 ?p1))
                    (t4 (p_1 ?p1))
                )
            )
        ) " = "Description
	Hierarchy type: Non-recursive
	Nullable Tasks: None
	Number of actions: 2
	Number of abstract tasks: 3
	Number of methods: 1
".
Proof. vm_compute. reflexivity. Qed.

(** tdg_recursive_test: RecursionType::Recursive *)
Example t_tdg_recursive_test :
  described "(define (domain bal)
            (:predicates 
                (at ?l)
            )
            (:action p_1
            :parameters(?l1)
            :precondition (at ?l1)
            )
            (:action p_2
            :parameters(?l1)
            :precondition (at ?l1)
            )
            (:task abs_1 :parameters(?a))
            (:task abs_2 :parameters(?a))
            (:task abs_3 :parameters(?a))

            (:method m_1
                :parameters (?p1) 
                :task (abs_1 ?p1)
                :ordered-subtasks (and
                    (t0 (p_2 ?p1))
                    (t1 (abs_2 ?p1))
                    (t2 (abs_3 ?p1))
                    (t3 (abs_1 ?p1))
                    (t4 (p_1 ?p1))
                )
            )
        ) " = "Description
	Hierarchy type: Recursive
	Cycle: [abs_1]-(m_1)->[abs_1]
	Nullable Tasks: None
	Number of actions: 2
	Number of abstract tasks: 3
	Number of methods: 1
".
Proof. vm_compute. reflexivity. Qed.

(** tdg_grow_and_shrink_cycle_test: RecursionType::GrowAndShrinkRecursion *)
Example t_tdg_grow_and_shrink_cycle_test :
  described "(define (domain bal)
            (:predicates 
                (at ?l)
            )
            (:action p_1
            :parameters(?l1)
            :precondition (at ?l1)
            )
            (:action p_2
            :parameters(?l1)
            :precondition (at ?l1)
            )
            (:task abs_1 :parameters(?a))
            (:task abs_2 :parameters(?a))
            (:task abs_3 :parameters(?a))

            (:method m_1
                :parameters (?p1) 
                :task (abs_1 ?p1)
                :ordered-subtasks (and
                    (t0 (abs_3 ?p1))
                    (t1 (abs_1 ?p1))
                    (t2 (abs_3 ?p1))
                    (t3 (abs_3 ?p1))
                )
            )

            (:method m_2
                :parameters (?p1) 
                :task (abs_3 ?p1)
                :ordered-subtasks ()
            )
        ) " = "Description
	Hierarchy type: Grow and shrink recursion
	Cycle: [abs_1]-(m_1)->[abs_1]
	Nullable Tasks:
		abs_3
	Number of actions: 2
	Number of abstract tasks: 3
	Number of methods: 2
".
Proof. vm_compute. reflexivity. Qed.

(** tdg_grow_and_shrink_cycle_partial_order_1_test: RecursionType::GrowAndShrinkRecursion *)
Example t_tdg_grow_and_shrink_cycle_partial_order_1_test :
  described "(define (domain bal)
            (:predicates 
                (at ?l)
            )
            (:action p_1
            :parameters(?l1)
            :precondition (at ?l1)
            )
            (:action p_2
            :parameters(?l1)
            :precondition (at ?l1)
            )
            (:task abs_1 :parameters(?a))
            (:task abs_2 :parameters(?a))
            (:task abs_3 :parameters(?a))

            (:method m_1
                :parameters (?p1) 
                :task (abs_1 ?p1)
                :subtasks (and
                    (t0 (abs_3 ?p1))
                    (t1 (abs_1 ?p1))
                    (t2 (abs_3 ?p1))
                    (t3 (abs_3 ?p1))
                )
                :ordering (and
                    (< t0 t1)
                    (< t1 t2)
                    (< t2 t3)
                )
            )

            (:method m_2
                :parameters (?p1) 
                :task (abs_3 ?p1)
                :subtasks ()
            )
        ) " = "Description
	Hierarchy type: Grow and shrink recursion
	Cycle: [abs_1]-(m_1)->[abs_1]
	Nullable Tasks:
		abs_3
	Number of actions: 2
	Number of abstract tasks: 3
	Number of methods: 2
".
Proof. vm_compute. reflexivity. Qed.

(** tdg_growing_cycle_test: RecursionType::GrowingEmptyPrefixRecursion *)
Example t_tdg_growing_cycle_test :
  described "(define (domain bal)
            (:predicates 
                (at ?l)
            )
            (:action p_1
            :parameters(?l1)
            :precondition (at ?l1)
            )
            (:action p_2
            :parameters(?l1)
            :precondition (at ?l1)
            )
            (:task abs_1 :parameters(?a))
            (:task abs_2 :parameters(?a))
            (:task abs_3 :parameters(?a))

            (:method m_1
                :parameters (?p1) 
                :task (abs_1 ?p1)
                :ordered-subtasks (and
                    (t1 (abs_1 ?p1))
                    (t2 (abs_3 ?p1))
                    (t3 (abs_1 ?p1))
                    (t4 (p_1 ?p1))
                )
            )

            (:method m_2
                :parameters (?p1) 
                :task (abs_3 ?p1)
                :ordered-subtasks (and
                    (t1 (p_1 ?p2))
                    (t2 (p_1 ?p2))
                )
            )
        ) " = "Description
	Hierarchy type: Growing empty prefix recursion
	Cycle: [abs_1]-(m_1)->[abs_1]
	Nullable Tasks: None
	Number of actions: 2
	Number of abstract tasks: 3
	Number of methods: 2
".
Proof. vm_compute. reflexivity. Qed.

(** satelite_domain_cycle_test: RecursionType::Recursive *)
Example t_satelite_domain_cycle_test :
  described "(define (domain bal)
            (:predicates 
                (at ?l)
            )
            (:action p_1
            :parameters(?l1)
            :precondition (at ?l1)
            )
            (:action p_2
            :parameters(?l1)
            :precondition (at ?l1)
            )

            (:task do_prepare :parameters (?s - satellite ?i - instrument ?d - direction) )
            (:task do_switching :parameters (?s - satellite ?i - instrument) )
            (:task do_calibration :parameters (?s - satellite ?i - instrument ?d - direction) )
            (:task do_turning :parameters (?s - satellite ?d - direction) )

            (:method m1_do_prepare
                :parameters ( ?s - satellite  ?i - instrument  ?d - direction )
                :task (do_prepare ?s ?i ?d)
                :precondition ()
                :ordered-subtasks(and (t1 (do_switching ?s ?i)) (t2 (do_turning ?s ?d)))
            )
            (:method m3_do_switching
                :parameters ( ?s - satellite  ?i - instrument ?d - direction )
                :task (do_switching ?s ?i)
                :precondition (and (on_board ?i ?s) (power_avail ?s))
                :ordered-subtasks(and (t1 (switch_on ?i ?s)) (t2 (do_calibration ?s ?i ?d)))
            )
            (:method m5_do_calibration
                :parameters ( ?s - satellite  ?i - instrument  ?d - direction )
                :task (do_calibration ?s ?i ?d)
                :precondition (and (not(calibrated ?i)))
                :ordered-subtasks(and (t1 (do_prepare ?s ?i ?d)) (t2 (calibrate ?s ?i ?d)))
            )

            (:action switch_on
                :parameters (?i - instrument ?s - satellite)
                :precondition (and (on_board ?i ?s) (power_avail ?s))
                :effect (and (power_on ?i) (not (calibrated ?i)) (not (power_avail ?s)))
            )
            (:action calibrate
                :parameters (?s - satellite ?i - instrument ?d - direction)
                :precondition (and (on_board ?i ?s) (calibration_target ?i ?d) (pointing ?s ?d) (power_on ?i))
                :effect (calibrated ?i)
            )
        ) " = "Description
	Hierarchy type: Recursive
	Cycle: [do_calibration]-(m5_do_calibration)->[do_prepare]-(m1_do_prepare)->[do_switching]-(m3_do_switching)->[do_calibration]
	Nullable Tasks: None
	Number of actions: 4
	Number of abstract tasks: 4
	Number of methods: 3
".
Proof. vm_compute. reflexivity. Qed.

(** tdg_nullables_test:  *)
Example t_tdg_nullables_test :
  described "(define (domain bal)
            (:predicates 
                (at ?l)
            )
            (:action p_1
            :parameters(?l1)
            :precondition (at ?l1)
            )
            (:action p_2
            :parameters(?l1)
            :precondition (at ?l1)
            )
            (:task abs_1 :parameters(?a))
            (:task abs_2 :parameters(?a))
            (:task abs_3 :parameters(?a))

            (:method m_1
                :parameters (?p1) 
                :task (abs_1 ?p1)
                :ordered-subtasks (and
                    (t0 (abs_3 ?p1))
                    (t1 (abs_2 ?p1))
                    (t2 (abs_3 ?p1))
                    (t3 (abs_3 ?p1))
                )
            )

            (:method m_2
                :parameters (?p1) 
                :task (abs_2 ?p1)
                :ordered-subtasks ()
            )

            (:method m_3
                :parameters (?p1) 
                :task (abs_3 ?p1)
                :ordered-subtasks (
                    abs_2 ?p1
                )
            )

            (:method m_3
                :parameters (?1) 
                :task (abs_3 ?p1)
                :ordered-subtasks (and
                    (p_1 ?l1)
                    (p_2 ?l1)
                )
            )
        ) " = "Description
	Hierarchy type: Non-recursive
	Nullable Tasks:
		abs_2
		abs_1
		abs_3
	Number of actions: 2
	Number of abstract tasks: 3
	Number of methods: 4
".
Proof. vm_compute. reflexivity. Qed.

(** basic_type_checking_test: SemanticErrorType::InconsistentPredicateArgType; assert_eq!(t_err.var_name, ''l1''); assert_eq!(t_err.found.unwrap(), ''t2''); assert_eq!(t_err.expected.unwrap(), ''t1''); assert_eq!(t_err.position.line, 12) *)
Example t_basic_type_checking_test :
  verified "(define (domain bal)
            (:types
            t1 t2 - t3
            t4 t5 - t6
            t3 t6 - t7
            )
            (:predicates 
                (at ?l - t1)
            )
            (:action test1
            :parameters(?l1 - t2)
            :precondition (at ?l1)
            )
        ) " None = "ERR line 12: Type error for variable l1. Expected object of type 't1', but found 't2'.".
Proof. vm_compute. reflexivity. Qed.

(** effect_type_checking_test:  *)
Example t_effect_type_checking_test :
  verified "(define (domain bal)
            (:types
            t1 t2 - t3
            t4 t5 - t6
            t3 t6 - t7
            )
            (:predicates 
                (at ?l - t1)
            )
            (:action test1
            :parameters(?l1 ?l2 - t1)
            :precondition (at ?l2)
            :effect (not(at ?l1))
            )
        ) " None = "OK ".
Proof. vm_compute. reflexivity. Qed.

(** inconsistent_predicate_arity_test: SemanticErrorType::InconsistentPredicateArity; assert_eq!(x.symbol, ''at''); assert_eq!(x.expected_arity, 1); assert_eq!(x.found_arity, 2) *)
Example t_inconsistent_predicate_arity_test :
  verified "(define (domain bal)
            (:types
            t1 t2 - t3
            t4 t5 - t6
            t3 t6 - t7
            )
            (:predicates 
                (at ?l - t1)
            )
            (:action test1
            :parameters(?l1 ?l2 - t1)
            :precondition (at ?l2)
            :effect (and 
                (not (at ?l1 ?l2) )
            )
            )
        ) " None = "ERR line 14: predicate at takes 1 parameters, but 2 are given.".
Proof. vm_compute. reflexivity. Qed.

(** inconsistent_subtask_arity_test: SemanticErrorType::InconsistentTaskArity; assert_eq!(x.symbol, ''test1''); assert_eq!(x.expected_arity, 2); assert_eq!(x.found_arity, 1); assert_eq!(x.position.line, 21) *)
Example t_inconsistent_subtask_arity_test :
  verified "(define (domain bal)
            (:types
            t1 t2 - t3
            t4 t5 - t6
            t3 t6 - t7
            )
            (:predicates 
                (at ?l - t7)
            )
            (:task abs :parameters(?a - t1))
            (:action test1
            :parameters(?l1 ?l2 - t5)
            :precondition (at ?l2)
            :effect (not(at ?l1))
            )
            (:method m1
                :parameters(?l2 - t1 ?l1 - t5)
                :task (abs ?l2)
                :tasks (and
                    (test1 ?l1 ?l1)
                    (test1 ?l1)
                )
            )
        ) " None = "ERR Task test1 takes 2 parameters, but 1 are given.".
Proof. vm_compute. reflexivity. Qed.

(** method_prec_type_checking_test:  *)
Example t_method_prec_type_checking_test :
  verified "(define (domain bal)
            (:types
            t1 t2 - t3
            t4 t5 - t6
            t3 t6 - t7
            )
            (:predicates 
                (at ?l - t7)
            )
            (:task abs :parameters(?a))
            (:action test1
            :parameters(?l1 ?l2 - t5)
            :precondition (at ?l2)
            :effect (not(at ?l1))
            )
            (:method m1
                :parameters(?l2 - t1 ?l1 - t5 ?l4)
                :task (abs ?l4)
                :precondition (at ?l2)
                :tasks (test1 ?l1 ?l1)
            )
        ) " None = "OK ".
Proof. vm_compute. reflexivity. Qed.

(** method_subtask_checking_test: SemanticErrorType::InconsistentTaskArgType; assert_eq!(t_error.expected.unwrap(), ''t2''); assert_eq!(t_error.found.unwrap(), ''t6''); assert_eq!(t_error.var_name, ''l3''); assert_eq!(t_error.position.line, 27) *)
Example t_method_subtask_checking_test :
  verified "(define (domain bal)
            (:types
            t1 t2 - t3
            t4 t5 - t6
            t3 t6 - t7
            )
            (:predicates 
                (at ?l - t7)
            )
            (:task abs :parameters(?a - t1))
            (:action test1
            :parameters(?l1 ?l2 - t3)
            :precondition (at ?l2)
            :effect (not(at ?l1))
            )
            (:action test2
            :parameters(?l1 ?l2 - t2)
            :precondition (at ?l2)
            :effect (not(at ?l1))
            )
            (:method m1
                :parameters(?l2 - t1 ?l1 - t2 ?l3 - t6)
                :task (abs ?l2)
                :precondition ()
                :tasks (and
                    (test1 ?l1 ?l1)
                    (test2 ?l3 ?l1)
                )
            )
        ) " None = "ERR line 27: Type error for variable l3. Expected object of type 't2', but found 't6'.".
Proof. vm_compute. reflexivity. Qed.

(** undefined_predicate_action_precondition_test: SemanticErrorType::UndefinedPredicate; assert_eq!(x.symbol, ''pred_5''); assert_eq!(x.position.line, 9) *)
Example t_undefined_predicate_action_precondition_test :
  verified "(define (domain bal)
            (:predicates 
                (hold ?a_1 ?a_2)
                (pred_2)
                (at a_1)
            )
            (:action a_1
             :parameters (p_1 p_2 p_3)
             :precondition (and (not (at p_1)) (pred_5))
             :effect (and (not (hold p_2 p_3)) (at p_2))
            )
         ) " None = "ERR line 9: predicate pred_5 is not defined.".
Proof. vm_compute. reflexivity. Qed.

(** inconsistent_predicate_action_effect_test: SemanticErrorType::InconsistentPredicateArity; assert_eq!(ar_error.symbol, ''hold''); assert_eq!(ar_error.expected_arity, 2) *)
Example t_inconsistent_predicate_action_effect_test :
  verified "(define (domain bal)
            (:predicates 
                (hold ?a_1 ?a_2)
                (pred_2)
                (at ?a_1)
            )
            (:action a_1
             :parameters (?p_1 ?p_2 ?p_3)
             :precondition (and (not (at ?p_1)) (hold ?p_1 ?p_2))
             :effect (and (not (hold ?p_2 ?p_3 p_2)) (at ?p_2))
            )
         ) " None = "ERR line 10: predicate hold takes 2 parameters, but 3 are given.".
Proof. vm_compute. reflexivity. Qed.

(** undefined_predicate_method_precondition_test: SemanticErrorType::UndefinedPredicate; assert_eq!(x.symbol, ''pred_5''); assert_eq!(x.position.line, 10) *)
Example t_undefined_predicate_method_precondition_test :
  verified "(define (domain bal)
                (:predicates 
                    (hold ?a_1 ?a_2)
                    (pred_2)
                    (at ?a_1)
                )
                (:method m_1
                    :parameters (?p1 ?l1 ?l2 ?l3) 
                    :task (deliver_abs ?p1 ?l1 ?l2)
                    :precondition (oneof (and (not (hold ?p_2 ?p_3)) (at ?p_2)) (pred_5))
                    :subtasks (and
                        (pickup ?p1 ?l1)
                        (deliver_abs ?p1 ?l2 ?l3)
                    )
                )
             ) " None = "ERR line 10: predicate pred_5 is not defined.".
Proof. vm_compute. reflexivity. Qed.

(** undefined_method_parameters_test: SemanticErrorType::UndefinedParameter; assert_eq!(x.symbol, ''p5''); assert_eq!(x.position.line, 15) *)
Example t_undefined_method_parameters_test :
  verified "(define (domain bal)
                (:predicates 
                    (hold ?a_1 ?a_2)
                    (pred_2)
                    (at ?a_1)
                )
                (:task deliver_abs :parameters (?p1 ?l1 ?l2))
                (:action pickup
                    :parameters(?p1 ?l1)
                    :precondition(hold ?p1 ?l1)
                )
                (:method m_1
                    :parameters (?p1 ?p2 ?p3 ?l1 ?l2 ?l3) 
                    :task (deliver_abs ?p1 ?l1 ?l2)
                    :precondition (oneof (and (not (hold ?p2 ?p3)) (at ?p5)))
                    :subtasks (and
                        (pickup ?p1 ?l1)
                        (deliver_abs ?p1 ?l2 ?l3)
                    )
                )
             ) " None = "ERR line 15: parameter p5 is not defined.".
Proof. vm_compute. reflexivity. Qed.

(** undefined_subtask_test: SemanticErrorType::UndefinedSubtask; assert_eq!(x.symbol, ''c_3''); assert_eq!(x.position.line, 20) *)
Example t_undefined_subtask_test :
  verified "(define (domain bal)
                (:predicates 
                    (hold ?a_1 ?a_2)
                    (pred_2)
                    (at ?a_1)
                )
                (:task c_1
                    :parameters (?p_1 ?p_2 ?p_3)
                )
                (:task c_2
                    :parameters (?p_1)
                )
                (:method m_1
                    :parameters (?p1 ?p2 ?p3 ?l1 ?l2 ?l3) 
                    :task (c_2 ?p1)
                    :precondition (oneof (and (not (hold ?p2 ?p3)) (at ?p2)) (pred_2))
                    :subtasks (and
                        (c_1 ?p1 ?l1 ?l2)
                        (c_2 ?p1)
                        (c_3)
                    )
                )
             ) " None = "ERR line 20: subtask c_3 is not defined.".
Proof. vm_compute. reflexivity. Qed.

(** inconsistent_subtask_arity_test: SemanticErrorType::InconsistentTaskArity; assert_eq!(ar_error.symbol, ''c_2''); assert_eq!(ar_error.expected_arity, 1); assert_eq!(ar_error.found_arity, 2) *)
Example t_inconsistent_subtask_arity_test_ :
  verified "(define (domain bal)
                (:predicates 
                    (hold ?a_1 ?a_2)
                    (pred_2)
                    (at ?a_1)
                )
                (:task c_1
                    :parameters (?p_1 ?p_2 ?p_3)
                )
                (:task c_2
                    :parameters (?p_1)
                )
                (:method m_1
                    :parameters (?p1 ?p2 ?p3 ?l1 ?l2 ?l3) 
                    :task (c_1 ?p1 ?l1 ?l2)
                    :precondition (oneof (and (not (hold ?p2 ?p3)) (at ?p2)) (pred_2))
                    :subtasks (and
                        (c_1 ?p1 ?l1 ?l2)
                        (c_2 ?p1 ?l3)
                    )
                )
             ) " None = "ERR Task c_2 takes 1 parameters, but 2 are given.".
Proof. vm_compute. reflexivity. Qed.

(** undefined_type_compound_task_test: SemanticErrorType::UndefinedType; assert_eq!(x.symbol, ''t5''); assert_eq!(x.position.line, 9) *)
Example t_undefined_type_compound_task_test :
  verified "(define (domain bal)
                (:types t1)
                (:predicates 
                    (hold ?a_1 ?a_2)
                    (pred_2)
                    (at ?a_1)
                )
                (:task c_1
                    :parameters (?p_1 ?p_2 ?p_3 - t1 ?p4 - t5)
                )
             ) " None = "ERR line 9: type t5 is not defined.".
Proof. vm_compute. reflexivity. Qed.

(** undefined_type_predicate_test: SemanticErrorType::UndefinedType; assert_eq!(x.symbol, ''t2''); assert_eq!(x.position.line, 6) *)
Example t_undefined_type_predicate_test :
  verified "(define (domain bal)
                (:types t1)
                (:predicates 
                    (pred_2)
                    (at ?a_1)
                    (hold ?a_1 ?a_2 - t1 ?a_3 - t2)
                )
             ) " None = "ERR line 6: type t2 is not defined.".
Proof. vm_compute. reflexivity. Qed.

(** undefined_predicate_forall_quantification_test: SemanticErrorType::UndefinedPredicate; assert_eq!(x.symbol, ''wro'') *)
Example t_undefined_predicate_forall_quantification_test :
  verified "(define (domain bal)
                (:predicates 
                    (hold ?a_1 ?a_2)
                    (pred_2)
                    (at ?a_1)
                )
                (:task c_1
                    :parameters (?p_1 ?p_2 ?p_3)
                )
                (:task c_2
                    :parameters ()
                )
                (:method m_1
                    :parameters () 
                    :task (c_2)
                    :precondition (forall (?pos - location) (and (not (at ?pos)) (wro ?pos)))
                    :subtasks (and
                        (c_1 ?p1 ?l1 ?l2)
                        (c_2)
                    )
                )
             ) " None = "ERR line 16: predicate wro is not defined.".
Proof. vm_compute. reflexivity. Qed.

(** undefined_method_task_test: SemanticErrorType::UndefinedTask; assert_eq!(x.symbol, ''deliver_abs'') *)
Example t_undefined_method_task_test :
  verified "(define (domain bal)
                (:predicates 
                    (hold ?a_1 ?a_2)
                    (pred_2)
                    (at ?a_1)
                )
                (:task c_1
                    :parameters (?p_1 ?p_2 ?p_3)
                )
                (:method m_1
                    :parameters (?p1 ?l1 ?l2 ?l3) 
                    :task (deliver_abs ?p1 ?l1 ?l2)
                    :subtasks (and
                        (c_1 ?p1 ?l1 ?l2)
                        (c_1 ?p1 ?l2 ?l3)
                    )
                )
             ) " None = "ERR line 12: task deliver_abs is not defined.".
Proof. vm_compute. reflexivity. Qed.

(** primitive_refinement_test: assert_eq!(sym_table.warnings.len(), 1); WarningType::NoPrimitiveRefinement; assert_eq!(info.symbol, ''abs_3''); assert_eq!(info.position.line, 15) *)
Example t_primitive_refinement_test :
  verified "(define (domain bal)
            (:predicates 
                (at ?l)
            )
            (:action p_1
            :parameters(?l1)
            :precondition (at ?l1)
            )
            (:action p_2
            :parameters(?l1)
            :precondition (at ?l1)
            )
            (:task abs_1 :parameters(?a))
            (:task abs_2 :parameters(?a))
            (:task abs_3 :parameters(?a))

            (:method m_1
                :parameters (?p1) 
                :task (abs_1 ?p1)
                :ordered-subtasks (and
                    (t4 (p_1 ?p1))
                )
            )
            (:method m_2
                :parameters (?p1) 
                :task (abs_2 ?p1)
                :ordered-subtasks ()
            )
        ) " None = "OK line 15: compound task abs_3 does not have a primitive refinement".
Proof. vm_compute. reflexivity. Qed.

(** cyclic_ordering_validation_test: ParsingError::Semantic; SemanticErrorType::CyclicOrderingDeclaration; assert_eq!(t.line, 56) *)
Example t_cyclic_ordering_validation_test :
  verified ";;
;; PDDL file for the AIPS2000 Planning Competition
;; based on the data generated by the airport simulator Astras.
;;

;; Author: Sebastian Trueg thisshouldbethecurrentdateandtime :(
;; Created with PreInstancerDomainExporter 0.6 by Sebastian Trueg <trueg@informatik.uni-freiburg.de>
;;
;; adapted by Kayleigh Sleath to run (very badly) in a HDDL planner 17/4/23
;; note that this domain is NO LONGER INTENDED TO SOLVE ANYTHING.
;; It has been adapted from a PDDL domain to fit the syntax (but not the semantics) of a HDDL file 
;; in order to test error messages provided by HDDL planning software.

;; testing diagnosis of: cyclic ordering of subtasks (line 94)


(define (domain airport_fixed_structure)

(:requirements :typing )

(:types airplane segment)

(:constants
                seg_pp_0_60
                seg_ppdoor_0_40 - segment

                airplane_CFBEG - airplane
)

(:predicates
                (at-segment ?a - airplane ?s - segment)
                ;; planes are at segments, ie at their end in driving direction

                ;; how the planes affect the airport
                (occupied ?s - segment)
                ;; a plane is in here
                (not_occupied ?s - segment)
                (blocked ?s - segment ?a - airplane)
                ;; segment s is blocked if it is endangered by plane p
                (not_blocked ?s - segment ?a - airplane)
)

;;ADD THIS TO PDDL DOMAIN TO MAKE HDDL
(:task AchieveSomeGoal :parameters (?a_0 - airplane))

;;ADD THIS TO PDDL DOMAIN TO MAKE HDDL
(:method ParkAirplane
    :parameters (?a_0 - airplane)
    :task(AchieveSomeGoal ?a_0)
    :subtasks (and
          (t1 (move_seg_ppdoor_0_40_seg_tww1_0_200_north_south_medium ?a_0))  
          (t2 (move_seg_pp_0_60_seg_ppdoor_0_40_north_north_medium ?a_0))  
          (t3 (move_seg_tww1_0_200_seg_twe1_0_200_north_south_medium ?a_0))     
    )
    ;;CYCLIC ORDERING
    :ordering (and 
          (< t1 t2)
          (< t2 t3)
          (< t3 t1)
    )
)

(:action move_seg_pp_0_60_seg_ppdoor_0_40_north_north_medium

 :parameters    (?a - airplane)

 :precondition  (and
                 (at-segment ?a seg_pp_0_60)
                 (not_occupied seg_ppdoor_0_40)
                 (not_blocked seg_ppdoor_0_40 airplane_CFBEG)

              )

 :effect        (and
                 (not (occupied seg_pp_0_60))
                 (not_occupied seg_pp_0_60)
                 (not (at-segment ?a seg_pp_0_60))

                 (occupied seg_ppdoor_0_40)
                 (not (not_occupied seg_ppdoor_0_40))
                 (blocked seg_ppdoor_0_40 ?a)
                 (not (not_blocked seg_ppdoor_0_40 ?a))
                 (at-segment ?a seg_ppdoor_0_40)
                )
)

;; REMOVE PRECONDITIONS AND EFFECTS HERE TO MAKE HDDL
(:action move_seg_ppdoor_0_40_seg_tww1_0_200_north_south_medium

 :parameters    (?a - airplane)

 :precondition  ()

 :effect        ()
)


(:action move_seg_tww1_0_200_seg_twe1_0_200_north_south_medium

 :parameters    (?a - airplane)

 :precondition  ()

 :effect        ()
)

)
" None = "ERR line 56: task ordering is cyclic.".
Proof. vm_compute. reflexivity. Qed.

(** cyclic_type_validation_test: ParsingError::Semantic; SemanticErrorType::CyclicTypeDeclaration; ParsingError::Semantic; SemanticErrorType::CyclicTypeDeclaration *)
Example t_cyclic_type_validation_test :
  verified ";;
;; PDDL file for the AIPS2000 Planning Competition
;; based on the data generated by the airport simulator Astras.
;;

;; Author: Sebastian Trueg thisshouldbethecurrentdateandtime :(
;; Created with PreInstancerDomainExporter 0.6 by Sebastian Trueg <trueg@informatik.uni-freiburg.de>
;;
;; adapted by Kayleigh Sleath to run (very badly) in a HDDL planner 17/4/23
;; note that this domain is NO LONGER INTENDED TO SOLVE ANYTHING.
;; It has been adapted from a PDDL domain to fit the syntax (but not the semantics) of a HDDL file 
;; in order to test error messages provided by HDDL planning software. 
;; Testing diagnosis of directly cyclic subtypes (line 21).


(define (domain airport_fixed_structure)

(:requirements :typing)

(:types 
     airplane - segment
     segment - airplane
)

(:constants
                seg_pp_0_60
                seg_ppdoor_0_40 - segment

                airplane_CFBEG - airplane
)

(:predicates
                (at-segment ?a - airplane ?s - segment)
                ;; planes are at segments, ie at their end in driving direction
                
                ;; how the planes affect the airport
                (occupied ?s - segment)
                ;; a plane is in here
                (not_occupied ?s - segment)
                (blocked ?s - segment ?a - airplane)
                ;; segment s is blocked if it is endangered by plane p
                (not_blocked ?s - segment ?a - airplane)
)

;;ADD THIS TO PDDL DOMAIN TO MAKE HDDL
(:task AchieveSomeGoal :parameters (?a_0 - airplane))

;;ADD THIS TO PDDL DOMAIN TO MAKE HDDL
(:method ParkAirplane
    :parameters (?a_0 - airplane)
    :task(AchieveSomeGoal ?a_0)
    :subtasks (and
          (move_seg_ppdoor_0_40_seg_tww1_0_200_north_south_medium ?a_0)         
    )
)

(:action move_seg_pp_0_60_seg_ppdoor_0_40_north_north_medium

 :parameters    (?a - airplane)

 :precondition  (and
                 (at-segment ?a seg_pp_0_60)
                 (not_occupied seg_ppdoor_0_40)
                 (not_blocked seg_ppdoor_0_40 airplane_CFBEG)

              )

 :effect        (and
                 (not (occupied seg_pp_0_60))
                 (not_occupied seg_pp_0_60)
                 (not (at-segment ?a seg_pp_0_60))

                 (occupied seg_ppdoor_0_40)
                 (not (not_occupied seg_ppdoor_0_40))
                 (blocked seg_ppdoor_0_40 ?a)
                 (not (not_blocked seg_ppdoor_0_40 ?a))
                 (at-segment ?a seg_ppdoor_0_40)


                )
)

(:action move_seg_ppdoor_0_40_seg_tww1_0_200_north_south_medium

 :parameters    (?a - airplane)

 :precondition  ()

 :effect        ()
)
)
" None = "ERR Type hierarchy is cyclic.".
Proof. vm_compute. reflexivity. Qed.

(** cyclic_type_validation_test: ParsingError::Semantic; SemanticErrorType::CyclicTypeDeclaration; ParsingError::Semantic; SemanticErrorType::CyclicTypeDeclaration *)
Example t_cyclic_type_validation_test_ :
  verified ";;
;; PDDL file for the AIPS2000 Planning Competition
;; based on the data generated by the airport simulator Astras.
;;

;; Author: Sebastian Trueg thisshouldbethecurrentdateandtime :(
;; Created with PreInstancerDomainExporter 0.6 by Sebastian Trueg <trueg@informatik.uni-freiburg.de>
;;
;; adapted by Kayleigh Sleath to run (very badly) in a HDDL planner 17/4/23
;; note that this domain is NO LONGER INTENDED TO SOLVE ANYTHING.
;; It has been adapted from a PDDL domain to fit the syntax (but not the semantics) of a HDDL file 
;; in order to test error messages provided by HDDL planning software. 
;; Adapted by Kayleigh Sleath to test diagnosis of indirectly cyclic subtypes (line 21). 6-4-2023 


(define (domain airport_fixed_structure)

(:requirements :typing)

(:types 
     airplane - segment
     segment - airplanetype
     airplanetype - airplane
)

(:constants
                seg_pp_0_60
                seg_ppdoor_0_40 - segment

                airplane_CFBEG - airplane
)

(:predicates
                (at-segment ?a - airplane ?s - segment)
                ;; planes are at segments, ie at their end in driving direction

                ;; how the planes affect the airport
                (occupied ?s - segment)
                ;; a plane is in here
                (not_occupied ?s - segment)
                (blocked ?s - segment ?a - airplane)
                ;; segment s is blocked if it is endangered by plane p
                (not_blocked ?s - segment ?a - airplane)
)

;;ADD THIS TO PDDL DOMAIN TO MAKE HDDL
(:task AchieveSomeGoal :parameters (?a_0 - airplane))

;;ADD THIS TO PDDL DOMAIN TO MAKE HDDL
(:method ParkAirplane
    :parameters (?a_0 - airplane)
    :task(AchieveSomeGoal ?a_0)
    :subtasks (and
          (move_seg_ppdoor_0_40_seg_tww1_0_200_north_south_medium ?a_0)         
    )
)

(:action move_seg_pp_0_60_seg_ppdoor_0_40_north_north_medium

 :parameters    (?a - airplane)

 :precondition  (and
                 (at-segment ?a seg_pp_0_60)
                 (not_occupied seg_ppdoor_0_40)
                 (not_blocked seg_ppdoor_0_40 airplane_CFBEG)

              )

 :effect        (and
                 (not (occupied seg_pp_0_60))
                 (not_occupied seg_pp_0_60)
                 (not (at-segment ?a seg_pp_0_60))

                 (occupied seg_ppdoor_0_40)
                 (not (not_occupied seg_ppdoor_0_40))
                 (blocked seg_ppdoor_0_40 ?a)
                 (not (not_blocked seg_ppdoor_0_40 ?a))
                 (at-segment ?a seg_ppdoor_0_40)


                )
)

(:action move_seg_ppdoor_0_40_seg_tww1_0_200_north_south_medium

 :parameters    (?a - airplane)

 :precondition  ()

 :effect        ()
)
)
" None = "ERR Type hierarchy is cyclic.".
Proof. vm_compute. reflexivity. Qed.

(** duplicate_action_validation_test: ParsingError::Semantic; SemanticErrorType::DuplicateActionDeclaration; assert_eq!(t.symbol, ''move_seg_twe1_0_200_seg_twe2_0_50_south_south_medium'') *)
Example t_duplicate_action_validation_test :
  verified ";;
;; PDDL file for the AIPS2000 Planning Competition
;; based on the data generated by the airport simulator Astras.
;;

;; Author: Sebastian Trueg thisshouldbethecurrentdateandtime :(
;; Created with PreInstancerDomainExporter 0.6 by Sebastian Trueg <trueg@informatik.uni-freiburg.de>
;;
;; adapted by Kayleigh Sleath to run (very badly) in a HDDL planner 17/4/23
;; note that this domain is NO LONGER INTENDED TO SOLVE ANYTHING.
;; It has been adapted from a PDDL domain to fit the syntax (but not the semantics) of a HDDL file 
;; in order to test error messages provided by HDDL planning software. 
;; Testing diagnosis of: duplicate action (on line 83).


(define (domain airport_fixed_structure)

(:requirements :typing)

(:types airplane segment)

(:constants
                seg_pp_0_60 seg_ppdoor_0_40 seg_twe2_0_50 seg_twe1_0_200 - segment

                airplane_CFBEG - airplane
)

(:predicates
                (at-segment ?a - airplane ?s - segment)
                ;; planes are at segments, ie at their end in driving direction

                ;; how the planes affect the airport
                (occupied ?s - segment)
                ;; a plane is in here
                (not_occupied ?s - segment)
                (blocked ?s - segment ?a - airplane)
                ;; segment s is blocked if it is endangered by plane p
                (not_blocked ?s - segment ?a - airplane)
)


;;ADD THIS TO PDDL DOMAIN TO MAKE HDDL
(:task AchieveSomeGoal :parameters (?a_0 - airplane))

;;ADD THIS TO PDDL DOMAIN TO MAKE HDDL
(:method ParkAirplane
    :parameters (?a_0 - airplane)
    :task(AchieveSomeGoal ?a_0)
    :subtasks (and
          (move_seg_ppdoor_0_40_seg_tww1_0_200_north_south_medium ?a_0)         
    )
)

(:action move_seg_ppdoor_0_40_seg_tww1_0_200_north_south_medium

 :parameters    (?a - airplane)

 :precondition  ()

 :effect        ()
)

(:action move_seg_twe1_0_200_seg_twe2_0_50_south_south_medium

 :parameters    (?a - airplane)

 :precondition  (and
                 (at-segment ?a seg_twe1_0_200)
                 (not_occupied seg_twe2_0_50)
                 (not_blocked seg_twe2_0_50 airplane_CFBEG)

              )

 :effect        (and
                 (not (occupied seg_twe1_0_200))
                 (not_occupied seg_twe1_0_200)
                 (not (at-segment ?a seg_twe1_0_200))
                )
)

;;DUPLICATE ACTION 
(:action move_seg_twe1_0_200_seg_twe2_0_50_south_south_medium

 :parameters    (?a - airplane)

 :precondition  (and
                 (at-segment ?a seg_twe1_0_200)
              )

 :effect        (and
                 (not (blocked seg_ppdoor_0_40 ?a))
                 (not_blocked seg_ppdoor_0_40 ?a)
                 (not (blocked seg_tww1_0_200 ?a))
                 (not_blocked seg_tww1_0_200 ?a)

                )
)
)
" None = "ERR action 'move_seg_twe1_0_200_seg_twe2_0_50_south_south_medium' is first defined in line 63, and then redefined in line 82.".
Proof. vm_compute. reflexivity. Qed.

(** duplicate_task_validation_test: ParsingError::Semantic; SemanticErrorType::DuplicateCompoundTaskDeclaration; assert_eq!(t.symbol, ''AchieveSomeGoal'') *)
Example t_duplicate_task_validation_test :
  verified ";;
;; PDDL file for the AIPS2000 Planning Competition
;; based on the data generated by the airport simulator Astras.
;;

;; Author: Sebastian Trueg thisshouldbethecurrentdateandtime :(
;; Created with PreInstancerDomainExporter 0.6 by Sebastian Trueg <trueg@informatik.uni-freiburg.de>
;;
;; adapted by Kayleigh Sleath to run (very badly) in a HDDL planner 17/4/23
;; note that this domain is NO LONGER INTENDED TO SOLVE ANYTHING.
;; It has been adapted from a PDDL domain to fit the syntax (but not the semantics) of a HDDL file 
;; in order to test error messages provided by HDDL planning software. 

;; testing diagnosis of: duplicate compound task (line 47)


(define (domain airport_fixed_structure)

(:requirements :typing )

(:types airplane segment)

(:constants
                seg_pp_0_60
                seg_ppdoor_0_40 - segment

                airplane_CFBEG - airplane
)

(:predicates
                (at-segment ?a - airplane ?s - segment)
                ;; planes are at segments, ie at their end in driving direction

                ;; how the planes affect the airport
                (occupied ?s - segment)
                ;; a plane is in here
                (not_occupied ?s - segment)
                (blocked ?s - segment ?a - airplane)
                ;; segment s is blocked if it is endangered by plane p
                (not_blocked ?s - segment ?a - airplane)
)

;;ADD THIS TO PDDL DOMAIN TO MAKE HDDL
(:task AchieveSomeGoal :parameters (?a_0 - airplane))

;;ADD DUPLICATE TASK
(:task AchieveSomeGoal :parameters (?a_0 - direction))

;;ADD THIS TO PDDL DOMAIN TO MAKE HDDL
(:method ParkAirplane
    :parameters (?a_0 - airplane)
    :task(AchieveSomeGoal ?a_0)
    :subtasks (and
          (move_seg_ppdoor_0_40_seg_tww1_0_200_north_south_medium ?a_0)         
    )
)

(:action move_seg_pp_0_60_seg_ppdoor_0_40_north_north_medium

 :parameters    (?a - airplane)

 :precondition  (and
                 (at-segment ?a seg_pp_0_60)
                 (not_occupied seg_ppdoor_0_40)
                 (not_blocked seg_ppdoor_0_40 airplane_CFBEG)

              )

 :effect        (and
                 (not (occupied seg_pp_0_60))
                 (not_occupied seg_pp_0_60)
                 (not (at-segment ?a seg_pp_0_60))

                 (occupied seg_ppdoor_0_40)
                 (not (not_occupied seg_ppdoor_0_40))
                 (blocked seg_ppdoor_0_40 ?a)
                 (not (not_blocked seg_ppdoor_0_40 ?a))
                 (at-segment ?a seg_ppdoor_0_40)


                )
)

;; REMOVE PRECONDITIONS AND EFFECTS HERE TO MAKE HDDL
(:action move_seg_ppdoor_0_40_seg_tww1_0_200_north_south_medium

 :parameters    (?a - airplane)

 :precondition  ()

 :effect        ()
)
)
" None = "ERR compound task 'AchieveSomeGoal' is first defined in line 44, and then redefined in line 47.".
Proof. vm_compute. reflexivity. Qed.

(** duplicate_method_validation_test: ParsingError::Semantic; SemanticErrorType::DuplicateMethodDeclaration; assert_eq!(t.symbol, ''ParkAirplane'') *)
Example t_duplicate_method_validation_test :
  verified ";;
;; PDDL file for the AIPS2000 Planning Competition
;; based on the data generated by the airport simulator Astras.
;;

;; Author: Sebastian Trueg thisshouldbethecurrentdateandtime :(
;; Created with PreInstancerDomainExporter 0.6 by Sebastian Trueg <trueg@informatik.uni-freiburg.de>
;;
;; adapted by Kayleigh Sleath to run (very badly) in a HDDL planner 17/4/23
;; note that this domain is NO LONGER INTENDED TO SOLVE ANYTHING.
;; It has been adapted from a PDDL domain to fit the syntax (but not the semantics) of a HDDL file 
;; in order to test error messages provided by HDDL planning software. 

;; testing diagnosis of: duplicate decomposition method (line 47)

(define (domain airport_fixed_structure)

(:requirements :typing)

(:types airplane segment)

(:constants
                seg_pp_0_60
                seg_ppdoor_0_40 - segment

                airplane_CFBEG - airplane
)

(:predicates
                (at-segment ?a - airplane ?s - segment)
                ;; planes are at segments, ie at their end in driving direction

                ;; how the planes affect the airport
                (occupied ?s - segment)
                ;; a plane is in here
                (not_occupied ?s - segment)
                (blocked ?s - segment ?a - airplane)
                ;; segment s is blocked if it is endangered by plane p
                (not_blocked ?s - segment ?a - airplane)
)

;;ADD THIS TO PDDL DOMAIN TO MAKE HDDL
(:task AchieveSomeGoal :parameters (?a_0 - airplane))


;;ADD DUPLICATE DECOMPOSITION METHOD
(:method ParkAirplane
    :parameters (?a_0 - airplane)
    :task(AchieveSomeGoal ?a_0)
    :subtasks (and
          (move_seg_ppdoor_0_40_seg_tww1_0_200_north_south_medium ?a_0)  
          (move_seg_pp_0_60_seg_ppdoor_0_40_north_north_medium ?a_0)       
    )
)

;;ADD THIS TO PDDL DOMAIN TO MAKE HDDL
(:method ParkAirplane
    :parameters (?a_0 - airplane)
    :task(AchieveSomeGoal ?a_0)
    :subtasks (and
          (move_seg_ppdoor_0_40_seg_tww1_0_200_north_south_medium ?a_0)         
    )
)

(:action move_seg_pp_0_60_seg_ppdoor_0_40_north_north_medium

 :parameters    (?a - airplane)

 :precondition  (and
                 (at-segment ?a seg_pp_0_60)
                 (not_occupied seg_ppdoor_0_40)
                 (not_blocked seg_ppdoor_0_40 airplane_CFBEG)

              )

 :effect        (and
                 (not (occupied seg_pp_0_60))
                 (not_occupied seg_pp_0_60)
                 (not (at-segment ?a seg_pp_0_60))

                 (occupied seg_ppdoor_0_40)
                 (not (not_occupied seg_ppdoor_0_40))
                 (blocked seg_ppdoor_0_40 ?a)
                 (not (not_blocked seg_ppdoor_0_40 ?a))
                 (at-segment ?a seg_ppdoor_0_40)
                )
)

;; REMOVE PRECONDITIONS AND EFFECTS HERE TO MAKE HDDL
(:action move_seg_ppdoor_0_40_seg_tww1_0_200_north_south_medium

 :parameters    (?a - airplane)

 :precondition  ()

 :effect        ()
)
)
" None = "ERR method 'ParkAirplane' is first defined in line 47, and then redefined in line 57.".
Proof. vm_compute. reflexivity. Qed.

(** duplicate_predicate_validation_test: ParsingError::Semantic; SemanticErrorType::DuplicatePredicateDeclaration; assert_eq!(t.symbol, ''at-segment'') *)
Example t_duplicate_predicate_validation_test :
  verified ";;
;; PDDL file for the AIPS2000 Planning Competition
;; based on the data generated by the airport simulator Astras.
;;

;; Author: Sebastian Trueg thisshouldbethecurrentdateandtime :(
;; Created with PreInstancerDomainExporter 0.6 by Sebastian Trueg <trueg@informatik.uni-freiburg.de>
;;
;; adapted by Kayleigh Sleath to run (very badly) in a HDDL planner 17/4/23
;; note that this domain is NO LONGER INTENDED TO SOLVE ANYTHING.
;; It has been adapted from a PDDL domain to fit the syntax (but not the semantics) of a HDDL file 
;; in order to test error messages provided by HDDL planning software. 
;; Testing diagnosis of duplicate predicate (on line 32). 6-4-2023 


(define (domain airport_fixed_structure)

(:requirements :typing )

(:types airplane segment)

(:constants
                seg_pp_0_60
                seg_ppdoor_0_40 - segment

                airplane_CFBEG - airplane
)

(:predicates
                (at-segment ?a - airplane ?s - segment)
                ;;DUPLICATE PREDICATE NAME
                (at-segment ?a - segment ?s - segment)
                ;; planes are at segments, ie at their end in driving direction

                ;; how the planes affect the airport
                (occupied ?s - segment)
                ;; a plane is in here
                (not_occupied ?s - segment)
                (blocked ?s - segment ?a - airplane)
                ;; segment s is blocked if it is endangered by plane p
                (not_blocked ?s - segment ?a - airplane)
)

;;ADD THIS TO PDDL DOMAIN TO MAKE HDDL
(:task AchieveSomeGoal :parameters (?a_0 - airplane))

;;ADD THIS TO PDDL DOMAIN TO MAKE HDDL
(:method ParkAirplane
    :parameters (?a_0 - airplane)
    :task(AchieveSomeGoal ?a_0)
    :subtasks (and
          (move_seg_ppdoor_0_40_seg_tww1_0_200_north_south_medium ?a_0)         
    )
)

(:action move_seg_pp_0_60_seg_ppdoor_0_40_north_north_medium

 :parameters    (?a - airplane)

 :precondition  (and
                 (at-segment ?a seg_pp_0_60)
                 (not_occupied seg_ppdoor_0_40)
                 (not_blocked seg_ppdoor_0_40 airplane_CFBEG)

              )

 :effect        (and
                 (not (occupied seg_pp_0_60))
                 (not_occupied seg_pp_0_60)
                 (not (at-segment ?a seg_pp_0_60))

                 (occupied seg_ppdoor_0_40)
                 (not (not_occupied seg_ppdoor_0_40))
                 (blocked seg_ppdoor_0_40 ?a)
                 (not (not_blocked seg_ppdoor_0_40 ?a))
                 (at-segment ?a seg_ppdoor_0_40)


                )
)

(:action move_seg_ppdoor_0_40_seg_tww1_0_200_north_south_medium

 :parameters    (?a - airplane)

 :precondition  ()

 :effect        ()
)
)
" None = "ERR predicate 'at-segment' is first defined in line 30, and then redefined in line 32.".
Proof. vm_compute. reflexivity. Qed.

(** duplicate_parameter_validation_test: ParsingError::Semantic; SemanticErrorType::DuplicateParameterDeclaration; assert_eq!(t.symbol, ''a'') *)
Example t_duplicate_parameter_validation_test :
  verified ";;
;; PDDL file for the AIPS2000 Planning Competition
;; based on the data generated by the airport simulator Astras.
;;

;; Author: Sebastian Trueg thisshouldbethecurrentdateandtime :(
;; Created with PreInstancerDomainExporter 0.6 by Sebastian Trueg <trueg@informatik.uni-freiburg.de>
;;
;; adapted by Kayleigh Sleath to run (very badly) in a HDDL planner 17/4/23
;; note that this domain is NO LONGER INTENDED TO SOLVE ANYTHING.
;; It has been adapted from a PDDL domain to fit the syntax (but not the semantics) of a HDDL file 
;; in order to test error messages provided by HDDL planning software. 
;; Testing diagnosis of: duplicate parameters error (on line 60).


(define (domain airport_fixed_structure)

(:requirements :typing)

(:types airplane segment)

(:constants
                seg_pp_0_60
                seg_ppdoor_0_40 - segment

                airplane_CFBEG - airplane
)

(:predicates
                (at-segment ?a - airplane ?s - segment)
                ;; planes are at segments, ie at their end in driving direction

                ;; how the planes affect the airport
                (occupied ?s - segment)
                ;; a plane is in here
                (not_occupied ?s - segment)
                (blocked ?s - segment ?a - airplane)
                ;; segment s is blocked if it is endangered by plane p
                (not_blocked ?s - segment ?a - airplane)
)


;;ADD THIS TO PDDL DOMAIN TO MAKE HDDL
(:task AchieveSomeGoal :parameters (?a_0 - airplane))

;;ADD THIS TO PDDL DOMAIN TO MAKE HDDL
(:method ParkAirplane
    :parameters (?a_0 - airplane)
    :task(AchieveSomeGoal ?a_0)
    :subtasks (and
          (move_seg_ppdoor_0_40_seg_tww1_0_200_north_south_medium ?a_0)         
    )
)

(:action move_seg_pp_0_60_seg_ppdoor_0_40_north_north_medium

 ;; DUPLICATE PARAMETERS
 :parameters    (?a ?a - airplane)


 :precondition  (and
                 (at-segment ?a seg_pp_0_60)
                 (not_occupied seg_ppdoor_0_40)
                 (not_blocked seg_ppdoor_0_40 airplane_CFBEG)

              )

 :effect        (and
                 (not (occupied seg_pp_0_60))
                 (not_occupied seg_pp_0_60)
                 (not (at-segment ?a seg_pp_0_60))

                 (occupied seg_ppdoor_0_40)
                 (not (not_occupied seg_ppdoor_0_40))
                 (blocked seg_ppdoor_0_40 ?a)
                 (not (not_blocked seg_ppdoor_0_40 ?a))
                 (at-segment ?a seg_ppdoor_0_40)


                )
)

(:action move_seg_ppdoor_0_40_seg_tww1_0_200_north_south_medium

 :parameters    (?a - airplane)

 :precondition  ()

 :effect        ()
)
)
" None = "ERR parameter 'a' is first defined in line 58, and then redefined in line 58.".
Proof. vm_compute. reflexivity. Qed.

(** extra_parantheses_validation_test: ParsingError::Syntactic; assert_eq!(x.found, ''Keyword :effect'') *)
Example t_extra_parantheses_validation_test :
  verified ";;
;; PDDL file for the AIPS2000 Planning Competition
;; based on the data generated by the airport simulator Astras.
;;

;; Author: Sebastian Trueg thisshouldbethecurrentdateandtime :(
;; Created with PreInstancerDomainExporter 0.6 by Sebastian Trueg <trueg@informatik.uni-freiburg.de>
;;
;; adapted by Kayleigh Sleath to run (very badly) in a HDDL planner 17/4/23
;; note that this domain is NO LONGER INTENDED TO SOLVE ANYTHING.
;; It has been adapted from a PDDL domain to fit the syntax (but not the semantics) of a HDDL file 
;; in order to test error messages provided by HDDL planning software. 

;; Testing diagnosis of: extra parentheses errors (line 65). 6-4-2023 


(define (domain airport_fixed_structure)

(:requirements :typing )

(:types airplane segment)

(:constants
                seg_pp_0_60
                seg_ppdoor_0_40 - segment

                airplane_CFBEG - airplane
)

(:predicates
                (at-segment ?a - airplane ?s - segment)
                ;; planes are at segments, ie at their end in driving direction

                ;; how the planes affect the airport
                (occupied ?s - segment)
                ;; a plane is in here
                (not_occupied ?s - segment)
                (blocked ?s - segment ?a - airplane)
                ;; segment s is blocked if it is endangered by plane p
                (not_blocked ?s - segment ?a - airplane)
)

;;ADD THIS TO PDDL DOMAIN TO MAKE HDDL
(:task AchieveSomeGoal :parameters (?a_0 - airplane))

;;ADD THIS TO PDDL DOMAIN TO MAKE HDDL
(:method ParkAirplane
    :parameters (?a_0 - airplane)
    :task(AchieveSomeGoal ?a_0)
    :subtasks (and
          (move_seg_ppdoor_0_40_seg_tww1_0_200_north_south_medium ?a_0)         
    )
)

(:action move_seg_pp_0_60_seg_ppdoor_0_40_north_north_medium

 :parameters    (?a - airplane)

 :precondition  (and
                 (at-segment ?a seg_pp_0_60)
                 (not_occupied seg_ppdoor_0_40)
                 (not_blocked seg_ppdoor_0_40 airplane_CFBEG)
              )
              ;; ADDED EXTRA parentheses
          )

 :effect        (and
                 (not (occupied seg_pp_0_60))
                 (not_occupied seg_pp_0_60)
                 (not (at-segment ?a seg_pp_0_60))

                 (occupied seg_ppdoor_0_40)
                 (not (not_occupied seg_ppdoor_0_40))
                 (blocked seg_ppdoor_0_40 ?a)
                 (not (not_blocked seg_ppdoor_0_40 ?a))
                 (at-segment ?a seg_ppdoor_0_40)


                )
)

(:action move_seg_ppdoor_0_40_seg_tww1_0_200_north_south_medium

 :parameters    (?a - airplane)

 :precondition  ()

 :effect        ()
)
)
" None = "ERR line 67: expected 'either ')' to close the definition of airport_fixed_structure, or '(' to start defining new components', but found 'Keyword :effect'
".
Proof. vm_compute. reflexivity. Qed.

(** forgotten_entry_validation_test: ParsingError::Syntactic; assert_eq!(x.position.line, 63) *)
Example t_forgotten_entry_validation_test :
  verified ";;
;; PDDL file for the AIPS2000 Planning Competition
;; based on the data generated by the airport simulator Astras.
;;

;; Author: Sebastian Trueg thisshouldbethecurrentdateandtime :(
;; Created with PreInstancerDomainExporter 0.6 by Sebastian Trueg <trueg@informatik.uni-freiburg.de>
;;
;; adapted by Kayleigh Sleath to run (very badly) in a HDDL planner 17/4/23
;; note that this domain is NO LONGER INTENDED TO SOLVE ANYTHING.
;; It has been adapted from a PDDL domain to fit the syntax (but not the semantics) of a HDDL file 
;; in order to test error messages provided by HDDL planning software. 

;; Testing diagnosis ofL forgotten ':parameters' entry (on line 96). 6-4-2023 


(define (domain airport_fixed_structure)

(:requirements :typing :strips)

(:types airplane segment)

(:constants
                seg_pp_0_60
                seg_ppdoor_0_40 - segment

                airplane_CFBEG - airplane
)

(:predicates
                (at-segment ?a - airplane ?s - segment)
                ;; planes are at segments, ie at their end in driving direction

                ;; how the planes affect the airport
                (occupied ?s - segment)
                ;; a plane is in here
                (not_occupied ?s - segment)
                (blocked ?s - segment ?a - airplane)
                ;; segment s is blocked if it is endangered by plane p
                (not_blocked ?s - segment ?a - airplane)

                ;; an airplane may lineup on segment s when facing d
                (is-start-runway ?s - segment ?d - direction)
)

;;ADD THIS TO PDDL DOMAIN TO MAKE HDDL
(:task AchieveSomeGoal :parameters (?a_0 - airplane))

;;ADD THIS TO PDDL DOMAIN TO MAKE HDDL
(:method ParkAirplane
    :parameters (?a_0 - airplane)
    :task(AchieveSomeGoal ?a_0)
    :subtasks (and
          (move_seg_ppdoor_0_40_seg_tww1_0_200_north_south_medium ?a_0)         
    )
)

(:action move_seg_pp_0_60_seg_ppdoor_0_40_north_north_medium

 ;; REMOVED :parameters ENTRY
 ;; :parameters    (?a - airplane)

 :precondition  (and
                 (at-segment ?a seg_pp_0_60)
                 (not_occupied seg_ppdoor_0_40)
                 (not_blocked seg_ppdoor_0_40 airplane_CFBEG)

              )

 :effect        (and
                 (not (occupied seg_pp_0_60))
                 (not_occupied seg_pp_0_60)
                 (not (at-segment ?a seg_pp_0_60))

                 (occupied seg_ppdoor_0_40)
                 (not (not_occupied seg_ppdoor_0_40))
                 (blocked seg_ppdoor_0_40 ?a)
                 (not (not_blocked seg_ppdoor_0_40 ?a))
                 (at-segment ?a seg_ppdoor_0_40)


                )
)

(:action move_seg_ppdoor_0_40_seg_tww1_0_200_north_south_medium

 :parameters    (?a - airplane)

 :precondition  ()

 :effect        ()
)
)" None = "ERR line 63: expected 'a (potentially empty) list of parameters after defininig move_seg_pp_0_60_seg_ppdoor_0_40_north_north_medium', but found 'Keyword :precondition'
".
Proof. vm_compute. reflexivity. Qed.

(** inconsistent_arity_predicate_validation_test: ParsingError::Semantic; SemanticErrorType::InconsistentPredicateArity; assert_eq!(t.symbol, ''at-segment'') *)
Example t_inconsistent_arity_predicate_validation_test :
  verified ";;
;; PDDL file for the AIPS2000 Planning Competition
;; based on the data generated by the airport simulator Astras.
;;

;; Author: Sebastian Trueg thisshouldbethecurrentdateandtime :(
;; Created with PreInstancerDomainExporter 0.6 by Sebastian Trueg <trueg@informatik.uni-freiburg.de>
;;
;; adapted by Kayleigh Sleath to run (very badly) in a HDDL planner
;; note that this domain is NO LONGER INTENDED TO SOLVE ANYTHING.
;; It has been adapted from a PDDL domain to fit the syntax (but not the semantics) of a HDDL file 
;; in order to test error messages provided by HDDL planning software. 

;; Testing diagnosis of: inconsistent numbers of parameters (line 62) 


(define (domain airport_fixed_structure)

(:requirements :typing :strips)

(:types airplane segment)

(:constants
                seg_pp_0_60
                seg_ppdoor_0_40 - segment

                airplane_CFBEG - airplane
)

(:predicates
                (at-segment ?a - airplane ?s - segment)
                ;; planes are at segments, ie at their end in driving direction
            
                ;; how the planes affect the airport
                (occupied ?s - segment)
                ;; a plane is in here
                (not_occupied ?s - segment)
                (blocked ?s - segment ?a - airplane)
                ;; segment s is blocked if it is endangered by plane p
                (not_blocked ?s - segment ?a - airplane)
)

;;ADD THIS TO PDDL DOMAIN TO MAKE HDDL
(:task AchieveSomeGoal :parameters (?a_0 - airplane))

;;ADD THIS TO PDDL DOMAIN TO MAKE HDDL
(:method ParkAirplane
    :parameters (?a_0 - airplane)
    :task(AchieveSomeGoal ?a_0)
    :subtasks (and
          (move_seg_ppdoor_0_40_seg_tww1_0_200_north_south_medium ?a_0)         
    )
)

(:action move_seg_pp_0_60_seg_ppdoor_0_40_north_north_medium

 :parameters    (?a - airplane)

 :precondition  (and
                 ;; REMOVED PARAMETER 'seg_pp_0_60' TO CREATE INCONSISTENT NUMBER OF PARAMETERS
                 ;; (at-segment ?a seg_pp_0_60)
                 (at-segment ?a)
                 (not_occupied seg_ppdoor_0_40)
                 (not_blocked seg_ppdoor_0_40 airplane_CFBEG)

              )

 :effect        (and
                 (not (occupied seg_pp_0_60))
                 (not_occupied seg_pp_0_60)
                 (not (at-segment ?a seg_pp_0_60))

                 (occupied seg_ppdoor_0_40)
                 (not (not_occupied seg_ppdoor_0_40))
                 (blocked seg_ppdoor_0_40 ?a)
                 (not (not_blocked seg_ppdoor_0_40 ?a))
                 (at-segment ?a seg_ppdoor_0_40)
                )
)

;; REMOVE PRECONDITIONS AND EFFECTS HERE TO MAKE HDDL
(:action move_seg_ppdoor_0_40_seg_tww1_0_200_north_south_medium

 :parameters    (?a - airplane)

 :precondition  ()

 :effect        ()
)
)" None = "ERR line 62: predicate at-segment takes 2 parameters, but 1 are given.".
Proof. vm_compute. reflexivity. Qed.

(** inconsistent_type_predicate_validation_test: ParsingError::Semantic; SemanticErrorType::InconsistentPredicateArgType; assert_eq!(t.var_name, ''seg_pp_0_60'') *)
Example t_inconsistent_type_predicate_validation_test :
  verified ";;
;; PDDL file for the AIPS2000 Planning Competition
;; based on the data generated by the airport simulator Astras.
;;

;; Author: Sebastian Trueg thisshouldbethecurrentdateandtime :(
;; Created with PreInstancerDomainExporter 0.6 by Sebastian Trueg <trueg@informatik.uni-freiburg.de>
;;

;; adapted by Kayleigh Sleath to run (very badly) in a HDDL planner 17/4/23
;; note that this domain is NO LONGER INTENDED TO SOLVE ANYTHING.
;; It has been adapted from a PDDL domain to fit the syntax (but not the semantics) of a HDDL file 
;; in order to test error messages provided by HDDL planning software. 

;; Testing diagnosis of: inconsistent parameter types (line 63)


(define (domain airport_fixed_structure)

(:requirements :typing :strips)

(:types airplane segment)

(:constants
                seg_pp_0_60
                seg_ppdoor_0_40 - segment

                airplane_CFBEG - airplane
)

(:predicates
                (at-segment ?a - airplane ?s - segment)
                ;; planes are at segments, ie at their end in driving direction

                ;; how the planes affect the airport
                (occupied ?s - segment)
                ;; a plane is in here
                (not_occupied ?s - segment)
                (blocked ?s - segment ?a - airplane)
                ;; segment s is blocked if it is endangered by plane p
                (not_blocked ?s - segment ?a - airplane)
)

;;ADD THIS TO PDDL DOMAIN TO MAKE HDDL
(:task AchieveSomeGoal :parameters (?a_0 - airplane))

;;ADD THIS TO PDDL DOMAIN TO MAKE HDDL
(:method ParkAirplane
    :parameters (?a_0 - airplane)
    :task(AchieveSomeGoal ?a_0)
    :subtasks (and
          (move_seg_ppdoor_0_40_seg_tww1_0_200_north_south_medium ?a_0)         
    )
)

(:action move_seg_pp_0_60_seg_ppdoor_0_40_north_north_medium

 :parameters    (?a - airplane)

 :precondition  (and
                 ;; SWAPPED ORDER OF PARAMETERS TO CREATE PARAMETER TYPE ERROR
                 ;; (at-segment ?a seg_pp_0_60)
                 (at-segment seg_pp_0_60 ?a)
                 (not_occupied seg_ppdoor_0_40)
                 (not_blocked seg_ppdoor_0_40 airplane_CFBEG)

              )

 :effect        (and
                 (not (occupied seg_pp_0_60))
                 (not_occupied seg_pp_0_60)
                 (not (at-segment ?a seg_pp_0_60))

                 (occupied seg_ppdoor_0_40)
                 (not (not_occupied seg_ppdoor_0_40))
                 (blocked seg_ppdoor_0_40 ?a)
                 (not (not_blocked seg_ppdoor_0_40 ?a))
                 (at-segment ?a seg_ppdoor_0_40)
                )
)

(:action move_seg_ppdoor_0_40_seg_tww1_0_200_north_south_medium

 :parameters    (?a - airplane)

 :precondition  ()

 :effect        ()
)
)" None = "ERR line 63: Type error for variable seg_pp_0_60. Expected object of type 'airplane', but found 'segment'.".
Proof. vm_compute. reflexivity. Qed.

(** inconsistent_arity_task_validation_test: ParsingError::Semantic; SemanticErrorType::InconsistentTaskArity; assert_eq!(t.symbol, ''move_seg_ppdoor_0_40_seg_tww1_0_200_north_south_medium'') *)
Example t_inconsistent_arity_task_validation_test :
  verified ";; PDDL file for the AIPS2000 Planning Competition
;; based on the data generated by the airport simulator Astras.
;; Author: Sebastian Trueg thisshouldbethecurrentdateandtime :(
;; Created with PreInstancerDomainExporter 0.6 by Sebastian Trueg <trueg@informatik.uni-freiburg.de>

;; adapted by Kayleigh Sleath to run (very badly) in a HDDL planner 17/4/23
;; note that this domain is NO LONGER INTENDED TO SOLVE ANYTHING.
;; It has been adapted from a PDDL domain to fit the syntax (but not the semantics) of a HDDL file 
;; in order to test error messages provided by HDDL planning software. 

;; Testing diagnosis of: inconsistent numbers of parameters in task (line 49) 


(define (domain airport_fixed_structure)

(:requirements :typing :strips)

(:types airplane segment)

(:constants
                seg_pp_0_60
                seg_ppdoor_0_40 - segment

                airplane_CFBEG - airplane
)

(:predicates
                (at-segment ?a - airplane ?s - segment)
                ;; planes are at segments, ie at their end in driving direction

                ;; how the planes affect the airport
                (occupied ?s - segment)
                ;; a plane is in here
                (not_occupied ?s - segment)
                (blocked ?s - segment ?a - airplane)
                ;; segment s is blocked if it is endangered by plane p
                (not_blocked ?s - segment ?a - airplane)
)

;;ADD THIS TO PDDL DOMAIN TO MAKE HDDL
(:task AchieveSomeGoal :parameters (?a_0 - airplane))

;;ADD THIS TO PDDL DOMAIN TO MAKE HDDL
(:method ParkAirplane
    :parameters (?a_0 - airplane)
    :task(AchieveSomeGoal ?a_0)
    :subtasks (and
    ;;INCONSISTENT NUM PARAMETERS ERROR
          (move_seg_ppdoor_0_40_seg_tww1_0_200_north_south_medium ?a_0)         
    )
)

(:action move_seg_ppdoor_0_40_seg_tww1_0_200_north_south_medium

;; ADD EXTRA PARAMETER TO CREATE INCONSISTENT NUM PARAMETERS ERROR
 :parameters    (?a - airplane  ?s - segment)

 :precondition  ()

 :effect        ()
)
)" None = "ERR Task move_seg_ppdoor_0_40_seg_tww1_0_200_north_south_medium takes 2 parameters, but 1 are given.".
Proof. vm_compute. reflexivity. Qed.

(** inconsistent_type_task_validation_test: ParsingError::Semantic; SemanticErrorType::InconsistentTaskArgType; assert_eq!(t.var_name, ''a_0'') *)
Example t_inconsistent_type_task_validation_test :
  verified ";;
;; PDDL file for the AIPS2000 Planning Competition
;; based on the data generated by the airport simulator Astras.
;;

;; Author: Sebastian Trueg thisshouldbethecurrentdateandtime :(
;; Created with PreInstancerDomainExporter 0.6 by Sebastian Trueg <trueg@informatik.uni-freiburg.de>
;;
;; adapted by Kayleigh Sleath to run (very badly) in a HDDL planner 17/4/23
;; note that this domain is NO LONGER INTENDED TO SOLVE ANYTHING.
;; It has been adapted from a PDDL domain to fit the syntax (but not the semantics) of a HDDL file 
;; in order to test error messages provided by HDDL planning software. 

;; testing diagnosis of: inconsistent type of parameters in task (line 86)


(define (domain airport_fixed_structure)

(:requirements :typing :strips)

(:types airplane segment)

(:constants
                seg_pp_0_60
                seg_ppdoor_0_40 - segment

                airplane_CFBEG - airplane
)

(:predicates
                (at-segment ?a - airplane ?s - segment)
                ;; planes are at segments, ie at their end in driving direction

                ;; how the planes affect the airport
                (occupied ?s - segment)
                ;; a plane is in here
                (not_occupied ?s - segment)
                (blocked ?s - segment ?a - airplane)
                ;; segment s is blocked if it is endangered by plane p
                (not_blocked ?s - segment ?a - airplane)
)

;;ADD THIS TO PDDL DOMAIN TO MAKE HDDL
(:task AchieveSomeGoal :parameters (?a_0 - airplane))

;;ADD THIS TO PDDL DOMAIN TO MAKE HDDL
(:method ParkAirplane
    :parameters (?a_0 - airplane)
    :task(AchieveSomeGoal ?a_0)
    :subtasks (and
          (move_seg_ppdoor_0_40_seg_tww1_0_200_north_south_medium ?a_0)         
    )
)

(:action move_seg_pp_0_60_seg_ppdoor_0_40_north_north_medium

 :parameters    (?a - airplane)

 :precondition  (and
                 (at-segment ?a seg_pp_0_60)
                 (not_occupied seg_ppdoor_0_40)
                 (not_blocked seg_ppdoor_0_40 airplane_CFBEG)

              )

 :effect        (and
                 (not (occupied seg_pp_0_60))
                 (not_occupied seg_pp_0_60)
                 (not (at-segment ?a seg_pp_0_60))

                 (occupied seg_ppdoor_0_40)
                 (not (not_occupied seg_ppdoor_0_40))
                 (blocked seg_ppdoor_0_40 ?a)
                 (not (not_blocked seg_ppdoor_0_40 ?a))
                 (at-segment ?a seg_ppdoor_0_40)


                )
)

;; REMOVE PRECONDITIONS AND EFFECTS HERE TO MAKE HDDL
(:action move_seg_ppdoor_0_40_seg_tww1_0_200_north_south_medium

;; CHANGE PARAMETER TYPE 
;; :parameters    (?a - airplane)
:parameters    (?a - segment)

 :precondition  ()

 :effect        ()
)
)" None = "ERR line 51: Type error for variable a_0. Expected object of type 'segment', but found 'airplane'.".
Proof. vm_compute. reflexivity. Qed.

(** undeclared_method_param_validation_test: ParsingError::Semantic; SemanticErrorType::UndefinedParameter; assert_eq!(t.symbol, ''d'') *)
Example t_undeclared_method_param_validation_test :
  verified ";;
;; PDDL file for the AIPS2000 Planning Competition
;; based on the data generated by the airport simulator Astras.
;;

;; Author: Sebastian Trueg thisshouldbethecurrentdateandtime :(
;; Created with PreInstancerDomainExporter 0.6 by Sebastian Trueg <trueg@informatik.uni-freiburg.de>
;;
;; adapted by Kayleigh Sleath to run (very badly) in a HDDL planner 17/4/23
;; note that this domain is NO LONGER INTENDED TO SOLVE ANYTHING.
;; It has been adapted from a PDDL domain to fit the syntax (but not the semantics) of a HDDL file 
;; in order to test error messages provided by HDDL planning software. 

;; testing diagnosis of: method containing undeclared parameters (line 52)


(define (domain airport_fixed_structure)

(:requirements :typing :strips)

(:types airplane segment)

(:constants
                seg_pp_0_60
                seg_ppdoor_0_40 - segment

                airplane_CFBEG - airplane
)

(:predicates
                (at-segment ?a - airplane ?s - segment)
                ;; planes are at segments, ie at their end in driving direction

                ;; how the planes affect the airport
                (occupied ?s - segment)
                ;; a plane is in here
                (not_occupied ?s - segment)
                (blocked ?s - segment ?a - airplane)
                ;; segment s is blocked if it is endangered by plane p
                (not_blocked ?s - segment ?a - airplane)
)

;;ADD THIS TO PDDL DOMAIN TO MAKE HDDL
(:task AchieveSomeGoal :parameters (?a_0 - airplane))

;;ADD THIS TO PDDL DOMAIN TO MAKE HDDL
(:method ParkAirplane
    :parameters (?a_0 - airplane)
    :task(AchieveSomeGoal ?a_0)
    :subtasks (and
    ;; USE UNDECLARED PARAMETER ?d
          (move_seg_ppdoor_0_40_seg_tww1_0_200_north_south_medium ?d)         
    )
)

(:action move_seg_pp_0_60_seg_ppdoor_0_40_north_north_medium

 :parameters    (?a - airplane)

 :precondition  (and
                 (at-segment ?a seg_pp_0_60)
                 (not_occupied seg_ppdoor_0_40)
                 (not_blocked seg_ppdoor_0_40 airplane_CFBEG)

              )

 :effect        (and
                 (not (occupied seg_pp_0_60))
                 (not_occupied seg_pp_0_60)
                 (not (at-segment ?a seg_pp_0_60))

                 (occupied seg_ppdoor_0_40)
                 (not (not_occupied seg_ppdoor_0_40))
                 (blocked seg_ppdoor_0_40 ?a)
                 (not (not_blocked seg_ppdoor_0_40 ?a))
                 (at-segment ?a seg_ppdoor_0_40)
                )
)

;; REMOVE PRECONDITIONS AND EFFECTS HERE TO MAKE HDDL
(:action move_seg_ppdoor_0_40_seg_tww1_0_200_north_south_medium

 :parameters    (?a - airplane)

 :precondition  ()

 :effect        ()
)
)" None = "ERR line 52: parameter d is not defined.".
Proof. vm_compute. reflexivity. Qed.

(** undeclared_task_param_validation_test: ParsingError::Semantic; SemanticErrorType::UndefinedParameter; assert_eq!(t.symbol, ''s'') *)
Example t_undeclared_task_param_validation_test :
  verified ";;
;; PDDL file for the AIPS2000 Planning Competition
;; based on the data generated by the airport simulator Astras.
;;

;; Author: Sebastian Trueg thisshouldbethecurrentdateandtime :(
;; Created with PreInstancerDomainExporter 0.6 by Sebastian Trueg <trueg@informatik.uni-freiburg.de>
;;
;; adapted by Kayleigh Sleath to run (very badly) in a HDDL planner 17/4/23
;; note that this domain is NO LONGER INTENDED TO SOLVE ANYTHING.
;; It has been adapted from a PDDL domain to fit the syntax (but not the semantics) of a HDDL file 
;; in order to test error messages provided by HDDL planning software. 

;; testing diagnosis of: task containing undeclared parameters (line 63)

(define (domain airport_fixed_structure)

(:requirements :typing :strips)

(:types airplane segment)

(:constants
                seg_pp_0_60
                seg_ppdoor_0_40 - segment

                airplane_CFBEG - airplane
)

(:predicates
                (at-segment ?a - airplane ?s - segment)
                ;; planes are at segments, ie at their end in driving direction

                ;; how the planes affect the airport
                (occupied ?s - segment)
                ;; a plane is in here
                (not_occupied ?s - segment)
                (blocked ?s - segment ?a - airplane)
                ;; segment s is blocked if it is endangered by plane p
                (not_blocked ?s - segment ?a - airplane)
)

;;ADD THIS TO PDDL DOMAIN TO MAKE HDDL
(:task AchieveSomeGoal :parameters (?a_0 - airplane))

;;ADD THIS TO PDDL DOMAIN TO MAKE HDDL
(:method ParkAirplane
    :parameters (?a_0 - airplane)
    :task(AchieveSomeGoal ?a_0)
    :subtasks (and
          (move_seg_ppdoor_0_40_seg_tww1_0_200_north_south_medium ?a_0)         
    )
)

;; REMOVE PRECONDITIONS AND EFFECTS HERE TO MAKE HDDL
(:action move_seg_ppdoor_0_40_seg_tww1_0_200_north_south_medium

 :parameters    (?a - airplane)

 :precondition  ()

 :effect        (and
               ;;TRY TO USE UNDECLARED PARAMETER
                (at-segment ?a ?s)
               )
)
)" None = "ERR line 63: parameter s is not defined.".
Proof. vm_compute. reflexivity. Qed.

(** undeclared_predicate_validation_test: ParsingError::Semantic; SemanticErrorType::UndefinedPredicate; assert_eq!(t.symbol, ''occupied'') *)
Example t_undeclared_predicate_validation_test :
  verified ";;
;; PDDL file for the AIPS2000 Planning Competition
;; based on the data generated by the airport simulator Astras.
;;

;; Author: Sebastian Trueg thisshouldbethecurrentdateandtime :(
;; Created with PreInstancerDomainExporter 0.6 by Sebastian Trueg <trueg@informatik.uni-freiburg.de>
;;
;; adapted by Kayleigh Sleath to run (very badly) in a HDDL planner 17/4/23
;; note that this domain is NO LONGER INTENDED TO SOLVE ANYTHING.
;; It has been adapted from a PDDL domain to fit the syntax (but not the semantics) of a HDDL file 
;; in order to test error messages provided by HDDL planning software. 

;; Testing diagnosis of: undefined predicate errors (line 35).

(define (domain airport_fixed_structure)

(:requirements :typing :strips)

(:types airplane segment)

(:constants
                seg_pp_0_60
                seg_ppdoor_0_40 - segment

                airplane_CFBEG - airplane
)

(:predicates
                (at-segment ?a - airplane ?s - segment)
                ;; planes are at segments, ie at their end in driving direction

                ;; how the planes affect the airport
                ;; FOLLOWING LINE REMOVED TO CREATE UNDEFINED PREDICATE ERROR:
                ;; (occupied ?s - segment)
                ;; a plane is in here
                (not_occupied ?s - segment)
                (blocked ?s - segment ?a - airplane)
                ;; segment s is blocked if it is endangered by plane p
                (not_blocked ?s - segment ?a - airplane)
)

;;ADD THIS TO PDDL DOMAIN TO MAKE HDDL
(:task AchieveSomeGoal :parameters (?a_0 - airplane))

;;ADD THIS TO PDDL DOMAIN TO MAKE HDDL
(:method ParkAirplane
    :parameters (?a_0 - airplane)
    :task(AchieveSomeGoal ?a_0)
    :subtasks (and
          (move_seg_ppdoor_0_40_seg_tww1_0_200_north_south_medium ?a_0)         
    )
)

(:action move_seg_pp_0_60_seg_ppdoor_0_40_north_north_medium

 :parameters    (?a - airplane)

 :precondition  (and
                 (at-segment ?a seg_pp_0_60)
                 (not_occupied seg_ppdoor_0_40)
                 (not_blocked seg_ppdoor_0_40 airplane_CFBEG)

              )

 :effect        (and
                 (not (occupied seg_pp_0_60))
                 (not_occupied seg_pp_0_60)
                 (not (at-segment ?a seg_pp_0_60))

                 (occupied seg_ppdoor_0_40)
                 (not (not_occupied seg_ppdoor_0_40))
                 (blocked seg_ppdoor_0_40 ?a)
                 (not (not_blocked seg_ppdoor_0_40 ?a))
                 (at-segment ?a seg_ppdoor_0_40)
                )
)

;; REMOVE PRECONDITIONS AND EFFECTS HERE TO MAKE HDDL
(:action move_seg_ppdoor_0_40_seg_tww1_0_200_north_south_medium

 :parameters    (?a - airplane)

 :precondition  ()

 :effect        ()
)
)" None = "ERR line 67: predicate occupied is not defined.".
Proof. vm_compute. reflexivity. Qed.

(** undeclared_task_validation_test: ParsingError::Semantic; SemanticErrorType::UndefinedSubtask; assert_eq!(t.symbol, ''undefined_task'') *)
Example t_undeclared_task_validation_test :
  verified ";;
;; PDDL file for the AIPS2000 Planning Competition
;; based on the data generated by the airport simulator Astras.
;;

;; Author: Sebastian Trueg thisshouldbethecurrentdateandtime :(
;; Created with PreInstancerDomainExporter 0.6 by Sebastian Trueg <trueg@informatik.uni-freiburg.de>
;;
;; adapted by Kayleigh Sleath to run (very badly) in a HDDL planner 17/4/23
;; note that this domain is NO LONGER INTENDED TO SOLVE ANYTHING.
;; It has been adapted from a PDDL domain to fit the syntax (but not the semantics) of a HDDL file 
;; in order to test error messages provided by HDDL planning software. 

;; Testing diagnosis of: undefined task error (line 53).


(define (domain airport_fixed_structure)

(:requirements :typing :strips)

(:types airplane segment)

(:constants
                seg_pp_0_60
                seg_ppdoor_0_40 - segment

                airplane_CFBEG - airplane
)

(:predicates
                (at-segment ?a - airplane ?s - segment)
                ;; planes are at segments, ie at their end in driving direction

                ;; how the planes affect the airport
                (occupied ?s - segment)
                ;; a plane is in here
                (not_occupied ?s - segment)
                (blocked ?s - segment ?a - airplane)
                ;; segment s is blocked if it is endangered by plane p
                (not_blocked ?s - segment ?a - airplane)
)

;;ADD THIS TO PDDL DOMAIN TO MAKE HDDL
(:task AchieveSomeGoal :parameters (?a_0 - airplane))

;;ADD THIS TO PDDL DOMAIN TO MAKE HDDL
(:method ParkAirplane
    :parameters (?a_0 - airplane)
    :task(AchieveSomeGoal ?a_0)
    :subtasks (and
          (move_seg_ppdoor_0_40_seg_tww1_0_200_north_south_medium ?a_0)  
          ;; ADD UNDEFINED TASK
          (undefined_task ?a_0)       
    )
)

(:action move_seg_pp_0_60_seg_ppdoor_0_40_north_north_medium

 :parameters    (?a - airplane)

 :precondition  (and
                 (at-segment ?a seg_pp_0_60)
                 (not_occupied seg_ppdoor_0_40)
                 (not_blocked seg_ppdoor_0_40 airplane_CFBEG)

              )

 :effect        (and
                 (not (occupied seg_pp_0_60))
                 (not_occupied seg_pp_0_60)
                 (not (at-segment ?a seg_pp_0_60))

                 (occupied seg_ppdoor_0_40)
                 (not (not_occupied seg_ppdoor_0_40))
                 (blocked seg_ppdoor_0_40 ?a)
                 (not (not_blocked seg_ppdoor_0_40 ?a))
                 (at-segment ?a seg_ppdoor_0_40)


                )
)

;; REMOVE PRECONDITIONS AND EFFECTS HERE TO MAKE HDDL
 (:action move_seg_ppdoor_0_40_seg_tww1_0_200_north_south_medium

 :parameters    (?a - airplane)

 :precondition  ()

 :effect        ()
 )
)" None = "ERR line 53: subtask undefined_task is not defined.".
Proof. vm_compute. reflexivity. Qed.

(** undeclared_type_validation_test: ParsingError::Semantic; SemanticErrorType::UndefinedType; assert_eq!(t.symbol, ''airplane'') *)
Example t_undeclared_type_validation_test :
  verified ";;
;; PDDL file for the AIPS2000 Planning Competition
;; based on the data generated by the airport simulator Astras.
;;

;; Author: Sebastian Trueg thisshouldbethecurrentdateandtime :(
;; Created with PreInstancerDomainExporter 0.6 by Sebastian Trueg <trueg@informatik.uni-freiburg.de>
;;

;; adapted by Kayleigh Sleath to run (very badly) in a HDDL planner
;; note that this domain is NO LONGER INTENDED TO SOLVE ANYTHING.
;; It has been adapted from a PDDL domain to fit the syntax (but not the semantics) of a HDDL file 
;; in order to test error messages provided by HDDL planning software.
;;
;; Testing: diagnosis of undefined type errors (line 23). 17-4-2023 


(define (domain airport_fixed_structure)

(:requirements :typing :strips)

;; REMOVED TYPE airplane TO CREATE UNDEFINED TYPE ERRORS
(:types segment)

(:constants
                seg_pp_0_60
                seg_ppdoor_0_40 - segment

                airplane_CFBEG - airplane
)

(:predicates
                (at-segment ?a - airplane ?s - segment)
                ;; planes are at segments, ie at their end in driving direction

                ;; how the planes affect the airport
                (occupied ?s - segment)
                ;; a plane is in here
                (not_occupied ?s - segment)
                (blocked ?s - segment ?a - airplane)
                ;; segment s is blocked if it is endangered by plane p
                (not_blocked ?s - segment ?a - airplane)
)

;;ADD THIS TO PDDL DOMAIN TO MAKE HDDL
(:task AchieveSomeGoal :parameters (?a_0 - airplane))

;;ADD THIS TO PDDL DOMAIN TO MAKE HDDL
(:method ParkAirplane
    :parameters (?a_0 - airplane)
    :task(AchieveSomeGoal ?a_0)
    :subtasks (and
          (move_seg_ppdoor_0_40_seg_tww1_0_200_north_south_medium ?a_0)         
    )
)

(:action move_seg_pp_0_60_seg_ppdoor_0_40_north_north_medium

 :parameters    (?a - airplane)

 :precondition  (and
                 (at-segment ?a seg_pp_0_60)
                 (not_occupied seg_ppdoor_0_40)
                 (not_blocked seg_ppdoor_0_40 airplane_CFBEG)

              )

 :effect        (and
                 (not (occupied seg_pp_0_60))
                 (not_occupied seg_pp_0_60)
                 (not (at-segment ?a seg_pp_0_60))

                 (occupied seg_ppdoor_0_40)
                 (not (not_occupied seg_ppdoor_0_40))
                 (blocked seg_ppdoor_0_40 ?a)
                 (not (not_blocked seg_ppdoor_0_40 ?a))
                 (at-segment ?a seg_ppdoor_0_40)


                )
)

;; REMOVE PRECONDITIONS AND EFFECTS HERE TO MAKE HDDL
(:action move_seg_ppdoor_0_40_seg_tww1_0_200_north_south_medium

 :parameters    (?a - airplane)

 :precondition  ()

 :effect        ()
)
)" None = "ERR line 33: type airplane is not defined.".
Proof. vm_compute. reflexivity. Qed.

(** no_primitive_refinement_validation_test: assert_eq!(warnings.len(), 1); WarningType::NoPrimitiveRefinement *)
Example t_no_primitive_refinement_validation_test :
  verified ";;
;; PDDL file for the AIPS2000 Planning Competition
;; based on the data generated by the airport simulator Astras.
;;

;; Author: Sebastian Trueg thisshouldbethecurrentdateandtime :(
;; Created with PreInstancerDomainExporter 0.6 by Sebastian Trueg <trueg@informatik.uni-freiburg.de>
;;
;; adapted by Kayleigh Sleath to run (very badly) in a HDDL planner 17/4/23
;; note that this domain is NO LONGER INTENDED TO SOLVE ANYTHING.
;; It has been adapted from a PDDL domain to fit the syntax (but not the semantics) of a HDDL file 
;; in order to test error messages provided by HDDL planning software. 

;; testing diagnosis of: abstract task without refinement (line 52)


(define (domain airport_fixed_structure)

(:requirements :typing :strips)

(:types airplane segment)

(:constants
                seg_pp_0_60
                seg_ppdoor_0_40 - segment

                airplane_CFBEG - airplane
)

(:predicates
                (at-segment ?a - airplane ?s - segment)
                ;; planes are at segments, ie at their end in driving direction

                ;; how the planes affect the airport
                (occupied ?s - segment)
                ;; a plane is in here
                (not_occupied ?s - segment)
                (blocked ?s - segment ?a - airplane)
                ;; segment s is blocked if it is endangered by plane p
                (not_blocked ?s - segment ?a - airplane)
)

;;ADD THIS TO PDDL DOMAIN TO MAKE HDDL
(:task AchieveSomeGoal :parameters (?a_0 - airplane))

;;ADD THIS TO PDDL DOMAIN TO MAKE HDDL
(:method ParkAirplane
    :parameters (?a_0 - airplane)
    :task(AchieveSomeGoal ?a_0)
    :subtasks (and
    ;; ABSTRACT TASK WITHOUT TERMINATION
          (AchieveSomeGoal ?a_0)         
    )
)

(:action move_seg_pp_0_60_seg_ppdoor_0_40_north_north_medium

 :parameters    (?a - airplane)

 :precondition  (and
                 (at-segment ?a seg_pp_0_60)
                 (not_occupied seg_ppdoor_0_40)
                 (not_blocked seg_ppdoor_0_40 airplane_CFBEG)
              )

 :effect        (and
                 (not (occupied seg_pp_0_60))
                 (not_occupied seg_pp_0_60)
                 (not (at-segment ?a seg_pp_0_60))
                 (occupied seg_ppdoor_0_40)
                 (not (not_occupied seg_ppdoor_0_40))
                 (blocked seg_ppdoor_0_40 ?a)
                 (not (not_blocked seg_ppdoor_0_40 ?a))
                 (at-segment ?a seg_ppdoor_0_40)
                )
)

;; REMOVE PRECONDITIONS AND EFFECTS HERE TO MAKE HDDL
(:action move_seg_ppdoor_0_40_seg_tww1_0_200_north_south_medium

 :parameters    (?a - airplane)

 :precondition  ()

 :effect        ()
)
)" None = "OK line 44: compound task AchieveSomeGoal does not have a primitive refinement".
Proof. vm_compute. reflexivity. Qed.

(** no_method_validation_test: assert_eq!(warnings.len(), 1); WarningType::NoPrimitiveRefinement *)
Example t_no_method_validation_test :
  verified ";;
;; PDDL file for the AIPS2000 Planning Competition
;; based on the data generated by the airport simulator Astras.
;;

;; Author: Sebastian Trueg thisshouldbethecurrentdateandtime :(
;; Created with PreInstancerDomainExporter 0.6 by Sebastian Trueg <trueg@informatik.uni-freiburg.de>
;;
;; adapted by Kayleigh Sleath to run (very badly) in a HDDL planner 17/4/23
;; note that this domain is NO LONGER INTENDED TO SOLVE ANYTHING.
;; It has been adapted from a PDDL domain to fit the syntax (but not the semantics) of a HDDL file 
;; in order to test error messages provided by HDDL planning software. 

;; testing diagnosis of: missing task decomposition (line 46)


(define (domain airport_fixed_structure)

(:requirements :typing :strips)

(:types airplane segment)

(:constants
                seg_pp_0_60
                seg_ppdoor_0_40 - segment

                airplane_CFBEG - airplane
)

(:predicates
                (at-segment ?a - airplane ?s - segment)
                ;; planes are at segments, ie at their end in driving direction
               
                ;; how the planes affect the airport
                (occupied ?s - segment)
                ;; a plane is in here
                (not_occupied ?s - segment)
                (blocked ?s - segment ?a - airplane)
                ;; segment s is blocked if it is endangered by plane p
                (not_blocked ?s - segment ?a - airplane)
)

;;ADD THIS TO PDDL DOMAIN TO MAKE HDDL
(:task AchieveSomeGoal :parameters (?a_0 - airplane))

;;REMOVE DECOMPOSITION
;; (:method ParkAirplane
 ;;   :parameters (?a_0 - airplane)
 ;;   :task(AchieveSomeGoal ?a_0)
 ;;   :subtasks (and
 ;;         (move_seg_ppdoor_0_40_seg_tww1_0_200_north_south_medium ?a_0)         
 ;;   )
;; )

(:action move_seg_pp_0_60_seg_ppdoor_0_40_north_north_medium

 :parameters    (?a - airplane)

 :precondition  (and
                 (at-segment ?a seg_pp_0_60)
                 (not_occupied seg_ppdoor_0_40)
                 (not_blocked seg_ppdoor_0_40 airplane_CFBEG)

              )

 :effect        (and
                 (not (occupied seg_pp_0_60))
                 (not_occupied seg_pp_0_60)
                 (not (at-segment ?a seg_pp_0_60))
                 (occupied seg_ppdoor_0_40)
                 (not (not_occupied seg_ppdoor_0_40))
                 (blocked seg_ppdoor_0_40 ?a)
                 (not (not_blocked seg_ppdoor_0_40 ?a))
                 (at-segment ?a seg_ppdoor_0_40)
                )
)

;; REMOVE PRECONDITIONS AND EFFECTS HERE TO MAKE HDDL
(:action move_seg_ppdoor_0_40_seg_tww1_0_200_north_south_medium

 :parameters    (?a - airplane)

 :precondition  ()

 :effect        ()
)
)" None = "OK line 44: compound task AchieveSomeGoal does not have a primitive refinement".
Proof. vm_compute. reflexivity. Qed.

(** ignore_possibly_complementary_effects_validation_test:  *)
Example t_ignore_possibly_complementary_effects_validation_test :
  verified ";;
;; PDDL file for the AIPS2000 Planning Competition
;; based on the data generated by the airport simulator Astras.
;;

;; Author: Sebastian Trueg thisshouldbethecurrentdateandtime :(
;; Created with PreInstancerDomainExporter 0.6 by Sebastian Trueg <trueg@informatik.uni-freiburg.de>

;; adapted by Kayleigh Sleath to run (very badly) in a HDDL planner
;; note that this domain is NO LONGER INTENDED TO SOLVE ANYTHING.
;; It has been adapted from a PDDL domain to fit the syntax (but not the semantics) of a HDDL file 
;; in order to test error messages provided by HDDL planning software. 

;; Testing diagnosis of possible complementary effects (line 62)


(define (domain airport_fixed_structure)

(:requirements :typing :strips)

(:types airplane segment)

(:constants
                seg_pp_0_60
                seg_ppdoor_0_40 - segment

                airplane_CFBEG - airplane
)

(:predicates
                (at-segment ?a - airplane ?s - segment)
                ;; planes are at segments, ie at their end in driving direction

                ;; how the planes affect the airport
                (occupied ?s - segment)
                ;; a plane is in here
                (not_occupied ?s - segment)
                (blocked ?s - segment ?a - airplane)
                ;; segment s is blocked if it is endangered by plane p
                (not_blocked ?s - segment ?a - airplane)
)

;;ADD THIS TO PDDL DOMAIN TO MAKE HDDL
(:task AchieveSomeGoal :parameters (?a_0 - airplane))

;;ADD THIS TO PDDL DOMAIN TO MAKE HDDL
(:method ParkAirplane
    :parameters (?a_0 - airplane)
    :task(AchieveSomeGoal ?a_0)
    :subtasks (and
          (move_seg_ppdoor_0_40_seg_tww1_0_200_north_south_medium ?a_0)         
    )
)

(:action possible_complementary_effects

     :parameters (?s_0 - segment ?s_1 - segment)

     :precondition ()

;;POSSIBLE COMPLEMENTARY EFFECTS
     :effect (and 
          (occupied ?s_0)
          (not (occupied ?s_1))
     )
)

(:action move_seg_pp_0_60_seg_ppdoor_0_40_north_north_medium

 :parameters    (?a - airplane)

 :precondition  (and
                 (at-segment ?a seg_pp_0_60)
                 (not_occupied seg_ppdoor_0_40)
                 (not_blocked seg_ppdoor_0_40 airplane_CFBEG)

              )

 :effect        (and
                 (not (occupied seg_pp_0_60))
                 (not_occupied seg_pp_0_60)
                 (not (at-segment ?a seg_pp_0_60))
                 (occupied seg_ppdoor_0_40)
                 (not (not_occupied seg_ppdoor_0_40))
                 (blocked seg_ppdoor_0_40 ?a)
                 (not (not_blocked seg_ppdoor_0_40 ?a))
                 (at-segment ?a seg_ppdoor_0_40)
                )
)

(:action move_seg_ppdoor_0_40_seg_tww1_0_200_north_south_medium

 :parameters    (?a - airplane)

 :precondition  ()

 :effect        ()
)
)" None = "OK ".
Proof. vm_compute. reflexivity. Qed.
