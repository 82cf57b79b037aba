{
 "claims": [
  {
   "property": "C01",
   "status": "proved",
   "theorems": [
    "C01_lines_true"
   ],
   "note": "All histories of reads and peeks without a panic, for every byte string."
  },
  {
   "property": "C02",
   "status": "proved",
   "theorems": [
    "C02_peek_changes_nothing",
    "C02_peek_shows_next",
    "C02_peek_differs_refuted"
   ],
   "note": "The `_refuted` theorem shows that the exception for <= and >= is real."
  },
  {
   "property": "C03",
   "status": "proved",
   "theorems": [
    "C03_gap_in_front",
    "C03_insert_gap",
    "C03_comment_after_word_refuted",
    "C03_parse_layout",
    "C03_any_layout"
   ],
   "note": "Position level and document level; the `_refuted` theorem shows a comment glued to the end of a word is not insignificant."
  },
  {
   "property": "C04",
   "status": "proved",
   "theorems": [
    "C04_progress",
    "C04_finite",
    "C04_truncated_word"
   ],
   "note": "Progress and finiteness; C04_truncated_word is the exact behaviour outside the hypothesis."
  },
  {
   "property": "C05",
   "status": "proved",
   "theorems": [
    "C05_ascii_no_crash",
    "C05_open_comment_crashes",
    "C05_boundary_refuted"
   ],
   "note": "Panic freedom, the general crash for open comments and witnesses for the other crash classes."
  },
  {
   "property": "C06",
   "status": "proved",
   "theorems": [
    "C06_round_trip",
    "C06_every_sequence"
   ],
   "note": "Any separators made of whitespace and comments (round_trip) and the one-blank form (every_sequence)."
  },
  {
   "property": "C07",
   "status": "proved",
   "theorems": [
    "C07_content",
    "C07_integers",
    "C07_invalid_real_unreachable",
    "C07_ascii_identifiers",
    "C07_variable_bytes_refuted"
   ],
   "note": "Content of all tokens; `_refuted` shows that names written with ? are classified bytewise."
  },
  {
   "property": "C08",
   "status": "proved",
   "theorems": [
    "C08_terminates",
    "C08_fuel_irrelevant",
    "C08_truncated_refuted"
   ],
   "note": "The fuel of the model is sufficient for every document ending in a delimiter; the `_refuted` theorem shows a document cut inside a word on which the loop never ends."
  },
  {
   "property": "C09",
   "status": "proved",
   "theorems": [
    "C09_only_stray_token_panics",
    "C09_stray_token_panics_refuted",
    "C09_domain_never_panics",
    "C09_outcomes"
   ],
   "note": "Exact: a text document panics iff a problem contains a stray token at block level; the `_refuted` theorem is the converse direction for all such documents."
  },
  {
   "property": "C10",
   "status": "proved",
   "theorems": [
    "C10_parser_is_grammar",
    "C10_unambiguous",
    "C10_rejects"
   ],
   "note": "Grammar in SpecGrammar.v; both directions and unambiguity, for every byte string."
  },
  {
   "property": "C11",
   "status": "proved",
   "theorems": [
    "C11_print_parse",
    "C11_parse_print_parse",
    "C11_image"
   ],
   "note": "Print-parse, parse-print-parse and the exact image of the parser."
  },
  {
   "property": "C12",
   "status": "proved",
   "theorems": [
    "C12_domain_invariants",
    "C12_problem_invariants",
    "C12_imply_rejected_refuted"
   ],
   "note": "Invariants wf_* of SpecPrint.v; `_refuted`: the implication node is unreachable because `imply` is rejected."
  },
  {
   "property": "C13",
   "status": "proved",
   "theorems": [
    "C13_tree_lines",
    "C13_error_lines",
    "C13_verification_error_lines",
    "C13_warning_lines"
   ],
   "note": "Lines of syntax trees, lexical, syntactic and semantic errors and warnings."
  },
  {
   "property": "C14",
   "status": "proved",
   "theorems": [
    "C14_domain_tail_ignored",
    "C14_problem_tail_ignored",
    "C14_after_goal_ignored",
    "C14_init_after_goal_refuted"
   ],
   "note": "Domains and problems, the only exception being problems ended by the end of the file; `_refuted`: blocks after the goal are lost."
  },
  {
   "property": "C15",
   "status": "proved",
   "theorems": [
    "C15_no_duplicates",
    "C15_duplicate_errors_true",
    "C15_not_covered_refuted"
   ],
   "note": "No duplicates after success, and every duplicate error is true; `_refuted`: repetitions that are not looked for."
  },
  {
   "property": "C16",
   "status": "proved",
   "theorems": [
    "C16_cyclic_types_iff"
   ],
   "note": "Exact."
  },
  {
   "property": "C17",
   "status": "proved",
   "theorems": [
    "C17_predicates_declared",
    "C17_undefined_predicate_true"
   ],
   "note": "Every atom in every formula, at any depth."
  },
  {
   "property": "C18",
   "status": "proved",
   "theorems": [
    "C18_atoms_typed",
    "C18_type_errors_true",
    "C18_unchecked_types_refuted"
   ],
   "note": "Atoms outside quantified formulas; `_refuted`: parameter and constant types that are not looked at."
  },
  {
   "property": "C19",
   "status": "proved",
   "theorems": [
    "C19_heads_typed",
    "C19_subtasks_typed",
    "C19_call_errors_true"
   ],
   "note": "Heads, subtasks and truth of the errors."
  },
  {
   "property": "C20",
   "status": "proved",
   "theorems": [
    "C20_orderings_acyclic",
    "C20_initial_network_acyclic",
    "C20_cyclic_error_true"
   ],
   "note": "Methods and the initial network; truth of the error."
  },
  {
   "property": "C21",
   "status": "proved",
   "theorems": [
    "C21_domain_decided",
    "C21_error_true",
    "C21_crash_needs_exists",
    "C21_terminates",
    "C21_exists_crashes_refuted"
   ],
   "note": "Exact decision of domain_ok of SpecSem.v, truth of errors, crashes, termination; `_refuted`: existential quantifiers crash."
  },
  {
   "property": "C22",
   "status": "proved",
   "theorems": [
    "C22_problem_decided",
    "C22_error_true",
    "C22_no_crash",
    "C22_quantified_goal_refuted"
   ],
   "note": "Exact decision of problem_ok; `_refuted`: quantified goals are not looked at."
  },
  {
   "property": "C23",
   "status": "proved",
   "theorems": [
    "C23_warning_true",
    "C23_converse_refuted",
    "C23_same_name_refuted",
    "C23_warned_iff_when_tame",
    "C23_never_missed"
   ],
   "note": "Soundness of warnings for distinct names, no warning missed for a task that does not dissolve, and exactness in tame domains (SpecMeaning.v); `_refuted`: the converse, and a false warning for a name that is both a task and an action."
  },
  {
   "property": "C24",
   "status": "proved",
   "theorems": [
    "C24_vanishing_found",
    "C24_found_compound",
    "C24_unsound_refuted",
    "C24_exact_when_tame",
    "C24_upper_bound",
    "C24_needs_empty_method"
   ],
   "note": "Completeness, an upper bound for every domain (dissolves in SpecMeaning.v), and exactness in tame domains; `_refuted`: a task found nullable that cannot vanish."
  },
  {
   "property": "C25",
   "status": "proved",
   "theorems": [
    "C25_reachable_exact",
    "C25_reachable_terminates",
    "C25_action_reaches_itself"
   ],
   "note": "Exactness and termination for compound tasks, and the result for actions."
  },
  {
   "property": "C26",
   "status": "proved",
   "theorems": [
    "C26_non_recursive_iff",
    "C26_cycle_genuine",
    "C26_order_independent"
   ],
   "note": "All domains, totally or partially ordered, for which metadata delivers a result; C27 says when it does."
  },
  {
   "property": "C27",
   "status": "proved",
   "theorems": [
    "C27_metadata_terminates",
    "C27_metadata_terminates_acyclic",
    "C27_nullables_terminate",
    "C27_hangs_without_tasks",
    "C27_metadata_total"
   ],
   "note": "Nullable computation and the metadata command for totally ordered, acyclic and usable partially ordered domains; hang for domains without compound tasks."
  },
  {
   "property": "C28",
   "status": "proved",
   "theorems": [
    "C28_error_deterministic",
    "C28_success_deterministic",
    "C28_crash_deterministic",
    "C28_warnings_by_nullables",
    "C28_warnings_differ_refuted"
   ],
   "note": "Errors, success and crashes; warnings up to the nullable set; `_refuted`: warnings differ between two iteration orders."
  },
  {
   "property": "C29",
   "status": "proved",
   "theorems": [
    "C29_domain_error_first",
    "C29_success_extends",
    "C29_problem_error_only_after_domain"
   ],
   "note": "Both directions."
  },
  {
   "property": "C30",
   "status": "proved",
   "theorems": [
    "C30_display_fails_iff",
    "C30_domain_errors_display",
    "C30_undisplayable_error",
    "C30_problem_error_undisplayable_refuted"
   ],
   "note": "Exact; `_refuted`: an error of the problem that cannot be displayed."
  },
  {
   "property": "C31",
   "status": "proved",
   "theorems": [
    "C31_domain_agrees",
    "C31_domain_clean_iff",
    "C31_domain_lines",
    "C31_problem_agrees",
    "C31_problem_clean_iff",
    "C31_problem_broken_domain",
    "C31_problem_without_domain",
    "C31_broken_header_silent",
    "C31_domain_request",
    "C31_problem_request",
    "C31_orphan_request",
    "C31_every_error_reported_refuted",
    "C31_problem_lines_refuted",
    "C31_unclassified_refuted",
    "C31_listing_order_refuted"
   ],
   "note": "Complete case analysis for domains, for problems with a valid, broken or missing domain, and for requests (which file is taken as the domain); `_refuted`: duplicates crash, lines of the domain shown in the problem, broken headers are silent, with two domains in a folder the listing order decides. Handlers are atomic in the model."
  },
  {
   "property": "C32",
   "status": "proved",
   "theorems": [
    "C32_latest_text",
    "C32_other_documents_irrelevant",
    "C32_notifications_total",
    "C32_first_change_only",
    "C32_last_change_refuted",
    "C32_unsaved_domain_refuted"
   ],
   "note": "Induction over histories; `_refuted`: the last of several changes and unsaved domain texts are not used."
  },
  {
   "property": "C33",
   "status": "proved",
   "theorems": [
    "C33_text_determines_trees",
    "C33_real_spelling_refuted"
   ],
   "note": "At the level of the text written by serde_json's pretty printer (modelled); the text of an f64 is a parameter with the stated shape."
  },
  {
   "property": "C34",
   "status": "proved",
   "theorems": [
    "C34_status_zero",
    "C34_verify_success_iff",
    "C34_verify_crash_iff",
    "C34_metadata_output",
    "C34_to_json_file",
    "C34_to_json_stdout",
    "C34_to_json_file_output",
    "C34_unreadable",
    "C34_status_uninformative_refuted"
   ],
   "note": "All commands after argument parsing; `_refuted`: exit status does not tell failure."
  },
  {
   "property": "C35",
   "status": "proved",
   "theorems": [
    "C35_question_mark_token",
    "C35_question_mark_document",
    "C35_question_mark_parse"
   ],
   "note": "Token level and document level (all later tokens and lines)."
  },
  {
   "property": "C36",
   "status": "proved",
   "theorems": [
    "C36_domain_header_ignored",
    "C36_domain_name_in_text",
    "C36_problem_names_ignored",
    "C36_problem_requirements_ignored"
   ],
   "note": "Names and requirements, on trees and on text."
  },
  {
   "property": "C37",
   "status": "proved",
   "theorems": [
    "C37_order_irrelevant",
    "C37_problem_order_irrelevant",
    "C37_repeated_constant_refuted"
   ],
   "note": "Any reordering of the sections of a domain; `_refuted`: repeated constants."
  },
  {
   "property": "C38",
   "status": "proved",
   "theorems": [
    "C38_open_method_ends_domain_refuted",
    "C38_actions_lost_refuted",
    "C38_closed_blocks_kept"
   ],
   "note": "General theorem, a concrete loss, and the converse for closed blocks. It happens in the repository's own benchmark tests/ipc/PO_Barman-BDI/domain.hddl, of which only the first two methods and no action are read."
  },
  {
   "property": "C39",
   "status": "proved",
   "theorems": [
    "C39_class_is_maximum",
    "C39_empty_recursion_refuted"
   ],
   "note": "Exact characterisation by SpecRec.v; `_refuted`: empty recursion reported without a task that turns into itself."
  },
  {
   "property": "C40",
   "status": "proved",
   "theorems": [
    "C40_partial_order_crash",
    "C40_partial_order_hang",
    "C40_metadata_iff",
    "C40_accepted_has_metadata_refuted"
   ],
   "note": "Exact condition for a result of the metadata command (distinct names), the two ways of not delivering one, and the refuted claim that every accepted domain has metadata."
  },
  {
   "property": "C41",
   "status": "proved",
   "theorems": [
    "C41_export_iff_parses",
    "C41_export_error_iff",
    "C41_verified_exports",
    "C41_export_is_no_verification_refuted"
   ],
   "note": "Exact; `_refuted`: a rejected document is exported."
  },
  {
   "property": "C42",
   "status": "proved",
   "theorems": [
    "C42_verify_tokens",
    "C42_metadata_tokens",
    "C42_verify_gap_in_domain",
    "C42_verify_gap_in_problem",
    "C42_metadata_gap",
    "C42_moved_domain",
    "C42_moved_metadata",
    "C42_moved_pair"
   ],
   "note": "Token streams related line by line, and gaps inserted after a delimiter."
  },
  {
   "property": "C43",
   "status": "proved",
   "theorems": [
    "C43_verify",
    "C43_verify_problem",
    "C43_metadata",
    "C43_metadata_ids_refuted",
    "C43_renamed_syntax",
    "C43_renamed_verify"
   ],
   "note": "On syntax trees per kind of name, and on texts for uniform renamings; `_refuted`: subtask ids in metadata."
  },
  {
   "property": "C44",
   "status": "proved",
   "theorems": [
    "C44_verify",
    "C44_metadata"
   ],
   "note": "Exact equality of outcomes; with the assumption on the text of reals of C33."
  },
  {
   "property": "C45",
   "status": "proved",
   "theorems": [
    "C45_syntax_error",
    "C45_lexical_error",
    "C45_never_semantic",
    "C45_crash",
    "C45_rest_irrelevant",
    "C45_completion",
    "C45_first"
   ],
   "note": "For every document; the report may print `<` or `>` for a `<=` or `>=` that was only peeked at. The completion in the text needs a document that ends in a delimiter."
  },
  {
   "property": "C46",
   "status": "proved",
   "theorems": [
    "C46_error_words",
    "C46_warning_words",
    "C46_metadata_words",
    "C46_syntax_words"
   ],
   "note": "Via the renaming theorem of C43 and the blame theorem of C45."
  },
  {
   "property": "C47",
   "status": "proved",
   "theorems": [
    "C47_starts_with_line",
    "C47_names_every_line",
    "C47_names_symbols",
    "C47_unambiguous",
    "C47_unambiguous_warnings",
    "C47_warning_text",
    "C47_lexical_unambiguous",
    "C47_task_arity_line_refuted",
    "C47_wording",
    "C47_warning_wording"
   ],
   "note": "C47_wording for which part of a message is which. `_refuted`: the message about task arity carries no line."
  },
  {
   "property": "C48",
   "status": "proved",
   "theorems": [
    "C48_counts",
    "C48_nullables",
    "C48_class",
    "C48_cycle",
    "C48_determines"
   ],
   "note": "The text is followed through the metadata command of the model of main."
  },
  {
   "property": "C49",
   "status": "proved",
   "theorems": [
    "C49_serial",
    "C49_one_reply",
    "C49_document_stable"
   ],
   "note": "Handlers are interleaved at their await points, over a first come, first served read-write lock."
  },
  {
   "property": "C50",
   "status": "proved",
   "theorems": [
    "C50_no_deadlock",
    "C50_no_endless_work",
    "C50_all_done",
    "C50_answered",
    "C50_first_come_first_served",
    "C50_ends_only",
    "C50_hangs_refuted"
   ],
   "note": "`_refuted`: a document that is cut off can make the server hang (C08)."
  },
  {
   "property": "C51",
   "status": "proved",
   "theorems": [
    "C51_replies",
    "C51_documents",
    "C51_stale_save_refuted",
    "C51_order_needed_refuted"
   ],
   "note": "That handlers begin in the order of arrival is an assumption about tower-lsp; `_refuted`: without it, and with saves from the disk, older texts can win."
  },
  {
   "property": "C52",
   "status": "proved",
   "theorems": [
    "C52_request_path",
    "C52_save_path",
    "C52_folder",
    "C52_extension",
    "C52_plain_save",
    "C52_escaped_save_crashes",
    "C52_no_file_crashes",
    "C52_unprintable_folder_crashes"
   ],
   "note": "The URL and path functions of the libraries are modelled for Unix."
  },
  {
   "property": "C53",
   "status": "proved",
   "theorems": [
    "C53_tasks_fit",
    "C53_facts_fit",
    "C53_action_conditions_fit",
    "C53_method_conditions_fit",
    "C53_goal_fits",
    "C53_quantified_effect_refuted",
    "C53_clash_refuted",
    "C53_equality_unchecked_refuted"
   ],
   "note": "Executions are specified in SpecExec.v; any task may be treated next and preconditions do not restrict, so all executions of a planner are covered. `_refuted`: the exceptions."
  },
  {
   "property": "C54",
   "status": "proved",
   "theorems": [
    "C54_linearizable",
    "C54_some_task_is_first",
    "C54_actions_can_be_performed",
    "C54_ordered_executions",
    "C54_cycle_unsatisfiable"
   ],
   "note": "Networks with identities and an order (SpecExec.v); ordered executions are executions in the sense of C53."
  },
  {
   "property": "C55",
   "status": "proved",
   "theorems": [
    "C55_extension",
    "C55_problems_stay",
    "C55_methods_removable",
    "C55_hiding_refuted"
   ],
   "note": "`_refuted`: an action may hide a compound task."
  },
  {
   "property": "C56",
   "status": "proved",
   "theorems": [
    "C56_first_faulty_part",
    "C56_error_of_first_part",
    "C56_rest_irrelevant",
    "C56_problem_first_faulty_part",
    "C56_problem_error_of_first_part",
    "C56_problem_rest_irrelevant"
   ],
   "note": "Growth is specified in SpecFirst.v; within a part (for example the atoms of one formula) any true error may be the one reported."
  },
  {
   "property": "C57",
   "status": "proved",
   "theorems": [
    "C57_export_is_json",
    "C57_one_reading",
    "C57_one_meaning"
   ],
   "note": "Grammar and shape are specified in SpecJson.v. Hypothesis: serde_json writes a finite f64 as a JSON number with fraction or exponent, and an infinite one as null."
  },
  {
   "property": "C58",
   "status": "proved",
   "theorems": [
    "C58_non_recursive_iff",
    "C58_executions_end",
    "C58_recursion_found",
    "C58_left_recursion_iff",
    "C58_classes_exact",
    "C58_partial_order_refuted"
   ],
   "note": "Stated with the one-step relations of SpecTdg.v and SpecExec.v. `_refuted`: partial orders; that the other two hypotheses are needed is shown by C24_unsound_refuted and C39_empty_recursion_refuted."
  },
  {
   "property": "C59",
   "status": "proved",
   "theorems": [
    "C59_expected",
    "C59_completion",
    "C59_wording",
    "C59_names_everything_refuted"
   ],
   "note": "The reading of each message as a list of tokens is specified in SpecExpect.v. `_refuted`: some messages do not name everything that could stand there."
  },
  {
   "property": "C60",
   "status": "proved",
   "theorems": [
    "C60_error_iff",
    "C60_crash_iff",
    "C60_exhaustive",
    "C60_exclusive",
    "C60_document"
   ],
   "note": "Ill-formed and crashing texts are specified in SpecLexErr.v. An ill-formed word after a colon is called an identifier (C60_example_colon)."
  },
  {
   "property": "C61",
   "status": "proved",
   "theorems": [
    "C61_domain",
    "C61_problem",
    "C61_parent_refuted"
   ],
   "note": "References and removals are specified in SpecUnused.v. `_refuted`: the condition on the parents of removed types is needed."
  },
  {
   "property": "C62",
   "status": "proved",
   "theorems": [
    "C62_standard_accepted",
    "C62_nothing_lost",
    "C62_problem_nothing_lost",
    "C62_rejected_refuted",
    "C62_lost_refuted",
    "C62_replaced_refuted"
   ],
   "note": "The standard form is specified in SpecHddl.v, independently of what the parser tolerates. `_refuted`: the constructs of HDDL that are rejected or after which a declaration is lost, and parts given twice."
  },
  {
   "property": "C63",
   "status": "proved",
   "theorems": [
    "C63_verify_rounds",
    "C63_metadata_at_least",
    "C63_metadata_rounds",
    "C63_polynomial_refuted"
   ],
   "note": "Counted are the rounds of each loop (the fuel of the model), not the work in one round. Chains are specified in SpecTime.v. `_refuted`: there is no polynomial bound for metadata."
  },
  {
   "property": "C64",
   "status": "proved",
   "theorems": [
    "C64_token_text",
    "C64_real_text",
    "C64_real_decimals",
    "C64_found_text",
    "C64_requirement_text",
    "C64_imply_refuted",
    "C64_real_refuted"
   ],
   "note": "Spellings are those of SpecLex.v. Real numbers: C64_real_text and C64_real_decimals, with the doubles of SpecReal.v and the Display of Double.v (from the documentation of the standard library). `_refuted`: define, imply, and reals such as 0.10 and 2.0, shown as 0.1 and 2."
  },
  {
   "property": "C65",
   "status": "proved",
   "theorems": [
    "C65_release",
    "C65_debug",
    "C65_no_overflow",
    "C65_parser_reads_first",
    "C65_parser_goes_on",
    "C65_first_byte_refuted",
    "C65_line_limit_refuted"
   ],
   "note": "Cursor.v models the tokenizer a second time, with its cursor, machine arithmetic, array accesses and slices (usize of 64 bits); the theorems are a refinement between it and Lexer.v. `_refuted`: the two limits are needed."
  },
  {
   "property": "C66",
   "status": "proved",
   "theorems": [
    "C66_warning_iff",
    "C66_no_new_warning",
    "C66_recursion_kept",
    "C66_class_kept",
    "C66_new_warning_refuted"
   ],
   "note": "Extension is inclusion of declared names and methods (`extends` in PropsGrow.v). `_refuted`: the condition on the reported nullables is needed."
  },
  {
   "property": "C67",
   "status": "proved",
   "theorems": [
    "C67_metadata",
    "C67_warnings",
    "C67_formulas",
    "C67_reordered",
    "C67_forall_refuted",
    "C67_empty_refuted",
    "C67_order_refuted"
   ],
   "note": "Structure and the relation on formulas are specified in SpecShape.v. `_refuted`: quantifiers, the presence of a formula, and the order of conjuncts (for the error reported) do matter."
  },
  {
   "property": "C68",
   "status": "proved",
   "theorems": [
    "C68_same_result",
    "C68_enough",
    "C68_domain",
    "C68_problem",
    "C68_checks",
    "C68_check_depth",
    "C68_check_result",
    "C68_comments",
    "C68_limit_refuted",
    "C68_comments_refuted"
   ],
   "note": "The recursive functions with a limit on open calls are modelled in Stack.v; nesting and comments are specified in SpecStack.v. Frame sizes, tail calls and the recursion of library code (drop, serialisation, petgraph) are not modelled. `_refuted`: no limit is enough."
  },
  {
   "property": "C69",
   "status": "proved",
   "theorems": [
    "C69_subtype_is_inclusion",
    "C69_atoms_belong",
    "C69_calls_belong",
    "C69_type_error_witness",
    "C69_relaxed_domain",
    "C69_relaxed_problem",
    "C69_other_way_refuted",
    "C69_no_top_refuted",
    "C69_sound_needed_refuted"
   ],
   "note": "Interpretations and the relation between documents are specified in SpecTypes.v. `_refuted`: the converse directions, untyped parameters, undeclared `object`, new cycles."
  },
  {
   "property": "C70",
   "status": "proved",
   "theorems": [
    "C70_same_result",
    "C70_one_pass",
    "C70_tokens_once",
    "C70_two_peeks",
    "C70_calls_per_token",
    "C70_linear",
    "C70_text_passed",
    "C70_cut_off_refuted"
   ],
   "note": "Calls.v repeats the parser with a record of its tokenizer calls; C70_same_result shows the results are those of Parser.v. Text gone over is measured from the cursor to the end of the next token. `_refuted`: texts that end inside a word (see C08)."
  },
  {
   "property": "C71",
   "status": "proved",
   "theorems": [
    "C71_any_order",
    "C71_same_meaning",
    "C71_spelled_out",
    "C71_nullables",
    "C71_class",
    "C71_delivered_iff",
    "C71_class_rises_refuted",
    "C71_identifiers_matter_refuted",
    "C71_redundant_refuted"
   ],
   "note": "Orders written out are specified in SpecChain.v, their meaning is that of SpecExec.v. `_refuted`: the class and the existence of metadata do depend on the way of writing."
  },
  {
   "property": "C72",
   "status": "proved",
   "theorems": [
    "C72_warned_never_done",
    "C72_warned_unsolvable",
    "C72_only_reachable",
    "C72_restriction",
    "C72_listed_terminates",
    "C72_silence_refuted"
   ],
   "note": "Executions are those of SpecExec.v (every task may be treated next, no precondition restricts them) and the ordered ones of the same file; `restricted` is in SpecPlan.v. `_refuted`: no warning does not mean that there is a plan."
  },
  {
   "property": "C73",
   "status": "proved",
   "theorems": [
    "C73_domain",
    "C73_problem",
    "C73_parameter_refuted",
    "C73_type_refuted"
   ],
   "note": "The relation between the documents is `moved` in SpecMove.v; executions are those of SpecExec.v. `_refuted`: the two conditions cannot be dropped."
  },
  {
   "property": "C74",
   "status": "proved",
   "theorems": [
    "C74_domain",
    "C74_problem",
    "C74_warnings",
    "C74_constant_refuted",
    "C74_object_refuted"
   ],
   "note": "Renaming and the names a declaration uses without declaring them are specified in SpecAlpha.v; executions are those of SpecExec.v. The renamed declarations stay on their lines. `_refuted`: capture matters."
  },
  {
   "property": "C75",
   "status": "proved",
   "theorems": [
    "C75_decoder",
    "C75_no_crash",
    "C75_parse",
    "C75_names",
    "C75_latin1",
    "C75_resume_refuted",
    "C75_end_refuted"
   ],
   "note": "The encoding and the usable characters are specified in SpecUtf8.v, independently of the decoder in Base.v. `_refuted`: the final line break is needed, and so is stopping at the first error."
  },
  {
   "property": "C76",
   "status": "proved",
   "theorems": [
    "C76_thinner_domain",
    "C76_thinner_problem",
    "C76_domain_pieces",
    "C76_problem_pieces",
    "C76_constraints_refuted",
    "C76_declarations_refuted"
   ],
   "note": "Removal and pieces are specified in SpecPart.v; pieces are texts (the printer of C11). `_refuted`: single ordering constraints, declarations."
  },
  {
   "property": "C77",
   "status": "proved",
   "theorems": [
    "C77_one_response",
    "C77_no_other_response",
    "C77_before_handshake",
    "C77_after_shutdown",
    "C77_after_exit",
    "C77_handshake",
    "C77_not_sent",
    "C77_check",
    "C77_green",
    "C77_close_ignored",
    "C77_alone",
    "C77_closed_refuted"
   ],
   "note": "The life cycle around the handlers is tower-lsp's, as transcribed in Serve.v; messages are handled one at a time, and a handler run alone in the concurrent model (C49) does the same (C77_alone). `_refuted`: closed documents are forgotten."
  },
  {
   "property": "C78",
   "status": "proved",
   "theorems": [
    "C78_warnings",
    "C78_screen",
    "C78_one_message",
    "C78_fault_one_line",
    "C78_nullables",
    "C78_cycle",
    "C78_metadata_lines",
    "C78_domain_diagnostics",
    "C78_problem_diagnostics"
   ],
   "note": "The text of a syntax error ends with a line break of its own, so only semantic messages are stated to be one line."
  },
  {
   "property": "C79",
   "status": "proved",
   "theorems": [
    "C79_grammar",
    "C79_unambiguous",
    "C79_any_order",
    "C79_documented",
    "C79_any_path",
    "C79_help",
    "C79_status",
    "C79_reads",
    "C79_writes",
    "C79_ignored",
    "C79_dash_refuted",
    "C79_missing_problem_refuted"
   ],
   "note": "clap 4.5 is modelled from its documentation (Args.v); texts of usage errors and help are not modelled. `_refuted`: an option takes any next argument; metadata notices a missing problem."
  },
  {
   "property": "C80",
   "status": "proved",
   "theorems": [
    "C80_delivered",
    "C80_class",
    "C80_tame",
    "C80_warnings",
    "C80_reordered"
   ],
   "note": "Structure is specified in SpecSame.v. That the condition on nullables is needed is shown by C28_warnings_differ_refuted."
  },
  {
   "property": "C81",
   "status": "proved",
   "theorems": [
    "C81_literals",
    "C81_nearest",
    "C81_round_trip",
    "C81_infinite",
    "C81_same_text",
    "C81_fifteen",
    "C81_shortest",
    "C81_exponent",
    "C81_assumptions",
    "C81_all_digits_kept_refuted"
   ],
   "note": "f64 parsing and printing belong to std and serde_json; Real64.v models them after their documentation (nearest double, ties to even; shortest decimal, closest if several, in ryu's layout), and SpecReal.v states nearest, decimal texts and their values independently. C81_assumptions discharges what C33, C44 and C57 assume about these texts."
  },
  {
   "property": "C82",
   "status": "proved",
   "theorems": [
    "C82_steps",
    "C82_problem_steps",
    "C82_size",
    "C82_bounded_iff"
   ],
   "note": "C82_steps, C82_problem_steps and C82_size give the bounds, C82_bounded_iff the converse; C82_example reaches both bounds (two abstract tasks, two subtasks per method: 7 steps, 4 actions). Preconditions and orderings only remove executions."
  },
  {
   "property": "C83",
   "status": "proved",
   "theorems": [
    "C83_quadratic",
    "C83_reals",
    "C83_export",
    "C83_deep",
    "C83_linear_refuted"
   ],
   "note": "C83_quadratic for any way of writing reals that adds at most 64 bytes, C83_export for the doubles of Real64.v (C83_reals), C83_deep and C83_linear_refuted against a proportional bound. The pretty printer of serde_json is modelled in Json.v."
  },
  {
   "property": "C84",
   "status": "proved",
   "theorems": [
    "C84_expected",
    "C84_lexical_line",
    "C84_syntax_line",
    "C84_one_line"
   ],
   "note": "C84_expected, C84_lexical_line, C84_syntax_line; C84_one_line for verify, together with C78_fault_one_line."
  },
  {
   "property": "C85",
   "status": "proved",
   "theorems": [
    "C85_document",
    "C85_calls",
    "C85_formula",
    "C85_depth",
    "C85_unnamed_refuted"
   ],
   "note": "C85_document, C85_formula (implications included), C85_depth, C85_calls; C85_unnamed_refuted for lone question marks. The number of bytes copied while making the text is not modelled."
  },
  {
   "property": "C86",
   "status": "proved",
   "theorems": [
    "C86_folded",
    "C86_executions",
    "C86_goal_refuted",
    "C86_hidden_refuted"
   ],
   "note": "C86_folded, C86_executions; C86_goal_refuted (a quantified goal is not checked, the same precondition is) and C86_hidden_refuted (an object hides a parameter of the initial task network, a constant does not) show why the conditions are needed. The names added must be new, and lines are kept as they are."
  },
  {
   "property": "C87",
   "status": "proved",
   "theorems": [
    "C87_accepted",
    "C87_problems",
    "C87_executions",
    "C87_ordered",
    "C87_metadata",
    "C87_types_refuted"
   ],
   "note": "C87_accepted, C87_problems, C87_executions, C87_ordered, C87_metadata; C87_types_refuted shows that the types of the choices matter. Preconditions may contain quantifiers; executions do not look at preconditions of methods (SpecExec.v)."
  },
  {
   "property": "C88",
   "status": "proved",
   "theorems": [
    "C88_accepted",
    "C88_problems",
    "C88_executions",
    "C88_tasks",
    "C88_recursion",
    "C88_warnings",
    "C88_narrower_refuted"
   ],
   "note": "C88_accepted, C88_problems, C88_executions, C88_tasks, C88_recursion, C88_warnings; C88_narrower_refuted for arguments that fit the task but not the method. Executions are those of SpecExec.reachable, in which the order of subtasks is free."
  }
 ]
}
