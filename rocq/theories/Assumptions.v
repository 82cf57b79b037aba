(** What the property theorems rest on: printed here for all of them at once,
    because that is much quicker than file by file. *)
From Verif Require
  PropsAlpha PropsArgs PropsBlame PropsBound PropsCalls PropsChain PropsConc PropsCursor PropsExec PropsExpect
  PropsExport PropsExt PropsFirst PropsFold PropsFormula PropsGrow PropsHddl PropsInst PropsUnfold PropsIo PropsJson PropsLex PropsLexErr PropsMeaning PropsMove
  PropsMoved PropsOrder PropsParse PropsPart PropsPlan PropsQuote PropsReal PropsReport PropsSame PropsSem PropsServe
  PropsShape PropsShow PropsSim PropsStack PropsTdg PropsText PropsTime PropsTypes PropsUnused PropsUtf8 PropsWording.

Definition all_theorems :=
  (@PropsAlpha.alpha_theorems, @PropsArgs.C79_assumptions, @PropsBlame.blame_theorems,
   @PropsBound.bound_theorems, @PropsCalls.calls_theorems, @PropsChain.all_C71, @PropsConc.conc_theorems,
   @PropsCursor.cursor_theorems, @PropsExec.exec_theorems, @PropsExpect.C59_names_everything_refuted,
   @PropsExpect.expect_theorems, @PropsExport.export_theorems, @PropsExt.ext_theorems,
   @PropsFirst.first_theorems, @PropsFold.fold_theorems, @PropsFormula.formula_theorems, @PropsFormula.C85_unnamed_refuted, @PropsGrow.all_C66, @PropsInst.inst_theorems, @PropsUnfold.unfold_theorems, @PropsHddl.standard_theorems, @PropsHddl.standard_refuted,
   @PropsIo.io_theorems, @PropsJson.json_theorems, @PropsLex.C01_lines_true, @PropsLex.C02_peek_changes_nothing,
   @PropsLex.C02_peek_shows_next, @PropsLex.C02_peek_differs_refuted, @PropsLex.C03_gap_in_front,
   @PropsLex.C03_insert_gap, @PropsLex.C03_comment_after_word_refuted, @PropsLex.C04_progress,
   @PropsLex.C04_finite, @PropsLex.C04_truncated_word, @PropsLex.C05_ascii_no_crash,
   @PropsLex.C05_open_comment_crashes, @PropsLex.C05_boundary_refuted, @PropsLex.C06_round_trip,
   @PropsLex.C06_every_sequence, @PropsLex.C07_content, @PropsLex.C07_integers,
   @PropsLex.C07_invalid_real_unreachable, @PropsLex.C07_ascii_identifiers,
   @PropsLex.C07_variable_bytes_refuted, @PropsLex.C35_question_mark_token,
   @PropsLex.C35_question_mark_document, @PropsLexErr.lexical_error_theorems, @PropsMeaning.meaning_theorems,
   @PropsMove.move_theorems, @PropsMoved.moved_theorems, @PropsOrder.order_theorems,
   @PropsParse.C03_parse_layout, @PropsParse.C03_any_layout, @PropsParse.C35_question_mark_parse,
   @PropsParse.C08_terminates, @PropsParse.C08_fuel_irrelevant, @PropsParse.C08_truncated_refuted,
   @PropsParse.C09_only_stray_token_panics, @PropsParse.C09_stray_token_panics_refuted,
   @PropsParse.C09_domain_never_panics, @PropsParse.C09_outcomes, @PropsParse.C10_parser_is_grammar,
   @PropsParse.C10_unambiguous, @PropsParse.C10_rejects, @PropsParse.C11_print_parse,
   @PropsParse.C11_parse_print_parse, @PropsParse.C11_image, @PropsParse.C12_domain_invariants,
   @PropsParse.C12_problem_invariants, @PropsParse.C12_imply_rejected_refuted, @PropsParse.C13_tree_lines,
   @PropsParse.C13_error_lines, @PropsParse.C14_domain_tail_ignored, @PropsParse.C14_problem_tail_ignored,
   @PropsParse.C14_after_goal_ignored, @PropsParse.C14_init_after_goal_refuted,
   @PropsParse.C38_open_method_ends_domain_refuted, @PropsParse.C38_actions_lost_refuted,
   @PropsParse.C38_closed_blocks_kept, @PropsPart.part_theorems, @PropsPlan.plan_theorems,
   @PropsQuote.C84_assumptions, @PropsReal.C81_all, @PropsReport.C78_assumptions, @PropsSame.same_theorems,
   @PropsSem.sem_theorems, @PropsServe.serve_theorems, @PropsShape.all_C67, @PropsShow.show_theorems,
   @PropsSim.sim_theorems, @PropsSim.C43_metadata_ids_refuted, @PropsStack.stack_theorems,
   @PropsTdg.tdg_theorems, @PropsText.text_theorems, @PropsTime.time_theorems, @PropsTypes.types_theorems,
   @PropsUnused.unused_theorems, @PropsUtf8.utf8_theorems, @PropsWording.wording_theorems,
   @PropsSem.C15_not_covered_refuted, @PropsSem.C18_unchecked_types_refuted,
   @PropsSem.C21_exists_crashes_refuted, @PropsSem.C22_quantified_goal_refuted, @PropsTdg.C23_converse_refuted,
   @PropsTdg.C23_same_name_refuted, @PropsTdg.C24_unsound_refuted, @PropsTdg.C28_warnings_differ_refuted,
   @PropsSem.C30_problem_error_undisplayable_refuted, @PropsIo.C31_every_error_reported_refuted,
   @PropsIo.C31_problem_lines_refuted, @PropsIo.C31_unclassified_refuted, @PropsIo.C31_listing_order_refuted,
   @PropsIo.C32_last_change_refuted, @PropsIo.C32_unsaved_domain_refuted, @PropsIo.C33_real_spelling_refuted,
   @PropsIo.C34_status_uninformative_refuted, @PropsSem.C37_repeated_constant_refuted,
   @PropsTdg.C39_empty_recursion_refuted, @PropsOrder.C40_accepted_has_metadata_refuted,
   @PropsIo.C41_export_is_no_verification_refuted, @PropsText.C47_task_arity_line_refuted,
   @PropsMeaning.C58_partial_order_refuted, @PropsTypes.C69_other_way_refuted, @PropsTypes.C69_no_top_refuted,
   @PropsTypes.C69_sound_needed_refuted).
Print Assumptions all_theorems.
