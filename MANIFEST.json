{"claims": [
 {"property": "C01", "status": "proved", "theorems": ["C01_constructor_validation"], "note": ""},
 {"property": "C02", "status": "proved", "theorems": ["C02_symbol_partition"], "note": ""},
 {"property": "C03", "status": "proved", "theorems": ["C03_production_lookup"], "note": ""},
 {"property": "C04", "status": "proved", "theorems": ["C04_first_follow_terminates"], "note": ""},
 {"property": "C05", "status": "proved", "theorems": ["C05_first_exact"], "note": ""},
 {"property": "C06", "status": "proved", "theorems": ["C06_first_follow_hygiene"], "note": ""},
 {"property": "C07", "status": "proved", "theorems": ["C07_follow_sound"], "note": ""},
 {"property": "C08", "status": "partial", "theorems": ["C08_follow_complete_partial", "C08_nullable_complete_partial", "C08_full_statement_refuted"], "note": "The full statement is false of the code (B B in a production); proved exactly when FIRST(B) is in FOLLOW(B) at each such B B, and for the symbols that derive the empty word (the only ones whose FOLLOW the parser uses) exactly when repeats_harmless holds."},
 {"property": "C09", "status": "proved", "theorems": ["C09_first_follow_order_independent", "C09_table_order_independent", "C09_parse_order_independent"], "note": ""},
 {"property": "C10", "status": "proved", "theorems": ["C10_construction_total"], "note": ""},
 {"property": "C11", "status": "proved", "theorems": ["C11_table_contents"], "note": ""},
 {"property": "C12", "status": "partial", "theorems": ["C12_table_covers_textbook_partial", "C12_covers_exactly_when_partial", "C12_full_statement_refuted"], "note": "Full statement false because of C08; proved when repeated neighbours are harmless (repeats_harmless). C12_covers_exactly_when_partial gives the exact condition."},
 {"property": "C13", "status": "partial", "theorems": ["C13_table_within_textbook_partial", "C13_full_statement_refuted"], "note": "Full statement false: the source's alternative algorithm uses FOLLOW of the first output symbol; the exact excess is characterised."},
 {"property": "C14", "status": "proved", "theorems": ["C14_parse_trees_valid"], "note": ""},
 {"property": "C15", "status": "proved", "theorems": ["C15_accepted_in_language"], "note": ""},
 {"property": "C16", "status": "partial", "theorems": ["C16_whole_input_partial", "C16_full_statement_refuted", "C16_up_to_the_marker_partial"], "note": "Full statement false (prefixes are accepted); proved under the end-of-input discipline. C16_up_to_the_marker_partial: when something follows the end marker, the tree is for the tokens up to it."},
 {"property": "C17", "status": "partial", "theorems": ["C17_no_panic_partial", "C17_full_statement_refuted", "C17_end_marker_anywhere_partial"], "note": "Full statement false (reading past the end of truncated input); proved: apart from panics of the user's solver it is the only panic, and none under the end-of-input discipline. C17_end_marker_anywhere_partial: it is enough that the end marker occurs somewhere in the input and that the solver does not skip it."},
 {"property": "C18", "status": "proved", "theorems": ["C18_empty_input_panics"], "note": ""},
 {"property": "C19", "status": "proved", "theorems": ["C19_parsing_terminates"], "note": ""},
 {"property": "C20", "status": "proved", "theorems": ["C20_left_recursion_diverges", "C20_indirect_left_recursion_diverges"], "note": ""},
 {"property": "C21", "status": "partial", "theorems": ["C21_finitely_stalling_solvers_partial", "C21_progressing_solvers_included", "C21_full_statement_refuted"], "note": "Full statement false; proved for solvers that cannot answer infinitely often without advancing on the input."},
 {"property": "C22", "status": "partial", "theorems": ["C22_ll1_accepted_partial", "C22_full_statement_refuted", "C22_in_order_partial", "C22_in_order_covers"], "note": "Full statement false; proved for LL(1) grammars whose cells stay conflict-free in the library's own table and whose repeated neighbours are harmless (repeats_harmless). C22_in_order_partial: any solver, conflicts allowed, for every LL(1) grammar in whose table no candidate that vanishes at the lookahead stands before the textbook production of the cell; this covers conflict-free tables and nullable alternatives declared last (C69). C89 and C100 repair the other LL(1) grammars. C103 characterises exactly the LL(1) grammars (all symbols productive) whose sentences are all parsed to their tree."},
 {"property": "C23", "status": "proved", "theorems": ["C23_conflict_free_exact", "C23_sentences_accepted_and_unambiguous"], "note": ""},
 {"property": "C24", "status": "proved", "theorems": ["C24_ordered_choice"], "note": ""},
 {"property": "C25", "status": "partial", "theorems": ["C25_sentences_accepted_partial", "C25_prefix_free_partial", "C25_full_statement_refuted"], "note": "Full statement false: choices inside an already parsed sibling are final; proved when productions of symbols with a right sibling have determined extents (e.g. prefix-free) and repeated neighbours are harmless."},
 {"property": "C26", "status": "proved", "theorems": ["C26_error_reports"], "note": ""},
 {"property": "C27", "status": "partial", "theorems": ["C27_reports_partial", "C27_full_statement_refuted"], "note": "Full statement false (parsed_symbols may hold the siblings of an abandoned attempt)."},
 {"property": "C28", "status": "proved", "theorems": ["C28_lexemes_irrelevant", "C28_supplied_sets"], "note": ""},
 {"property": "C29", "status": "proved", "theorems": ["C29_fix_needs_answer"], "note": ""},
 {"property": "C30", "status": "proved", "theorems": ["C30_declining_solver"], "note": ""},
 {"property": "C31", "status": "partial", "theorems": ["C31_last_resort_partial", "C31_full_statement_refuted"], "note": "Full statement false: the solver preempts sibling backtracking. C99 gives classes of grammars on which no solver changes an accepted input."},
 {"property": "C32", "status": "partial", "theorems": ["C32_ok_agrees_partial", "C32_full_statement_refuted"], "note": "Full statement false; proved for conflict-free tables and for solvers that declined. C99 gives classes of grammars on which no solver changes an accepted input."},
 {"property": "C33", "status": "proved", "theorems": ["C33_solver_arguments", "C33_arguments_in_every_run"], "note": ""},
 {"property": "C34", "status": "partial", "theorems": ["C34_solver_contract_partial", "C34_full_statement_refuted", "C34_single_candidate_refuted", "C34_contract_in_every_run_partial"], "note": "The documented contract is not kept; the exact contract is proved."},
 {"property": "C35", "status": "proved", "theorems": ["C35_fix_reports"], "note": ""},
 {"property": "C36", "status": "proved", "theorems": ["C36_initial_without_productions"], "note": ""},
 {"property": "C37", "status": "proved", "theorems": ["C37_epsilon_tokens_never_consumed"], "note": ""},
 {"property": "C38", "status": "partial", "theorems": ["C38_trailing_tokens_partial", "C38_full_statement_refuted", "C38_in_order_partial", "C38_end_marker_partial"], "note": "Full statement false with several candidates; proved for conflict-free tables. C38_in_order_partial: for LL(1) grammars whose cells are in order (as in C22_in_order_partial), whatever the conflicts and the solver. C38_end_marker_partial: for every grammar with an end marker and every table, without a solver."},
 {"property": "C39", "status": "proved", "theorems": ["C39_token_equality"], "note": ""},
 {"property": "C40", "status": "proved", "theorems": ["C40_decision_procedure"], "note": ""},
 {"property": "C41", "status": "proved", "theorems": ["C41_user_first_follow"], "note": ""},
 {"property": "C42", "status": "proved", "theorems": ["C42_rejections_justified"], "note": ""},
 {"property": "C43", "status": "proved", "theorems": ["C43_backtracking_decision_procedure"], "note": ""},
 {"property": "C44", "status": "proved", "theorems": ["C44_solver_sees_only_contract_calls"], "note": ""},
 {"property": "C45", "status": "proved", "theorems": ["C45_solver_is_last_resort_under_choice"], "note": ""},
 {"property": "C46", "status": "proved", "theorems": ["C46_err_was_refused"], "note": ""},
 {"property": "C47", "status": "partial", "theorems": ["C47_refused_fixes_escalate_partial", "C47_full_statement_refuted"], "note": "Full statement false: a sibling may be tried again after the refusal. Proved for conflict-free tables, precisely: the next call with reports is fix_failed_production for the production whose symbol failed with the refused reports; only the call for the initial symbol may be the last, and Err then carries its reports."},
 {"property": "C48", "status": "proved", "theorems": ["C48_out_of_range_is_truncated"], "note": ""},
 {"property": "C49", "status": "proved", "theorems": ["C49_first_offending_token"], "note": ""},
 {"property": "C50", "status": "proved", "theorems": ["C50_renaming"], "note": ""},
 {"property": "C51", "status": "proved", "theorems": ["C51_interleaving_irrelevant"], "note": ""},
 {"property": "C52", "status": "proved", "theorems": ["C52_follow_exact"], "note": ""},
 {"property": "C53", "status": "proved", "theorems": ["C53_more_productions_more_candidates"], "note": ""},
 {"property": "C54", "status": "proved", "theorems": ["C54_repeats_irrelevant"], "note": "the error report may differ (it lists each failed candidate)"},
 {"property": "C55", "status": "proved", "theorems": ["C55_recursion_depth", "C55_depth_sound", "C55_bound_attained"], "note": "depth-bounded parser in DepthSpec.v"},
 {"property": "C56", "status": "proved", "theorems": ["C56_linear_work", "C56_work_of_a_tree", "C56_within_sound", "C56_backtracking_exponential", "C56_at_most_exponential"], "note": "call-budgeted parser in WorkSpec.v"},
 {"property": "C57", "status": "proved", "theorems": ["C57_conflict_free_not_left_recursive", "C57_conflict_free_terminates", "C57_ll1_terminates", "C57_end_marker_needed", "C57_productivity_needed"], "note": ""},
 {"property": "C58", "status": "proved", "theorems": ["C58_divergence_exact", "C58_forever_diverges"], "note": "vocabulary in ForeverSpec.v and LoopSpec.v"},
 {"property": "C59", "status": "proved", "theorems": ["C59_exact_semantics"], "note": "semantics in RecoverSpec.v"},
 {"property": "C60", "status": "proved", "theorems": ["C60_panics_exact"], "note": "vocabulary in StopSpec.v"},
 {"property": "C61", "status": "proved", "theorems": ["C61_divergence_exact"], "note": "vocabulary in StopSpec.v; the choice between the two reasons is stated per depth, so that no classical axiom is needed"},
 {"property": "C62", "status": "proved", "theorems": ["C62_supplied_sets_accepted_iff_sufficient"], "note": "vocabulary in SuppliedSpec.v"},
 {"property": "C63", "status": "proved", "theorems": ["C63_textbook_rules_adequate", "C63_adequate_sets_exact", "C63_adequate_sets_decide"], "note": "vocabulary in SuppliedSpec.v; the case is a grammar whose computed FOLLOW sets are too small"},
 {"property": "C64", "status": "proved", "theorems": ["C64_larger_sets_more_candidates", "C64_same_sets_same_results", "C64_computed_sets_same_results", "C64_larger_sets_keep_trees"], "note": "vocabulary in SuppliedSpec.v"},
 {"property": "C65", "status": "proved", "theorems": ["C65_growing_grammar_keeps_trees", "C65_conflicts_can_lose_sentences"], "note": ""},
 {"property": "C66", "status": "proved", "theorems": ["C66_iterator_read_first"], "note": "model in Session.v, vocabulary in SessionSpec.v"},
 {"property": "C67", "status": "proved", "theorems": ["C67_sessions", "C67_stateless_sessions", "C67_sessions_sound"], "note": "model in Session.v, vocabulary in SessionSpec.v"},
 {"property": "C68", "status": "proved", "theorems": ["C68_lawful_equality_has_keys", "C68_construction_sees_keys", "C68_parsing_sees_keys", "C68_equal_symbols_interchangeable", "C68_trees_valid_up_to_equality"], "note": "The model takes any boolean equality; the simulation relates it to the model on keys, where equality is identity."},
 {"property": "C69", "status": "proved", "theorems": ["C69_nullable_last_exact", "C69_ll1_sentences_accepted", "C69_decides"], "note": "nullable_last in LastSpec.v C103 characterises exactly the LL(1) grammars (all symbols productive) whose sentences are all parsed to their tree."},
 {"property": "C70", "status": "partial", "theorems": ["C70_conflict_free_certifies_partial", "C70_full_statement_refuted"], "note": "Full statement false: S -> B B $, B -> b | epsilon is ambiguous but its table has no conflict (FOLLOW bug of C08). Proved when repeated neighbours are harmless; then even at most one prefix of the input is a sentence."},
 {"property": "C71", "status": "proved", "theorems": ["C71_tree_linear"], "note": ""},
 {"property": "C72", "status": "proved", "theorems": ["C72_report_size", "C72_conflict_free_linear", "C72_report_exponential"], "note": ""},
 {"property": "C73", "status": "partial", "theorems": ["C73_apart_productions_irrelevant", "C73_unreachable_productions_partial", "C73_unreachable_ll1_partial", "C73_full_statement_refuted", "C73_unreachable_productions_matter"], "note": "The full statement is refuted: an unreachable production puts terminals into FOLLOW sets of reachable symbols, which can lose a sentence or accept a new input. Proved: added productions that mention no non-terminal of the grammar change nothing at all; and with a conflict-free table, harmless repeats and an end marker both parsers accept the same inputs with the same trees; the same, whatever conflicts the tables have and whatever the solvers, if the reachable part (nothing is asked of the rest but that no production is repeated) is LL(1) with nullable alternatives last, harmless repeats, no left recursion and an end marker."},
 {"property": "C74", "status": "proved", "theorems": ["C74_initial_symbol_only_starts", "C74_sets_can_be_shared"], "note": "In particular no end-of-input symbol is ever added to the FOLLOW set of the initial symbol."},
 {"property": "C75", "status": "partial", "theorems": ["C75_parts_accepted", "C75_parts_are_parses_partial", "C75_full_statement_refuted", "C75_in_order_partial"], "note": "The full statement is refuted (1 -> 2 5; 2 -> 3 | 3 4 on 3 4 5: the parser for 2 stops at the shorter alternative). Proved: for every table without solver the parser for the symbol accepts the tokens from there on (some tree); with at most one candidate per cell it returns exactly the subtree, whatever the solvers. C75_in_order_partial: the same for LL(1) grammars whose cells are in order (as in C22_in_order_partial), whatever the conflicts and the solvers."},
 {"property": "C76", "status": "proved", "theorems": ["C76_one_token_of_lookahead", "C76_conflicts_look_further", "C76_in_order"], "note": "The second theorem shows by an example that tables with conflicts look further ahead. C76_in_order: the same for LL(1) grammars whose cells are in order (as in C22_in_order_partial), whatever the conflicts and the solver."},
 {"property": "C77", "status": "proved", "theorems": ["C77_replace_a_part", "C77_reparse_a_part", "C77_in_order"], "note": "The replaced part may be any node of the tree, epsilon leaves and tokens included. C77_in_order: the same for LL(1) grammars whose cells are in order (as in C22_in_order_partial), whatever the conflicts and the solver."},
 {"property": "C78", "status": "partial", "theorems": ["C78_earliest_tree_partial", "C78_strict_order", "C78_full_statement_refuted"], "note": "Proved where the place at which a production starts determines where it ends (for example prefix-free productions): the returned tree is first among all trees the table guides to, and with harmless repeated neighbours and initial productions ending in a terminal among all parse trees of prefixes of the input. Without that condition it is false (refuted): S -> X c $ | a b c $, X -> Y, Y -> a | a b on a b c $ gives the second alternative of S though the first has a tree."},
 {"property": "C79", "status": "proved", "theorems": ["C79_construction_on_machines", "C79_parsing_on_machines"], "note": "Machine.v is a second, statement by statement model of the functions with vectors, index loops and usize arithmetic; the theorems say that it refines to the model the other theorems are about."},
 {"property": "C80", "status": "proved", "theorems": ["C80_as_if_alone", "C80_no_influence", "C80_all_end", "C80_no_solver"], "note": "Resume.v is the parser as a computation that stops at every solver call; run_parse (ResumeFacts.v) proves it equal to Parser.v. Interleavings are at the granularity of solver calls: everything else a parse does touches only its own data and the immutable parser."},
 {"property": "C81", "status": "proved", "theorems": ["C81_rounds", "C81_sizes"], "note": "C81_case: a grammar with 4 non-terminals whose FIRST loop needs 7 rounds, so N+1 would be wrong. Nullable non-terminals settle within N rounds, then each terminal spreads within N more, all terminals at the same time."},
 {"property": "C82", "status": "proved", "theorems": ["C82_accepts_sentences", "C82_language_decides", "C82_same_verdict"], "note": "C82_case: two grammars for a* $ with different non-terminals, shape and initial symbol, proved to have the same language."},
 {"property": "C83", "status": "proved", "theorems": ["C83_fixes_account_for_tokens", "C83_whole_input_accounted_for", "C83_fixes_conform"], "note": "C83_case: a solver that records the skipped token in a gap. C83_case_conforming: a solver that keeps `+` and puts the next token into a gap for the rest of the production; it meets both disciplines."},
 {"property": "C84", "status": "proved", "theorems": ["C84_asked_at_most_once_per_call", "C84_one_call_each", "C84_at_most_exponential", "C84_conflict_free_calls", "C84_answering_can_be_exponential"], "note": "C84_case: a declining solver is asked five times on four tokens. The exponential family is X -> Y X | d, Y -> a X b on a^k d with a solver that skips one token. C84_exponential_case: that family with k = 2, 12 recursive calls. Counting parser in CountSpec.v."},
 {"property": "C85", "status": "proved", "theorems": ["C85_useless_productions", "C85_conflicts_let_useless_productions_matter"], "note": "C85_case: the expression grammar with an unreachable and a symbol that derives no token string. Conflicts: see the second theorem."},
 {"property": "C86", "status": "proved", "theorems": ["C86_asked_about_the_first_offending_token"], "note": "About parses that return. Calls without reports are for symbols without candidates or for siblings tried again (C47)."},
 {"property": "C87", "status": "proved", "theorems": ["C87_depth_of_returning_parses", "C87_depth_with_stateless_solver", "C87_remembering_solver_nests_deeper"], "note": "C55 gives (non-terminals) * (tokens) for grammars without left recursion and any advancing solver."},
 {"property": "C88", "status": "proved", "theorems": ["C88_same_language", "C88_split_exact", "C88_split_decides"], "note": "C70 characterises the grammars where repeated neighbours do no harm; this one removes them. Without the rewriting the same statement is refuted (C08, C22)."},
 {"property": "C89", "status": "proved", "theorems": ["C89_any_ll1_grammar"], "note": "Without the rewritings refuted (C22). C100 does the same for LL(1) grammars that are not reduced or have no end marker, and with a solver."},
 {"property": "C90", "status": "proved", "theorems": ["C90_hanging_decided", "C90_hanging_cut_off", "C90_ends_or_hangs", "C90_rounds_of_a_production", "C90_remembering_solver_undecided"], "note": "The fuel of the model bounds the nesting of calls and the rounds of each loop together (a call nested k deep has k less fuel for its loops); `enough` is the sum of the two bounds. C87 is the bound on the nesting alone."},
 {"property": "C91", "status": "proved", "theorems": ["C91_ll1_linear_work", "C91_twice_exponential"], "note": "Complements C56: C56_linear_work needs a table without conflicts; C56_backtracking_exponential is a grammar that is not LL(1). The budgeted parse is that of C56 (parse_within), whose results are those of the parse (C56_within_sound)."},
 {"property": "C92", "status": "proved", "theorems": ["C92_reports_name_expected_symbols", "C92_calls_name_expected_symbols", "C92_calls_in_every_run"], "note": "C26, C33 and C34 describe reports and calls relative to the table; C49 and C86 locate the error exactly for tables without conflicts. C92 needs no condition on the table."},
 {"property": "C93", "status": "proved", "theorems": ["C93_table_is_textbook", "C93_conflict_free_exactly_ll1", "C93_epsilon_free_exact", "C93_simple_grammars"], "note": "For this class the refuted full statements of C12, C13, C22 and C70 hold; the FOLLOW bug of C08 does not matter because FOLLOW sets are not used."},
 {"property": "C94", "status": "proved", "theorems": ["C94_cut_short_panics", "C94_every_outcome"], "note": "Adds to C23 (Ok) and C48 (a panic means cut short) the converse of C48, so that Err is exact too. C93 is the variant without end marker for grammars without epsilon productions. C103_every_outcome: the same for LL(1) grammars with conflicts in their tables, exactly those that satisfy C103's conditions."},
 {"property": "C95", "status": "proved", "theorems": ["C95_every_outcome", "C95_first_offending_token", "C95_ll1_sentences_accepted"], "note": "The counterparts of C94, C49 and C69 for supplied sets. The workaround for the FOLLOW bug (C08, C70) that does not change the grammar."},
 {"property": "C96", "status": "proved", "theorems": ["C96_first_choices_returned", "C96_at_most_one", "C96_one_call_per_node", "C96_one_token_of_lookahead", "C96_conflict_free_exactly"], "note": "What the declaration order settles in an ambiguous grammar. C96_case is the dangling else, C96_unfactored the variant that no such tree exists for. Extends C38 and C76 to tables with conflicts."},
 {"property": "C97", "status": "proved", "theorems": ["C97_candidates_at_every_node", "C97_whole_inputs_end_in_tokens", "C97_other_trees_returned", "C97_sentences_that_panic", "C97_when_trees_end_in_tokens"], "note": "Says what the end marker of C22 and C23 is for. C23 and C93 are the special cases of C97_other_trees_returned given by C97_when_trees_end_in_tokens."},
 {"property": "C98", "status": "proved", "theorems": ["C98_nothing_after_the_offending_token", "C98_no_panic_after_an_offending_token", "C98_one_report_per_offending_token"], "note": "The viable prefix property of LL parsing, for the whole outcome and with backtracking. C92 says it of the symbols a report names, C49 of conflict-free tables, C76 and C96 of returned trees."},
 {"property": "C99", "status": "proved", "theorems": ["C99_settled_not_asked", "C99_fixed_extents_not_asked", "C99_prefix_free_any_solver", "C99_nullable_last_any_solver", "C99_unasked_solver_irrelevant", "C99_in_order_any_solver"], "note": "The positive counterpart of C31/C32, where a solver pre-empts backtracking and changes accepted inputs. C99_nullable_last_any_solver removes C69's restriction to parsers without a solver. C99_in_order_any_solver asks only for the order within the cells (nothing_vanishes_early)."},
 {"property": "C100", "status": "proved", "theorems": ["C100_useful_productions_computed", "C100_end_marker_added", "C100_every_ll1_grammar", "C100_solver_not_asked"], "note": "Removes C89's conditions (reduced, end marker of its own, no solver). C100_case needs all four steps."},
 {"property": "C101", "status": "proved", "theorems": ["C101_assembled_parser", "C101_no_part_starts"], "note": "Equality of whole outcomes (result, solver calls, panics, fuel), one step later. C101_case assembles the expression grammar with a left-recursive one."},
 {"property": "C102", "status": "proved", "theorems": ["C102_nothing_after_the_end_marker", "C102_cut_at_the_end_marker"], "note": "Whole outcomes, for every table and whatever conflicts, without a solver (a solver is handed the whole token list and can look where it likes). C16_up_to_the_marker_partial says with any solver that an Ok tree is for the tokens up to the first marker. C102_case: a table with a conflict."},
 {"property": "C103", "status": "proved", "theorems": ["C103_exactly_when", "C103_whatever_follows", "C103_computed_sets", "C103_decides", "C103_every_outcome", "C103_in_order"], "note": "Closes the gap that C13, C22 and C69 leave: there the full statement is refuted by a grammar whose vanishing candidate comes first inside another symbol; here the grammars where that matters are characterised, and C22's and C69's conditions follow as special cases (C103_in_order). C103_case: a table where a vanishing candidate stands first and nothing is lost (so C22_in_order does not apply); C103_lost_case: the grammar that refutes C22 violates exactly condition (2). C103_every_outcome extends C94_every_outcome (tables without conflicts) to all LL(1) grammars that are parsed exactly, and shows that only those behave so."},
 {"property": "C104", "status": "proved", "theorems": ["C104_ll1_is_computed", "C104_exactness_is_computed", "C104_positive_answers_suffice"], "note": "Turns the conditions of C103 (and ll1 itself) into boolean functions of what the crate computes, so a user can check them. C104_case evaluates them on three grammars: both yes; LL(1) but not exact (the grammar that refutes C22); and not LL(1)."},
 {"property": "C105", "status": "proved", "theorems": ["C105_reports_reach_the_offending_token", "C105_supplied_sets", "C105_refusing_solver", "C105_full_statement_refuted"], "note": "Counterpart of C49 for tables with conflicts. C105_full_statement_refuted: prefix-free symbols cannot be replaced by LL(1) with nullable alternatives last. C105_case: [a a $] for S -> A $, A -> a b | a c, where both alternatives are reported at position 1."},
 {"property": "C106", "status": "proved", "theorems": ["C106_agrees", "C106_single_candidates", "C106_decides", "C106_one_result", "C106_local", "C106_full_statement_refuted"], "note": "C106_one_result, C106_agrees and C106_single_candidates hold for supplied sets too. peg (PegSpec.v) has no backtracking into siblings; C106_full_statement_refuted shows the parser has. C106_case: prefix-free symbols with conflicts and a solver; C106_single_case: no conflicts."},
 {"property": "C107", "status": "proved", "theorems": ["C107_decides", "C107_any_solver", "C107_supplied_sets", "C107_covers_ll1", "C107_not_left_recursive", "C107_conditions_are_computed", "C107_checked", "C107_without_order_refuted", "C107_can_be_slow"], "note": "FactorSpec.v: ll1_once_factored, longer_first, and their computation. C107_case: statements I -> id = X | id ( X ) | id, all alternatives in one cell, and a list of statements."},
 {"property": "C108", "status": "proved", "theorems": ["C108_decides", "C108_any_solver", "C108_supplied_sets", "C108_not_left_recursive", "C108_ll_k", "C108_ll_k_decides", "C108_checked", "C108_unambiguous", "C108_ll_k_unambiguous", "C108_covers_factored", "C108_more_lookahead", "C108_ll1_is_ll_1", "C108_not_necessary", "C108_without_order_refuted"], "note": "FitSpec.v: never_fits_early, ll_k, short_later, and a check from given beginnings. C108_case: assignments and calls, LL(2), in one cell, not LL(1) once factored."}
]}
