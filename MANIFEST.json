{"claims": [
{"property": "C01", "status": "proved", "theorems": ["C01_output_is_a_layout", "C01_output_is_a_layout_in_context", "C01_loops_terminate"], "note": "the printed text and the observer calls are those of a layout of the document; both loops are total"},
{"property": "C02", "status": "proved", "theorems": ["C02_fitting_group_is_one_line"], "note": ""},
{"property": "C03", "status": "proved", "theorems": ["C03_flat_group_respects_limit", "C03_group_is_flat_iff_it_fits", "C03_flex_break_is_flat_iff_rest_fits", "C03_limit_with_next_break_fits_refuted"], "note": "the exact criterion is proved for all documents; with an enabled next-break-fits the limit can be exceeded (refuted with a witness)"},
{"property": "C04", "status": "proved", "theorems": ["C04_forced_group_is_broken", "C04_forced_break_after_hard_line_refuted"], "note": "behind a hard line the code flattens a forced break (refuted with a witness)"},
{"property": "C05", "status": "partial", "theorems": ["C05_constant_widths_refuted", "C05_constant_widths_partial"], "note": "false of the code: five constants declare a wrong width; all the others are proved right"},
{"property": "C06", "status": "proved", "theorems": ["C06_append_is_concatenation", "C06_concat_is_concatenation", "C06_join_puts_separators_between", "C06_surround_is_concatenation", "C06_empty_is_unit", "C06_group_keeps_the_text", "C06_group_is_Group", "C06_is_empty_prints_nothing", "C06_is_empty_refuted"], "note": "for documents with breaks the emptiness test is wrong (refuted with a witness)"},
{"property": "C07", "status": "proved", "theorems": ["C07_line_number_counts_newlines", "C07_column_is_distance_from_last_newline", "C07_every_offset_covered"], "note": ""},
{"property": "C08", "status": "proved", "theorems": ["C08_offset_to_position", "C08_position_to_offset", "C08_round_trip", "C08_range_round_trip", "C08_conversions_terminate", "C08_line_past_the_end_is_end_of_file"], "note": ""},
{"property": "C09", "status": "proved", "theorems": ["C09_containment_is_pointwise", "C09_offset_containment", "C09_merge_is_smallest", "C09_merge_algebra", "C09_spans_entire_line"], "note": ""},
{"property": "C10", "status": "proved", "theorems": ["C10_message_round_trip", "C10_term_round_trip_in_context", "C10_encoding_is_injective"], "note": "for terms within the format's own size limits and integers below 256^255"},
{"property": "C11", "status": "partial", "theorems": ["C11_integers_round_trip_partial", "C11_huge_integers_refuted", "C11_large_big_round_trips", "C11_usize_round_trips_partial", "C11_big_usize_refuted"], "note": "false of the code: integers of 256 bytes or more and usize from 2^31 are garbled (both refuted); everything smaller is proved, and large_big is right"},
{"property": "C12", "status": "proved", "theorems": ["C12_order_is_semver_precedence", "C12_precedence_is_a_total_preorder", "C12_comparing_the_other_way_round"], "note": ""},
{"property": "C13", "status": "proved", "theorems": ["C13_accepted_texts", "C13_print_parse_identity", "C13_parsing_terminates"], "note": ""},
{"property": "C14", "status": "partial", "theorems": ["C14_requirements_mean_what_they_say_partial", "C14_releases_are_never_in_between", "C14_prerelease_requirements_refuted", "C14_overflow_refuted", "C14_parsing_terminates"], "note": "false of the code for pre-releases next to the version written after >, <= and != and at u32::MAX (both refuted); everything else is proved for all requirements and layouts"},
{"property": "C15", "status": "proved", "theorems": ["C15_root_requirements", "C15_locked_versions_are_kept", "C15_exact_requirements", "C15_other_requirements"], "note": "the root's requirements exactly, the first incompatible lock reported; every result of a solver keeping to pubgrub's contract (ResolveSpec.solution) has the locked versions exactly; exact requirements recognised"},
{"property": "C16", "status": "proved", "theorems": ["C16_candidates_are_sorted", "C16_the_best_release_is_chosen"], "note": "order of the releases kept, and the release offered for every call of a session"},
{"property": "C17", "status": "proved", "theorems": ["C17_dependencies_come_first", "C17_failure_reports_an_import_loop", "C17_succeeds_iff_no_loop"], "note": "petgraph's toposort is modelled as the library implements it"},
{"property": "C18", "status": "partial", "theorems": ["C18_used_definitions_come_first_partial", "C18_groups_are_cycles_partial", "C18_duplicate_names", "C18_contract_can_be_kept", "C18_refuted_by_assert_messages", "C18_refuted_by_alternatives", "C18_refuted_by_pattern_names"], "note": "All uses except three kinds that the graph misses; those three refute the full claim."},
{"property": "C19", "status": "partial", "theorems": ["C19_first_matching_clause_runs_partial", "C19_refuted_by_nested_prefixes", "C19_refuted_by_prefix_names", "C19_refuted_by_segment_aliases", "C19_refuted_by_escapes", "C19_refuted_by_impossible_segments"], "note": "Proved for the cases of CaseSpec.simple_case; for all well typed cases it is false, with five kinds of counterexamples."},
{"property": "C20", "status": "partial", "theorems": ["C20_accepted_is_exhaustive_partial", "C20_accepted_never_falls_through_partial", "C20_accepted_iff_exhaustive_partial", "C20_exhaustive_is_accepted_refuted", "C20_refuted_by_impossible_segments"], "note": "Accepted implies exhaustive for the cases of CaseSpec.simple_case with a clause; the converse too without string prefixes and bit arrays when the types have values, but is false in general."},
{"property": "C21", "status": "partial", "theorems": ["C21_unmatched_is_suggested_partial", "C21_suggested_is_unmatched_partial", "C21_suggested_has_unmatched_partial", "C21_suggested_has_unmatched_refuted_by_empty_types", "C21_suggested_has_unmatched_refuted_by_prefixes"], "note": "for the cases of CaseSpec.simple_case with a clause every unmatched value is described by a suggestion; suggestions describe only unmatched values for constructors, tuples and lists, some unmatched value with literals too; refuted by types without values and by the empty prefix"},
{"property": "C22", "status": "partial", "theorems": ["C22_unreachable_never_runs_partial"], "note": "Proved for the cases of CaseSpec.simple_case with a clause."},
{"property": "C23", "status": "partial", "theorems": ["C23_success_follows_from_success_partial", "C23_failure_follows_from_failure_partial", "C23_failure_follows_from_success_partial", "C23_comparing_literals_does_not_panic", "C23_refuted"], "note": "proved when the size variables of the compared offsets are not negative; the full statement is false: a test on size(a + b) with a negative a succeeds and is taken to imply one on size(b)"},
{"property": "C24", "status": "proved", "theorems": ["C24_literal_bits_spell_the_literal", "C24_literal_bits_have_the_size", "C24_unrepresentable_iff_no_bits", "C24_answers"], "note": "sizes 1 to 2^32-1, which are the constant sizes the type checker accepts"},
{"property": "C25", "status": "proved", "theorems": ["C25_accepted_iff_meaningful", "C25_type_is_documented", "C25_error_is_right", "C25_always_answers", "C25_float_width_refuted"], "note": "The unit does not count for the sizes allowed on floats (C25_float_width_refuted)."},
{"property": "C26", "status": "proved", "theorems": ["C26_field_map_records_the_parameters", "C26_reorder_arranges_the_arguments", "C26_arrangement_is_unique"], "note": "for field maps without conflicts, which is what legal declarations produce; the arrangement is shown unique"},
{"property": "C27", "status": "proved", "theorems": ["C27_declaration_errors", "C27_accepts_exactly_the_acceptable_calls", "C27_rejections_are_explained"], "note": "every rejection is characterised; declarations too"},
{"property": "C28", "status": "proved", "theorems": ["C28_unified_types_are_equal", "C28_failure_means_no_solution", "C28_unify_never_panics", "C28_unify_ends", "C28_unify_succeeds_iff_a_solution_exists"], "note": "for all types over all acyclic stores whose unbound variables have different numbers; also: unify ends and never changes a borrowed variable, the store stays acyclic on failure, and the error shows the two types"},
{"property": "C29", "status": "proved", "theorems": ["C29_instantiation_exactly", "C29_instances_are_fresh_copies", "C29_instantiation_ends", "C29_generalisation", "C29_generalisation_ends", "C29_uses_of_a_definition"], "note": "for all types over all acyclic stores; the exact new environment, including shared maps of replaced variables; generalisation likewise, and both together"},
{"property": "C30", "status": "partial", "theorems": ["C30_loads_current_partial", "C30_loads_current_refuted"], "note": "false in general: eight kinds of histories after which a build succeeds with an outdated module from the cache (an import cycle or parse error after a removal or a compiled dependency, a failing dependency, an older file, a move from src to test, a change undone after errors, builds without code generation, an interruption); proved for all histories without these"},
{"property": "C31", "status": "proved", "theorems": ["C31_recompiled_modules", "C31_why_loading_fails"], "note": "full description of a successful run: what is compiled and in which order, what comes from the cache, what is deleted; and the meaning of every error"},
{"property": "C32", "status": "proved", "theorems": ["C32_errors_are_those_of_the_last_failure", "C32_none_after_a_successful_build", "C32_other_errors_are_messages"], "note": "for every history of answers, failed builds, failed requests, opened and closed files: the errors shown at each file are exactly those of the last failure (plus the not-checked note of open files), none after a successful build; errors without a place are messages"},
{"property": "C33", "status": "partial", "theorems": ["C33_warnings_are_kept_partial", "C33_warnings_stay_partial", "C33_refuted_by_failed_request", "C33_refuted_by_skipped_files"], "note": "exact while no error is reported in the file and it is not skipped; refuted otherwise: a failed request (formatting) or closing a skipped file hides warnings that no build brings back"},
{"property": "C34", "status": "partial", "theorems": ["C34_unsaved_edits_are_read_partial", "C34_a_new_server", "C34_events_succeed_partial", "C34_unsaved_edits_are_read_refuted"], "note": "refuted for edits below an unsaved file and for closing a directory; proved otherwise, with times and existence; directories above edited files keep the cache's time"},
{"property": "C35", "status": "partial", "theorems": ["C35_each_operation", "C35_a_new_file_system", "C35_the_root_stays", "C35_reads_return_the_last_write", "C35_deleting_a_directory", "C35_listings", "C35_parents_are_directories_refuted", "C35_parents_are_directories_partial"], "note": "reads and deletions proved for all histories, with the exact effect of every operation; the claim on parents is refuted (writing over a directory, below a file, links) and proved for histories that avoid this"},
{"property": "C36", "status": "proved", "theorems": ["C36_escapes_denote_code_points", "C36_utf16_round_trip", "C36_utf32_round_trip", "C36_utf8_round_trip", "C36_lengths", "C36_bytes"], "note": ""},
{"property": "C37", "status": "partial", "theorems": ["C37_corrections_are_well_cased_partial", "C37_double_underscore_refuted", "C37_corrections_are_stable"], "note": "false of the code for type names with a double underscore (refuted); proved, as an equivalence, for all others"},
{"property": "C38", "status": "proved", "theorems": ["C38_one_grouping", "C38_expressions", "C38_guards", "C38_constants", "C38_sizes", "C38_operators_keep_their_meaning"], "note": "all four operator loops (expressions, guards, constants, bit array sizes), for every operand parser that answers: the result is the unique tree with these operands and operators in order that is grouped by the documented table, left-associative, with chains of pipes as one pipeline; every error is characterised; formatting is C48"},
{"property": "C39", "status": "proved", "theorems": ["C39_tokens_cover_the_source", "C39_lexing_ends"], "note": "every source ends with the end of the file or an error; up to there tokens are in order and cover everything but blanks, the byte order mark and the slashes of comments"},
{"property": "C40", "status": "proved", "theorems": ["C40_production_builds_compile_what_is_needed", "C40_packages_kept"], "note": "the packages kept, and the packages given to a tool by the build of the dependencies"},
{"property": "C41", "status": "proved", "theorems": ["C41_observers_are_told_the_position"], "note": ""},
{"property": "C42", "status": "partial", "theorems": ["C42_position_past_line_end_refuted", "C42_position_within_line_stays_on_line_partial"], "note": "false of the code (refuted with a witness); proved for positions within their line"},
{"property": "C43", "status": "partial", "theorems": ["C13_semver_accepted_refuted", "C13_accepted_texts"], "note": "false of the code (refuted); what is accepted instead is characterised exactly by C13_accepted_texts"},
{"property": "C44", "status": "proved", "theorems": ["C44_tag_is_the_words", "C44_names_have_words", "C44_different_names_have_different_tags", "C44_tags_are_lower_case_names"], "note": ""},
{"property": "C45", "status": "proved", "theorems": ["C45_missing_labels_are_the_unfilled_parameters", "C45_adding_the_missing_labels_completes_the_call"], "note": "calls without a use callback, with enough unlabelled arguments"},
{"property": "C46", "status": "proved", "theorems": ["C46_tests_match_segment_by_segment"], "note": "what floats read as is a parameter"},
{"property": "C47", "status": "proved", "theorems": ["C47_truncation_is_reported", "C47_unknown_width"], "note": ""},
{"property": "C48", "status": "proved", "theorems": ["C48_formatting_keeps_the_code", "C48_only_parsed_code_refuted"], "note": "for all parsed expressions of operands, binary operators, pipelines, negations and one-expression blocks"},
{"property": "C49", "status": "partial", "theorems": ["C49_formatting_again_partial", "C49_formatting_again_refuted"], "note": "holds when - and ! do not follow each other; refuted by -!!-x, which needs two rounds"},
{"property": "C50", "status": "proved", "theorems": ["C50_function_types_match", "C50_function_types_fail", "C50_function_types_always_answer"], "note": ""},
{"property": "C51", "status": "proved", "theorems": ["C51_packages_are_built_in_order", "C51_loops_are_found", "C51_builds_succeed_iff", "C51_builds_are_deterministic"], "note": ""},
{"property": "C52", "status": "proved", "theorems": ["C52_walking_finds_the_files", "C52_walking_a_tree"], "note": "on the file system in memory"},
{"property": "C53", "status": "proved", "theorems": ["C53_resolved_versions_satisfy_requirements", "C53_dependencies_of_a_release"], "note": "for every result of a solver keeping to pubgrub's contract; and the named dependencies exactly"},
{"property": "C54", "status": "partial", "theorems": ["C54_optional_requirements_are_respected_partial", "C54_optional_requirements_are_respected_refuted"], "note": "refuted in general: an optional requirement seen after the package is required but before its releases are looked up is forgotten; proved where the package was known before"},
{"property": "C55", "status": "proved", "theorems": ["C55_major_updates", "C55_updates"], "note": "both checks"},
{"property": "C56", "status": "partial", "theorems": ["C56_spans_cut_tokens_partial", "C56_spans_cut_tokens_refuted"], "note": "refuted for a comment at the end of the source whose last character takes several bytes; proved for every other token"},
{"property": "C57", "status": "proved", "theorems": ["C57_tokens_follow_the_grammar"], "note": "against a grammar of items with their contexts, and a list of the texts that cannot be read"},
{"property": "C58", "status": "partial", "theorems": ["C58_minus_is_an_operator_partial", "C58_minus_is_an_operator_refuted"], "note": "refuted behind a tuple index (a.0-1); proved everywhere else"},
{"property": "C59", "status": "partial", "theorems": ["C59_same_as_clean_partial", "C59_same_as_clean_refuted"], "note": "false in general for the same reasons as C30; proved for careful histories if code generation cannot fail"},
{"property": "C60", "status": "partial", "theorems": ["C60_no_missing_cache_partial", "C60_no_missing_cache_refuted"], "note": "refuted by an interruption between the deletion of a cache and of its metadata, after which every build fails; proved for all other interruptions"},
{"property": "C61", "status": "proved", "theorems": ["C61_errors_of_a_package", "C61_nothing_loaded"], "note": "full description of the analysis and of what is written, module by module"},
{"property": "C62", "status": "partial", "theorems": ["C62_source_reads_back_partial", "C62_source_reads_back_refuted", "C62_source_reads_back_refuted_by_operands"], "note": "The text written by the builder for any well-formed module of attributes, types, records, specs and functions is read by an independent scanner and parser of Erlang as exactly that module. Two restrictions are needed, and both are shown necessary by counterexamples: a segment size may not be a negative literal (it is written <<A:-1>>), and a match may not be an operand of an operator. Not covered: layout chosen by the builder is only shown harmless, not pretty."},
{"property": "C63", "status": "proved", "theorems": ["C63_strings_keep_their_text", "C63_literals_are_one_token"], "note": "Strings and number literals in the written source are one token each and keep their text."},
{"property": "C64", "status": "partial", "theorems": ["C64_names_read_back_partial", "C64_names_read_back_refuted"], "note": "A quoted or bare atom reads back as its name exactly when the name has no quote, backslash or line break that would need an escape; the general claim is refuted because quote_atom_name does not escape."},
{"property": "C65", "status": "proved", "theorems": ["C65_names_are_told_apart", "C65_names_are_variables"], "note": "Names of type variables are injective in the number and scan as one Erlang variable."},
{"property": "C66", "status": "proved", "theorems": ["C66_specifications", "C66_records"], "note": "Specs and records: the exact calls, no variable used only once, and what Erlang reads in the text. Assumes the prelude types have their arguments; for reading, legal names."},
{"property": "C67", "status": "proved", "theorems": ["C67_definitions", "C67_definitions_read_back"], "note": "Definitions: exact calls, the unused parameters, every parameter used and no other variable, export and reading back of a whole list of types."},
{"property": "C68", "status": "partial", "theorems": ["C68_external_parameters_partial", "C68_external_parameters_refuted"], "note": "Refuted: parameters are sorted by name, so variables 25 and 26 (Z, AA) are swapped. Proved for growing numbers with names of the same length."},
{"property": "C69", "status": "partial", "theorems": ["C69_type_names_are_told_apart", "C69_module_names", "C69_modules_are_told_apart", "C69_no_predefined_names_partial", "C69_no_predefined_names_refuted"], "note": "Names of types and of modules are injective; three predefined Erlang types (nonempty_binary, nonempty_bitstring, nonempty_maybe_improper_list) are not escaped, so the last part is refuted and proved for all others."},
{"property": "C70", "status": "partial", "theorems": ["C70_generated_code_does_what_gleam_does_partial", "C70_generated_code_does_what_gleam_does_refuted_by_division", "C70_generated_code_does_what_gleam_does_refuted_by_guards", "C70_generated_code_does_what_gleam_does_refuted_by_prefixes", "C70_generated_code_does_what_gleam_does_refuted_by_braces", "C70_generated_code_does_what_gleam_does_refuted_by_names"], "note": "Proved for the modelled language without what legal_module excludes; refuted by five programs: division whose left operand has effects hidden in an operator, division by zero in a guard, concatenation with a prefix alias in a guard, concatenation of a literal in braces, an external called module_info. Floats, bit arrays, constants, assert and echo are not modelled."},
{"property": "C71", "status": "proved", "theorems": ["C71_forms_of_a_module"], "note": "Exact list of forms, including which functions have code and which are exported."},
{"property": "C72", "status": "partial", "theorems": ["C72_exported_functions_are_defined_partial", "C72_exported_functions_are_defined_refuted_by_externals", "C72_exported_functions_are_defined_refuted_by_namesakes"], "note": "Refuted: a private external function, or an unused private namesake of another module's function, is exported without code when a public constant has its name. Proved when the private functions named in importable constants are used and written in Gleam."},
{"property": "C73", "status": "partial", "theorems": ["C73_functions_of_constants_are_exported_partial", "C73_functions_of_constants_are_exported_refuted"], "note": "Refuted: constants in constants are not looked into. Proved for constants that name no other constant."},
{"property": "C74", "status": "proved", "theorems": ["C74_external_functions_pass_arguments_on"], "note": "For externals whose names have no quotes and that are not erlang:element or erlang:error (which have their own meaning in the model)."},
{"property": "C75", "status": "proved", "theorems": ["C75_tracker_never_panics"], "note": ""},
{"property": "C76", "status": "proved", "theorems": ["C76_unused_definitions"], "note": "Used is defined on a ledger of the calls that forgets nothing."},
{"property": "C77", "status": "partial", "theorems": ["C77_unused_imports_partial", "C77_used_import_found_unused_refuted", "C77_unused_import_not_found_refuted", "C77_taken_over_twice_refuted"], "note": "Refuted: a private function that is unused and has the name of the function it calls in a module makes the import unused; the import of a nested module with an unused item is not found unused; of a type and a constructor of one name that are both shadowed only one is found unused. Proved where the recorded references tell imports from other references and no name is taken over twice."},
{"property": "C78", "status": "proved", "theorems": ["C78_used_code_stays"], "note": ""},
{"property": "C79", "status": "proved", "theorems": ["C79_warnings_for_unused"], "note": ""},
{"property": "C80", "status": "proved", "theorems": ["C80_references_are_kept"], "note": ""},
{"property": "C81", "status": "partial", "theorems": ["C81_printed_types_read_back_partial", "C81_printed_types_read_back_refuted"], "note": "Refuted in general: the 45th generated name of a variable is the keyword `as`; an internal type is printed by its alias in a module that need not be imported; a type of the prelude is printed as gleam.X after the name it was imported by was taken; a type of a module that is not imported can be printed as one of another module with the same last segment. Proved for all types in sight whose variables have no keywords as names."},
{"property": "C82", "status": "proved", "theorems": ["C82_variables_keep_one_name", "C82_new_names_are_the_first_free"], "note": ""},
{"property": "C83", "status": "proved", "theorems": ["C83_types_without_aliases"], "note": ""},
{"property": "C84", "status": "proved", "theorems": ["C84_constructors"], "note": ""},
{"property": "C85", "status": "proved", "theorems": ["C85_what_stays_locked", "C85_nothing_is_locked_without_a_manifest"], "note": ""},
{"property": "C86", "status": "partial", "theorems": ["C86_changed_requirements_are_not_locked_refuted", "C86_changed_requirements_are_not_locked_partial"], "note": "refuted for a package that an unchanged requirement needs too: it stays locked and the new requirement of the project is reported as incompatible; proved for all others"},
{"property": "C87", "status": "proved", "theorems": ["C87_what_is_unlocked", "C87_without_a_manifest"], "note": ""},
{"property": "C88", "status": "proved", "theorems": ["C88_reported_changes", "C88_no_change_is_reported", "C88_same_requirements"], "note": ""},
{"property": "C89", "status": "partial", "theorems": ["C89_the_manifest_on_disc_is_the_resolved_one_refuted", "C89_the_manifest_on_disc_is_the_resolved_one_partial", "C89_failures_leave_the_manifest", "C89_the_manifest_after_removing"], "note": "refuted: when only what packages require changed the manifest is not written, and gleam remove later drops a package that is needed; proved up to what packages require, where path dependencies are and how requirements are written"},
{"property": "C90", "status": "partial", "theorems": ["C90_packages_are_in_place_refuted", "C90_packages_are_in_place_after_moving_refuted", "C90_packages_are_in_place_after_removing_refuted", "C90_packages_are_in_place_partial"], "note": "refuted after a failed download, after a package moves from git to the same version on Hex, and after gleam remove with a manifest from version control; proved for all sequences of commands without these"},
{"property": "C91", "status": "proved", "theorems": ["C91_what_remains_after_removing"], "note": ""},
{"property": "C92", "status": "proved", "theorems": ["C92_what_resolution_is_asked", "C92_resolution_without_a_manifest", "C92_unchanged_projects_are_not_resolved", "C92_when_resolution_is_asked"], "note": ""},
{"property": "C93", "status": "proved", "theorems": ["C93_conflicts_are_found", "C93_what_conflicts", "C93_in_any_order", "C93_no_panic"], "note": ""},
{"property": "C94", "status": "proved", "theorems": ["C94_what_is_copied", "C94_in_any_order"], "note": ""},
{"property": "C95", "status": "partial", "theorems": ["C95_copies_are_up_to_date_refuted", "C95_copies_are_up_to_date_after_conflicts_refuted", "C95_removed_files_are_removed_refuted", "C95_copies_are_up_to_date_partial"], "note": "refuted: a file replaced by an older one is not copied, nor one that shares its path with a file removed after the conflict was reported, and copies of removed files stay; proved, for the files that the project has, when edits are later than builds before them and no build met a conflict"},
{"property": "C96", "status": "partial", "theorems": ["C96_all_is_compiled_refuted", "C96_all_is_compiled_after_conflicts_refuted", "C96_all_is_compiled_partial"], "note": "refuted after a build in which a file does not compile, and after one that met a conflict; proved when no build before failed"},
{"property": "C97", "status": "partial", "theorems": ["C97_specifiers_are_understood_refuted", "C97_specifiers_are_understood_partial", "C97_what_is_understood", "C97_what_is_refused"], "note": "refuted for versions whose pre-release has a dot, as in wisp@1.0.0-rc.1, which is an error; proved for all others"},
{"property": "C98", "status": "partial", "theorems": ["C98_what_is_written_can_be_read_refuted", "C98_what_is_written_can_be_read_partial"], "note": "refuted for versions with metadata of a build: they are written into a range that cannot be read, and neither file can be read then; proved for versions without it and major versions below 2^32 - 1"},
{"property": "C99", "status": "proved", "theorems": ["C99_what_adding_changes", "C99_the_files_agree"], "note": ""},
{"property": "C100", "status": "partial", "theorems": ["C100_adding_the_project_itself_is_an_error_of_its_own_refuted", "C100_adding_the_project_itself_is_an_error_of_its_own_partial", "C100_the_project_is_not_added"], "note": "refuted: app@0 is not noticed to be the project, and the command panics; proved for names without a version, and that the project is never added"},
{"property": "C101", "status": "proved", "theorems": ["C101_no_name_is_declared_twice", "C101_names_of_a_module_stay_distinct"], "note": ""},
{"property": "C102", "status": "partial", "theorems": ["C102_references_are_to_what_gleam_says_refuted", "C102_references_are_to_what_gleam_says_partial"], "note": "refuted for a block that is a statement and binds a name again: the scope is not restored after it, and the name is then that of the inner variable, out of scope in JavaScript; proved where such blocks are only at the end"},
{"property": "C103", "status": "proved", "theorems": ["C103_names_are_identifiers"], "note": ""},
{"property": "C104", "status": "partial", "theorems": ["C104_changes_are_noticed_refuted", "C104_changes_are_noticed_partial", "C104_the_manifest_is_for_what_is_declared"], "note": "refuted in three ways: the fingerprint is written before resolution, so that the change is not noticed again if that fails; only one fingerprint is written at a time, so that a dependency that is changed back is not noticed; and files with old times are not looked at. Proved when none of these happen, and that the manifest is for what is declared in general"},
{"property": "C105", "status": "proved", "theorems": ["C105_commands_come_to_rest"], "note": ""},
{"property": "C106", "status": "partial", "theorems": ["C106_a_manifest_reads_back_refuted", "C106_a_range_on_two_lines_refuted", "C106_backslashes_refuted", "C106_a_manifest_reads_back_partial"], "note": "refuted: texts are not escaped, so that a path with a quotation mark or a range over two lines makes a manifest that can not be read, and a backslash in a path is read as a slash. Proved for all manifests whose texts need no escapes"},
{"property": "C107", "status": "proved", "theorems": ["C107_the_order_does_not_matter", "C107_saving_again_changes_nothing", "C107_a_package_is_a_line"], "note": ""},
{"property": "C108", "status": "proved", "theorems": ["C108_paths_lead_to_the_module", "C108_a_path_is_of_one_module"], "note": ""},
{"property": "C109", "status": "partial", "theorems": ["C109_names_are_bound_refuted", "C109_names_are_bound_partial", "C109_exports"], "note": "refuted: if a variant without fields is imported by two names, and both are used, only the constant for the last of them is imported. Proved for modules that import each value once"},
{"property": "C110", "status": "partial", "theorems": ["C110_order_of_tables_refuted", "C110_order_of_tables_partial"], "note": "refuted: the constants of variants that are imported from one module are listed in the order of a std HashMap, which is random. Proved if one constant at most is used of each module"},
{"property": "C111", "status": "partial", "theorems": ["C111_description_refuted", "C111_words_of_erlang_refuted", "C111_app_file_says_partial"], "note": "refuted: descriptions are not escaped, so that one with a quotation mark makes a file that Erlang can not read, and names of applications are not quoted, so that a package with the name of a word of Erlang does too. Proved for the other descriptions and names"},
{"property": "C112", "status": "proved", "theorems": ["C112_the_same_file"], "note": ""},
{"property": "C113", "status": "proved", "theorems": ["C113_aligned", "C113_reads_back", "C113_never_panics"], "note": ""},
{"property": "C114", "status": "proved", "theorems": ["C114_packages_of_the_manifest", "C114_outdated", "C114_major_versions", "C114_order_of_tables"], "note": ""},
{"property": "C115", "status": "partial", "theorems": ["C115_comments_refuted", "C115_line_breaks_refuted", "C115_the_item_is_added_partial"], "note": "refuted: the item becomes part of a comment that is behind the last item, and the language server panics if the word as of an import without braces is at the start of a line. Proved for imports without comments with spaces on both sides of as, with all other layouts"},
{"property": "C116", "status": "partial", "theorems": ["C116_attributes_refuted", "C116_before_the_first_import_partial", "C116_at_the_start"], "note": "refuted: the new import is put between the first import and its attributes, so that an attribute such as @target becomes one of the new import. Proved for modules whose first definition is an import without attributes, and for all modules whose first definition is no import"}
]}
