{"claims": [
  {"property": "C01", "status": "partial", "theorems": ["C01_parse_safe_refuted", "C01_full_statement_fails", "C01_parse_faults_iff", "C01_parse_safe_partial", "C01_parse_views_in_range", "C01_lone_quote_iff", "C01_no_quotes_safe"], "note": "parse faults on a group ending in a lone quote (refuted); exact characterisation of the faulting strings, all other strings are safe with views in range"},
  {"property": "C02", "status": "proved", "theorems": ["C02_tokenize_accepts_iff", "C02_tokenize_rejects_iff", "C02_division_exists", "C02_division_unique", "C02_tokenize_never_faults"], "note": ""},
  {"property": "C03", "status": "proved", "theorems": ["C03_white_space_insignificant", "C03_every_text_is_a_layout"], "note": ""},
  {"property": "C04", "status": "proved", "theorems": ["C04_parse_written", "C04_render_parse", "C04_render_injective"], "note": ""},
  {"property": "C05", "status": "proved", "theorems": ["C05_quoted_argument_verbatim", "C05_quoted_name_verbatim", "C05_quoted_named_verbatim", "C05_default_verbatim"], "note": ""},
  {"property": "C06", "status": "proved", "theorems": ["C06_only_relative_order_matters", "C06_named_argument_moves"], "note": ""},
  {"property": "C07", "status": "proved", "theorems": ["C07_error_iff_malformed", "C07_value_iff_wellformed", "C07_diagnosis_unique", "C07_diagnosis_total", "C07_diagnosis_exclusive"], "note": "for every text outside the faulting ones of C01"},
  {"property": "C08", "status": "proved", "theorems": ["C08_group_split_iff", "C08_split_unique", "C08_split_exists_unless_lone_quote", "C08_split_or_lone_exclusive", "C08_quote_free_fields", "C08_fields_lossless", "C08_only_quotes_and_separators_lost", "C08_empty_item_was_quoted"], "note": "for every content outside the lone-quote ones of C01"},
  {"property": "C09", "status": "partial", "theorems": ["C09_word_compound_refuted", "C09_word_compound_partial", "C09_word_compound_not_leading_partial"], "note": "refuted by a leading separator; exact criterion proved"},
  {"property": "C10", "status": "partial", "theorems": ["C10_configured_characters_refuted", "C10_configured_characters_partial"], "note": "refuted for bytes >= 0x80 with signed char; proved for unsigned char and for ASCII configurations"},
  {"property": "C11", "status": "proved", "theorems": ["C11_round_trip", "C11_print_canonical", "C11_canonical_accepted"], "note": ""},
  {"property": "C12", "status": "proved", "theorems": ["C12_signed_accept_iff", "C12_signed_reject_iff", "C12_denotes_functional"], "note": ""},
  {"property": "C13", "status": "partial", "theorems": ["C13_never_wraps_refuted", "C13_full_statement_fails", "C13_never_wraps_partial", "C13_result_in_range", "C13_out_of_range_rejected_partial"], "note": "refuted for unsigned types by \" -18446744073709551615\"; proved for signed types and for texts not starting with white space and a minus sign"},
  {"property": "C14", "status": "partial", "theorems": ["C14_unsigned_negative_refuted", "C14_full_statement_fails", "C14_unsigned_negative_partial", "C14_unsigned_accept_iff", "C14_negative_exact"], "note": "refuted by \" -1\"; proved for texts not starting with white space and a minus sign, exact result for the others"},
  {"property": "C15", "status": "proved", "theorems": ["C15_bool_true_iff", "C15_bool_false_iff", "C15_bool_round_trip", "C15_bool_error_iff"], "note": ""},
  {"property": "C16", "status": "proved", "theorems": ["C16_string_accept_iff", "C16_string_reject", "C16_string_round_trip", "C16_value_passthrough"], "note": ""},
  {"property": "C17", "status": "proved", "theorems": ["C17_vector_accept_iff", "C17_vector_error_iff", "C17_vector_text", "C17_vector_elements_round_trip"], "note": ""},
  {"property": "C18", "status": "partial", "theorems": ["C18_optional_whole_refuted", "C18_full_statement_fails", "C18_optional_whole_partial", "C18_optional_exact", "C18_optional_error_iff", "C18_optional_round_trip", "C18_optional_empty_string_lost"], "note": "refuted: sub-values after the first are ignored; exact characterisation proved"},
  {"property": "C19", "status": "proved", "theorems": ["C19_scalar_error", "C19_scalar_mismatch_fails", "C19_builtin_error", "C19_builtin_errors_nonempty", "C19_error_text_with_nul", "C19_type_names_distinct", "C19_type_names"], "note": "float conversions are arbitrary functions here"},
  {"property": "C20", "status": "partial", "theorems": ["C20_registry_is_map_refuted", "C20_registered_command_lost", "C20_registry_is_map_partial", "C20_two_removals", "C20_three_removals_refuted", "C20_no_collisions", "C20_repaired"], "note": "refuted: erase leaves a stale back link (assertion failure, silent loss of a command); proved for harmless histories, at most two removals between clears, collision-free histories, and in full for a repaired erase"},
  {"property": "C21", "status": "partial", "theorems": ["C21_lookup_terminates_refuted", "C21_divergence_is_real", "C21_insert_divergence_is_real", "C21_lookup_terminates_partial"], "note": "refuted by a history after which a lookup cycles forever; proved for harmless histories"},
  {"property": "C22", "status": "proved", "theorems": ["C22_faithful_without_removals"], "note": ""},
  {"property": "C23", "status": "proved", "theorems": ["C23_faithful_lifo"], "note": ""},
  {"property": "C24", "status": "proved", "theorems": ["C24_at_most_full", "C24_some_bucket", "C24_bound_sharp"], "note": ""},
  {"property": "C25", "status": "partial", "theorems": ["C25_iteration_refuted", "C25_iteration_partial"], "note": "refuted after a harmful removal; proved for harmless histories"},
  {"property": "C26", "status": "proved", "theorems": ["C26_one_handler_first_match", "C26_first_match_or_none", "C26_first_match_unique", "C26_execution_is_one_run"], "note": ""},
  {"property": "C27", "status": "proved", "theorems": ["C27_bad_arguments_never_reach_handler", "C27_conversion_errors_total", "C27_conversion_errors_unique", "C27_no_errors_iff_all_convert"], "note": ""},
  {"property": "C28", "status": "proved", "theorems": ["C28_converted_arguments_in_order", "C28_converted_values_unique", "C28_values_are_conversions", "C28_converted_arguments_every_bound"], "note": ""},
  {"property": "C29", "status": "proved", "theorems": ["C29_return_value_iff", "C29_errors_exclude_return_value", "C29_text_errors_exclude_return_value", "C29_void_iff_no_text"], "note": ""},
  {"property": "C30", "status": "proved", "theorems": ["C30_syntax_error", "C30_no_name", "C30_unknown_name", "C30_wrong_arity", "C30_no_errors_means_handler_ran"], "note": ""},
  {"property": "C31", "status": "proved", "theorems": ["C31_wrong_arity_message", "C31_enumeration_unique", "C31_enumeration_exists"], "note": ""},
  {"property": "C32", "status": "partial", "theorems": ["C32_echo_refuted", "C32_echo_partial", "C32_echo_named_partial", "C32_text_echo_partial"], "note": "The full statement is refuted: a handler can overwrite its named arguments. Proved: the command name and positional arguments are always echoed, the named ones unless the handler overwrites them."},
  {"property": "C33", "status": "proved", "theorems": ["C33_output_and_errors_in_order", "C33_events_only_appended", "C33_no_context_no_output"], "note": ""},
  {"property": "C34", "status": "proved", "theorems": ["C34_exception_caught", "C34_exception_propagates", "C34_never_propagates_when_caught", "C34_text_never_propagates_when_caught", "C34_propagates_only_thrown"], "note": ""},
  {"property": "C35", "status": "proved", "theorems": ["C35_get_first_match", "C35_get_typed", "C35_lookup", "C35_typed_lookup", "C35_cases"], "note": ""},
  {"property": "C36", "status": "proved", "theorems": ["C36_variables_are_registers", "C36_one_command"], "note": ""},
  {"property": "C37", "status": "proved", "theorems": ["C37_const_variable", "C37_const_property", "C37_history"], "note": "properties: for getters that only read the state"},
  {"property": "C38", "status": "proved", "theorems": ["C38_read", "C38_write", "C38_write_rejected"], "note": ""},
  {"property": "C39", "status": "proved", "theorems": ["C39_metadata", "C39_context_not_counted", "C39_reaches_handler", "C39_return_type"], "note": ""},
  {"property": "C40", "status": "proved", "theorems": ["C40_programs_read_back", "C40_no_leak", "C40_equal", "C40_proper_uses", "C40_reserve_wraps_refuted"], "note": "for programs whose sizes fit in the address space; outside, reserve silently allocates too little (C40_reserve_wraps_refuted)"},
  {"property": "C41", "status": "partial", "theorems": ["C41_stack_amortised_partial", "C41_append_amortised_partial", "C41_full_statement_refuted"], "note": "at most 5 moves per pushBack (pops and clears in between allowed) while three times the size is below the number of size_t values; refuted beyond, where size() * 3 wraps and growth becomes quadratic"},
  {"property": "C42", "status": "partial", "theorems": ["C42_copy_of_reserved_refuted", "C42_full_statement_refuted", "C42_moved_from_refuted", "C42_moved_from_unusable", "C42_resize_wraps_refuted", "C42_programs_read_back_partial", "C42_no_leak_partial", "C42_proper_uses", "C42_view_partial"], "note": "refuted for moved-from strings and for resize(SIZE_MAX); proved for every program that does not read moved-from strings and whose sizes fit"},
  {"property": "C43", "status": "partial", "theorems": ["C43_own_part", "C43_self_append_partial", "C43_self_append_refuted", "C43_full_statement_refuted"], "note": "appending a part of a string to itself is refuted (use after free when the storage is replaced); proved safe when the capacity suffices"},
  {"property": "C44", "status": "proved", "theorems": ["C44_equal_iff_same_bytes", "C44_hash_of_bytes", "C44_string_as_view", "C44_hash_of_map"], "note": ""},
  {"property": "C45", "status": "proved", "theorems": ["C45_programs_read_back", "C45_any_operation", "C45_equal"], "note": "for element types whose moves do not throw; copies may"},
  {"property": "C46", "status": "partial", "theorems": ["C46_programs_read_back_partial", "C46_any_operation_partial", "C46_equal", "C46_throwing_assignment_refuted", "C46_full_statement_refuted"], "note": "refuted: a copy assignment between a value and an error whose copy throws leaves no contained object, and the destructor then destroys one; proved for every program in which no such assignment throws"},
  {"property": "C47", "status": "proved", "theorems": ["C47_unique_owners", "C47_destroyed_with_owner", "C47_transfer", "C47_raw_pointer_refuted"], "note": "for pointers that are not made from a raw pointer another UniquePtr owns"},
  {"property": "C48", "status": "partial", "theorems": ["C48_null_pointer_refuted", "C48_full_statement_fails", "C48_null_pointer_partial", "C48_cstring_nonnull"], "note": "refuted for char const*; proved for all other pointer types"},
  {"property": "C49", "status": "partial", "theorems": ["C49_zero_text", "C49_literal", "C49_float", "C49_double_partial", "C49_double_refuted", "C49_round_trip_refuted"], "note": "float: exactly the magnitudes below 10^-6; double: the same except the two values nearest to +-10^-6, which are below 10^-6 but printed as 1e-06 (refuted there); general: exactly the magnitudes below the double that the literal 1e-6 denotes. The C library is modelled as correctly rounding"},
  {"property": "C50", "status": "partial", "theorems": ["C50_own_removal_refuted", "C50_full_statement_fails", "C50_no_use_after_free_partial", "C50_input_no_use_after_free_partial", "C50_unchanging_registry_safe", "C50_other_changes_keep_storage", "C50_executions_as_specified", "C50_bound_irrelevant", "C50_nested_result_isolated", "C50_registry_is_history", "C50_fresh_holds", "C50_addition_seen", "C50_removal_seen", "C50_clear_seen", "C50_nested_resolves_now"], "note": "refuted: a handler that removes its own command and then uses its captures uses freed memory. Proved: executions are those of the specification at any depth, nested results are isolated, registry changes are seen by nested calls, no use after free for handlers that use their captures only while surely registered"},
  {"property": "C51", "status": "proved", "theorems": ["C51_moves_transfer", "C51_move_is_exact", "C51_assignment_exchanges", "C51_moved_from_unusable", "C51_reuse_refuted"], "note": "removals in the histories must be harmless (C20) for the ideal-map statement; C51_move_is_exact and C51_assignment_exchanges hold without that. Besides: an object that was moved from cannot be used again (C51_moved_from_unusable)"},
  {"property": "C52", "status": "proved", "theorems": ["C52_execution_safe", "C52_session_safe", "C52_fresh_application_safe"], "note": ""},
  {"property": "C53", "status": "proved", "theorems": ["C53_texts_delivered", "C53_rendered_call_delivered", "C53_writable"], "note": ""},
  {"property": "C54", "status": "proved", "theorems": ["C54_lookup_never_invents", "C54_iteration_never_invents", "C54_registry_never_invents"], "note": ""},
  {"property": "C55", "status": "partial", "theorems": ["C55_append_cost", "C55_append_linear_refuted", "C55_reserved_linear_partial"], "note": "refuted: appending n characters one by one copies exactly n(n+1)/2 bytes; linear only when the storage was reserved beforehand"},
  {"property": "C56", "status": "proved", "theorems": ["C56_text_is_nearest", "C56_text_accepted", "C56_error", "C56_special"], "note": "for a C library that rounds correctly"},
  {"property": "C57", "status": "partial", "theorems": ["C57_text_stable", "C57_float_partial", "C57_float_refuted", "C57_float_exceptions"], "note": "proved for double and long double; float refuted exactly for the texts 1e-06 and -1e-06"},
  {"property": "C58", "status": "proved", "theorems": ["C58_exact", "C58_result_unique", "C58_result_in_format", "C58_every_value_has_text"], "note": "for a C library that rounds correctly, in the C locale; whether inexact subnormal results are range errors is a parameter"},
  {"property": "C59", "status": "proved", "theorems": ["C59_accept_iff", "C59_error_iff", "C59_names", "C59_vector", "C59_texts_quotable", "C59_call_delivered", "C59_printed_writable", "C59_printed_writable_refuted"], "note": "C59_printed_writable_refuted shows that the last sentence does not extend to float"},
  {"property": "C60", "status": "proved", "theorems": ["C60_same_faults", "C60_lookup", "C60_alive", "C60_no_leak", "C60_no_bad_pointer", "C60_removed_dead"], "note": "no exceptions; programs fail only by using variables out of scope or inside the map, as the program without pointers does"},
  {"property": "C61", "status": "proved", "theorems": ["C61_names_readable", "C61_found_name", "C61_add_keeps_names", "C61_removed_name_dead"], "note": ""},
  {"property": "C62", "status": "partial", "theorems": ["C62_text_partial", "C62_long_text", "C62_full_statement_refuted", "C62_longest_text", "C62_long_view_refuted"], "note": "proved for texts whose length is an int; refuted beyond, where resize(SIZE_MAX) writes outside the storage, and for views of more than INT_MAX bytes"},
  {"property": "C63", "status": "proved", "theorems": ["C63_unknown", "C63_missing", "C63_exception", "C63_lexer", "C63_first_token", "C63_integers", "C63_floats", "C63_value", "C63_conversion", "C63_mismatch", "C63_arity"], "note": "for texts and views of at most INT_MAX bytes"},
  {"property": "C64", "status": "proved", "theorems": ["C64_logf", "C64_loglinef"], "note": "for texts of at most INT_MAX bytes"},
  {"property": "C65", "status": "partial", "theorems": ["C65_exceptions_partial", "C65_no_leak_partial", "C65_throws_iff", "C65_no_throw_same", "C65_calls", "C65_throwing_move", "C65_any_exception_refuted"], "note": "proved if move constructors do not throw; refuted otherwise: a move that throws while a vector grows loses the elements moved before it (C65_throwing_move gives the outcome for every position)"},
  {"property": "C66", "status": "proved", "theorems": ["C66_safe", "C66_sees_values", "C66_answer", "C66_exceptions", "C66_moves", "C66_accepted_types", "C66_order_irrelevant"], "note": "for functors that do not return a reference to a parameter they hold by value, which dangles in any C++ program"},
  {"property": "C67", "status": "partial", "theorems": ["C67_lookup", "C67_as_if_not_called", "C67_alive", "C67_no_leak", "C67_no_bad_pointer", "C67_enough_memory", "C67_who_throws", "C67_contents_kept", "C67_only_arguments_destroyed", "C67_lookups_kept", "C67_finds_all", "C67_lookups_kept_refuted"], "note": "lookups proved unchanged if every registered name is found (always without removals), refuted otherwise: a failing registration may rehash and revive a command that the erase defect had hidden; contents, ownership and leaks proved without this condition"},
  {"property": "C68", "status": "proved", "theorems": ["C68_programs", "C68_add_reference", "C68_get_reference", "C68_read", "C68_dangling", "C68_add", "C68_remove", "C68_clear", "C68_destroy", "C68_elsewhere", "C68_lengths", "C68_no_leak", "C68_reference_kept_refuted", "C68_remove_other_refuted", "C68_name_kept_refuted"], "note": "three natural wishes (a reference lives as long as its command, removing another command keeps it, a pointer keeps its name) are refuted"},
  {"property": "C69", "status": "proved", "theorems": ["C69_decay", "C69_decay_std", "C69_remove_cv", "C69_remove_reference", "C69_remove_pointer", "C69_is", "C69_move", "C69_forward", "C69_add", "C69_bind", "C69_bind_void", "C69_add_asserted", "C69_bind_asserted", "C69_func_traits", "C69_noexcept", "C69_arity", "C69_const_correct", "C69_variable", "C69_variable_pointer", "C69_property", "C69_bind_property", "C69_property_accepted", "C69_read_property", "C69_bind_read_property", "C69_read_accepted", "C69_assert_complete_refuted", "C69_bind_assert_complete_refuted", "C69_getter_refuted", "C69_constant_shown_refuted", "C69_pointer_result_refuted"], "note": "five natural wishes are refuted: the static_asserts do not report everything that cannot be called or bound, a mutable lambda cannot be a getter, constants need a fromString, pointers to pointers have no name"},
  {"property": "C70", "status": "proved", "theorems": ["C70_same", "C70_reads", "C70_reads_all", "C70_compares", "C70_pushes", "C70_linear"], "note": "element moves of growing vectors are counted in C41, not here"},
  {"property": "C71", "status": "proved", "theorems": ["C71_exceptions", "C71_no_leak", "C71_throws_iff", "C71_no_throw_same", "C71_logline_same", "C71_unchanged", "C71_requests", "C71_reserve", "C71_reserved", "C71_logf", "C71_loglinef", "C71_sprintf"], "note": "for programs that use their strings properly, as in C42"},
  {"property": "C72", "status": "proved", "theorems": ["C72_same", "C72_lookup", "C72_lookup_bucket", "C72_lookup_exact", "C72_add_exact", "C72_rehash_amortised", "C72_buckets", "C72_at_most_quadratic", "C72_worst_case", "C72_no_constant_bound"], "note": "element moves of growing vectors are counted in C41, not here"},
  {"property": "C73", "status": "proved", "theorems": ["C73_registers", "C73_registers_texts_kept", "C73_safe_iff_self_contained", "C73_full_statement_refuted", "C73_overwritten_text_refuted", "C73_conversion", "C73_printing", "C73_nested_value_refuted", "C73_result_input"], "note": "the statement names the types for which variables are registers; for all others it is refuted with sessions"},
  {"property": "C74", "status": "partial", "theorems": ["C74_destroyed_object_used_refuted", "C74_full_statement_fails", "C74_sessions_partial", "C74_no_moves_safe_partial", "C74_nothing_left_partial", "C74_repaired", "C74_answers_unique", "C74_moved_object_refuted", "C74_successor_loses_commands_refuted", "C74_example_commands", "C74_example_end"], "note": "proved for sessions whose removals are harmless in the sense of C20, and for all sessions with the repaired erase; refuted otherwise. The statements about the example itself are proved in full"},
  {"property": "C75", "status": "proved", "theorems": ["C75_compiles_iff", "C75_print_fault_iff", "C75_print_iff", "C75_print_from_zero", "C75_print_safe_refuted", "C75_read_iff", "C75_read_fault_iff", "C75_read_error_iff", "C75_read_count", "C75_round_trip_iff", "C75_round_trip_distinct", "C75_round_trip_refuted", "C75_all_visible_refuted", "C75_only_enumerators_refuted", "C75_examples_safe", "C75_reset_mode_refuted", "C75_flags_print_iff", "C75_flags_set_iff", "C75_flags_reject_iff", "C75_flags_text_back", "C75_flags_text_refuted", "C75_flags_shown_refuted", "C75_flags_session", "C75_draw"], "note": "six natural wishes are refuted with witnesses; the named cases of the statement are proved exactly"},
  {"property": "C76", "status": "proved", "theorems": ["C76_pair_accept_iff", "C76_pair_error_iff", "C76_vec2_text", "C76_vec2_read_back", "C76_vec2_exact_refuted", "C76_point_refuted", "C76_point_read_back", "C76_particle_text", "C76_entity_accept_iff", "C76_entity_error", "C76_entity_text", "C76_entity_read_back_refuted", "C76_array_accept_iff", "C76_array_error_iff", "C76_sum_iff", "C76_sum_fault_iff", "C76_angle_constant", "C76_angle_accept_iff", "C76_angle_error_iff", "C76_angle_command", "C76_angle_read_back_refuted", "C76_angle_plain_refuted", "C76_commands", "C76_spawn"], "note": "for a C library that rounds correctly; the cases in which shown texts are not accepted are refuted with witnesses and named in the statement"},
  {"property": "C77", "status": "proved", "theorems": ["C77_reply_unique", "C77_reply_total", "C77_session_iff", "C77_crash_iff", "C77_ends_iff", "C77_end_of_input_refuted", "C77_end_of_input_statement_refuted"], "note": "what an example writes is a parameter; the wish that the console ends with its input is refuted and named in the statement"},
  {"property": "C78", "status": "proved", "theorems": ["C78_session_iff", "C78_session_total", "C78_session_unique", "C78_inventory_grows", "C78_enums_safe", "C78_required_integer"], "note": "texts without NUL; item names are values, their lifetime is not modelled; numbers inherit the defect of C14"},
  {"property": "C79", "status": "partial", "theorems": ["C79_text_iff", "C79_input_iff", "C79_enough_memory", "C79_no_new_faults", "C79_only_bad_alloc", "C79_untouched", "C79_one_call", "C79_part_of_the_result", "C79_success_is_success", "C79_registry_kept", "C79_variable_partial", "C79_failed_assignment_refuted"], "note": "that a failed assignment leaves a variable unchanged is refuted; handlers do not catch bad_alloc themselves, except from a nested execute"},
  {"property": "C80", "status": "proved", "theorems": ["C80_parse", "C80_parse_safe", "C80_parse_freed", "C80_parse_enough_memory", "C80_execute", "C80_execute_freed", "C80_no_request_failed", "C80_enough_memory", "C80_throws_only_bad_alloc", "C80_no_new_faults", "C80_execute_input", "C80_session", "C80_default_lexer", "C80_default_session"], "note": "registration, converted values and memory of handlers themselves are not in the ledger"},
  {"property": "C81", "status": "proved", "theorems": ["C81_same", "C81_cost", "C81_cost_determined", "C81_text", "C81_steps", "C81_linear", "C81_each", "C81_executions", "C81_reserved"], "note": "the work of conversions, of printing and of handlers themselves is one step each"},
  {"property": "C82", "status": "proved", "theorems": ["C82_session_iff", "C82_disaster", "C82_described", "C82_safe", "C82_entities_stay"], "note": "a handler with undefined behaviour notes it and the session stops there; use of destroyed captures faults in the model of execution itself"},
  {"property": "C83", "status": "proved", "theorems": ["C83_session_iff", "C83_disaster", "C83_described", "C83_setter_answers", "C83_readers", "C83_accuracy", "C83_safe", "C83_negative_refuted", "C83_collapse"], "note": "C83_negative_refuted and C83_collapse document the undefined behaviour; hypotf is a function with the stated properties, resize throws or not depending on the new size only"},
  {"property": "C84", "status": "proved", "theorems": ["C84_session_iff", "C84_no_fault", "C84_described", "C84_ids", "C84_by_name", "C84_number_name", "C84_by_name_refuted", "C84_shadowed", "C84_listing"], "note": "C84_by_name_refuted documents that a name that is a number is taken for an id; push_back always gets its memory"},
  {"property": "C85", "status": "proved", "theorems": ["C85_session_iff", "C85_disaster", "C85_described", "C85_safe", "C85_stateless", "C85_sqrt", "C85_sqrt_zero", "C85_type_name", "C85_integers", "C85_named"], "note": "std::sqrt is any function on floats; the returned string_view is a string"},
  {"property": "C86", "status": "proved", "theorems": ["C86_session_iff", "C86_no_fault", "C86_described", "C86_variables", "C86_unique", "C86_type_names", "C86_type_numbers", "C86_declared_refuted", "C86_toggles"], "note": "the claim that type is one of the three is refuted and stated so"},
  {"property": "C87", "status": "proved", "theorems": ["C87_general_iff", "C87_float_iff", "C87_any_iff", "C87_one_text", "C87_whole", "C87_exact"], "note": "long double is x87 or any other binary format; the precision of %g is the default"},
  {"property": "C88", "status": "proved", "theorems": ["C88_session_iff", "C88_no_fault", "C88_described", "C88_stateless", "C88_by_count", "C88_no_second_choice", "C88_wrong_count"], "note": "texts without NUL; lengths up to INT_MAX"},
  {"property": "C89", "status": "proved", "theorems": ["C89_session_iff", "C89_disaster", "C89_described", "C89_scale", "C89_stdout", "C89_speakers", "C89_invert", "C89_add_commutes", "C89_add_zero"], "note": "texts without NUL; lengths up to INT_MAX; int of 32 bits; sums of floats without excess precision, a NaN has the sign of its first NaN operand; standard output never fails"},
  {"property": "C90", "status": "proved", "theorems": ["C90_session_iff", "C90_disaster", "C90_described", "C90_add_find", "C90_remove_find", "C90_ids_refuted", "C90_start", "C90_sum_order", "C90_sum_order_refuted", "C90_sum_nonneg"], "note": "texts without NUL; int of 32 bits; floats without excess precision or contraction, a NaN has the sign of its first NaN operand; std::vector is a list with enough memory; that ids survive removals is refuted (C90_ids_refuted)"},
  {"property": "C91", "status": "proved", "theorems": ["C91_session_iff", "C91_no_fault", "C91_described", "C91_add_get", "C91_update_keeps", "C91_still", "C91_sum_whole", "C91_sum_one", "C91_sum_order_refuted", "C91_first_counts", "C91_no_number"], "note": "texts without NUL; the name that typeid gives Point has no NUL; floats without excess precision or contraction, a NaN has the sign of its first NaN operand; std::vector is a list with enough memory; that sums do not depend on the order is refuted (C91_sum_order_refuted)"},
  {"property": "C92", "status": "proved", "theorems": ["C92_session_iff", "C92_no_fault", "C92_described", "C92_set_same", "C92_set_draw", "C92_shown_refuted"], "note": "texts without NUL; the name of the enumeration has no NUL; that the answer always tells which flags are set is refuted (C92_shown_refuted)"},
  {"property": "C93", "status": "proved", "theorems": ["C93_fault_iff", "C93_session_iff", "C93_described", "C93_undefined_is", "C93_same_conversion", "C93_mode_range", "C93_set_get", "C93_variable", "C93_rejected_refuted", "C93_safe_refuted"], "note": "texts without NUL; the names of the enumerations have no NUL; that only declared abilities are accepted and that every text is safe are refuted (C93_rejected_refuted, C93_safe_refuted)"}
]}
