{"claims": [
 {"property": "C01", "status": "proved", "theorems": ["C01_encoding_never_panics", "C01_static_content_inert", "C01_static_value_inert", "C01_value_argument"], "note": ""},
 {"property": "C02", "status": "proved", "theorems": ["C02_encoding_lossless", "C02_value_argument", "C02_encoding_injective", "C02_plain_unchanged"], "note": ""},
 {"property": "C03", "status": "proved", "theorems": ["C03_from_unencoded_str_encodes_refuted", "C03_from_unencoded_str_wrong_iff"], "note": "The documented claim is false of the code: refuted by a witness, and the exact behaviour is proved."},
 {"property": "C04", "status": "proved", "theorems": ["C04_identifier_accepted_iff", "C04_identifier_text", "C04_identifier_error_iff", "C04_name_argument"], "note": ""},
 {"property": "C05", "status": "proved", "theorems": ["C05_identifier_equality", "C05_identifier_equivalence"], "note": ""},
 {"property": "C06", "status": "proved", "theorems": ["C06_from_str_total", "C06_from_file_total", "C06_every_input_fits"], "note": ""},
 {"property": "C07", "status": "proved", "theorems": ["C07_forest"], "note": ""},
 {"property": "C08", "status": "proved", "theorems": ["C08_accepted_iff", "C08_same_or_limit", "C08_limit_error", "C08_no_limit_no_error"], "note": ""},
 {"property": "C09", "status": "proved", "theorems": ["C09_within", "C09_over"], "note": ""},
 {"property": "C10", "status": "proved", "theorems": ["C10_slices", "C10_spelling_unique", "C10_exact", "C10_unambiguous"], "note": ""},
 {"property": "C11", "status": "proved", "theorems": ["C11_round_trip", "C11_without_proviso_refuted", "C11_without_proviso_changed_refuted"], "note": "Proved with the proviso that no tag name begins with an exclamation mark; without it the claim is refuted."},
 {"property": "C12", "status": "proved", "theorems": ["C12_raw_text", "C12_raw_only"], "note": ""},
 {"property": "C13", "status": "proved", "theorems": ["C13_void_exact", "C13_kind", "C13_kind_unique"], "note": ""},
 {"property": "C14", "status": "proved", "theorems": ["C14_errors_true", "C14_errors_exact", "C14_one_fault", "C14_only_errors"], "note": ""},
 {"property": "C15", "status": "proved", "theorems": ["C15_location_of_prefix", "C15_location_unique"], "note": ""},
 {"property": "C16", "status": "proved", "theorems": ["C16_terminates", "C16_fuel_irrelevant", "C16_no_panic", "C16_no_internal_error", "C16_with_transformed_element"], "note": ""},
 {"property": "C17", "status": "proved", "theorems": ["C17_well_nested", "C17_events", "C17_arguments", "C17_transform"], "note": ""},
 {"property": "C18", "status": "proved", "theorems": ["C18_identity", "C18_select_no_match", "C18_select_once_no_match", "C18_select_direct_no_match", "C18_select_direct_once_no_match", "C18_select_unchanged", "C18_select_once_unchanged"], "note": ""},
 {"property": "C19", "status": "proved", "theorems": ["C19_select", "C19_outermost", "C19_selection_exists", "C19_selection_unique", "C19_failure"], "note": ""},
 {"property": "C20", "status": "proved", "theorems": ["C20_select_once", "C20_first_match", "C20_no_match"], "note": ""},
 {"property": "C21", "status": "proved", "theorems": ["C21_select_direct", "C21_top_level", "C21_selection_exists", "C21_select_direct_once", "C21_no_match"], "note": ""},
 {"property": "C22", "status": "proved", "theorems": ["C22_remove", "C22_replace", "C22_append", "C22_prepend", "C22_failure"], "note": ""},
 {"property": "C23", "status": "proved", "theorems": ["C23_remove_contents", "C23_replace_contents", "C23_append_contents", "C23_prepend_contents", "C23_failure", "C23_void"], "note": ""},
 {"property": "C24", "status": "proved", "theorems": ["C24_subselect_contents", "C24_subselect", "C24_subselect_once", "C24_void"], "note": ""},
 {"property": "C25", "status": "proved", "theorems": ["C25_repeat", "C25_repeat_failure", "C25_repeat_contents", "C25_repeat_contents_failure", "C25_or_else_no_items", "C25_or_else_items", "C25_contents_or_else_no_items", "C25_contents_or_else_items"], "note": ""},
 {"property": "C26", "status": "proved", "theorems": ["C26_list_set", "C26_list_remove", "C26_list_replace_if_exists", "C26_list_add_to_absent", "C26_list_add_to_present", "C26_add", "C26_set", "C26_remove", "C26_replace_present", "C26_replace_absent", "C26_add_to_absent", "C26_add_to_present"], "note": ""},
 {"property": "C27", "status": "proved", "theorems": ["C27_list_add_class", "C27_list_add_class_others", "C27_list_remove_class", "C27_list_remove_class_others", "C27_list_remove_class_absent", "C27_list_set_id", "C27_list_set_id_others", "C27_list_remove_id", "C27_add_class", "C27_remove_class", "C27_set_id", "C27_remove_id"], "note": ""},
 {"property": "C28", "status": "proved", "theorems": ["C28_attributes_only", "C28_invalid_name"], "note": ""},
 {"property": "C29", "status": "proved", "theorems": ["C29_errors_surface", "C29_errors_given", "C29_library_selectors", "C29_one_result"], "note": ""},
 {"property": "C30", "status": "proved", "theorems": ["C30_chain", "C30_chain_failure", "C30_chain_error", "C30_chain_same_error"], "note": ""},
 {"property": "C31", "status": "proved", "theorems": ["C31_apply", "C31_apply_if", "C31_apply_if_else", "C31_apply_with_option", "C31_apply_with_result", "C31_boxed", "C31_apply_as_boxed", "C31_apply_as_boxed_element"], "note": ""},
 {"property": "C32", "status": "proved", "theorems": ["C32_apply_as_template"], "note": ""},
 {"property": "C33", "status": "proved", "theorems": ["C33_unique_reading", "C33_accepted_iff", "C33_error_iff", "C33_unrestricted_iff", "C33_typed_construction", "C33_classes_accepted", "C33_classes_error"], "note": ""},
 {"property": "C34", "status": "proved", "theorems": ["C34_static", "C34_typed"], "note": ""},
 {"property": "C35", "status": "proved", "theorems": ["C35_success", "C35_schedule_irrelevant", "C35_whole_characters", "C35_ascii", "C35_errors", "C35_result", "C35_limit_stops", "C35_split_character_refuted"], "note": "Proved, with the finding that reads which split a character make a valid file fail to load."},
 {"property": "C36", "status": "proved", "theorems": ["C36_reflexive", "C36_symmetric", "C36_transitive", "C36_rendering", "C36_converse_refuted"], "note": "Equivalence and compatibility with rendering proved; the converse is refuted."},
 {"property": "C37", "status": "proved", "theorems": ["C37_integer_content", "C37_integer_value", "C37_value_argument", "C37_numeral_determines_number"], "note": ""},
 {"property": "C38", "status": "proved", "theorems": ["C38_with_element", "C38_with_identifier", "C38_with_transformed_element", "C38_invalid_name"], "note": ""},
 {"property": "C39", "status": "proved", "theorems": ["C39_kth_call", "C39_no_more_calls"], "note": ""},
 {"property": "C40", "status": "proved", "theorems": ["C40_mismatch_message_refuted", "C40_mismatch_message_swapped", "C40_invalid_closing_message_refuted"], "note": "The claim is false of the code: refuted, and proved that every mismatch message exchanges the tags."},
 {"property": "C41", "status": "proved", "theorems": ["C41_static_markup_free", "C41_structure_kept", "C41_static_calls", "C41_inserted_text", "C41_attribute_calls"], "note": ""},
 {"property": "C42", "status": "proved", "theorems": ["C42_opening_location_refuted", "C42_closing_location_refuted", "C42_never_at_start"], "note": "The documented claim is false of the code; proved refuted, and that the location is never the start of the tag."},
 {"property": "C43", "status": "proved", "theorems": ["C43_cause_chain_ends", "C43_report"], "note": ""},
 {"property": "C44", "status": "proved", "theorems": ["C44_repeat_refuted", "C44_attribute_refuted", "C44_element_refuted", "C44_comment_refuted", "C44_readable_parses", "C44_parsed_readable", "C44_element_readable", "C44_safe_pipeline", "C44_built_parses"], "note": "Refuted in general by three kinds of templates; proved for calls with safe arguments."},
 {"property": "C45", "status": "proved", "theorems": ["C45_returns", "C45_enough_steps", "C45_no_panic", "C45_element"], "note": ""},
 {"property": "C46", "status": "proved", "theorems": ["C46_parse", "C46_location", "C46_value_refuted", "C46_identifier", "C46_input", "C46_file", "C46_stream", "C46_selector", "C46_classes", "C46_static", "C46_malformed", "C46_element_name_refuted"], "note": "Proved with the exceptions listed in the statement; two of them are refutations of the unrestricted claim."},
 {"property": "C47", "status": "proved", "theorems": ["C47_last_call_counts", "C47_accepted", "C47_default_unlimited", "C47_looser_accepts", "C47_looser_rejects"], "note": ""},
 {"property": "C48", "status": "proved", "theorems": ["C48_error_stays", "C48_exactly"], "note": ""},
 {"property": "C49", "status": "proved", "theorems": ["C49_documents", "C49_rendering", "C49_error"], "note": ""},
 {"property": "C50", "status": "proved", "theorems": ["C50_success", "C50_failure", "C50_same_error_refuted"], "note": "Proved for successes and failures; that the error stays the same is refuted."},
 {"property": "C51", "status": "proved", "theorems": ["C51_removed", "C51_replaced", "C51_never_fails", "C51_replace", "C51_prepend_append", "C51_append_append", "C51_prepend_prepend", "C51_repeat_one", "C51_repeat_none", "C51_contents_then", "C51_contents_call"], "note": ""},
 {"property": "C52", "status": "proved", "theorems": ["C52_contents", "C52_set_later", "C52_removed_later", "C52_set", "C52_remove_commutes", "C52_set_commutes_refuted"], "note": "Proved; that setting different attributes commutes is refuted (the order of writing)."},
 {"property": "C53", "status": "proved", "theorems": ["C53_select_nothing", "C53_select_once_nothing", "C53_select_removed"], "note": ""},
 {"property": "C54", "status": "proved", "theorems": ["C54_rendered_tokens", "C54_newlines", "C54_tokenizer_steps", "C54_name_refuted", "C54_self_closed_refuted", "C54_text_element_refuted", "C54_plaintext_refuted", "C54_comment_refuted", "C54_comment_start_refuted", "C54_end_tag_refuted", "C54_escaped_refuted", "C54_nul_refuted"], "note": "Proved under the conditions of the statement; each condition has a refutation of the claim without it."},
 {"property": "C55", "status": "proved", "theorems": ["C55_kept", "C55_result", "C55_literals", "C55_unsettled_refuted"], "note": "Proved; that being read correctly before is enough is refuted."},
 {"property": "C56", "status": "proved", "theorems": ["C56_agree", "C56_rendered", "C56_value_refuted", "C56_start_refuted", "C56_end_refuted", "C56_doctype_refuted", "C56_space_refuted"], "note": "Proved for tidy texts; each condition of tidiness has a refutation of the claim without it."},
 {"property": "C57", "status": "proved", "theorems": ["C57_reports", "C57_real", "C57_converted", "C57_description", "C57_description_refuted"], "note": "The exceptions are the relation SameError. C57_description_refuted: the claim about description fails for StaticError."},
 {"property": "C58", "status": "proved", "theorems": ["C58_depth", "C58_result"], "note": "The bound is for the functions of the model; streams that only forward add a constant number of frames for each call."},
 {"property": "C59", "status": "proved", "theorems": ["C59_literal", "C59_element", "C59_rendered", "C59_newlines", "C59_each", "C59_pipeline", "C59_literals", "C59_parsed", "C59_local", "C59_divided_refuted", "C59_script_refuted"], "note": "Proved under the conditions of the statement; refuted without them (divided references, scripts). The table of names is part of the specification."},
 {"property": "C60", "status": "proved", "theorems": ["C60_origin", "C60_text"], "note": ""},
 {"property": "C61", "status": "proved", "theorems": ["C61_messages", "C61_characters", "C61_escape"], "note": ""},
 {"property": "C62", "status": "proved", "theorems": ["C62_same_result", "C62_quadratic", "C62_linear", "C62_accepted", "C62_recounted", "C62_linear_refuted"], "note": "Bounds proved for the counted steps of the model; that parsing is linear is refuted."},
 {"property": "C63", "status": "proved", "theorems": ["C63_same_result", "C63_linear", "C63_finishes", "C63_length", "C63_output", "C63_exponential", "C63_linear_refuted"], "note": "Proved for all programs of bounded size; without the bound refuted. What selectors, functions of the user and changes of attributes do inside a step is not counted."},
 {"property": "C64", "status": "proved", "theorems": ["C64_once", "C64_fuse", "C64_fuse_errors", "C64_fuse_tag", "C64_commute", "C64_commute_errors", "C64_fuse_refuted", "C64_commute_refuted"], "note": "Proved under the stated conditions; without them refuted."},
 {"property": "C65", "status": "proved", "theorems": ["C65_element", "C65_tag", "C65_attributes", "C65_attributes_avoid"], "note": "Proved in full."},
 {"property": "C66", "status": "proved", "theorems": ["C66_concat", "C66_pieces", "C66_inside", "C66_concat_refuted"], "note": "Proved in full; for builders that count their calls refuted."},
 {"property": "C67", "status": "proved", "theorems": ["C67_every_run", "C67_results", "C67_nested", "C67_no_panic", "C67_one_result", "C67_stateless", "C67_handed_on", "C67_returns", "C67_returns_refuted", "C67_contents_refuted", "C67_chain_refuted"], "note": "Proved in full; without a bound for the iterators and content streams termination is refuted. Selectors do not use the state in this model."},
 {"property": "C68", "status": "proved", "theorems": ["C68_returns", "C68_stateless"], "note": "Proved in full. Iterators and content streams that end only because of the states they find (an iterator draining a shared queue) are not covered."},
 {"property": "C69", "status": "proved", "theorems": ["C69_fails", "C69_error", "C69_elements", "C69_for_elements", "C69_met", "C69_once_fails", "C69_once_error", "C69_errors", "C69_unchanged_refuted"], "note": "Proved in full; C18 without its condition on selectors is refuted."},
 {"property": "C70", "status": "proved", "theorems": ["C70_same_result", "C70_in_step", "C70_invariant", "C70_same_calls", "C70_returns", "C70_itself"], "note": "Proved in full. Selectors do not use the state in this model."},
 {"property": "C71", "status": "proved", "theorems": ["C71_close", "C71_close_once", "C71_once_done", "C71_open", "C71_open_once", "C71_lasts", "C71_lasts_once", "C71_unmatched", "C71_unmatched_below", "C71_below", "C71_found_refuted"], "note": "Proved in full; that the error for a missing closing tag tells what was found instead is refuted."},
 {"property": "C72", "status": "proved", "theorems": ["C72_stays", "C72_stays_skip", "C72_asked", "C72_more"], "note": "Proved in full for the streams of the library. Streams of the user stay ended in this model; one that gives events again after its end is not modelled."},
 {"property": "C73", "status": "proved", "theorems": ["C73_like", "C73_texts", "C73_attributes", "C73_renamed"], "note": "C73_like is the general theorem; C73_texts, C73_attributes and C73_renamed are instances. Programs with apply_as_template are covered by C73_like (functions must treat related templates alike), the instances leave them out; C73_texts covers every selector that matches elements only and decides alike on texts, the other two the selectors of the library."},
 {"property": "C74", "status": "proved", "theorems": ["C74_not_asked", "C74_results", "C74_returns"], "note": "MachineAgain differs from MachineState only in that a content stream stays after its end; C74_not_asked says that both give the same outcome with the same fuel, so C67, C68 and C70 hold of it."},
 {"property": "C75", "status": "proved", "theorems": ["C75_returns", "C75_same_result", "C75_in_step"], "note": "C75_returns: the supply is any measure of the state; programs need not be Ending (C75_example_not_ending). C75_same_result and C75_in_step generalise C70 to relations that grow."},
 {"property": "C76", "status": "proved", "theorems": ["C76_kept", "C76_streams", "C76_collected_refuted"], "note": "The bound 8 * 16^depth is not tight, as shared cells are counted once for each reference. Memory used inside a call of next_event is bounded by C58. Programs with collecting calls: C76_streams, C76_collected_refuted."},
 {"property": "C77", "status": "proved", "theorems": ["C77_kept", "C77_streams"], "note": "The bound is that of C76. What closures, iterators and streams of the program keep themselves is not counted."},
 {"property": "C78", "status": "proved", "theorems": ["C78_depth", "C78_gives", "C78_result"], "note": "Results: C78_gives and C78_result. The depth inside of closures, iterators and streams of the program is theirs and not counted."},
 {"property": "C79", "status": "proved", "theorems": ["C79_stays", "C79_stays_skip", "C79_asked", "C79_more"], "note": "The content streams of the program themselves are not asked again after their end, so nothing is assumed of them."},
 {"property": "C80", "status": "proved", "theorems": ["C80_like", "C80_texts", "C80_attributes", "C80_renamed"], "note": "The cases for texts, attributes and renaming leave out apply_as_template, whose function sees all events; C80_like covers it for functions that treat alike what is alike."},
 {"property": "C81", "status": "proved", "theorems": ["C81_nested", "C81_errors_given", "C81_errors_surface", "C81_text", "C81_static"], "note": "Streams given as content that never end are taken to stop after any number N of events, as in C67; that errors surface is shown for contents without state."},
 {"property": "C82", "status": "proved", "theorems": ["C82_select", "C82_failure"], "note": "The calls that the closure makes have no state themselves; closures inside closures that share state are the subject of C67, C70 and C75."},
 {"property": "C83", "status": "proved", "theorems": ["C83_repeat", "C83_repeat_or_else", "C83_apply_as_template"], "note": "Both directions: the spec's interleavings are exactly the runs. No typing or well-formedness is assumed."},
 {"property": "C84", "status": "proved", "theorems": ["C84_append", "C84_prepend", "C84_replace", "C84_remove"], "note": "Both directions; no typing or well-formedness is assumed."},
 {"property": "C85", "status": "proved", "theorems": ["C85_repeat_contents", "C85_repeat_contents_or_else", "C85_append_contents", "C85_prepend_contents", "C85_replace_contents", "C85_void_repeat", "C85_void_content", "C85_void_or_else"], "note": "The element is the whole template and the call on it the only one; both directions."},
 {"property": "C86", "status": "proved", "theorems": ["C86_select_once", "C86_no_match", "C86_select_direct_once", "C86_direct_no_match", "C86_subselect_contents", "C86_subselect_contents_void"], "note": "The calls the closure makes, and those before, have no state (calls with state: C67 to C70)."},
 {"property": "C87", "status": "proved", "theorems": ["C87_subselect", "C87_subselect_failure", "C87_subselect_void", "C87_subselect_once", "C87_subselect_direct_once", "C87_once_no_match", "C87_direct_once_no_match", "C87_once_void"], "note": "The calls the closure makes, and those before, have no state (calls with state: C67 to C70)."},
 {"property": "C88", "status": "proved", "theorems": ["C88_element", "C88_leaf", "C88_failure", "C88_not_element", "C88_bad_name"], "note": "For void and self-closed tags the final state is not determined, as what comes after the tag is not read (C88_example_unread shows a case)."},
 {"property": "C89", "status": "proved", "theorems": ["C89_apply", "C89_apply_either", "C89_bad_selector"], "note": "The variants of apply with a condition are covered as the last call; without state they are covered anywhere (C31)."}
]}
