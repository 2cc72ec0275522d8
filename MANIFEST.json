{
 "claims": [
  {
   "property": "C01",
   "status": "proved",
   "theorems": [
    "C01_accepts_representable",
    "C01_rejects_overflow",
    "C01_value_accepts_exactly_json",
    "C01_only_json_accepted"
   ],
   "note": "ClaimsParse, ClaimsNum. Texts without runs of more than i32::MAX digits outside strings (digit_limit = 2147483200 where the f64 conversion is bounded in real arithmetic); representability of literals is characterised from both sides by C01_accepts_representable / C01_rejects_overflow."
  },
  {
   "property": "C02",
   "status": "proved",
   "theorems": [
    "C02_visitor_sees_the_document"
   ],
   "note": "ClaimsParse. Any record of visitor methods over any state."
  },
  {
   "property": "C03",
   "status": "proved",
   "theorems": [
    "C03_from_str_total",
    "C03_any_visitor_total"
   ],
   "note": "ClaimsParse. Termination is by construction of the model (fuel outcomes are excluded by the theorem); faults include out-of-bounds indexing, unwrap, arithmetic overflow."
  },
  {
   "property": "C04",
   "status": "proved",
   "theorems": [
    "C04_linear_number_of_calls",
    "C04_logging_is_transparent"
   ],
   "note": "ClaimsParse."
  },
  {
   "property": "C05",
   "status": "proved",
   "theorems": [
    "C05_arguments_are_legal"
   ],
   "note": "ClaimsParse."
  },
  {
   "property": "C06",
   "status": "proved",
   "theorems": [
    "C06_string_decoding"
   ],
   "note": "ClaimsParse."
  },
  {
   "property": "C07",
   "status": "proved",
   "theorems": [
    "C07_whitespace_is_irrelevant",
    "C07_whitespace_any_visitor",
    "C07_insert_whitespace"
   ],
   "note": "ClaimsParse."
  },
  {
   "property": "C08",
   "status": "proved",
   "theorems": [
    "C08_trailing_data_rejected",
    "C08_truncation_rejected"
   ],
   "note": "ClaimsParse."
  },
  {
   "property": "C09",
   "status": "proved",
   "theorems": [
    "C09_integers_exact"
   ],
   "note": "ClaimsNum."
  },
  {
   "property": "C10",
   "status": "proved",
   "theorems": [
    "C10_integer_targets",
    "C10_integer_result"
   ],
   "note": "ClaimsNum."
  },
  {
   "property": "C11",
   "status": "proved",
   "theorems": [
    "C11_float_accuracy",
    "C11_f64_needs_number",
    "C11_float_event_accuracy"
   ],
   "note": "ClaimsNum. Real-number statements with Flocq (stdlib Reals axioms)."
  },
  {
   "property": "C12",
   "status": "proved",
   "theorems": [
    "C12_integers_correctly_rounded",
    "C12_short_decimals_correctly_rounded"
   ],
   "note": "ClaimsNum."
  },
  {
   "property": "C13",
   "status": "proved",
   "theorems": [
    "C13_f64_always_finite",
    "C13_overflow_is_an_error"
   ],
   "note": "ClaimsNum."
  },
  {
   "property": "C14",
   "status": "proved",
   "theorems": [
    "C14_f32_rounds_the_f64"
   ],
   "note": "ClaimsNum."
  },
  {
   "property": "C15",
   "status": "proved",
   "theorems": [
    "C15_no_counter_overflow",
    "C15_overflow_beyond"
   ],
   "note": "ClaimsNum. C15_overflow_beyond exhibits a >2 GiB text on which the checked build panics."
  },
  {
   "property": "C16",
   "status": "proved",
   "theorems": [
    "C16_from_str_denotation",
    "C16_result_is_well_typed",
    "C16_reading_is_functional"
   ],
   "note": "ClaimsTypes. Reading.v is the independent specification."
  },
  {
   "property": "C17",
   "status": "proved",
   "theorems": [
    "C17_missing_field_is_an_error",
    "C17_missing_option_is_none",
    "C17_last_occurrence_wins",
    "C17_unknown_keys_are_skipped",
    "C17_key_order_is_irrelevant"
   ],
   "note": "ClaimsTypes."
  },
  {
   "property": "C18",
   "status": "proved",
   "theorems": [
    "C18_enum_reads_exactly_its_names",
    "C18_enum_writes_its_name"
   ],
   "note": "ClaimsTypes, ClaimsWrite."
  },
  {
   "property": "C19",
   "status": "proved",
   "theorems": [
    "C19_array_length",
    "C19_pair"
   ],
   "note": "ClaimsTypes."
  },
  {
   "property": "C20",
   "status": "proved",
   "theorems": [
    "C20_vec",
    "C20_json_array",
    "C20_vec_elementwise"
   ],
   "note": "ClaimsTypes."
  },
  {
   "property": "C21",
   "status": "proved",
   "theorems": [
    "C21_maps_keep_the_last",
    "C21_object_keeps_the_last"
   ],
   "note": "ClaimsTypes."
  },
  {
   "property": "C22",
   "status": "proved",
   "theorems": [
    "C22_option",
    "C22_box",
    "C22_option_writes",
    "C22_box_writes"
   ],
   "note": "ClaimsTypes, ClaimsWrite."
  },
  {
   "property": "C23",
   "status": "proved",
   "theorems": [
    "C23_ignored_values_must_be_well_formed"
   ],
   "note": "ClaimsTypes."
  },
  {
   "property": "C24",
   "status": "proved",
   "theorems": [
    "C24_no_undefined_behaviour"
   ],
   "note": "ClaimsTypes. Undefined behaviour is an explicit outcome of the heap model (Impls.v)."
  },
  {
   "property": "C25",
   "status": "proved",
   "theorems": [
    "C25_everything_released"
   ],
   "note": "ClaimsTypes."
  },
  {
   "property": "C26",
   "status": "proved",
   "theorems": [
    "C26_depth_bounded_by_the_type"
   ],
   "note": "ClaimsTypes."
  },
  {
   "property": "C27",
   "status": "proved",
   "theorems": [
    "C27_texts_are_exactly_these",
    "C27_any_serialize",
    "C27_only_what_was_described",
    "C27_no_panic",
    "C27_text_is_json",
    "C27_typed"
   ],
   "note": "ClaimsOpenClosed, ClaimsSer."
  },
  {
   "property": "C28",
   "status": "proved",
   "theorems": [
    "C28_output_is_printable",
    "C28_typed"
   ],
   "note": "ClaimsSer."
  },
  {
   "property": "C29",
   "status": "proved",
   "theorems": [
    "C29_f64",
    "C29_f32"
   ],
   "note": "ClaimsSer."
  },
  {
   "property": "C30",
   "status": "proved",
   "theorems": [
    "C30_strings_round_trip",
    "C30_only_specials_are_escaped"
   ],
   "note": "ClaimsSer."
  },
  {
   "property": "C31",
   "status": "proved",
   "theorems": [
    "C31_integers_round_trip"
   ],
   "note": "ClaimsSer."
  },
  {
   "property": "C32",
   "status": "proved",
   "theorems": [
    "C32_f32_round_trip"
   ],
   "note": "ClaimsSer. ryu is a parameter constrained by ryu_ok; exact_print (ExactPrint.v) is an instance."
  },
  {
   "property": "C33",
   "status": "proved",
   "theorems": [
    "C33_f64_round_trip",
    "C33_short_decimals_round_trip",
    "C33_exact_round_trip_refuted"
   ],
   "note": "ClaimsSer. C33_exact_round_trip_refuted: the exact round trip is false of the code (1e-23)."
  },
  {
   "property": "C34",
   "status": "proved",
   "theorems": [
    "C34_value_round_trip",
    "C34_without_floats",
    "C34_plain_unchanged"
   ],
   "note": "ClaimsWrite."
  },
  {
   "property": "C35",
   "status": "proved",
   "theorems": [
    "C35_round_trip",
    "C35_plain_values_unchanged",
    "C35_exact_types"
   ],
   "note": "ClaimsSer."
  },
  {
   "property": "C36",
   "status": "proved",
   "theorems": [
    "C36_value_keys_sorted",
    "C36_object_keys_sorted",
    "C36_btreemap_string_keys",
    "C36_btreemap_int_keys",
    "C36_struct_declaration_order",
    "C36_btreemap_bool_keys"
   ],
   "note": "ClaimsWrite."
  },
  {
   "property": "C37",
   "status": "proved",
   "theorems": [
    "C37_hash_order_is_irrelevant",
    "C37_any_target_type",
    "C37_integer_keys_refuted"
   ],
   "note": "ClaimsOrder. C37_integer_keys_refuted shows that the proviso on integer keys is needed."
  },
  {
   "property": "C38",
   "status": "proved",
   "theorems": [
    "C38_calls_are_the_walk",
    "C38_call_counts",
    "C38_pending_bounded_by_nesting"
   ],
   "note": "ClaimsOrder."
  },
  {
   "property": "C39",
   "status": "proved",
   "theorems": [
    "C39_drop_is_complete_and_shallow"
   ],
   "note": "ClaimsJson."
  },
  {
   "property": "C40",
   "status": "proved",
   "theorems": [
    "C40_clone_is_equal",
    "C40_clone_needs_depth",
    "C40_clone_overflows_on_parsed_values"
   ],
   "note": "ClaimsJson. Clone is recursive: C40_clone_overflows_on_parsed_values."
  },
  {
   "property": "C41",
   "status": "proved",
   "theorems": [
    "C41_wire_name",
    "C41_wire_name_unique",
    "C41_struct_code",
    "C41_enum_code",
    "C41_struct_refines",
    "C41_enum_refines"
   ],
   "note": "ClaimsDerive. C41_struct_refines / C41_enum_refines connect the generated code (by identifier) to the positional model used everywhere else."
  },
  {
   "property": "C42",
   "status": "proved",
   "theorems": [
    "C42_supported_items",
    "C42_error_otherwise",
    "C42_container_is_irrelevant"
   ],
   "note": "ClaimsDerive."
  },
  {
   "property": "C43",
   "status": "proved",
   "theorems": [
    "C43_display_agrees",
    "C43_integer_display_reads_back",
    "C43_display_of_nonfinite"
   ],
   "note": "ClaimsWrite."
  },
  {
   "property": "C44",
   "status": "proved",
   "theorems": [
    "C44_builders_are_bracketed"
   ],
   "note": "ClaimsParse."
  },
  {
   "property": "C45",
   "status": "proved",
   "theorems": [
    "C45_depth_bounded_by_the_type",
    "C45_deep_values_are_written"
   ],
   "note": "ClaimsOrder."
  },
  {
   "property": "C46",
   "status": "proved",
   "theorems": [
    "C46_float_sign",
    "C46_zero_literals"
   ],
   "note": "ClaimsFloat."
  },
  {
   "property": "C47",
   "status": "proved",
   "theorems": [
    "C47_spellings_are_close",
    "C47_equal_literals_different_floats"
   ],
   "note": "ClaimsFloat."
  },
  {
   "property": "C48",
   "status": "proved",
   "theorems": [
    "C48_panic_safe",
    "C48_each_builder_dropped_once",
    "C48_panicking_drop_loses_order"
   ],
   "note": "ClaimsPanic."
  },
  {
   "property": "C49",
   "status": "proved",
   "theorems": [
    "C49_first_failure_decides",
    "C49_nothing_after_an_error",
    "C49_result_of_a_failure"
   ],
   "note": "ClaimsPanic."
  },
  {
   "property": "C50",
   "status": "proved",
   "theorems": [
    "C50_recording_is_transparent",
    "C50_nested",
    "C50_each_iterator_dropped_once"
   ],
   "note": "ClaimsSerPanic."
  },
  {
   "property": "C51",
   "status": "proved",
   "theorems": [
    "C51_first_panic_decides",
    "C51_only_drops_after_a_panic",
    "C51_no_panic_of_its_own"
   ],
   "note": "ClaimsSerPanic."
  },
  {
   "property": "C52",
   "status": "proved",
   "theorems": [
    "C52_no_undefined_behaviour",
    "C52_out_well_typed",
    "C52_all_released",
    "C52_can_always_close"
   ],
   "note": "ClaimsClient."
  },
  {
   "property": "C53",
   "status": "proved",
   "theorems": [
    "C53_no_undefined_behaviour",
    "C53_out_is_owned",
    "C53_nothing_lost",
    "C53_finish_returns_the_elements"
   ],
   "note": "ClaimsArr."
  },
  {
   "property": "C54",
   "status": "proved",
   "theorems": [
    "C54_no_undefined_behaviour",
    "C54_out_is_owned",
    "C54_nothing_lost",
    "C54_only_unwrap_panics",
    "C54_user_errors_come_back"
   ],
   "note": "ClaimsBox."
  },
  {
   "property": "C55",
   "status": "proved",
   "theorems": [
    "C55_behaves_like_plain_data",
    "C55_no_undefined_behaviour",
    "C55_released_exactly_once",
    "C55_nothing_leaks"
   ],
   "note": "ClaimsOwn."
  },
  {
   "property": "C56",
   "status": "proved",
   "theorems": [
    "C56_scalars_model_closed",
    "C56_vec_models_closed",
    "C56_array_models_closed",
    "C56_option_models_closed",
    "C56_box_models_closed",
    "C56_map_models_closed",
    "C56_pair_models_closed",
    "C56_struct_models_closed",
    "C56_agrees_with_closed_model",
    "C56_enum_models_closed",
    "C56_enum",
    "C56_containers_are_regular",
    "C56_from_str",
    "C56_vec",
    "C56_array",
    "C56_option",
    "C56_box",
    "C56_pair",
    "C56_map",
    "C56_struct",
    "C56_vec_text",
    "C56_array_text",
    "C56_option_text",
    "C56_box_text",
    "C56_pair_text",
    "C56_pair_arity",
    "C56_map_text",
    "C56_struct_text",
    "C56_missing_option",
    "C56_required_types",
    "C56_missing_required"
   ],
   "note": "ClaimsClosed, ClaimsEnum, ClaimsUser."
  },
  {
   "property": "C57",
   "status": "proved",
   "theorems": [
    "C57_covers_closed_texts",
    "C57_agrees_with_closed_model",
    "C57_open_texts_are_specified",
    "C57_agrees_with_closed_model_hash",
    "C57_output_is_json",
    "C57_output_is_read",
    "C57_one_outcome",
    "C57_scalars",
    "C57_reference",
    "C57_option",
    "C57_slice",
    "C57_pair",
    "C57_map",
    "C57_struct",
    "C57_user_panics",
    "C57_user_delegates",
    "C57_user_sequence",
    "C57_user_map"
   ],
   "note": "ClaimsOpenClosed, ClaimsOpenJson, ClaimsOpenSer."
  },
  {
   "property": "C58",
   "status": "proved",
   "theorems": [
    "C58_enum",
    "C58_vec",
    "C58_array",
    "C58_pair",
    "C58_box",
    "C58_none",
    "C58_some",
    "C58_map",
    "C58_struct",
    "C58_scalars"
   ],
   "note": "ClaimsEnum, ClaimsRound."
  },
  {
   "property": "C59",
   "status": "proved",
   "theorems": [
    "C59_serialize",
    "C59_deserialize",
    "C59_fallback",
    "C59_helpers",
    "C59_helper_structs",
    "C59_headers",
    "C59_helper_field_names"
   ],
   "note": "ClaimsGenerics."
  },
  {
   "property": "C60",
   "status": "proved",
   "theorems": [
    "C60_string_as_variant",
    "C60_struct",
    "C60_map_as_struct",
    "C60_struct_as_map",
    "C60_as_option",
    "C60_as_box",
    "C60_pairs_and_slices",
    "C60_integers",
    "C60_variant_as_string",
    "C60_skippable",
    "C60_missing_required",
    "C60_missing_key"
   ],
   "note": "ClaimsEnum, ClaimsEvolve, ClaimsOpenJson."
  },
  {
   "property": "C61",
   "status": "proved",
   "theorems": [
    "C61_open_builders",
    "C61_nesting_of_json",
    "C61_open_builders_of_json",
    "C61_value_no_larger_than_text",
    "C61_text_is_linear",
    "C61_text_of_a_value",
    "C61_read_and_print"
   ],
   "note": "ClaimsSize."
  },
  {
   "property": "C62",
   "status": "proved",
   "theorems": [
    "C62_numbering_is_transparent_from_str",
    "C62_numbering_is_transparent_to_string",
    "C62_from_str",
    "C62_to_string",
    "C62_panicking_drop_refuted"
   ],
   "note": "ClaimsBorrow."
  },
  {
   "property": "C63",
   "status": "proved",
   "theorems": [
    "C63_counting_does_not_disturb_parsing",
    "C63_counting_does_not_disturb_printing",
    "C63_parsing_is_linear",
    "C63_calls_are_linear",
    "C63_printing_is_linear",
    "C63_every_byte_takes_a_step",
    "C63_every_call_is_a_step",
    "C63_every_byte_written_and_every_call_is_a_step",
    "C63_print_calls_are_linear"
   ],
   "note": "ClaimsCost."
  },
  {
   "property": "C64",
   "status": "proved",
   "theorems": [
    "C64_any_writer",
    "C64_format",
    "C64_debug_is_faithful",
    "C64_where_it_ends",
    "C64_debug_determines_json",
    "C64_no_control_characters",
    "C64_debug_overflows_on_parsed_values"
   ],
   "note": "ClaimsDebug."
  },
  {
   "property": "C65",
   "status": "proved",
   "theorems": [
    "C65_exactly_one",
    "C65_same_iff_same_document",
    "C65_text_determines_value",
    "C65_normal_form",
    "C65_shortest"
   ],
   "note": "ClaimsNorm."
  },
  {
   "property": "C66",
   "status": "proved",
   "theorems": [
    "C66_through_a_value",
    "C66_integers_through_a_value",
    "C66_same_outcome",
    "C66_same_document_same_outcome",
    "C66_detour_refuted"
   ],
   "note": "ClaimsThrough."
  },
  {
   "property": "C67",
   "status": "proved",
   "theorems": [
    "C67_f64_order",
    "C67_f64_order_reflected",
    "C67_f64_same_digits",
    "C67_f64_accepts_below",
    "C67_f64_far_apart",
    "C67_f32_order",
    "C67_scales_refuted",
    "C67_long_digits_refuted",
    "C67_f32_kinds_refuted"
   ],
   "note": "ClaimsMono."
  },
  {
   "property": "C68",
   "status": "proved",
   "theorems": [
    "C68_first_calls",
    "C68_no_lookahead",
    "C68_numbers_refuted",
    "C68_open_list_refuted"
   ],
   "note": "ClaimsCut."
  },
  {
   "property": "C69",
   "status": "proved",
   "theorems": [
    "C69_any_serialize",
    "C69_same_text",
    "C69_text_identifies_the_value",
    "C69_alike_values",
    "C69_options_refuted",
    "C69_integers_refuted",
    "C69_variants_refuted"
   ],
   "note": "ClaimsPrint."
  },
  {
   "property": "C70",
   "status": "proved",
   "theorems": [
    "C70_template",
    "C70_written_value",
    "C70_accepted",
    "C70_weaker_probes_refuted",
    "C70_script_refuted",
    "C70_lines"
   ],
   "note": "ClaimsTemplate."
  },
  {
   "property": "C71",
   "status": "proved",
   "theorems": [
    "C71_arrays",
    "C71_two_arrays",
    "C71_maps",
    "C71_objects",
    "C71_patch",
    "C71_strings",
    "C71_written_vec",
    "C71_written_string",
    "C71_empty_pieces_refuted",
    "C71_cuts_elsewhere_refuted",
    "C71_patch_null_refuted",
    "C71_user_arrays",
    "C71_user_maps"
   ],
   "note": "ClaimsChunk, ClaimsChunkUser."
  },
  {
   "property": "C72",
   "status": "proved",
   "theorems": [
    "C72_widening",
    "C72_narrowing",
    "C72_everything_is_a_value",
    "C72_new_field_refuted",
    "C72_boxed_option_refuted",
    "C72_string_keys_refuted"
   ],
   "note": "ClaimsWide."
  },
  {
   "property": "C73",
   "status": "proved",
   "theorems": [
    "C73_reordered",
    "C73_permutation",
    "C73_swap",
    "C73_equivalence",
    "C73_every_type",
    "C73_identifiers",
    "C73_integer_names",
    "C73_order_matters_refuted"
   ],
   "note": "ClaimsReorder."
  }
 ]
}