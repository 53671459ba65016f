{
 "claims": [
  {
   "property": "C01",
   "status": "proved",
   "theorems": [
    "C01_decode_total_iff_wellformed",
    "C01_decode_encode_roundtrip",
    "C01_decode_encode_panics_otherwise",
    "C01_interval_compound_refuted",
    "C01_encode_decode_roundtrip",
    "C01_encode_total_iff_serializable",
    "C01_named_struct_roundtrip"
   ],
   "note": "Round trips proved in both directions on their exact domains; the unrestricted claim is refuted for interval_compound (C01_interval_compound_refuted)."
  },
  {
   "property": "C02",
   "status": "proved",
   "theorems": [
    "C02_equals_is_structural",
    "C02_equals_refl",
    "C02_equals_sym",
    "C02_equals_trans",
    "C02_record_equals",
    "C02_enum_symmetry_refuted",
    "C02_unset_parameter_refuted",
    "C02_enum_equals"
   ],
   "note": "Structural equality proved for all types that can be part of a plan; refuted for enum argument types and unset UDT parameters."
  },
  {
   "property": "C03",
   "status": "proved",
   "theorems": [
    "C03_with_nullability_changes_only_nullability",
    "C03_with_nullability_unique",
    "C03_keeps_variation",
    "C03_last_write_wins",
    "C03_other_objects_unchanged_partial",
    "C03_interval_day_receiver_refuted",
    "C03_get_type_identity_except_tz",
    "C03_get_type_tz_refuted"
   ],
   "note": "Value law proved for all types; non-mutation proved for all kinds but interval_day, for which it is refuted."
  },
  {
   "property": "C04",
   "status": "proved",
   "theorems": [
    "C04_name_count",
    "C04_named_struct_string",
    "C04_root_names",
    "C04_root_names_never_panics",
    "C04_record_field"
   ],
   "note": "Count, printing and root-name validation proved for all schemas."
  },
  {
   "property": "C05",
   "status": "proved",
   "theorems": [
    "C05_match_ignoring_nullability",
    "C05_match_with_nullability",
    "C05_match_with_nullability_deep",
    "C05_with_nullability_is_stricter",
    "C05_variables_take_anything",
    "C05_nested_nullability_refuted",
    "C05_user_type_name_refuted",
    "C05_user_integer_refuted"
   ],
   "note": "Exact characterisation of both matchers for every declared type and argument type; nested nullability of function types, UDT names and wide UDT integers are refuted (findings)."
  },
  {
   "property": "C06",
   "status": "proved",
   "theorems": [
    "C06_count_accepted",
    "C06_result_needs_count",
    "C06_match_exact",
    "C06_match_exact_shared",
    "C06_match_implies",
    "C06_match_at",
    "C06_too_few_panics",
    "C06_positions_refuted",
    "C06_argument_count_bounds_refuted",
    "C06_argument_count_fixed",
    "C06_consistency_refuted",
    "C06_consistency"
   ],
   "note": "Exact acceptance for all signatures and calls, with and without shared integer parameters; counts exact; refuted: position bound, too-few-arguments panic, argument-count bounds, CONSISTENT with minimum over one."
  },
  {
   "property": "C07",
   "status": "proved",
   "theorems": [
    "C07_any_check_exact",
    "C07_any_check_all_occurrences",
    "C07_same_variable_same_type",
    "C07_plain_any_unconstrained",
    "C07_function_types_refuted",
    "C07_shared_integers_refuted"
   ],
   "note": "The check accepts exactly the calls for which a typing of the visible variables exists; refuted for variables inside function types and for signatures with shared integer parameters."
  },
  {
   "property": "C08",
   "status": "proved",
   "theorems": [
    "C08_mirror",
    "C08_mirror_inconsistent_refuted",
    "C08_declared",
    "C08_discrete_arguments",
    "C08_unknown_mode",
    "C08_only_outer_nullability_changes",
    "C08_user_type_reference",
    "C08_accepted_calls_have_a_type"
   ],
   "note": "Result nullability exact for each mode; only the outer nullability changes; user-defined references decode to the declared type; refuted for extra INCONSISTENT arguments under MIRROR."
  },
  {
   "property": "C09",
   "status": "proved",
   "theorems": [
    "C09_evaluation_complete",
    "C09_evaluation_sound",
    "C09_typed_expressions_evaluate",
    "C09_program_complete",
    "C09_program_sound",
    "C09_variables_bound",
    "C09_variables_conflict",
    "C09_result_complete",
    "C09_result_exact",
    "C09_program_result_sound",
    "C09_precision_arithmetic_refuted",
    "C09_precision_length_conflict_refuted",
    "C09_composite_final_type_refuted",
    "C09_nested_variable_refuted"
   ],
   "note": "Evaluation sound and complete for the arithmetic semantics, program order, variable binding and conflicts exact, result exact without program; refuted: precision arithmetic panics, composite final types, nested variables."
  },
  {
   "property": "C10",
   "status": "proved",
   "theorems": [
    "C10_any_result",
    "C10_any_result_is_argument",
    "C10_user_type_refuted"
   ],
   "note": "The result is exactly the first occurrence of the variable; refuted for variables inside user-defined types."
  },
  {
   "property": "C11",
   "status": "proved",
   "theorems": [
    "C11_encode_exact",
    "C11_roundtrip",
    "C11_int32_exponent_refuted",
    "C11_representable_refused_refuted",
    "C11_raw_bytes_accepted_iff"
   ],
   "note": "Exact acceptance, exact bytes/precision/scale and round trip for every decimal whose exponent is not near the int32 bounds; refuted at those bounds (int32 overflow)."
  },
  {
   "property": "C12",
   "status": "proved",
   "theorems": [
    "C12_negate_is_arithmetic_negation",
    "C12_negate_involutive",
    "C12_decode_is_twos_complement"
   ],
   "note": "Negation and decoding are two's complement arithmetic, for byte strings of any length (negate) and all 16-byte values."
  },
  {
   "property": "C13",
   "status": "proved",
   "theorems": [
    "C13_modify_preserves_value",
    "C13_modify_succeeds_iff",
    "C13_modify_zero_iff",
    "C13_zero_refused_refuted"
   ],
   "note": "Succeeds exactly when the number is representable at the target, and then keeps the number; zero needs precision > scale (finding)."
  },
  {
   "property": "C14",
   "status": "partial",
   "theorems": [
    "C14_units_name_their_instant",
    "C14_instant_to_units",
    "C14_round_trip_iff",
    "C14_finer_is_exact",
    "C14_coarser_rounds_down",
    "C14_coarser_consistent",
    "C14_coarser_before_epoch_refuted",
    "C14_duration_exact",
    "C14_duration_refuted",
    "C14_interval_precision",
    "C14_precision_accepted_iff"
   ],
   "note": "Exact round-trip condition, exact finer/coarser conversion from the epoch on; consistency is refuted before the epoch and durations are refuted near overflow."
  },
  {
   "property": "C15",
   "status": "proved",
   "theorems": [
    "C15_round_trip_iff",
    "C15_encodable_iff",
    "C15_readable_iff",
    "C15_message_round_trip",
    "C15_new_literal_exact",
    "C15_new_literal_error",
    "C15_new_literal_user",
    "C15_constructed_survives_iff",
    "C15_null_literal",
    "C15_before_epoch_refuted",
    "C15_year_month_refuted",
    "C15_day_microseconds_refuted",
    "C15_time_variation_refuted",
    "C15_compound_null_refuted",
    "C15_empty_message_refuted"
   ],
   "note": "Exact round-trip, encodability and readability conditions for every literal and every literal message; Go-value constructor exact; refuted: negative sub-second times, year-month and microsecond intervals, type variations on times, typed nulls of compound intervals, empty messages."
  },
  {
   "property": "C16",
   "status": "proved",
   "theorems": [
    "C16_path_type",
    "C16_path_unique",
    "C16_path_type_unknown_parts",
    "C16_new_field_ref",
    "C16_new_field_ref_refused",
    "C16_new_field_ref_from_type",
    "C16_decoded_reference_type",
    "C16_unset_root_is_root",
    "C16_path_round_trip",
    "C16_path_messages",
    "C16_flatten_in_order",
    "C16_flatten_heads",
    "C16_flatten_keeps_all_refuted"
   ],
   "note": "Path types, reference constructors, reading and writing of paths exact for all types and paths; flattening keeps only the head of element steps (refuted)."
  },
  {
   "property": "C17",
   "status": "proved",
   "theorems": [
    "C17_mask_round_trip",
    "C17_mask_messages"
   ],
   "note": "Mask round trips exact in both directions."
  },
  {
   "property": "C18",
   "status": "proved",
   "theorems": [
    "C18_round_trip_iff",
    "C18_aggregate_round_trip_iff",
    "C18_read_calls_are_declared",
    "C18_read_aggregate_is_declared",
    "C18_incomplete_refused",
    "C18_subqueries_need_a_converter",
    "C18_undeclared_function_refused",
    "C18_first_part_fails",
    "C18_later_part_fails",
    "C18_other_parts_fail",
    "C18_switch_without_else_refuted",
    "C18_unknown_function_renamed_refuted",
    "C18_unknown_function_panics_refuted"
   ],
   "note": "An expression survives the wire exactly under the stated condition on its parts; read calls are declared; incomplete messages refused; refuted: switch without else, unknown functions renamed or panicking."
  },
  {
   "property": "C19",
   "status": "proved",
   "theorems": [
    "C19_visit",
    "C19_nil_panics",
    "C19_answer_unique",
    "C19_visits_total_deterministic",
    "C19_switch_keys_must_stay_literals",
    "C19_multi_or_list",
    "C19_multi_or_list_options_refuted",
    "C19_identity"
   ],
   "note": "Visit characterised for every expression kind and every visitor; refuted: multi-or-list options."
  },
  {
   "property": "C20",
   "status": "proved",
   "theorems": [
    "C20_equality",
    "C20_reflexive",
    "C20_symmetric",
    "C20_transitive",
    "C20_scalar_arguments_refuted",
    "C20_if_without_else_refuted",
    "C20_window_bounds_type_refuted",
    "C20_set_comparison_refuted",
    "C20_literal_equality",
    "C20_literal_reflexive_iff"
   ],
   "note": "Equality exact, reflexive, symmetric and transitive on expressions without NaN, nil parts and with fixed argument counts; refuted outside: scalar arguments, if without else, window bounds type, set comparisons. Literals: exact."
  },
  {
   "property": "C21",
   "status": "proved",
   "theorems": [
    "C21_parameter_type",
    "C21_parameter_unique",
    "C21_build",
    "C21_failures_are_reported",
    "C21_malformed_lambda",
    "C21_built_references_are_scoped"
   ],
   "note": "Parameter types exact; builders build exactly what they describe and restore the scope on success and error; built references are scoped."
  },
  {
   "property": "C22",
   "status": "proved",
   "theorems": [
    "C22_anchors_number_first_uses",
    "C22_anchor_bijection",
    "C22_decode_exactly_requested",
    "C22_anchors_stable",
    "C22_urn_registered"
   ],
   "note": "Exact numbering, bijection, decoding, stability and URN registration for every history of requests (fewer than 2^32)."
  },
  {
   "property": "C23",
   "status": "partial",
   "theorems": [
    "C23_read_exact",
    "C23_write_read_roundtrip_partial",
    "C23_write_read_roundtrip_consistent",
    "C23_write_panics_iff",
    "C23_write_panics_refuted",
    "C23_written_form"
   ],
   "note": "Round trip proved for every consistent set and every map iteration order whenever ToProto returns; ToProto panics for sets with a type and two type variations (exact condition proved, refutation recorded)."
  },
  {
   "property": "C24",
   "status": "partial",
   "theorems": [
    "C24_request_effect",
    "C24_gap_anchor_reused_refuted",
    "C24_gap_urn_panics_refuted",
    "C24_no_gap_no_reuse_partial"
   ],
   "note": "The claim is refuted for tables with gaps; the exact effect of a request on any set and the gap-free case are proved."
  },
  {
   "property": "C25",
   "status": "proved",
   "theorems": [
    "C25_load_all_or_nothing",
    "C25_undecodable_changes_nothing",
    "C25_load_exact",
    "C25_urn_loaded_once",
    "C25_lookups_under_loaded_urn_stable",
    "C25_simple_name_finds_scalar",
    "C25_simple_name_of_aggregate_refuted",
    "C25_lookup_by_anchor"
   ],
   "note": "All-or-nothing, exact lookups and frame proved for every history of loads; the simple-name promise is refuted for aggregates."
  },
  {
   "property": "C26",
   "status": "proved",
   "theorems": [
    "C26_lookup_exact",
    "C26_by_name_exact",
    "C26_all_functions",
    "C26_count_agrees",
    "C26_variadic_count_refuted"
   ],
   "note": "Exact lookups for every registry; disagreement with the signature's own count rule recorded as refutation."
  },
  {
   "property": "C27",
   "status": "proved",
   "theorems": [
    "C27_localized_iff",
    "C27_answers",
    "C27_order_independent",
    "C27_runs_agree",
    "C27_every_order_iff",
    "C27_conflict_by_chance_refuted"
   ],
   "note": "Exact success condition for every iteration order, exact answers, order independence of successful runs; refuted with a name conflict."
  },
  {
   "property": "C28",
   "status": "proved",
   "theorems": [
    "C28_standard_exact",
    "C28_table_accepted",
    "C28_registered_exact",
    "C28_local_exact",
    "C28_to_local_exact",
    "C28_column_support",
    "C28_local_round_trip",
    "C28_standard_round_trip",
    "C28_precision_standard_refuted",
    "C28_precision_local_refuted",
    "C28_nullability_lost_refuted",
    "C28_other_kinds_refuted",
    "C28_two_names_order_refuted",
    "C28_read_frame",
    "C28_shared_interval_day_refuted"
   ],
   "note": "Both readers and the writer exact; round trips for simple, fixed-length and decimal types; refuted: nullability, precision types, year-month intervals, u!, duplicate kinds, shared interval_day object."
  },
  {
   "property": "C29",
   "status": "proved",
   "theorems": [
    "C29_remap",
    "C29_remap_out_of_range",
    "C29_receiver_unchanged",
    "C29_leaf_changed",
    "C29_receiver_unchanged_refuted",
    "C29_remaps",
    "C29_picks_all_functional"
   ],
   "note": "Exact for every relation and every sequence of remaps; refuted: a leaf relation is itself changed."
  },
  {
   "property": "C30",
   "status": "proved",
   "theorems": [
    "C30_join_schema",
    "C30_join_schema_exists",
    "C30_nullable_columns",
    "C30_other_joins",
    "C30_mark_join_refuted",
    "C30_hash_semi_join_refuted"
   ],
   "note": "Exact for the ten join types; refuted: mark joins (no columns), hash and merge joins of a semi type (both sides)."
  },
  {
   "property": "C31",
   "status": "proved",
   "theorems": [
    "C31_remap_builders",
    "C31_one_column_per_entry",
    "C31_project",
    "C31_cross",
    "C31_fetch",
    "C31_filter",
    "C31_sort",
    "C31_join",
    "C31_scan",
    "C31_set",
    "C31_set_mismatch",
    "C31_extensions",
    "C31_tables",
    "C31_nil_inputs",
    "C31_reported",
    "C31_writes",
    "C31_filter_refuted",
    "C31_named_write_refuted",
    "C31_create_table_refuted",
    "C31_untyped_project_refuted",
    "C31_column_reference",
    "C31_joined_column_reference",
    "C31_sort_fields"
   ],
   "note": "Every builder that checks the mapping against its own columns: exact acceptance, columns and frame; exact success conditions without mapping; refuted: FilterRemap over a mapped input, table writes, projection of untyped expressions."
  },
  {
   "property": "C32",
   "status": "proved",
   "theorems": [
    "C32_round_trip",
    "C32_written",
    "C32_read",
    "C32_read_declares",
    "C32_malformed_refused",
    "C32_how_refused",
    "C32_failing_input",
    "C32_failing_second_input",
    "C32_failing_expression",
    "C32_set_inputs_agree",
    "C32_set_mismatch",
    "C32_write_mode_refuted",
    "C32_mapping_on_the_wire",
    "C32_empty_mapping_refuted",
    "C32_physical_join_type_refuted",
    "C32_update_refuted"
   ],
   "note": "A relation is read back as itself exactly if its parts survive; what written and read messages say is given field by field; malformed messages are refused; refuted: output mode and update operation of table writes, empty mappings over the wire, physical join types outside eight bits."
  },
  {
   "property": "C33",
   "status": "proved",
   "theorems": [
    "C33_written",
    "C33_legacy_reads_same",
    "C33_legacy_round_trip",
    "C33_legacy_ignored",
    "C33_legacy_means_equality",
    "C33_legacy_lengths",
    "C33_missing_reference",
    "C33_comparisons_kept"
   ],
   "note": "For hash and merge joins: what is written is exact, the deprecated lists alone read the same, comparisons survive; unequal lists are refused."
  },
  {
   "property": "C34",
   "status": "partial",
   "theorems": [
    "C34_plan_accepted",
    "C34_single_relation",
    "C34_refused",
    "C34_with_others_partial",
    "C34_keeps_all_relations_refuted"
   ],
   "note": "Holds without other relations, acceptance exact; with others the exact content is proved and the claim is refuted: the first one is hidden, the last place is empty and serializing panics."
  },
  {
   "property": "C35",
   "status": "proved",
   "theorems": [
    "C35_cube",
    "C35_rollup",
    "C35_grouping_set",
    "C35_add_expression",
    "C35_other_calls",
    "C35_histories",
    "C35_build",
    "C35_build_refuses",
    "C35_references_in_range_refuted"
   ],
   "note": "Cube, rollup and deduplication exact; invariants for every history of calls; Build exact; refuted: negative references."
  },
  {
   "property": "C36",
   "status": "proved",
   "theorems": [
    "C36_aggregate_exprs",
    "C36_aggregate_columns",
    "C36_aggregate_no_columns",
    "C36_reader",
    "C36_reader_total",
    "C36_reader_merges_values_only",
    "C36_to_builder"
   ],
   "note": "For the builder, AggregateColumns and the reader of old-style groupings."
  },
  {
   "property": "C37",
   "status": "proved",
   "theorems": [
    "C37_accepted_bindings_are_right",
    "C37_value_type",
    "C37_right_bindings_are_accepted",
    "C37_unused_parameter_refused",
    "C37_no_bindings",
    "C37_collected",
    "C37_walk_is_visit",
    "C37_walk",
    "C37_unsearched_places_refuted",
    "C37_two_types_refuted"
   ],
   "note": "Accepted bindings are exactly right ones wherever a parameter is searched and used with one type; refuted: places the search skips, a parameter used with two types."
  },
  {
   "property": "C38",
   "status": "proved",
   "theorems": [
    "C38_rewrite",
    "C38_result_unique",
    "C38_answers_or_fails",
    "C38_failure",
    "C38_wrong_inputs",
    "C38_virtual_table",
    "C38_copy",
    "C38_inputs",
    "C38_unreached_refuted"
   ],
   "note": "Result, uniqueness, totality and failures exact for every kind of relation; refuted: hash and merge join keys, sorts of aggregate functions, rows of a virtual table whose filters are unchanged are not reached."
  },
  {
   "property": "C39",
   "status": "proved",
   "theorems": [
    "C39_getter_is_a_copy",
    "C39_assignment",
    "C39_builder_refuted",
    "C39_message_refuted"
   ],
   "note": "The returned slice is separate in both directions, for every later history of assignments; refuted for the slice given to a builder and the slice in the emitted message."
  },
  {
   "property": "C40",
   "status": "proved",
   "theorems": [
    "C40_schema",
    "C40_others_unchanged",
    "C40_again",
    "C40_same_columns",
    "C40_record_type",
    "C40_append",
    "C40_spare_room_refuted",
    "C40_no_columns_refuted",
    "C40_shared_array_refuted"
   ],
   "note": "For every relation tree, slice layout and allocation policy satisfying the stated condition; the condition is necessary in the refuted cases (room behind the left schema, right side without columns, shared array)."
  },
  {
   "property": "C41",
   "status": "proved",
   "theorems": [
    "C41_new_time",
    "C41_new_time_overflow_refuted",
    "C41_new_time_from_micros",
    "C41_new_time_of_clock",
    "C41_precision_time_from_instant",
    "C41_interval_years_months_round_trip",
    "C41_interval_parse_total",
    "C41_interval_parse_refuted"
   ],
   "note": "Time and interval constructors: exact acceptance whenever the duration fits int64, printed intervals read back; refuted for hours beyond the duration range. Day-time interval strings are C62's."
  },
  {
   "property": "C42",
   "status": "proved",
   "theorems": [
    "C42_new_list_iff",
    "C42_new_map_iff",
    "C42_empty_collections",
    "C42_collections_survive",
    "C42_user_defined"
   ],
   "note": "List and map constructors accept exactly homogeneous non-empty inputs; the result's type and survival on the wire are proved."
  },
  {
   "property": "C43",
   "status": "proved",
   "theorems": [
    "C43_virtual_table",
    "C43_literal_rows",
    "C43_no_rows_or_wrong_width",
    "C43_long_row_panics",
    "C43_misfit",
    "C43_every_row_full_refuted"
   ],
   "note": "Exact acceptance; the claim itself is refuted for rows after the first (short rows accepted, long rows panic)."
  },
  {
   "property": "C44",
   "status": "proved",
   "theorems": [
    "C44_in",
    "C44_in_refused",
    "C44_set",
    "C44_comparison",
    "C44_nil_inputs",
    "C44_scalar",
    "C44_scalar_type",
    "C44_scalar_refuted"
   ],
   "note": "Exact acceptance; refuted for scalar subqueries."
  },
  {
   "property": "C45",
   "status": "proved",
   "theorems": [
    "C45_states_target",
    "C45_keeps_value",
    "C45_decimal_same_number",
    "C45_decimal_succeeds_iff",
    "C45_times_finer_exact",
    "C45_times_coarser_rounds_down",
    "C45_interval_scaled",
    "C45_kinds",
    "C45_ill_formed_panics",
    "C45_decimal_first_sixteen",
    "C45_decimal_variation_refuted",
    "C45_interval_microseconds_refuted",
    "C45_length_unchecked_refuted"
   ],
   "note": "Result type, value and acceptance exact for every kind; refuted: decimal type variation, interval units, unchecked lengths."
  },
  {
   "property": "C46",
   "status": "proved",
   "theorems": [
    "C46_if_then",
    "C46_if_then_unknown_type",
    "C46_switch"
   ],
   "note": "Exact acceptance of both constructors."
  },
  {
   "property": "C47",
   "status": "proved",
   "theorems": [
    "C47_scalar",
    "C47_aggregate",
    "C47_window",
    "C47_determined"
   ],
   "note": "Exact; the result type resolution itself is a parameter here and the subject of C08-C10."
  },
  {
   "property": "C48",
   "status": "proved",
   "theorems": [
    "C48_type",
    "C48_type_unique",
    "C48_if_without_else_refuted"
   ],
   "note": "Exact for every expression; refuted: the type of an if without else panics."
  },
  {
   "property": "C49",
   "status": "proved",
   "theorems": [
    "C49_is_scalar"
   ],
   "note": "Exact for every expression without nil operands."
  },
  {
   "property": "C50",
   "status": "proved",
   "theorems": [
    "C50_loaded_iff",
    "C50_content"
   ],
   "note": "Exact acceptance and exact content for every decoded file (dependencies without duplicate keys, as in a Go map)."
  },
  {
   "property": "C51",
   "status": "proved",
   "theorems": [
    "C51_by_invocation_exact",
    "C51_ids_of_all",
    "C51_distinct",
    "C51_two_kinds_panic_refuted",
    "C51_short_name",
    "C51_short_names_distinguish_kinds"
   ],
   "note": "Exact answers and panics for every invocation; refuted: one identity declared for two kinds."
  },
  {
   "property": "C52",
   "status": "proved",
   "theorems": [
    "C52_output_schema",
    "C52_columns_functional",
    "C52_unspecified_write_panics",
    "C52_empty_set_panics",
    "C52_mapping_out_of_range_panics"
   ],
   "note": "Exact for every relation."
  },
  {
   "property": "C53",
   "status": "proved",
   "theorems": [
    "C53_plan_round_trip",
    "C53_reread_round_trip",
    "C53_written",
    "C53_read",
    "C53_refused",
    "C53_unset_entry",
    "C53_empty_entry",
    "C53_unchecked_binding_refuted"
   ],
   "note": "Exact condition for the round trip; what written and read messages say is given field by field; refuted: bindings of a plan that is read are not checked."
  },
  {
   "property": "C54",
   "status": "proved",
   "theorems": [
    "C54_relation_calls_are_declared",
    "C54_plan_calls_are_declared",
    "C54_gap_misdirects_call_refuted"
   ],
   "note": "For relation and plan messages, every place a call can stand; refuted without the numbering condition."
  },
  {
   "property": "C55",
   "status": "proved",
   "theorems": [
    "C55_round_trip",
    "C55_text_determines_type",
    "C55_function_text_refuted",
    "C55_function_parameter_refuted",
    "C55_nested_conditional_refuted"
   ],
   "note": "For every tree the grammar allows for the printed text; refuted: functions with other than one parameter, parameters that are not types, nested conditionals and negated operands."
  },
  {
   "property": "C56",
   "status": "proved",
   "theorems": [
    "C56_what_is_read",
    "C56_everything_sane_can_be_written",
    "C56_reading_never_panics",
    "C56_written_is_sane",
    "C56_wide_parameter_refuted",
    "C56_compound_interval_refuted",
    "C56_meaning",
    "C56_meaningless",
    "C56_tokens"
   ],
   "note": "Both directions; what the generated parser does with the grammar is trusted (some tree for the tokens if there is one); refuted: wide parameters, compound intervals."
  },
  {
   "property": "C57",
   "status": "proved",
   "theorems": [
    "C57_reads_back",
    "C57_same_text",
    "C57_shared_text_refuted"
   ],
   "note": "Reading back and text equality exact; refuted: user-defined types, year-month intervals, unspecified nullability."
  },
  {
   "property": "C58",
   "status": "proved",
   "theorems": [
    "C58_letter_case",
    "C58_blanks",
    "C58_stray_characters_refuted"
   ],
   "note": "For every text (blanks: where no comment precedes); refuted: stray characters are accepted."
  },
  {
   "property": "C59",
   "status": "proved",
   "theorems": [
    "C59_round_trip",
    "C59_written",
    "C59_read",
    "C59_refused",
    "C59_calls_are_declared",
    "C59_one_at_a_time",
    "C59_subquery_refuted",
    "C59_assembled_by_hand_refuted",
    "C59_set_ignored_refuted"
   ],
   "note": "Exact condition for the round trip; refuted: subqueries, values assembled by hand, a changed public set."
  },
  {
   "property": "C60",
   "status": "proved",
   "theorems": [
    "C60_calendar",
    "C60_date_text",
    "C60_date_from_text",
    "C60_date_from_text_total",
    "C60_date_round_trip"
   ],
   "note": "Calendar, printing and reading exact; the round trip holds exactly in the years 0 to 9999."
  },
  {
   "property": "C61",
   "status": "proved",
   "theorems": [
    "C61_moment",
    "C61_time_texts",
    "C61_timestamp_texts",
    "C61_precision_texts",
    "C61_precision_texts_panic",
    "C61_texts_are_unambiguous",
    "C61_time_from_text",
    "C61_timestamp_from_text",
    "C61_precision_from_text",
    "C61_time_round_trip",
    "C61_timestamp_round_trip",
    "C61_precision_round_trip",
    "C61_value_text_is_not_read",
    "C61_texts_refuted"
   ],
   "note": "Printing to the letter, reading exact, round trips with their exact year range; refuted: value texts that cut or that are not read, offsets, nanoseconds out of range."
  },
  {
   "property": "C62",
   "status": "proved",
   "theorems": [
    "C62_rounding",
    "C62_exactly",
    "C62_accepted",
    "C62_unambiguous",
    "C62_whole",
    "C62_fraction",
    "C62_binary_fractions",
    "C62_last_digit_refuted",
    "C62_cut_refuted",
    "C62_text_says",
    "C62_round_trip",
    "C62_cancelled",
    "C62_days_round_trip",
    "C62_milliseconds_refuted",
    "C62_short_refuted",
    "C62_nothing_refuted",
    "C62_negative_refuted"
   ],
   "note": "Acceptance exact, the value read is exactly what float64 arithmetic gives (nearest, ties to even) and its error bounded for every text, round trip from one second on; refuted: shorter times, lost nanosecond, silent cut to 32 bits."
  },
  {
   "property": "C63",
   "status": "proved",
   "theorems": [
    "C63_read",
    "C63_needs_digits",
    "C63_refused",
    "C63_unambiguous",
    "C63_never_panics",
    "C63_reads_back",
    "C63_literal",
    "C63_blanks_refuted"
   ],
   "note": "Acceptance and value exact for every text; refuted: blanks around a number."
  },
  {
   "property": "C64",
   "status": "proved",
   "theorems": [
    "C64_file",
    "C64_accepted_iff",
    "C64_never_panics",
    "C64_every_case",
    "C64_no_description_refuted"
   ],
   "note": "From the syntax tree on, exact: what is read, and when; refuted: groups without a description."
  },
  {
   "property": "C65",
   "status": "proved",
   "theorems": [
    "C65_argument",
    "C65_list",
    "C65_undeclared",
    "C65_value_of_type",
    "C65_shared_interval",
    "C65_shared_interval_refuted",
    "C65_wraps_refuted",
    "C65_elements_of_type_refuted",
    "C65_dropped_refuted",
    "C65_empty_inner_refuted",
    "C65_nulls_refuted",
    "C65_fixed_length_refuted",
    "C65_parameter_wraps_refuted"
   ],
   "note": "Exact for every argument; lists with a null in a required day-time interval type characterised by their own theorem; refutations for cut numbers, elements of other types, dropped elements."
  },
  {
   "property": "C66",
   "status": "proved",
   "theorems": [
    "C66_constant",
    "C66_compact",
    "C66_table",
    "C66_values",
    "C66_shared_values",
    "C66_cell_type",
    "C66_constant_type_refuted",
    "C66_other_values_refuted",
    "C66_interval_precision_refuted",
    "C66_extra_cells_refuted",
    "C66_unnamed_null_refuted",
    "C66_disagreeing_refuted",
    "C66_no_rows_refuted",
    "C66_nullable_argument_refuted",
    "C66_values_type_refuted",
    "C66_column_word_refuted"
   ],
   "note": "Exact for the three kinds of calls and for constant arguments (texts below 2 GB, no null in a required day-time interval type); that case has its own theorem for values; refutations of what a reader would expect."
  },
  {
   "property": "C67",
   "status": "proved",
   "theorems": [
    "C67_name",
    "C67_types",
    "C67_options",
    "C67_scalar",
    "C67_aggregate",
    "C67_column_type",
    "C67_options_kept",
    "C67_scalar_refused",
    "C67_other_kind",
    "C67_scalar_panics",
    "C67_aggregate_panics",
    "C67_data",
    "C67_no_data",
    "C67_data_panics",
    "C67_second_column_refuted",
    "C67_column_order_refuted",
    "C67_after_constant_refuted"
   ],
   "note": "Exact; matching, variadic behaviour and return type resolution of declarations are parameters (C06-C08 prove them), map iteration orders are universally quantified."
  },
  {
   "property": "C68",
   "status": "proved",
   "theorems": [
    "C68_argument",
    "C68_arguments",
    "C68_word",
    "C68_instances_spelled_alike",
    "C68_found_by_bare_name",
    "C68_matching_call_found",
    "C68_names_apart",
    "C68_names_apart_refuted",
    "C68_user_types",
    "C68_implementation",
    "C68_types_declared",
    "C68_deterministic",
    "C68_any_by_bare_name_refuted"
   ],
   "note": "Exact; the type parser is a parameter (C55, C56), YAML text to maps is not modelled."
  },
  {
   "property": "C69",
   "status": "proved",
   "theorems": [
    "C69_value",
    "C69_value_total",
    "C69_literal",
    "C69_case",
    "C69_printed",
    "C69_shown",
    "C69_options",
    "C69_reads_back",
    "C69_enum",
    "C69_wrong_value",
    "C69_missing",
    "C69_other_kinds",
    "C69_precision_refuted",
    "C69_binary_refuted",
    "C69_lists_refuted",
    "C69_digits_refuted",
    "C69_year_refuted",
    "C69_interval_refuted"
   ],
   "note": "Exact; texts of floats and decimals are parameters (reading those back assumes the text says the number). Arguments read back under the declared type they were read with; the grammar of test files is C77's and C78's."
  },
  {
   "property": "C70",
   "status": "proved",
   "theorems": [
    "C70_text",
    "C70_refused",
    "C70_too_large",
    "C70_float32",
    "C70_fp64_argument",
    "C70_fp32_argument",
    "C70_fp32_nearest_refuted",
    "C70_fp32_range_refuted"
   ],
   "note": "Exact for every text that is not hexadecimal and every float64; the conversion of digits to binary inside the Go library is modelled by its result, the nearest float64."
  },
  {
   "property": "C71",
   "status": "proved",
   "theorems": [
    "C71_text",
    "C71_says",
    "C71_reads_back",
    "C71_literal",
    "C71_literal_again",
    "C71_test_argument",
    "C71_reads_back_refuted"
   ],
   "note": "Exact to the letter. apd's String is modelled after its documentation; the one point on which its releases differ (zeros with places) is a parameter, and every theorem holds for both."
  },
  {
   "property": "C72",
   "status": "proved",
   "theorems": [
    "C72_depends",
    "C72_reports",
    "C72_mentions",
    "C72_mentions_back",
    "C72_mentions_refuted"
   ],
   "note": "Both methods are characterised exactly; the refutation shows where a name is overlooked."
  },
  {
   "property": "C73",
   "status": "proved",
   "theorems": [
    "C73_text",
    "C73_panics",
    "C73_has_text",
    "C73_literal",
    "C73_literal_panics",
    "C73_single",
    "C73_aggregate",
    "C73_aggregate_panics",
    "C73_masked_refuted",
    "C73_custom_aggregate_refuted"
   ],
   "note": "Exact to the letter in both directions. What ValueString says is C69's; the texts of relations, and what fmt writes after catching a panic, are parameters."
  },
  {
   "property": "C74",
   "status": "proved",
   "theorems": [
    "C74_values",
    "C74_panics",
    "C74_clone",
    "C74_independent",
    "C74_get_option",
    "C74_option_message_refuted",
    "C74_shared_arguments_refuted"
   ],
   "note": "Refinement of the heap of slices to plain values, for every sequence of operations. Functions are assumed to start with arrays of their own; without that it is false (refuted). Writes beyond a slice's length by re-slicing up to its capacity are not operations of the model."
  },
  {
   "property": "C75",
   "status": "proved",
   "theorems": [
    "C75_once",
    "C75_answer",
    "C75_same",
    "C75_finishes",
    "C75_progress",
    "C75_lookups_stay",
    "C75_no_error",
    "C75_private_refuted"
   ],
   "note": "Safety for every schedule; that all calls can finish is proved as: from every reachable state some schedule finishes them, and some goroutine can always go on. sync.OnceValues and sync.Once are modelled from the Go library's source, memory as sequentially consistent."
  },
  {
   "property": "C76",
   "status": "proved",
   "theorems": [
    "C76_scalar",
    "C76_aggregate",
    "C76_window",
    "C76_plain",
    "C76_panics",
    "C76_bare",
    "C76_answers",
    "C76_id_kept",
    "C76_id_refuted",
    "C76_max_set",
    "C76_max_set_refuted",
    "C76_match",
    "C76_match_refuted",
    "C76_no_result_type",
    "C76_declared",
    "C76_resolve_urn",
    "C76_resolve_urn_refuted"
   ],
   "note": "The type parser is a parameter (any function from texts to types; C55 and C56 are about the real one)."
  },
  {
   "property": "C77",
   "status": "proved",
   "theorems": [
    "C77_tokens",
    "C77_one_reading",
    "C77_no_space",
    "C77_pieces",
    "C77_names",
    "C77_names_refuted",
    "C77_unclosed",
    "C77_stray_refuted",
    "C77_comment_refuted",
    "C77_date_string_refuted",
    "C77_after_token",
    "C77_after_space"
   ],
   "note": "Exact, both directions. The rules are decoded from the serialized automaton; that the ANTLR runtime takes the longest match and the first rule, and recovers as documented, is trusted."
  },
  {
   "property": "C78",
   "status": "proved",
   "theorems": [
    "C78_tree",
    "C78_unambiguous",
    "C78_reads",
    "C78_says",
    "C78_refused",
    "C78_never_panics",
    "C78_only_tokens",
    "C78_has_arguments",
    "C78_has_cases",
    "C78_no_arguments_refuted",
    "C78_date_string_refuted",
    "C78_leading_zero_refuted",
    "C78_stray_refuted",
    "C78_unclosed_refuted",
    "C78_dependencies_refuted",
    "C78_no_hexadecimal"
   ],
   "note": "Exact, both directions, from the text to the cases (with C64, C65, C66 and C70). The grammar is decoded from the serialized automaton; that the ANTLR runtime finds the tree if there is one, and reports an error if not, is trusted."
  },
  {
   "property": "C79",
   "status": "proved",
   "theorems": [
    "C79_latest_unique",
    "C79_scalar",
    "C79_window",
    "C79_aggregate",
    "C79_cast",
    "C79_fixed",
    "C79_numbers",
    "C79_build",
    "C79_nil_builder",
    "C79_stands_unique",
    "C79_build_aggregate",
    "C79_returns",
    "C79_self_refuted",
    "C79_shared_refuted",
    "C79_scope_after_panic_refuted"
   ],
   "note": "Histories are exact; what building a described expression returns is C21's. Lists passed as arguments are values: sharing of their storage with the caller is not modelled, nor are builders of several ExprBuilders in one expression."
  },
  {
   "property": "C80",
   "status": "proved",
   "theorems": [
    "C80_found",
    "C80_refused",
    "C80_apart",
    "C80_for_good",
    "C80_fields",
    "C80_copy_refuted",
    "C80_nil_decoder_refuted"
   ],
   "note": "Histories are exact. The extension set behind a registry is named only: what is in it is the anchor theorems' subject. Concurrent use is outside: the maps have no lock."
  },
  {
   "property": "C81",
   "status": "proved",
   "theorems": [
    "C81_set",
    "C81_reported",
    "C81_last",
    "C81_same",
    "C81_kept",
    "C81_accepted",
    "C81_text",
    "C81_result",
    "C81_result_enum",
    "C81_result_any",
    "C81_seen",
    "C81_shared_refuted",
    "C81_parts"
   ],
   "note": "Matching, binding, printing and result types are the functions of C05 to C10, C55 and C72. Declared types that share parts are outside: a type is a tree."
  },
  {
   "property": "C82",
   "status": "proved",
   "theorems": [
    "C82_builder",
    "C82_relation",
    "C82_new",
    "C82_only",
    "C82_stays",
    "C82_references",
    "C82_slice",
    "C82_write",
    "C82_rollup",
    "C82_cube",
    "C82_caller_refuted"
   ],
   "note": "Input, measures and validation are those of C35. Callers writing through the slices the getters return, or calling the setters of a relation themselves, are outside, apart from writes to slices of references."
  },
  {
   "property": "C83",
   "status": "proved",
   "theorems": [
    "C83_schema",
    "C83_kept",
    "C83_kept_history",
    "C83_result",
    "C83_copy",
    "C83_copy_schema",
    "C83_remap",
    "C83_remap_refused",
    "C83_remap_panics",
    "C83_built",
    "C83_not_built",
    "C83_build_panics",
    "C83_shared_refuted"
   ],
   "note": "Reads, projections, fetches and cross products; the schemas of the other kinds are those of C52. The types of the expressions of a projection are given: a field reference keeps the type it was made with. Scalar subqueries, whose type follows a relation, are outside."
  },
  {
   "property": "C84",
   "status": "proved",
   "theorems": [
    "C84_anchor",
    "C84_builder",
    "C84_plan",
    "C84_stable",
    "C84_apart",
    "C84_written",
    "C84_missing",
    "C84_made",
    "C84_plan_grows_refuted"
   ],
   "note": "Histories of fewer than 2^32 calls. Building a plan stands for a call whose relation, names and bindings pass the checks (C34); the collection and the functions looked up in it are C26."
  }
 ]
}