FINDINGS = {
 "C01_interval_compound_refuted": "TypeFromProto reads an interval_compound that TypeToProto panics on.",
 "C02_enum_symmetry_refuted": "Equals of enum argument types is not symmetric.",
 "C02_unset_parameter_refuted": "A user-defined type read with an unset parameter makes Equals panic.",
 "C03_interval_day_receiver_refuted": "WithNullability on an interval_day type changes the receiver.",
 "C03_get_type_tz_refuted": "GetType of a timestamp-with-zone gives the type without zone.",
 "C05_nested_nullability_refuted": "Matching with nullability ignores the nullability of a function type's parameters.",
 "C05_user_type_name_refuted": "The name of a user-defined type is ignored by matching.",
 "C05_user_integer_refuted": "Integer parameters of user-defined types are compared after truncation to 32 bits.",
 "C06_positions_refuted": "Matching at a position compares it with the maximum of the variadic count only.",
 "C06_argument_count_bounds_refuted": "MinArgumentCount/MaxArgumentCount of variadic signatures are one too large.",
 "C06_consistency_refuted": "With CONSISTENT and a minimum over one, the first variadic arguments are not compared.",
 "C07_function_types_refuted": "Type variables inside function types are not checked.",
 "C07_shared_integers_refuted": "With a shared integer parameter the type variables are not checked at all.",
 "C08_mirror_inconsistent_refuted": "MIRROR ignores the extra arguments of an INCONSISTENT variadic signature.",
 "C09_precision_arithmetic_refuted": "Arithmetic on a time precision panics.",
 "C09_precision_length_conflict_refuted": "A variable shared by a precision and a length always conflicts.",
 "C09_composite_final_type_refuted": "A program with a composite final type never has a result.",
 "C09_nested_variable_refuted": "Integer variables inside a list parameter are never bound.",
 "C10_user_type_refuted": "A variable inside a user-defined type is not found.",
 "C11_int32_exponent_refuted": "Exponents near the int32 bounds overflow the checks.",
 "C11_representable_refused_refuted": "Some 38-digit decimals are refused.",
 "C13_zero_refused_refuted": "Zero cannot get a type whose precision equals its scale.",
 "C14_coarser_before_epoch_refuted": "Reducing the precision step by step differs from doing it at once before the epoch.",
 "C14_duration_refuted": "The duration of tenths and hundredths of seconds overflows early.",
 "C15_before_epoch_refuted": "A negative sub-second time literal is read back as nil.",
 "C15_year_month_refuted": "A year-month interval literal is read back unequal.",
 "C15_day_microseconds_refuted": "A day interval with microseconds is read back unequal.",
 "C15_time_variation_refuted": "The type variation of time literals is lost.",
 "C15_compound_null_refuted": "A typed null of compound interval is read but cannot be written.",
 "C15_empty_message_refuted": "Empty list and map literal messages panic.",
 "C16_flatten_keeps_all_refuted": "Flattening references keeps only the head of each.",
 "C18_switch_without_else_refuted": "A switch without else is written but refused by the reader.",
 "C18_unknown_function_renamed_refuted": "An unknown function without argument types is renamed and gets a new anchor.",
 "C18_unknown_function_panics_refuted": "An unknown function whose argument types do not parse panics.",
 "C19_multi_or_list_options_refuted": "Visit of a multi-or-list drops changed options.",
 "C20_scalar_arguments_refuted": "Equality of scalar calls with different argument counts is asymmetric or panics.",
 "C20_if_without_else_refuted": "An if without else equals one with else.",
 "C20_window_bounds_type_refuted": "The bounds type of window functions is not compared.",
 "C20_set_comparison_refuted": "Set comparisons without left operand are all equal.",
 "C23_write_panics_refuted": "ToProto of a set with a type and two variations panics.",
 "C24_gap_anchor_reused_refuted": "A set read with a gap hands out an anchor that is in use.",
 "C24_gap_urn_panics_refuted": "The same for URN anchors, where the request panics.",
 "C25_simple_name_of_aggregate_refuted": "Aggregates are never found under their simple name.",
 "C26_variadic_count_refuted": "The registry's argument-count filter disagrees with the signature.",
 "C27_conflict_by_chance_refuted": "Whether a dialect with a name conflict loads depends on map iteration order.",
 "C28_precision_standard_refuted": "Precision types cannot be read from their type strings.",
 "C28_precision_local_refuted": "Precision types cannot be read from local type strings.",
 "C28_nullability_lost_refuted": "Local type strings lose nullability.",
 "C28_other_kinds_refuted": "Year-month intervals come back as another type; u! is not answered.",
 "C28_two_names_order_refuted": "With two names of one kind the answer depends on map iteration order.",
 "C28_shared_interval_day_refuted": "interval_day types read from a registry are one shared object.",
 "C29_receiver_unchanged_refuted": "Remap of a leaf relation changes the relation itself.",
 "C30_mark_join_refuted": "Mark joins have no columns.",
 "C30_hash_semi_join_refuted": "Hash and merge joins of a semi type have the columns of both sides.",
 "C31_filter_refuted": "FilterRemap checks the mapping against the wrong width.",
 "C31_named_write_refuted": "The mapping of a table write is checked against its input.",
 "C31_create_table_refuted": "The same for create table.",
 "C31_untyped_project_refuted": "A projection of an untyped expression is built, its record type panics.",
 "C32_write_mode_refuted": "The output mode of a table write is never written.",
 "C32_empty_mapping_refuted": "An empty output mapping is read back as no mapping.",
 "C32_physical_join_type_refuted": "Physical join types are cut to eight bits.",
 "C32_update_refuted": "A table write with the update operation is written but never read.",
 "C34_keeps_all_relations_refuted": "Other relations of a plan are lost and serializing panics.",
 "C35_references_in_range_refuted": "A negative grouping reference is accepted; the record type panics.",
 "C37_unsearched_places_refuted": "Parameters in read filters, grouping expressions and subqueries are not found.",
 "C37_two_types_refuted": "For a parameter used with two types only the last counts.",
 "C38_unreached_refuted": "Join keys, sorts of aggregate functions and some virtual rows are not rewritten.",
 "C39_builder_refuted": "The slice given to a builder is the relation's own.",
 "C39_message_refuted": "The mapping slice in an emitted message is the relation's own.",
 "C40_spare_room_refuted": "The record type of an outer join changes the left schema when its array has room.",
 "C40_no_columns_refuted": "The same when the right side has no columns.",
 "C40_shared_array_refuted": "A cross join overwrites a schema sharing the left array.",
 "C41_new_time_overflow_refuted": "Hours beyond the duration range wrap and are accepted.",
 "C41_interval_parse_refuted": "Interval strings: counts are cut to 32 bits, trailing text is ignored.",
 "C43_every_row_full_refuted": "Rows of a virtual table after the first may be short; long ones panic.",
 "C44_scalar_refuted": "A scalar subquery with several columns is accepted.",
 "C45_decimal_variation_refuted": "A decimal literal's target variation is lost.",
 "C45_interval_microseconds_refuted": "The microseconds of an interval without precision are dropped.",
 "C45_length_unchecked_refuted": "Lengths of fixed-size types and element types are not checked.",
 "C48_if_without_else_refuted": "The type of an if without else panics.",
 "C51_two_kinds_panic_refuted": "One identity declared for two kinds makes a lookup panic.",
 "C53_unchecked_binding_refuted": "Reading a plan does not check its bindings: one for a parameter that is never used is accepted, building the same plan is an error.",
 "C54_gap_misdirects_call_refuted": "If function anchors have a gap, an unknown function that is renamed on reading takes over another function's anchor, and the call of that function is read as a call of the unknown one.",
 "C55_function_text_refuted": "A function type with two parameters, or none, prints a text the parser refuses.",
 "C55_function_parameter_refuted": "A function parameter that is not a type is dropped without an error.",
 "C55_nested_conditional_refuted": "Conditionals and negations are printed without parentheses: nested ones read back as another expression.",
 "C56_wide_parameter_refuted": "Integer parameters beyond 32 bits are cut without an error.",
 "C56_compound_interval_refuted": "Compound intervals are in the grammar, but reading one always fails.",
 "C57_shared_text_refuted": "User-defined types all print alike, so do the two year-month interval kinds, and an unspecified nullability prints as required.",
 "C58_stray_characters_refuted": "Characters that start no token are skipped without an error.",
 "C59_subquery_refuted": "An extended expression with a subquery is written, but reading the message is an error: the reader has no relation converter.",
 "C59_assembled_by_hand_refuted": "Writing an extended expression that was not read from a message panics.",
 "C59_set_ignored_refuted": "A change to the public set of an extended expression is not written.",
 "C61_texts_refuted": "The value text of a time drops the fraction of the second and the ISO text of a timestamp with zone cuts to milliseconds; a time with an offset is read by its printed clock by NewTimeFromString and as UTC by NewPrecisionTimeFromString; a clock alone is read as a timestamp of the year 0; at the precisions beyond microseconds a timestamp outside 1678-2262 wraps without an error.",
 "C62_last_digit_refuted": "P3DT4H5M6.789S is read one nanosecond short.",
 "C62_cut_refuted": "Days and seconds beyond 32 bits are cut without an error.",
 "C62_milliseconds_refuted": "The ISO text of 1 to 999 milliseconds, as PT500MS, is read back as that many minutes.",
 "C62_short_refuted": "The ISO text of other times below one second, and of negative ones, is not read.",
 "C62_nothing_refuted": "The ISO text of a zero or wholly negative interval is P, which is not read.",
 "C62_negative_refuted": "Negative seconds are left out of the ISO text of an interval with days.",
 "C63_blanks_refuted": "The result of trimming a decimal text is thrown away, so a number between blanks is refused.",
 "C64_no_description_refuted": "The grammar allows a test group without a description, but the visitor asserts one: the whole file becomes an error.",
 "C65_shared_interval_refuted": "A null in a list of required day-time intervals changes the declared type to nullable, because WithNullability of that type writes its receiver.",
 "C65_wraps_refuted": "A whole number that does not fit its type (300::i8) is cut, not refused.",
 "C65_elements_of_type_refuted": "List elements of another type than the element type are accepted, as long as all are of one type.",
 "C65_dropped_refuted": "Numbers in a list of booleans (or any type that takes no numbers) silently disappear.",
 "C65_empty_inner_refuted": "Empty inner lists are refused, and one level deeper they get the wrong type.",
 "C65_nulls_refuted": "A null beside values of a required type is refused, a null alone is accepted.",
 "C65_fixed_length_refuted": "The length of fixedchar values is not compared with the declared length; that of varchar is.",
 "C65_parameter_wraps_refuted": "A type parameter that does not fit 32 bits is cut silently.",
 "C66_constant_type_refuted": "The value of a constant argument of an aggregate call does not get its declared type (1.5::dec<10,4> stays dec<2,1>).",
 "C66_other_values_refuted": "Numbers in a column of dates become strings, dates in a column of numbers are kept.",
 "C66_interval_precision_refuted": "Day-time intervals in a table column are not brought to the precision of the column.",
 "C66_extra_cells_refuted": "Cells beyond the last column of a row are silently left out.",
 "C66_unnamed_null_refuted": "A null in a column no argument names makes the file unreadable (nil type).",
 "C66_disagreeing_refuted": "Two arguments may declare different types for one column; the last one wins.",
 "C66_no_rows_refuted": "A compact aggregate call on no rows is unreadable, and so is one with a constant argument on rows without columns.",
 "C66_nullable_argument_refuted": "A null makes the column's type nullable but leaves the argument naming it required.",
 "C66_values_type_refuted": "The values in a list argument need not have the declared type; the list is given that type anyway.",
 "C66_column_word_refuted": "A column number above 32 bits is cut: col4294967297 is column 1.",
 "C67_second_column_refuted": "An aggregate test case that uses only its second column is read but never gives a call: the schema of the references is made from the arguments, by position.",
 "C67_column_order_refuted": "When an aggregate case names its columns in another order, the references get each other's types.",
 "C67_after_constant_refuted": "A reference to column 0 in an argument after a constant has no type at all (nil).",
 "C68_any_by_bare_name_refuted": "An implementation declared with any1 takes the arguments but is not found by the function's bare name when the function has several implementations: arguments are never spelled any.",
 "C68_names_apart_refuted": "A user-defined type with an underscore in its name collides: f(u!geo, i32) and f(u!geo_i32) are registered under the same compound name.",
 "C69_precision_refuted": "'P1DT1S'::interval_day<10> is read; printing a test case with it panics.",
 "C69_binary_refuted": "A fixed binary 'ab' prints '0x6162', which is read as the six bytes of that text.",
 "C69_lists_refuted": "Lists print their strings without quotes: ['a, b'] and ['a', 'b'] print the same.",
 "C69_digits_refuted": "A precision_timestamp_tz finer than milliseconds prints milliseconds only, so the test case read from the text has another value.",
 "C69_year_refuted": "'0000-01-01T00:00:00+01:00' is read as an instant in the year -1, whose text cannot be read.",
 "C69_interval_refuted": "An interval of no time prints 'P', which cannot be read; half a second prints 'PT500MS', which is read as 500 minutes.",
 "C70_fp32_nearest_refuted": "1.0000000596046447753906251::fp32 is rounded twice and read as 1 although the next float32 is nearer.",
 "C70_fp32_range_refuted": "1e39::fp32 is read as infinity without an error.",
 "C71_reads_back_refuted": "0.5 as decimal<38,38> prints 0.5 followed by 37 zeros, which NewDecimalFromString refuses: it counts a digit before the point and finds 39.",
 "C72_mentions_refuted": "A user-defined type with two type parameters, of which only the second mentions a name, says it has no parameters: the loop returns at the first type.",
 "C73_masked_refuted": "FieldReference.String asserts that its reference is a segment, so printing any reference by mask, which the API builds and reads from messages, panics.",
 "C73_custom_aggregate_refuted": "NewCustomAggregateFunc stores no declaration, so String (and Name, CompoundName, ID, Decomposable...) of every aggregate function read from a plan whose function the collection does not have panics on a nil pointer; custom scalar and window functions keep theirs.",
 "C74_option_message_refuted": "AggregateFunction.Clone copies the slice of option pointers, not the options: changing an option of the clone through GetOptions changes the original.",
 "C74_shared_arguments_refuted": "the constructors keep the caller's arguments slice, so SetArg on one of two functions built from the same slice changes the other.",
 "C75_private_refuted": "GetDefaultCollection hands every caller the same *Collection, and Load writes to it: an extension one part of a program loads into the default collection is visible to, and blocks the same URN for, all others.",
 "C76_id_refuted": "A variant made on the fly from a name without a colon has an ID with one: NewScalarFuncVariant of \"now\" reports \"now:\".",
 "C76_max_set_refuted": "NewAggFuncVariantOpts and NewWindowFuncVariantOpts convert the uint MaxSet to int: values of 2^63 or more become negative.",
 "C76_match_refuted": "Variants made on the fly have no nullability handling (the MIRROR default is set only when a file is loaded), so Match and MatchAt return an error for arguments of exactly the declared types. ResolveType of such a variant dereferences a nil Return and panics, whatever the arguments (C76_no_result_type).",
 "C76_resolve_urn_refuted": "ResolveURN of aggregate and window functions leaves an omitted decomposition or window type empty, while GetVariants makes them NONE and PARTITION.",
 "C77_names_refuted": "Test files cannot call functions whose names are words of the grammar, in either case: p, t, y, m, d, h, s, f, error, list, map, date, any, v followed by digits, col followed by a number, and so on.",
 "C77_stray_refuted": "Characters at which no token starts are reported to the console only: the error listener is attached to the parser, not to the lexer, so they are dropped.",
 "C77_comment_refuted": "Block comments are recognised only if they hold a single character (stars aside).",
 "C77_date_string_refuted": "A string with the look of a date, a time, a timestamp or an interval is never a string token.",
 "C78_no_arguments_refuted": "The grammar has no scalar test case without arguments: pi() = ... makes the whole file an error.",
 "C78_date_string_refuted": "'2020-01-01'::str and 'p1y'::str are syntax errors.",
 "C78_leading_zero_refuted": "Integers with leading zeros (07::i8) are decimal tokens, so a syntax error before an integer type.",
 "C78_stray_refuted": "Misspelt files are accepted: characters without a meaning are ignored.",
 "C78_unclosed_refuted": "An unclosed quote hides all cases after it without an error.",
 "C78_dependencies_refuted": "SUBSTRAIT_DEPENDENCY lines are parsed and then ignored.",
 "C79_self_refuted": "A builder passed to its own Args makes Build recurse without end.",
 "C79_shared_refuted": "Builders are held by reference: calling Args on a builder after it was given as an argument changes the outer expression.",
 "C79_scope_after_panic_refuted": "lambdaBuilder.Build pops its parameters without defer: after a recovered panic in the body they stay in scope of the ExprBuilder.",
 "C80_copy_refuted": "The map of decoders is made by the first registration: a copy of a registry made before it never sees decoders registered in the original (or the reverse), a copy made after it sees all.",
 "C80_nil_decoder_refuted": "SetExtensionRelDecoder accepts a nil decoder, which is not found but makes every later registration for the type URL fail.",
 "C81_shared_refuted": "PrimitiveType.ReturnType and EnumType.ReturnType return the declared object itself; SetNullability writes to it, and changes result types already handed out.",
 "C82_caller_refuted": "AddGroupingSet and AddRollup keep the slice of references the caller passes, and ToBuilder copies only the outer slice: a later write to that slice changes the groupings of the builder, of relations already built and of builders made from those.",
 "C83_shared_refuted": "Copy of a read returns the read itself, so Remap of a read changes it in place: relations built on it before show other columns afterwards, or panic when their schema is computed.",
 "C84_plan_grows_refuted": "A plan keeps the extension set of its builder: extensions asked of the builder after the plan was built become part of the plan, and are declared when it is written.",
}
