{
 "claims": [
  {
   "property": "C01",
   "status": "proved",
   "theorems": [
    "C01_range_reads",
    "C01_step_tables"
   ],
   "note": ""
  },
  {
   "property": "C02",
   "status": "proved",
   "theorems": [
    "C02_merge_range",
    "C02_merge_predicate",
    "C02_merge_invisible",
    "C02_defrag_invisible"
   ],
   "note": ""
  },
  {
   "property": "C03",
   "status": "proved",
   "theorems": [
    "C03_seminaive_exact",
    "C03_no_match_lost"
   ],
   "note": ""
  },
  {
   "property": "C04",
   "status": "proved",
   "theorems": [
    "C04_round_robin_valid",
    "C04_round_robin_stop_iff",
    "C04_round_robin_complete"
   ],
   "note": ""
  },
  {
   "property": "C05",
   "status": "proved",
   "theorems": [
    "C05_graph_builds",
    "C05_graph_valid",
    "C05_graph_order",
    "C05_graph_complete"
   ],
   "note": "petgraph's condensation and toposort enter as their specification (condensation_of)"
  },
  {
   "property": "C06",
   "status": "proved",
   "theorems": [
    "C06_rejects",
    "C06_strata",
    "C06_order"
   ],
   "note": "petgraph's condensation enters as its specification"
  },
  {
   "property": "C07",
   "status": "partial",
   "theorems": [
    "C07_sound_partial",
    "C07_unconnected_negation_refuted",
    "C07_source_sound_partial"
   ],
   "note": "Proved for stratified programs in which every negated atom shares a variable with the rest of the body (wf_program; for source programs: supported). The code accepts negation with unconnected variables and then the claim fails: C07_unconnected_negation_refuted."
  },
  {
   "property": "C08",
   "status": "proved",
   "theorems": [
    "C08_closed",
    "C08_perfect_model",
    "C08_order_independent",
    "C08_source_model",
    "C08_source_perfect",
    "C08_source_order_independent"
   ],
   "note": ""
  },
  {
   "property": "C09",
   "status": "proved",
   "theorems": [
    "C09_one_step",
    "C09_counts",
    "C09_only_new"
   ],
   "note": ""
  },
  {
   "property": "C10",
   "status": "proved",
   "theorems": [
    "C10_existential_rules_satisfied"
   ],
   "note": ""
  },
  {
   "property": "C11",
   "status": "partial",
   "theorems": [
    "C11_restricted_chase_partial",
    "C11_imported_refuted",
    "C11_skipped_refuted"
   ],
   "note": "the full claim is false of the code: two executions in which a null is invented for a match that facts present before the step already satisfy (facts loaded as input; facts derived while the rule was not applied). The partial theorem covers the matches recorded by the rule's own earlier applications"
  },
  {
   "property": "C12",
   "status": "proved",
   "theorems": [
    "C12_fresh"
   ],
   "note": ""
  },
  {
   "property": "C13",
   "status": "partial",
   "theorems": [
    "C13_safe_variables",
    "C13_same_matches_partial",
    "C13_program_partial",
    "C13_unsafe_comparison_refuted",
    "C13_unsafe_negation_refuted",
    "C13_existential_operation_refuted",
    "C13_two_aggregates_refuted",
    "C13_grouped_input_refuted",
    "C13_undefined_head_refuted"
   ],
   "note": "For all source rules accepted by validation that satisfy five further conditions (supported): normalization does not panic, the normal form has the same matches over every database, is well-formed, and the program has the same derivations and models. For each further condition a rule is exhibited that validation accepts although the condition is needed."
  },
  {
   "property": "C14",
   "status": "proved",
   "theorems": [
    "C14_functions",
    "C14_operations",
    "C14_negation",
    "C14_negated_comparison_refuted"
   ],
   "note": "negated atoms: operations over their variables are filters under the negation (C14_negation); such an operation that also uses a variable bound elsewhere panics (C14_negated_comparison_refuted). "
  },
  {
   "property": "C15",
   "status": "partial",
   "theorems": [
    "C15_traces_partial",
    "C15_source_traces_partial",
    "C15_existential_refuted",
    "C15_nulls_refuted",
    "C15_aggregate_head_refuted",
    "C15_aggregate_premises_refuted",
    "C15_assignment_refuted"
   ],
   "note": "Every stored fact has a trace that is a derivation tree, for programs in which a head atom with existential variables or an aggregate is the only one of its predicate in the rule; values of existential variables and of aggregates are not part of what the tree establishes. The refutations show what goes wrong otherwise: wrong head atom, wrong null, missing premises of aggregates, swapped values of computed variables."
  },
  {
   "property": "C16",
   "status": "proved",
   "theorems": [
    "C16_from_vector",
    "C16_from_map",
    "C16_invert",
    "C16_chain",
    "C16_equality",
    "C16_is_identity",
    "C16_group",
    "C16_permute",
    "C16_permute_chain",
    "C16_from_unsorted",
    "C16_from_transformation",
    "C16_last_mapped",
    "C16_find_cycles",
    "C16_choice",
    "C16_choice_chain"
   ],
   "note": ""
  },
  {
   "property": "C17",
   "status": "proved",
   "theorems": [
    "C17_column_contents",
    "C17_run_length_contents"
   ],
   "note": "All column types, all limits of the adaptive builder, columns of up to 2^48 values."
  },
  {
   "property": "C18",
   "status": "proved",
   "theorems": [
    "C18_scan_is_cursor",
    "C18_seek_meaning",
    "C18_checked_seek_refuted",
    "C18_column_lists"
   ],
   "note": "Arbitrary histories of next/seek/narrow/reset on the column built. With overflow checks compiled in, seek on an i64 column panics when the difference of values does not fit (refuted theorem); without checks the property holds for all values."
  },
  {
   "property": "C19",
   "status": "proved",
   "theorems": [
    "C19_join_is_intersection"
   ],
   "note": "Sub scans are any conforming scans (columns, or operators again), owned by the join."
  },
  {
   "property": "C20",
   "status": "proved",
   "theorems": [
    "C20_union_is_union"
   ],
   "note": "Sub scans must report their current value correctly (all but filters do; see C37)."
  },
  {
   "property": "C21",
   "status": "proved",
   "theorems": [
    "C21_subtract_is_difference"
   ],
   "note": "Includes the report on followers."
  },
  {
   "property": "C22",
   "status": "partial",
   "theorems": [
    "C22_write_read_partial",
    "C22_materialize",
    "C22_scan",
    "C22_zero_arity_refuted"
   ],
   "note": "Tables with at least one column: for every list of rows of any types, writing then iterating gives the sorted distinct rows; num_rows, contains_row and row_position (numbered among rows with the same type in the last column) agree. Also for tables materialized from any trie scan that explores a tree of values. Refuted for zero columns: the empty zero-arity table claims to contain the empty row."
  },
  {
   "property": "C23",
   "status": "proved",
   "theorems": [
    "C23_join",
    "C23_union",
    "C23_subtract",
    "C23_stored",
    "C23_operations"
   ],
   "note": "For any trie scans that explore their rows (stored tables, or operations nested to any depth): the generated scan explores exactly the natural join / union / difference; a whole tree of operations is materialised as its relational meaning. A subtracted table needs distinct columns."
  },
  {
   "property": "C24",
   "status": "partial",
   "theorems": [
    "C24_project_partial",
    "C24_first",
    "C24_dependents",
    "C24_reorder",
    "C24_dependents_refuted",
    "C24_cut_all_refuted",
    "C22_materialize"
   ],
   "note": "Projection/reordering of any operation tree, first row, several projections in one pass, change of column order. Refuted corners: cutting all columns claims a row; a table without columns needed only for projections panics (debug)."
  },
  {
   "property": "C25",
   "status": "partial",
   "theorems": [
    "C25_aggregate_partial",
    "C25_aggregate_empty",
    "C25_planned",
    "C25_sum_float_refuted",
    "C25_sum_none_refuted",
    "C25_empty_join_refuted",
    "C25_group_column_refuted"
   ],
   "note": "Aggregation of the rows of any operation tree (joins, unions, differences of stored tables) through the pruning scan and the aggregate scan, for all groupings and aggregates, and the order of columns chosen by the planner. Refuted: the sum of integers and single precision floats without a double drops the floats; sums of groups without numbers, joins without possible types in a later column, and aggregated variables that are group-by variables panic."
  },
  {
   "property": "C26",
   "status": "partial",
   "theorems": [
    "C26_evaluation",
    "C26_compiles_partial",
    "C26_empty_application_refuted",
    "C26_rename",
    "C26_functional"
   ],
   "note": "evaluation proved in full for every compiled program and every function language; compilation succeeds except (with overflow checks) for n-ary functions applied to zero arguments, where it panics"
  },
  {
   "property": "C27",
   "status": "partial",
   "theorems": [
    "C27_unary_partial",
    "C27_binary_partial",
    "C27_nary_partial",
    "C27_arithmetic",
    "C27_binary_functional",
    "C27_abs_refuted",
    "C27_rem_refuted",
    "C27_shift_refuted",
    "C27_and_refuted",
    "C27_rem_sign_documentation_refuted"
   ],
   "note": "false of the code for abs(MIN), MIN % -1, shifts by 64 or more, and AND of only negative numbers (refuted); proved for every other input, and without exception for + - * / pow log comparisons neg sqrt sum product min max"
  },
  {
   "property": "C28",
   "status": "partial",
   "theorems": [
    "C28_bytes",
    "C28_bytes_succeeds",
    "C28_bytes_stable",
    "C28_stable",
    "C28_bijection",
    "C28_fresh",
    "C28_fresh_null",
    "C28_later",
    "C28_succeeds",
    "C28_label_refuted",
    "C28_unsigned_refuted",
    "C28_tag_refuted",
    "C28_empty_tag_refuted",
    "C28_map_refuted",
    "C28_zero_refuted",
    "C28_label64_panics"
   ],
   "note": "Proved for all histories of additions of any values and all supported values (strings, language-tagged strings, IRIs, booleans, other literals, nulls, and tuples of them and of numbers, nested). False of the code, with witnesses, for: labelled tuples without elements (label lost), u64 beyond i64 (come back as other literals), language tags of more than 127 bytes with backslash or >, empty tags (panic), tuples containing maps, tuples of 0.0/-0.0; reading panics for tuples whose label id exceeds 32 bits (C28_label64_panics). The value dictionary is proved over the specification of byte dictionaries, which C28_bytes proves of them."
  },
  {
   "property": "C29",
   "status": "partial",
   "theorems": [
    "C29_stored",
    "C29_stored_empty_partial",
    "C29_new_handle",
    "C29_push",
    "C29_empty_array_refuted"
   ],
   "note": "Proved for all histories of all buffers and all non-empty arrays. For an empty array the claim is false of the code: pushed onto an exactly full page it gets an address in a page that may not exist, and reading it panics (refuted with a witness); otherwise it is returned."
  },
  {
   "property": "C30",
   "status": "partial",
   "theorems": [
    "C30_roundtrip",
    "C30_numbers_partial",
    "C30_minus_zero_refuted",
    "C30_equal_values_partial",
    "C30_unsigned_long_refuted",
    "C30_equality_hash_partial",
    "C30_zero_hash_refuted",
    "C30_identity_partial",
    "C30_lang_refuted",
    "C30_float_refuted"
   ],
   "note": "The round trip of parsed literals is proved in full (for any f64 parser and printer that are inverse). Numeric literals of all XSD integer types and decimals are read exactly, except \"-0\" as unsignedLong (refuted). Equal numbers get equal values, except integers between 2^63 and 2^64 (refuted); equality agrees with hashes except for the two zeros (refuted). Language-tagged strings and 32-bit floats are not identified by / read back from their lexical form (refuted)."
  },
  {
   "property": "C31",
   "status": "partial",
   "theorems": [
    "C31_records",
    "C31_roundtrip_partial",
    "C31_bad_records",
    "C31_dropped_rows",
    "C31_escape_refuted",
    "C31_numbers_refuted",
    "C31_iri_refuted",
    "C31_bom_refuted",
    "C31_skip_refuted",
    "C31_nullary_refuted",
    "C31_quoting_refuted",
    "C31_limit_zero_refuted",
    "C31_drop_refuted",
    "C31_import_panic_refuted"
   ],
   "note": "Round trip proved for every table of exportable values (DsvSpec.v) with every delimiter, format and limit; the csv crate is modelled from its documentation. Refuted in general: escapes are not undone on import, unsigned longs and 32-bit floats change, IRIs without brackets are misread, skipped columns, nullary relations, limit 0, byte order marks, and cells that make the import panic."
  },
  {
   "property": "C32",
   "status": "proved",
   "theorems": [
    "C32_orders",
    "C32_orders_suffice",
    "C32_column_orders",
    "C32_listing",
    "C32_restrict"
   ],
   "note": "Import atoms in rule bodies are not modelled; the generated names are assumed to be new."
  },
  {
   "property": "C33",
   "status": "partial",
   "theorems": [
    "C33_fact_ids_partial",
    "C33_every_fact_has_id_partial",
    "C33_id_step",
    "C33_first_step",
    "C33_engine_fact_ids_partial",
    "C33_fact_ids_refuted",
    "C33_no_id_refuted"
   ],
   "note": "False in general: Trie::row_position counts within the storage type of the last value, so facts of one step whose last values have different storage types can share an id, and facts without arguments get no id (both refuted by witness). Proved when the last values of a step have one storage type and facts have arguments; the reported step is always right."
  },
  {
   "property": "C34",
   "status": "partial",
   "theorems": [
    "C34_types_partial",
    "C34_unsigned_long_refuted"
   ],
   "note": "proved for the numeric, boolean, checktype and generic functions with arbitrary float operations, except for UnsignedLong constants, for which the announcement is wrong"
  },
  {
   "property": "C35",
   "status": "partial",
   "theorems": [
    "C35_filter_partial",
    "C35_no_columns_refuted"
   ],
   "note": "proved for tables with at least one column; with none, the operator panics"
  },
  {
   "property": "C36",
   "status": "partial",
   "theorems": [
    "C36_function_partial",
    "C36_copied_column_refuted",
    "C36_unsigned_long_refuted"
   ],
   "note": "proved when every copied column is also an input of a proper function and no constant is of domain UnsignedLong; both exceptions are refuted by witnesses"
  },
  {
   "property": "C37",
   "status": "partial",
   "theorems": [
    "C37_filter_lists",
    "C37_filter_constant_lists",
    "C37_constant_lists",
    "C37_pass_lists",
    "C37_either_lists",
    "C37_filter_current_refuted",
    "C37_union_of_filters_refuted"
   ],
   "note": "Values returned by next and seek are right for all scans; the claim about current() fails for filters: a seek behind the last value keeps the stale current value, and a union of filters then returns values twice (refuted theorems)."
  },
  {
   "property": "C38",
   "status": "proved",
   "theorems": [
    "C38_order",
    "C38_integers"
   ],
   "note": "All values other than nulls, tuples and maps, for any total order of floats."
  },
  {
   "property": "C39",
   "status": "partial",
   "theorems": [
    "C39_read_partial",
    "C39_rows",
    "C39_register",
    "C39_delete",
    "C39_count",
    "C39_closest",
    "C39_reference_refuted",
    "C39_table_manager_refuted",
    "C39_retry_refuted",
    "C39_add_sources",
    "C39_stale_refuted"
   ],
   "note": "Proved for all histories and orders, for tables; for references in the default order and in orders that commute with the permutation of the reference. Refuted for references in other orders (resolve_reference composes in the wrong order), for TableManager::add_reference (swaps the tables), for reading again after a failed source, and for adding sources to a table that was already read."
  },
  {
   "property": "C40",
   "status": "partial",
   "theorems": [
    "C40_execute_partial",
    "C40_first_refuted",
    "C40_cut_refuted",
    "C40_order_refuted",
    "C40_chain_refuted",
    "C40_required_ignored"
   ],
   "note": "Proved for all built plans that are sound: projections (and unnamed outputs) are wanted in their own column order, projections are not chained over temporary projections, and a projection that keeps all columns does not lose its last column in the outputs that use it. Each of these restrictions has a counterexample (_refuted): wrong results or a panic of the code. The first match misses rows if there are temporary tables (C40_first_refuted); requiring a projection to be non-empty is ignored (C40_required_ignored)."
  },
  {
   "property": "C41",
   "status": "partial",
   "theorems": [
    "C41_defined",
    "C41_compare",
    "C41_concat",
    "C41_contains",
    "C41_starts",
    "C41_ends",
    "C41_simple",
    "C41_parts",
    "C41_substring",
    "C41_substring_length_partial",
    "C41_substring_zero_refuted",
    "C41_substring_negative_refuted",
    "C41_substring_overflow_refuted",
    "C41_substring_undefined",
    "C41_other_values",
    "C41_length",
    "C41_reverse",
    "C41_case",
    "C41_language",
    "C41_strlang",
    "C41_uri",
    "C41_regex",
    "C41_regex_cache",
    "C41_reverse_twice_refuted",
    "C41_starts_concat_refuted",
    "C41_contains_refuted",
    "C41_crlf",
    "C41_regex_invalid_refuted"
   ],
   "note": "Characters are those of any segmentation into non-empty parts (the crate unicode-segmentation is not in the repository). Missing: SUBSTR(s, k, n) with n >= 1 and k + n < 1 or beyond 64 bits, where the code panics, returns the whole string, or is undefined (C41_substring_zero_refuted, _negative_refuted, _overflow_refuted). Also refuted: statements about code points (reversing twice, beginning of a concatenation, contained line feeds), and that an invalid regular expression has no result."
  },
  {
   "property": "C42",
   "status": "partial",
   "theorems": [
    "C42_int_text_partial",
    "C42_int_panic_refuted",
    "C42_int",
    "C42_int_saturates_refuted",
    "C42_int_str",
    "C42_double_str",
    "C42_double",
    "C42_float_partial",
    "C42_float_panic_refuted",
    "C42_int_double",
    "C42_iri",
    "C42_checks",
    "C42_numeric_refuted",
    "C42_boolean",
    "C42_not",
    "C42_equals",
    "C42_str"
   ],
   "note": "Missing and refuted: INT panics for every text of at least three characters whose second and third byte belong to one character, such as three Chinese characters (C42_int_panic_refuted); FLOAT panics for doubles beyond the range of floats (C42_float_panic_refuted); INT of a double beyond 64 bits is the largest or smallest integer (C42_int_saturates_refuted); integers above the signed range are not numeric for the checks (C42_numeric_refuted). Conversions of floating-point numbers are parameters with stated assumptions (good_casts), met by a concrete instance. Nulls, tuples and maps are not in the model."
  },
  {
   "property": "C43",
   "status": "partial",
   "theorems": [
    "C43_same_facts_partial",
    "C43_used_columns",
    "C43_dropped_rules",
    "C43_condition_refuted",
    "C43_removed_twice_refuted",
    "C43_first_rule_refuted",
    "C43_skipped_column_refuted",
    "C43_two_heads_refuted",
    "C43_chain_refuted",
    "C43_repeated_head_refuted",
    "C43_repeated_body_refuted",
    "C43_unparsable_refuted",
    "C43_computed_condition_refuted",
    "C43_undefined_value_refuted",
    "C43_user_skip_refuted",
    "C43_user_skip_projection_refuted",
    "C43_changed_row_refuted",
    "C43_nested_aggregate_refuted"
   ],
   "note": "Proved for imports whose pushed rules are harmless (FilterImpSpec): one rule with one head atom per import, the predicate is not derived, conditions are over columns of the file, computed values are used in the head, skipped columns can always be parsed and do not occur in conditions, formats without skipped columns. Each condition is necessary: the other theorems give valid programs with lost or additional facts, or that panic, for instance q(?x) :- p(?x, ?y), ?y > 5 over a CSV file, where the condition is dropped."
  },
  {
   "property": "C44",
   "status": "proved",
   "theorems": [
    "C44_kept",
    "C44_same_facts",
    "C44_perfect",
    "C44_perfect_converse",
    "C44_ok",
    "C44_pipeline",
    "C44_not_needed_refuted"
   ],
   "note": "C44_pipeline covers normalize, global, exports, default outputs, validation of rules and active, in the order of default.rs; the rewriting of imports is C43. Predicates that are not needed can lose facts although one of their rules is kept (C44_not_needed_refuted)."
  },
  {
   "property": "C45",
   "status": "partial",
   "theorems": [
    "C45_exports",
    "C45_documented_partial",
    "C45_idb",
    "C45_all_drops_explicit_refuted",
    "C45_all_misses_imports_refuted",
    "C45_facts_refuted",
    "C45_edb_drops_explicit_refuted",
    "C45_default_outputs",
    "C45_default_rest",
    "C45_default_misses_imports_refuted"
   ],
   "note": "C45_exports is an exact characterization for every setting; it coincides with the documentation only without explicit exports and for some placements of facts (C45_documented_partial), and the refuted theorems show the differences: all drops explicit exports and misses predicates that are only imported, idb exports predicates that only have facts, edb misses them and drops an explicit export of an imported predicate that is derived."
  },
  {
   "property": "C46",
   "status": "proved",
   "theorems": [
    "C46_same_facts",
    "C46_only_variables",
    "C46_rule_count",
    "C46_capture_refuted"
   ],
   "note": "For variable names that the parser accepts; a name ?_0 from the API is captured (C46_capture_refuted)."
  },
  {
   "property": "C47",
   "status": "proved",
   "theorems": [
    "C47_validation",
    "C47_unique",
    "C47_substitution",
    "C47_same_facts"
   ],
   "note": "Parameter definitions are expressions over global variables (the check is_resolvable in parameter.rs)."
  },
  {
   "property": "C48",
   "status": "partial",
   "theorems": [
    "C48_functions",
    "C48_characters",
    "C48_lower_case",
    "C48_expressions_are_read_partial",
    "C48_one_reading",
    "C48_what_is_read",
    "C48_always_answers",
    "C48_comparisons_are_read_partial",
    "C48_comparisons_what_is_read",
    "C48_comparisons_always_answer",
    "C48_double_parentheses_refuted",
    "C48_constant_true_refuted",
    "C48_comment_after_name_refuted"
   ],
   "note": "Completeness holds for the strict grammar; the three refuted theorems show the texts that are natural but not read as expected: doubled parentheses around an operand, constants that start with true or false, a comment right after a name. Strings, RDF literals, blank nodes, encoded numbers, aggregates, maps and format strings are not in the model of the grammar; at a place where one of them starts the model reports an error."
  },
  {
   "property": "C49",
   "status": "proved",
   "theorems": [
    "C49_integers",
    "C49_decimals",
    "C49_every_literal",
    "C49_encoded",
    "C49_overflow_panics_refuted",
    "C49_marker_refuted",
    "C49_large_integers_refuted"
   ],
   "note": "The rounding to the nearest floating point number is that of Rust's library and is not modelled, only its limits. Refuted expectations: a decimal beyond the range stops the program with a panic (1e400), the type marker of an integer text is ignored (2d), integer literals beyond 64 bits become doubles while encoded ones stay integers."
  },
  {
   "property": "C50",
   "status": "proved",
   "theorems": [
    "C50_what_is_read",
    "C50_round_trip",
    "C50_regrouped_unique",
    "C50_different_texts",
    "C50_comparisons",
    "C50_integers",
    "C50_functions",
    "C50_difference_refuted",
    "C50_quotient_refuted",
    "C50_single_tuple_refuted",
    "C50_constants_refuted",
    "C50_function_name_refuted",
    "C50_nested_comparison_refuted"
   ],
   "note": "For the readable terms (small inductive definition in PrintTermSpec). Refuted expectations: 1 - (2 - 3) and 8 / (4 / 2) are printed without parentheses and read with another value; tuples of one element, constants like <a-b> or <true>, function names that are IRIs, and comparisons inside functions are not read back."
  },
  {
   "property": "C51",
   "status": "proved",
   "theorems": [
    "C51_same_facts",
    "C51_same_models",
    "C51_answers_kept",
    "C51_statements_kept",
    "C51_restricted",
    "C51_names_differ",
    "C51_two_endpoints_refuted",
    "C51_computed_twice_refuted"
   ],
   "note": "For admissible programs (InlineSpec). Refuted without the conditions: a rule that uses imports of two endpoints keeps its atoms although the imports are dropped, so its answers are lost; and p(?x, 1), p(?y, 2) get the same new variable, so the rule has no answers any more."
  },
  {
   "property": "C52",
   "status": "proved",
   "theorems": [
    "C52_merge",
    "C52_merge_defined",
    "C52_push_constants",
    "C52_bindings",
    "C52_filters",
    "C52_negation_refuted",
    "C52_label_refuted",
    "C52_distinct_refuted"
   ],
   "note": "With respect to the SPARQL algebra on sets of solutions. Refuted: a negated query merged into another one removes all rows as soon as it has one row itself, since the negation is evaluated without the variables of the other query; joined columns ?x and ?xLabel do not both get new names, so one join condition is lost; constants are not pushed below DISTINCT."
  },
  {
   "property": "C53",
   "status": "proved",
   "theorems": [
    "C53_defined",
    "C53_kept",
    "C53_moved",
    "C53_negated_refuted",
    "C53_two_negated_refuted",
    "C53_positive_negated_refuted",
    "C53_distinct_refuted",
    "C53_head_refuted",
    "C53_panics_refuted",
    "C53_arity_refuted",
    "C53_two_constants_refuted"
   ],
   "note": "Proved for rules with positive imports whose queries are projections. Refuted outside: a rule with only negated imports loses them; two negated imports are negated together; a negated import merged into a positive one is not correlated with it; if a merge fails all imports are lost; a head variable with a constant becomes unbound; a join variable with a constant panics; a constant and DISTINCT give an import with the wrong arity; a variable with two constants loses one of them."
  },
  {
   "property": "C54",
   "status": "proved",
   "theorems": [
    "C54_complete",
    "C54_exact",
    "C54_one_table",
    "C54_small",
    "C54_panics_refuted",
    "C54_failures_refuted",
    "C54_too_large_refuted",
    "C54_long_refuted",
    "C54_empty_table_refuted"
   ],
   "note": "SELECT and ASK queries. Refuted: two tables that both have at least as many rows as a page make bindings_chunks read behind the end of a list (panic, for every page size); errors of the endpoint other than status 413 are not returned, so rows are silently missing; after status 413 with a single table the same query is sent again for ever; a query that is too long with a single row of bindings recurses for ever; a table without rows is ignored, so rows that nobody wants are requested."
  },
  {
   "property": "C55",
   "status": "proved",
   "theorems": [
    "C55_exact",
    "C55_own_predicates",
    "C55_sound",
    "C55_once",
    "C55_names",
    "C55_arity",
    "C55_shared_refuted",
    "C55_unbound_refuted"
   ],
   "note": "For programs in which import atoms with a common pattern have the same factors (it suffices that each import atom has its own predicate, as after inlining), each import atom has a variable of an input, and imports deliver the wanted rows (C54). Refuted without these: if two rules share an import predicate, bindings can be known without their combination having been requested; an import atom without bound variables (possible for negated imports whose variables are bound by another import) gets no rows."
  },
  {
   "property": "C56",
   "status": "partial",
   "theorems": [
    "C56_factors",
    "C56_tables",
    "C56_one_factor_partial",
    "C56_plans",
    "C56_several_factors_partial",
    "C56_constant_refuted",
    "C56_constant_lost_refuted",
    "C56_negated_filter_refuted",
    "C56_negated_filter_general_refuted",
    "C56_output_variables_refuted",
    "C56_negation_refuted",
    "C56_computed_refuted",
    "C56_negated_computed_refuted",
    "C56_requests_refuted"
   ],
   "note": "Proved for one and for several factors, the latter over the history of applications (rows requested earlier), under conditions that are each refuted without them: constants are only assigned to variables of ordinary positive atoms, no operations over the variables of a negated import, negated atoms do not combine variables of a factor with those of imports or other factors, variables of negated imports occur in positive atoms, computed variables of a single factor occur in positive atoms. With several factors the output variables are only right if the body has a negated atom, function or filter, or imports bind no further variables."
  },
  {
   "property": "C57",
   "status": "partial",
   "theorems": [
    "C57_round_trip",
    "C57_different_texts",
    "C57_strings",
    "C57_escaping",
    "C57_literals",
    "C57_escapes_refuted",
    "C57_language_refuted",
    "C57_empty_literal_refuted",
    "C57_base_refuted",
    "C57_null_refuted",
    "C57_blank_refuted"
   ],
   "note": "Exactly which constants are read back is proved (readable); the property is false of the others: strings with characters that are escaped (escapes are not decoded by the parser), language tags with a minus sign, empty typed literals, names with a base, names that are read as truth values or differences; nulls are read as constants. Numbers are in C49 and C50; tuples, maps and floating point numbers are not covered."
  },
  {
   "property": "C58",
   "status": "partial",
   "theorems": [
    "C58_format_strings_are_read_partial",
    "C58_one_content",
    "C58_what_is_read",
    "C58_always_answers",
    "C58_value",
    "C58_doubled_braces",
    "C58_space_in_braces_refuted",
    "C58_every_content_refuted",
    "C58_no_end_refuted"
   ],
   "note": "Reading in the strict reading of C48 (what is missing are the texts of its refuted theorems), and except for the empty short form before a quotation mark; soundness, termination and the value hold for all texts. Expressions are those of C48 (no aggregates, maps, nested strings); texts are ASCII. Refuted: white space next to the braces, contents that end with a quotation mark, and long forms without an end (read as an empty short form)."
  },
  {
   "property": "C59",
   "status": "proved",
   "theorems": [
    "C59_document_is_described",
    "C59_one_value",
    "C59_tree",
    "C59_read_back",
    "C59_one_document"
   ],
   "note": "For the documents as parsed by serde_json (not modelled), with different keys in each object (as in serde_json::Map); ids are not bounded by u64; import without filter patterns."
  },
  {
   "property": "C60",
   "status": "proved",
   "theorems": [
    "C60_empty",
    "C60_full",
    "C60_single",
    "C60_intersection",
    "C60_union",
    "C60_set",
    "C60_get",
    "C60_is_single",
    "C60_subset",
    "C60_equality",
    "C60_types",
    "C60_type_sets",
    "C60_full_refuted"
   ],
   "note": "Words are numbers below 2^w; full(n) for n below the number of bits (the refuted theorem shows that full(w) is not defined; the program uses full(5) only)."
  }
 ]
}