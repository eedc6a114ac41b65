{
 "claims": [
  {
   "property": "C01",
   "status": "proved",
   "theorems": [
    "C01_compiled_run_is_tree_evaluation",
    "C01_any_finished_run_is_tree_evaluation"
   ],
   "note": "All syntax trees, all function registries (parameter X), all memories. Compiler with back-patching, VM as small-step machine, reference evaluator in Eval.v."
  },
  {
   "property": "C02",
   "status": "proved",
   "theorems": [
    "C02_one_result_on_any_stack",
    "C02_terminates_with_one_outcome",
    "C02_stays_in_code",
    "C02_no_machine_error"
   ],
   "note": "Termination, single result on any stack, instruction pointer in bounds, no stack or bounds error."
  },
  {
   "property": "C03",
   "status": "proved",
   "theorems": [
    "C03_and_skips_right",
    "C03_or_skips_right",
    "C03_nullish_skips_right",
    "C03_conditional_skips_untaken",
    "C03_right_is_evaluated_when_needed"
   ],
   "note": "Stated on VM runs of the compiled operand and of the compiled whole."
  },
  {
   "property": "C04",
   "status": "proved",
   "theorems": [
    "C04_no_assignment_changes_nothing",
    "C04_plain_assignment_changes_nothing",
    "C04_dotted_assignment_refuted",
    "C04_finite_result_refuted"
   ],
   "note": "All expressions without assignment, and with plain-name assignments, for every library L of operations. Refuted for dotted assignments (alias write into the caller's object; self-containing result)."
  },
  {
   "property": "C05",
   "status": "proved",
   "theorems": [
    "C05_isolate_is_session",
    "C05_reused_isolate_is_fresh",
    "C05_evaluations_leave_no_trace"
   ],
   "note": "any history, arbitrary leftover buffers; parser enters as a function of the source"
  },
  {
   "property": "C06",
   "status": "proved",
   "theorems": [
    "C06_cache_transparent",
    "C06_built_cache_is_faithful",
    "C06_built_cache_is_complete"
   ],
   "note": "faithful caches are transparent; the compile step builds faithful, complete caches"
  },
  {
   "property": "C07",
   "status": "proved",
   "theorems": [
    "C07_memo_invisible",
    "C07_reference_reading_dollar_refuted",
    "C07_changed_local_refuted"
   ],
   "note": "proved for references that do not read $ or $root; stale-memo counterexamples otherwise"
  },
  {
   "property": "C08",
   "status": "proved",
   "theorems": [
    "C08_last_local_wins",
    "C08_other_names_kept",
    "C08_unset_reads_context",
    "C08_materialize_agrees"
   ],
   "note": "All sequences of set_local on a fresh scope; materialisation for object contexts."
  },
  {
   "property": "C09",
   "status": "proved",
   "theorems": [
    "C09_refines_finite_map",
    "C09_keys_unique",
    "C09_representation_invisible"
   ],
   "note": "both representations refine a finite map; hash order arbitrary"
  },
  {
   "property": "C10",
   "status": "proved",
   "theorems": [
    "C10_equality_is_of_contents",
    "C10_reflexive",
    "C10_symmetric",
    "C10_transitive",
    "C10_objects_by_key",
    "C10_insertion_order_irrelevant",
    "C10_numbers_by_value"
   ],
   "note": "Equality on the heap equals equality of contents; equivalence; by key; numbers by value. Dates and intervals are compared structurally in the model (Rc pointer equality in the source)."
  },
  {
   "property": "C11",
   "status": "proved",
   "theorems": [
    "C11_reads_back_iff_not_blocked",
    "C11_blocked_changes_nothing",
    "C11_other_paths_kept",
    "C11_one_object_changes",
    "C11_insert_returns_previous",
    "C11_remove",
    "C11_remove_other_paths_kept",
    "C11_remove_missing_is_noop_refuted"
   ],
   "note": "Read-back iff not blocked, blocked changes nothing, frame for tree-shaped values, exactly one cell changes under arbitrary sharing."
  },
  {
   "property": "C12",
   "status": "proved",
   "theorems": [
    "C12_detached_insert",
    "C12_detached_insert_on_non_object"
   ],
   "note": "All acyclic heaps with arbitrary sharing."
  },
  {
   "property": "C13",
   "status": "proved",
   "theorems": [
    "C13_merge_clone_is_pure_merge",
    "C13_merge_by_key",
    "C13_merge_ignores_sharing_refuted"
   ],
   "note": "All pairs that share only objects without null entries (for instance disjoint pairs); refuted without that condition."
  },
  {
   "property": "C14",
   "status": "proved",
   "theorems": [
    "C14_merge_content",
    "C14_merge_agrees_with_merge_clone",
    "C14_no_leak_refuted",
    "C14_no_panic_refuted"
   ],
   "note": "Content and frame for tree-shaped documents disjoint from the patch; leak and double-borrow panic as refutations."
  },
  {
   "property": "C15",
   "status": "proved",
   "theorems": [
    "C15_deep_clone_equal_and_independent"
   ],
   "note": "Equal content, fresh, independent in both directions."
  },
  {
   "property": "C16",
   "status": "proved",
   "theorems": [
    "C16_round_trip",
    "C16_dates_refuted",
    "C16_cycle_refuted",
    "C16_reads_ring"
   ],
   "note": "Round trip through serialize/deserialize for every finite plain value, any sharing, any table order, any reordering of object entries of the document. Refuted for dates (they come back as texts) and for values containing themselves (the serialiser does not end); a self-referring document is read as a value containing itself."
  },
  {
   "property": "C17",
   "status": "proved",
   "theorems": [
    "C17_total",
    "C17_tokens_in_bounds",
    "C17_covers",
    "C17_spells",
    "C17_numbers",
    "C17_template_spans_refuted",
    "C17_open_template_refuted",
    "C17_nested_template_refuted",
    "C17_names"
   ],
   "note": "Total, bounds, exact cover without templates, spelling with closed templates. Ordering of spans is refuted inside templates (closing brace); unterminated and nested templates are refuted separately."
  },
  {
   "property": "C18",
   "status": "proved",
   "theorems": [
    "C18_two_operators",
    "C18_prefix",
    "C18_operator_trees",
    "C18_round_trip",
    "C18_source",
    "C18_parentheses",
    "C18_functions",
    "C18_functions_all",
    "C18_word_names",
    "C18_word_names_refuted"
   ],
   "note": "Operator trees over names and constants round trip from source text with no further hypothesis; the rest of the language (all but assignments) round trips given enough parentheses. pn/nt (reading and writing of numbers) are parameters."
  },
  {
   "property": "C19",
   "status": "proved",
   "theorems": [
    "C19_total",
    "C19_source_total",
    "C19_accepted",
    "C19_bound_irrelevant"
   ],
   "note": "Both flavours, every token list; fuel shown irrelevant. The number reader is a parameter."
  },
  {
   "property": "C20",
   "status": "proved",
   "theorems": [
    "C20_list_of_tests",
    "C20_reads",
    "C20_kinds",
    "C20_joined",
    "C20_precedence_refuted",
    "C20_parenthesised_refuted",
    "C20_closure_body_refuted",
    "C20_calls",
    "C20_asks"
   ],
   "note": "List of literal tests proved from the cell's text to its boolean answer; arbitrary tests proved at the token level. and/or in cells have no precedence (refuted against the expression grammar)."
  },
  {
   "property": "C21",
   "status": "proved",
   "theorems": [
    "C21_interval_membership",
    "C21_reversed_interval_membership",
    "C21_half_open_notation_refuted"
   ],
   "note": "Numbers, all bracket combinations that open left and close right, and all reversed ones. Mixed pairs such as [1..5[ are accepted by the parser but behave as their left bracket's outside reading; refuted beside. Date intervals share the same comparison code and are not restated."
  },
  {
   "property": "C22",
   "status": "proved",
   "theorems": [
    "C22_interval_iteration",
    "C22_fractional_ends_refuted"
   ],
   "note": "Integer-valued ends in the i64 range. Fractional ends are truncated before iteration and visit numbers outside the interval; refuted beside."
  },
  {
   "property": "C23",
   "status": "proved",
   "theorems": [
    "C23_text_slice",
    "C23_array_slice",
    "C23_default_lower_end",
    "C23_default_upper_end"
   ],
   "note": "Byte-indexed inclusive slices, text and arrays, explicit and omitted ends."
  },
  {
   "property": "C24",
   "status": "proved",
   "theorems": [
    "C24_all",
    "C24_some",
    "C24_none",
    "C24_count",
    "C24_one",
    "C24_filter",
    "C24_map",
    "C24_flat_map",
    "C24_early_stop",
    "C24_first_error",
    "C24_none_is_not_some",
    "C24_all_is_not_some_not",
    "C24_one_is_count_one",
    "C24_count_is_filter_length"
   ],
   "note": "List semantics for all eight closure functions over per-element results, early stop, error order, and dualities without hypotheses on the body."
  },
  {
   "property": "C25",
   "status": "proved",
   "theorems": [
    "C25_min",
    "C25_max",
    "C25_sum",
    "C25_sum_overflow",
    "C25_avg",
    "C25_median",
    "C25_mode",
    "C25_order_does_not_matter",
    "C25_empty",
    "C25_median_total_refuted"
   ],
   "note": "min, max, mode unconditional; sum under exact additions and median under exact means (rust_decimal arithmetic is a parameter). median([]) underflows; refuted beside."
  },
  {
   "property": "C26",
   "status": "proved",
   "theorems": [
    "C26_first_hit",
    "C26_first_row",
    "C26_no_row"
   ],
   "note": "Every first-hit table without collected columns, any rows, columns and input, traced or not, indexed or not. Hypotheses (in_order): library functions do not write to their arguments, the input is acyclic, the table's expressions assign nothing, do not panic, and only tested cells read $. Rows are judged by a separate specification (TableSpec) that evaluates each cell on its own."
  },
  {
   "property": "C27",
   "status": "proved",
   "theorems": [
    "C27_collect",
    "C27_collected_columns",
    "C27_collected_field",
    "C27_plain_field"
   ],
   "note": "Collect policy: exactly the rows that hold and evaluate, in order. First-hit with collected columns: scan/collected in TableSpec say which rows contribute. Column fields: which are collected and under which path."
  },
  {
   "property": "C28",
   "status": "proved",
   "theorems": [
    "C28_own_index",
    "C28_shared_id_refuted",
    "C28_index",
    "C28_leftover_refuted"
   ],
   "note": "The index built by the analyser gives the same tree as no index, under in_order. Without the hypothesis that only tested cells read $ the claim is refuted (C28_leftover_refuted)."
  },
  {
   "property": "C29",
   "status": "proved",
   "theorems": [
    "C29_expression",
    "C29_cell"
   ],
   "note": "For every expression and every value, including dates and collections; both for any path and for cells as the table runs them."
  },
  {
   "property": "C30",
   "status": "proved",
   "theorems": [
    "C30_total"
   ],
   "note": "Over decimals of unbounded precision; the code's decimals have 28 digits, for which the if-direction is the one that matters and still holds."
  },
  {
   "property": "C31",
   "status": "proved",
   "theorems": [
    "C31_build",
    "C31_build_content",
    "C31_build_missing",
    "C31_build_wf",
    "C31_validate",
    "C31_validate_error"
   ],
   "note": "build_graph accepts exactly the contents whose edges name existing nodes; validate accepts exactly one input node and no directed cycle (petgraph's depth-first search modelled and proved to decide cyclicity)."
  },
  {
   "property": "C32",
   "status": "proved",
   "theorems": [
    "C32_once",
    "C32_after_predecessors",
    "C32_error_stops",
    "C32_output_stops",
    "C32_complete"
   ],
   "note": "For arbitrary node handlers and switch outcomes. 'Remaining predecessors' are the predecessors in the pruned graph at the moment the node runs. C32_complete: without an output node and below the 1000-iteration limit every remaining connected node runs."
  },
  {
   "property": "C33",
   "status": "proved",
   "theorems": [
    "C33_ends",
    "C33_bound",
    "C33_rejected"
   ],
   "note": "Evaluation of any well-formed graph ends; the number of node executions is at most the number of nodes."
  },
  {
   "property": "C34",
   "status": "proved",
   "theorems": [
    "C34_final_graph",
    "C34_run_in_graph",
    "C34_run_reached",
    "C34_decided",
    "C34_decided_once",
    "C34_switch_edges"
   ],
   "note": "The remaining graph is characterised exactly (pruned_to) by the edges struck out by the decided switches; the statements kept are those that hold under the hit policy. A node weakly connected to the input runs even if no chain leads to it from the input, so C34_run_reached assumes that only the input lacks incoming edges."
  },
  {
   "property": "C35",
   "status": "proved",
   "theorems": [
    "C35_input",
    "C35_switch_input",
    "C35_output"
   ],
   "note": "merge_trees over predecessors' outputs, earliest declared edge last so that it wins; nothing allocated before changes. Hypothesis apart: two outputs share only objects without null entries (see C08 for why)."
  },
  {
   "property": "C36",
   "status": "proved",
   "theorems": [
    "C36_stops",
    "C36_limit",
    "C36_limit_only_adds_errors",
    "C36_endless",
    "C36_endless_plain"
   ],
   "note": "Function, custom and table nodes enter as an arbitrary handler that does not call back into the engine."
  },
  {
   "property": "C37",
   "status": "proved",
   "theorems": [
    "C37_one_run_per_element",
    "C37_field",
    "C37_loop_is_map"
   ],
   "note": "Call-by-call theorem for every node function; content theorem (loop = map, output path, pass-through) for every node that acts as a function on contents."
  },
  {
   "property": "C38",
   "status": "proved",
   "theorems": [
    "C38_entries",
    "C38_input_kept_refuted",
    "C38_output_is_tree_refuted"
   ],
   "note": "For assignment-free expressions and independent keys. Refuted without independence (input mutated) and for acyclic output (entry reading $)."
  },
  {
   "property": "C39",
   "status": "proved",
   "theorems": [
    "C39_transparent",
    "C39_no_history",
    "C39_failures_uncached",
    "C39_asks_once",
    "C39_asks_imports",
    "C39_runs",
    "C39_asks_once_refuted"
   ],
   "note": "The cached loader answers like the loader behind it in every history (C39_transparent, C39_no_history); failures are asked again; after success only imports can be asked again. 'At most once' is false of imports when a schema cannot be resolved (C39_asks_once_refuted)."
  },
  {
   "property": "C40",
   "status": "proved",
   "theorems": [
    "C40_map",
    "C40_keys"
   ],
   "note": "For every history of add and remove."
  },
  {
   "property": "C41",
   "status": "proved",
   "theorems": [
    "C41_graph",
    "C41_policy",
    "C41_outside",
    "C41_reset",
    "C41_changes",
    "C41_nested_refuted"
   ],
   "note": "Content and policies come from the snapshot in every history. Nested decisions and schema dictionaries still come from the live loader: C41_nested_refuted shows the effect; C41_changes says exactly when later changes do not matter. Policy evaluation and diagnostics are parameters."
  },
  {
   "property": "C42",
   "status": "proved",
   "theorems": [
    "C42_text",
    "C42_expression",
    "C42_concat",
    "C42_error",
    "C42_accepted",
    "C42_empty_refuted",
    "C42_unclosed_refuted",
    "C42_braces_refuted",
    "C42_text_refuted"
   ],
   "note": "Text, single expressions, concatenation, errors and acceptance for every template over bytes; white space is ASCII; the text of dates and intervals is a parameter. Refuted: the empty text gives null, an unclosed last expression is accepted, an expression with }} cannot be embedded, strings inside containers are not escaped."
  },
  {
   "property": "C43",
   "status": "proved",
   "theorems": [
    "C43_reflexive",
    "C43_least",
    "C43_upper",
    "C43_upper_keys_refuted",
    "C43_upper_null_refuted",
    "C43_commutes",
    "C43_same",
    "C43_same_refuted",
    "C43_merge",
    "C43_merge_right",
    "C43_merge_refuted",
    "C43_values",
    "C43_values_refuted",
    "C43_values_keys_refuted",
    "C43_document",
    "C43_document_refuted",
    "C43_infer",
    "C43_infer_refuted",
    "C43_widen",
    "C43_key",
    "C43_key_refuted",
    "C43_elements",
    "C43_range"
   ],
   "note": "Types as trees (sharing and pointer shortcuts left out). Refuted in general: keys on one side only and null against nullable break the upper bound; arrays of unknown elements lose their values in a merge ([[1,\"a\"],[2]] is inferred as arrays of numbers); a named enumeration merged with itself changes its name; a null field does not satisfy a nullable field."
  },
  {
   "property": "C44",
   "status": "proved",
   "theorems": [
    "C44_sum",
    "C44_last",
    "C44_refused",
    "C44_sum_refuted",
    "C44_spaces_refuted",
    "C44_number",
    "C44_number_taken"
   ],
   "note": "Complete description of the texts that are read and of their value, for every text over bytes (white space is ASCII). Refuted for two terms in months or two in years: the last one wins; digits separated by spaces form one number."
  },
  {
   "property": "C45",
   "status": "proved",
   "theorems": [
    "C45_no_reserved_key",
    "C45_nothing_else",
    "C45_own_data_kept_refuted"
   ],
   "note": "Also on cyclic results. Refuted: only the engine's own entries are removed."
  },
  {
   "property": "C46",
   "status": "proved",
   "theorems": [
    "C46_table",
    "C46_leftover_refuted"
   ],
   "note": "For decision tables, the only nodes whose work depends on tracing. Refuted when an output cell reads $ (C46_leftover_refuted)."
  },
  {
   "property": "C47",
   "status": "proved",
   "theorems": [
    "C47_asked",
    "C47_above",
    "C47_entity_refuted",
    "C47_ends",
    "C47_once",
    "C47_order",
    "C47_order_acyclic",
    "C47_goals",
    "C47_only",
    "C47_store"
   ],
   "note": "Blocks' own behaviour (select, commit), their read plans and the paths they write are parameters. Edges of the dependency graph, sinks and reachable inputs are not modelled. Refuted: reading a whole declared entity does not wait for fields computed for it (C47_entity_refuted)."
  },
  {
   "property": "C48",
   "status": "proved",
   "theorems": [
    "C48_exact",
    "C48_stops"
   ],
   "note": "Exactly the import-reachable policies, each once; stops on cycles."
  },
  {
   "property": "C49",
   "status": "proved",
   "theorems": [
    "C49_dictionaries",
    "C49_stops",
    "C49_replaced",
    "C49_untouched",
    "C49_succeeds",
    "C49_skipped",
    "C49_schemas",
    "C49_none_left_refuted",
    "C49_property_refuted"
   ],
   "note": "By places in the schema. References inside the other keys of a reference stay (C49_none_left_refuted); a property called $dictionary makes it fail (C49_property_refuted)."
  },
  {
   "property": "C50",
   "status": "proved",
   "theorems": [
    "C50_in",
    "C50_out",
    "C50_round",
    "C50_back",
    "C50_equal",
    "C50_range",
    "C50_last",
    "C50_token_refuted",
    "C50_plain_refuted",
    "C50_plain",
    "C50_cycle_refuted"
   ],
   "note": "Numbers in scientific notation and the float fallback are a parameter. Refuted: an object whose first key is serde_json's number token is read as a number; without arbitrary_precision fractions are cut when written; cyclic values have no document."
  },
  {
   "property": "C51",
   "status": "proved",
   "theorems": [
    "C51_template",
    "C51_compare_numbers",
    "C51_compare_dates",
    "C51_compare_others",
    "C51_equality",
    "C51_equality_is_content_refuted",
    "C51_in_array",
    "C51_in_object",
    "C51_arithmetic",
    "C51_arithmetic_undefined",
    "C51_arithmetic_type_error",
    "C51_concat",
    "C51_negate",
    "C51_and_or",
    "C51_not",
    "C51_nullish",
    "C51_conditional"
   ],
   "note": "Operators on two operands that evaluate in order: numeric and date comparisons, ==/!= complementarity, in/not in, exact arithmetic when the decimal library is exact on the operands, null/error results where undefined, concatenation, and/or/not, ??, ?:. == on containers is refuted as content equality (always false)."
  },
  {
   "property": "C52",
   "status": "proved",
   "theorems": [
    "C52_content_decides_result"
   ],
   "note": "assignment-free expressions; library functions assumed to depend on content only (plain_lib)"
  },
  {
   "property": "C53",
   "status": "proved",
   "theorems": [
    "C53_round",
    "C53_round_places",
    "C53_trunc",
    "C53_trunc_places",
    "C53_floor",
    "C53_ceil",
    "C53_abs",
    "C53_string_of_number",
    "C53_string",
    "C53_number",
    "C53_bool",
    "C53_bool_text",
    "C53_bool_empty_text_refuted",
    "C53_type",
    "C53_starts_with",
    "C53_ends_with",
    "C53_contains_text",
    "C53_contains_array",
    "C53_split",
    "C53_len_text",
    "C53_len_array",
    "C53_flatten",
    "C53_keys",
    "C53_values",
    "C53_merge_arrays",
    "C53_merge_objects",
    "C53_merge_deep",
    "C53_number_others",
    "C53_is_numeric",
    "C53_text_case",
    "C53_matches",
    "C53_extract",
    "C53_fuzzy",
    "C53_split_characters",
    "C53_dates",
    "C53_rand",
    "C53_rand_negative_refuted",
    "C53_arity"
   ],
   "note": "Text functions that need Unicode tables (upper, lower, trim), regular expressions, fuzzyMatch, random numbers and date are library parameters: the theorems say which arguments the library gets. Decimal places above 1000 are not distinguished. bool('') is true (C53_bool_empty_text_refuted). rand(-1) panics (C53_rand_negative_refuted)."
  },
  {
   "property": "C54",
   "status": "proved",
   "theorems": [
    "C54_nodes"
   ],
   "note": "For a top-level decision (no parent nodes); a nested decision's input node is shown with the parent's $nodes added."
  },
  {
   "property": "C56",
   "status": "proved",
   "theorems": [
    "C56_clock",
    "C56_period",
    "C56_fixed",
    "C56_again",
    "C56_quarter_refuted",
    "C56_jump_refuted"
   ],
   "note": "Calendar, zones and instants are those of chrono as documented (no leap seconds); a zone is any pair of functions. C56_quarter_refuted and C56_jump_refuted show the two cases where the code gives no date."
  },
  {
   "property": "C57",
   "status": "proved",
   "theorems": [
    "C57_compare",
    "C57_order",
    "C57_instants",
    "C57_instants_refuted",
    "C57_zones_refuted",
    "C57_invalid"
   ],
   "note": "Stated for two dates of one zone with a fixed offset; different zones and unit-less comparison are refuted."
  },
  {
   "property": "C58",
   "status": "proved",
   "theorems": [
    "C58_fixed",
    "C58_months",
    "C58_years",
    "C58_leap_refuted",
    "C58_fall_refuted"
   ],
   "note": "Fixed offset zones; 29 February plus years and ambiguous hours are refuted."
  },
  {
   "property": "C59",
   "status": "proved",
   "theorems": [
    "C59_fixed",
    "C59_months",
    "C59_multiples",
    "C59_anti",
    "C59_added",
    "C59_invalid"
   ],
   "note": "Floating-point quotients of the source are exact fractions in the model. Whole months are characterised for days up to the 28th; sign change and the difference after adding hold for all days."
  },
  {
   "property": "C60",
   "status": "proved",
   "theorems": [
    "C60_fields",
    "C60_calendar",
    "C60_today",
    "C60_zone",
    "C60_timestamp",
    "C60_offset_refuted",
    "C60_set",
    "C60_set_fixed",
    "C60_invalid",
    "C60_unknown_zone"
   ],
   "note": "Text formats of dates and formatting are parameters of the model."
  },
  {
   "property": "C61",
   "status": "proved",
   "theorems": [
    "C61_errors",
    "C61_got",
    "C61_valid",
    "C61_complete_refuted"
   ],
   "note": "Errors at a path iff the place there is wrong, by an inductive relation of the places the data models declare (validator.rs, refs.rs, classify_roots); C61_complete_refuted: missing required properties and texts that are no dates are accepted."
  },
  {
   "property": "C62",
   "status": "proved",
   "theorems": [
    "C62_only",
    "C62_resolved",
    "C62_again_refuted",
    "C62_nested_refuted"
   ],
   "note": "hydrate_references: places change only from an id to the last item with that id, and none is left at a declared field (names without dots). Refuted: the caller's nested objects are written, so the same input fails its next check; references of held entities stay ids."
  },
  {
   "property": "C63",
   "status": "proved",
   "theorems": [
    "C63_reads_reported",
    "C63_text",
    "C63_dollar_refuted",
    "C63_assignment_refuted",
    "C63_nesting_refuted",
    "C63_names_written",
    "C63_dotted_exact",
    "C63_alias_exact",
    "C63_nested_alias_exact",
    "C63_unresolved_exact",
    "C63_assigned_exact"
   ],
   "note": "Proved for expressions without assignments and with closures nested less than 32 deep; each restriction is shown necessary by a refutation."
  },
  {
   "property": "C64",
   "status": "proved",
   "theorems": [
    "C64_block",
    "C64_determined",
    "C64_assertion",
    "C64_tracing",
    "C64_start",
    "C64_duplicate_arms_refuted",
    "C64_cyclic_refuted",
    "C64_root_refuted"
   ],
   "note": "Top-level properties; expressions without assignments and without $root. Dotted properties: see C64_cyclic_refuted for what can go wrong."
  },
  {
   "property": "C65",
   "status": "proved",
   "theorems": [
    "C65_solution",
    "C65_goals",
    "C65_lazy",
    "C65_failure",
    "C65_determined",
    "C65_fewer_goals",
    "C65_same_store",
    "C65_circle_refuted",
    "C65_root_refuted",
    "C65_dotted_refuted"
   ],
   "note": "Blocks with dotless, pairwise different properties that are no declared inputs, expressions without assignments and without $root, no circles; each restriction has a refuted companion or a C64 one. Decision-table blocks and blocks that run for every instance of an entity are not covered."
  },
  {
   "property": "C66",
   "status": "proved",
   "theorems": [
    "C66_table",
    "C66_determined",
    "C66_trace",
    "C66_tracing",
    "C66_index_field_refuted",
    "C66_index_skips_refuted",
    "C66_failure_keeps_refuted",
    "C66_columns_independent_refuted",
    "C66_first_wins_refuted",
    "C66_read",
    "C66_blank_cell_refuted"
   ],
   "note": "Tables with an index (eight rows or more, without tracing) are covered when all their input cells evaluate; what happens otherwise is in the refuted companions. Properties with dots are not covered. arrange is the iteration order of a hash map and any permutation is allowed."
  },
  {
   "property": "C67",
   "status": "proved",
   "theorems": [
    "C67_rows_reported",
    "C67_column_reported",
    "C67_fall_back",
    "C67_already_matches",
    "C67_remove_rows",
    "C67_remove_column",
    "C67_merge_rows",
    "C67_unreachable_refuted",
    "C67_never_changes_refuted",
    "C67_no_conditions_refuted",
    "C67_smooth_refuted"
   ],
   "note": "Hints about decision tables: exactly which rows and empty columns are reported, and that removing them keeps what the table writes; four refutations. The claim 'never changes the outcome' holds only where rows differing elsewhere exclude each other."
  },
  {
   "property": "C68",
   "status": "proved",
   "theorems": [
    "C68_reported",
    "C68_outer",
    "C68_once",
    "C68_remove",
    "C68_same_value",
    "C68_negation_refuted",
    "C68_interval_refuted",
    "C68_context_refuted",
    "C68_assign_refuted"
   ],
   "note": "Full on expressions that can be written without a negation right of a tighter operator and without intervals that begin with a closing bracket; the hypotheses are shown to be needed by refutations."
  },
  {
   "property": "C69",
   "status": "proved",
   "theorems": [
    "C69_value",
    "C69_no_confusion",
    "C69_calls",
    "C69_arguments",
    "C69_method",
    "C69_in",
    "C69_division_refuted",
    "C69_unknown_refuted",
    "C69_filter_refuted",
    "C69_flatten_refuted",
    "C69_merge_refuted",
    "C69_key_refuted",
    "C69_date_refuted",
    "C69_function_refuted",
    "C69_root_refuted",
    "C69_fail_refuted",
    "C69_optional_refuted",
    "C69_bounds_refuted"
   ],
   "note": "Strict mode. Assignments and deprecated functions are left out; every other kind of exclusion has a refutation."
  },
  {
   "property": "C70",
   "status": "proved",
   "theorems": [
    "C70_reported",
    "C70_outputs",
    "C70_entities",
    "C70_inputs",
    "C70_accepted",
    "C70_missing",
    "C70_unknown_goal",
    "C70_sinks",
    "C70_inside_refuted",
    "C70_dotted_refuted",
    "C70_everything_refuted"
   ],
   "note": "All parts proved for policies of expression, assertion and match blocks with undotted keys and for property names without dots; refutations show what fails outside."
  },
  {
   "property": "C71",
   "status": "proved",
   "theorems": [
    "C71_exact",
    "C71_text",
    "C71_meaning",
    "C71_back",
    "C71_others",
    "C71_key",
    "C71_texts",
    "C71_shape",
    "C71_protected",
    "C71_embedded",
    "C71_unreadable",
    "C71_global",
    "C71_root_refuted",
    "C71_alias_refuted",
    "C71_capture_refuted",
    "C71_taken_refuted",
    "C71_assigned_refuted",
    "C71_types_refuted",
    "C71_part_refuted"
   ],
   "note": "Exact edit, same meaning, round trip, keys and JSON texts proved for expressions without assignments; entities, fields and graph properties as targets are not modelled; six defects refuted with witnesses."
  },
  {
   "property": "C72",
   "status": "proved",
   "theorems": [
    "C72_variants",
    "C72_variant_groups",
    "C72_variant_value",
    "C72_flat_groups",
    "C72_complete",
    "C72_variant_settles",
    "C72_flat_settles",
    "C72_reads",
    "C72_elsewhere_refuted",
    "C72_default_refuted",
    "C72_enough_refuted"
   ],
   "note": "Groups of both forms of schema characterised exactly; completeness; an evaluation depends only on what it reads; semantic soundness of variants and guards under kept_to_arms, refuted without it."
  },
  {
   "property": "C73",
   "status": "proved",
   "theorems": [
    "C73_policies",
    "C73_graphs",
    "C73_one_answer",
    "C73_policies_same",
    "C73_graphs_same",
    "C73_cycle_refuted",
    "C73_import_refuted",
    "C73_resolver_refuted"
   ],
   "note": "C73_policies holds after every history; C73_graphs needs well behaved histories, and the three refutations show that each condition is needed. The analyses themselves are parameters."
  },
  {
   "property": "C74",
   "status": "proved",
   "theorems": [
    "C74_reported",
    "C74_same",
    "C74_back",
    "C74_truth_refuted"
   ],
   "note": "That the conditions and alternatives are written as texts that parse to the parts of the chain is a hypothesis (arms_of); the linter itself does not rewrite. Expressions that assign or use the whole context are excluded."
  },
  {
   "property": "C75",
   "status": "proved",
   "theorems": [
    "C75_each",
    "C75_siblings_refuted",
    "C75_owner",
    "C75_whose",
    "C75_no_array",
    "C75_cyclic_refuted"
   ],
   "note": "C75_each is for results that are not objects or arrays and for instances without an owner; C75_owner is about one instance with an owner. What the block reads must not contain an instance: without that it is refuted (C75_siblings_refuted)."
  },
  {
   "property": "C76",
   "status": "proved",
   "theorems": [
    "C76_listing",
    "C76_named",
    "C76_listed_found",
    "C76_inside",
    "C76_outside_refuted",
    "C76_empty_root_refuted"
   ],
   "note": "Proved for every tree without links, working directory and root: the listing is exact and without repetition, keys of names load what they name, tame keys stay below the root. Refuted for absolute keys and keys with .. and for the listing of an empty root."
  },
  {
   "property": "C77",
   "status": "proved",
   "theorems": [
    "C77_fields",
    "C77_names",
    "C77_text",
    "C77_fraction",
    "C77_period",
    "C77_year_refuted",
    "C77_errors"
   ],
   "note": "Fields, names, texts, fractions, periods and errors are proved for the table of older functions; the end of the year is refuted (C77_year_refuted). Formats of texts, humantime and the text of a date are parameters."
  },
  {
   "property": "C78",
   "status": "proved",
   "theorems": [
    "C78_conflicts",
    "C78_none",
    "C78_inside_refuted"
   ],
   "note": "Proved for every history over the workspace model of C73; what a rule writes is a parameter. Refuted for paths inside one another."
  },
  {
   "property": "C79",
   "status": "proved",
   "theorems": [
    "C79_empty",
    "C79_sound",
    "C79_mark",
    "C79_complete",
    "C79_limit",
    "C79_order",
    "C79_same",
    "C79_rank",
    "C79_spelled_refuted",
    "C79_cells_refuted"
   ],
   "note": "proved for all documents, queries and limits, for every notion of letters; two wished-for properties are refuted (C79_spelled_refuted, C79_cells_refuted)"
  },
  {
   "property": "C80",
   "status": "proved",
   "theorems": [
    "C80_sound",
    "C80_snippet",
    "C80_policies",
    "C80_complete",
    "C80_counts",
    "C80_order",
    "C80_nested",
    "C80_apart",
    "C80_same",
    "C80_meaning_refuted",
    "C80_count_refuted"
   ],
   "note": "Hints of repeated derivations over every unit; the parser and its spans are parameters. C80_apart assumes that what lies in a derivation has fewer operations."
  },
  {
   "property": "C81",
   "status": "proved",
   "theorems": [
    "C81_types",
    "C81_exact",
    "C81_date_refuted",
    "C81_cases_refuted",
    "C81_null",
    "C81_null_all",
    "C81_null_refuted",
    "C81_enums",
    "C81_dictionaries",
    "C81_needs",
    "C81_proper",
    "C81_distinct"
   ],
   "note": "Validity is specified for the keywords the types are made of; C81_date_refuted, C81_cases_refuted and C81_null_refuted record where the unconditional claim fails."
  },
  {
   "property": "C82",
   "status": "proved",
   "theorems": [
    "C82_types",
    "C82_exact",
    "C82_intersections",
    "C82_distinct",
    "C82_keyof_refuted",
    "C82_rest_refuted",
    "C82_union_refuted"
   ],
   "note": "The TypeScript parser is external; the model starts at its syntax tree. C82_keyof_refuted, C82_rest_refuted and C82_union_refuted record where the unconditional claim fails."
  }
 ]
}