{
 "claims": [
  {
   "property": "C01",
   "status": "partial",
   "theorems": [
    "C01_plain_document_unchanged",
    "C01_nan_refuted"
   ],
   "note": "Whole runs of the merge engine on every plain document (any evaluator, any options). Documents with the number NaN are refuted: the processing never ends (C01_nan_refuted); the negative zero is excluded, since it compares equal to zero."
  },
  {
   "property": "C02",
   "status": "partial",
   "theorems": [
    "C02_cycle_refuted",
    "C02_zero_refuted",
    "C02_cascade",
    "C02_last_wins",
    "C02_untouched",
    "C02_keys_kept",
    "C02_unsteady_refuted",
    "C02_determined"
   ],
   "note": "Whole runs on plain documents (keys without meaning for paths and merging) whose lists stay addressed the same way; other lists are refuted (C02_unsteady_refuted). A field with an undecided expression does not get the value of the stub (C02_cycle_refuted); documents with expressions and stubs are in C55. The result is characterized by the relation merges of FlowSpec.v."
  },
  {
   "property": "C03",
   "status": "proved",
   "theorems": [
    "C03_first_wins",
    "C03_only_first",
    "C03_none"
   ],
   "note": "All documents; the effect on whole runs is in C02_cascade and C02_last_wins."
  },
  {
   "property": "C04",
   "status": "proved",
   "theorems": [
    "C04_cascade_success",
    "C04_cascade_error",
    "C04_cascade_stub_error",
    "C04_success",
    "C04_complete",
    "C04_sound",
    "C04_order",
    "C04_resolved"
   ],
   "note": "Every node tree, parser and evaluator; composed with the evaluation loop and the cascade (C04_cascade_success, C04_cascade_error, C04_cascade_stub_error)."
  },
  {
   "property": "C05",
   "status": "proved",
   "theorems": [
    "C05_final",
    "C05_stub",
    "C05_root",
    "C05_nothing_left",
    "C05_unmarked",
    "C05_idempotent",
    "C05_stub_idempotent",
    "C05_stages"
   ],
   "note": "For every annotated tree; the listing of the cleaned document equals the live part of the listing of the original."
  },
  {
   "property": "C06",
   "status": "proved",
   "theorems": [
    "C06_map",
    "C06_list",
    "C06_idempotent",
    "C06_nested_refuted"
   ],
   "note": "Exact contents of the state document; the claim about nested state nodes below unmarked entries is refuted (C06_nested_refuted): the code keeps only state entries of the root."
  },
  {
   "property": "C07",
   "status": "proved",
   "theorems": [
    "C07_characterized",
    "C07_reflexive",
    "C07_symmetric",
    "C07_transitive",
    "C07_annotations",
    "C07_nan_refuted"
   ],
   "note": "Reflexivity needs the absence of NaN (C07_nan_refuted shows why)."
  },
  {
   "property": "C08",
   "status": "partial",
   "theorems": [
    "C08_empty_iff_partial",
    "C08_equivalent",
    "C08_self",
    "C08_stream",
    "C08_duplicates_refuted",
    "C08_map_list_refuted",
    "C08_jobs_refuted"
   ],
   "note": "Exact characterization for all documents whose lists have distinct element names and whose jobs are named maps; the remaining cases are refuted (duplicates, map against named list, unnamed jobs, job index)."
  },
  {
   "property": "C09",
   "status": "proved",
   "theorems": [
    "C09_lookup",
    "C09_missing",
    "C09_compose",
    "C09_crash_characterized",
    "C09_missing_refuted"
   ],
   "note": "An index below minus the list length crashes instead of yielding not-found; C09_crash_characterized gives exactly these paths."
  },
  {
   "property": "C10",
   "status": "proved",
   "theorems": [
    "C10_dynaml",
    "C10_protected",
    "C10_unescape_once",
    "C10_unescape_other",
    "C10_literal",
    "C10_interpolate",
    "C10_interpolate_protected",
    "C10_interpolate_unescape",
    "C10_interpolate_refuted",
    "C10_roundtrip",
    "C10_escaped_inert",
    "C10_document",
    "C10_root_refuted",
    "C10_control_refuted"
   ],
   "note": "The refuted theorems show three places where the property fails in the code: keys of the document root, maps with escaped keys under control processing, interpolated expressions starting with a string literal."
  },
  {
   "property": "C11",
   "status": "proved",
   "theorems": [
    "C11_ring",
    "C11_exact",
    "C11_div_mod",
    "C11_mixed",
    "C11_floats",
    "C11_rejected"
   ],
   "note": ""
  },
  {
   "property": "C12",
   "status": "partial",
   "theorems": [
    "C12_add",
    "C12_sub_small",
    "C12_sub_exact",
    "C12_refuted",
    "C12_network"
   ],
   "note": "True for all non-negative offsets and characterized exactly for negative ones; the unrestricted property is refuted (C12_refuted)."
  },
  {
   "property": "C13",
   "status": "proved",
   "theorems": [
    "C13_diff",
    "C13_back",
    "C13_v4"
   ],
   "note": ""
  },
  {
   "property": "C14",
   "status": "partial",
   "theorems": [
    "C14_bounds",
    "C14_contains",
    "C14_num_ip_v4",
    "C14_num_ip_v6_refuted"
   ],
   "note": "num_ip is proved for IPv4 and refuted for IPv6 (C14_num_ip_v6_refuted)."
  },
  {
   "property": "C15",
   "status": "partial",
   "theorems": [
    "C15_v4",
    "C15_v6_refuted"
   ],
   "note": "Proved for IPv4; refuted for IPv6 prefixes (C15_v6_refuted)."
  },
  {
   "property": "C16",
   "status": "partial",
   "theorems": [
    "C16_v4",
    "C16_refuted"
   ],
   "note": "Proved for IPv4 with non-negative factors; refuted in general (C16_refuted)."
  },
  {
   "property": "C17",
   "status": "partial",
   "theorems": [
    "C17_first",
    "C17_indexed",
    "C17_call",
    "C17_negative_refuted",
    "C17_static_range",
    "C17_static_ips"
   ],
   "note": "Negative count refuted (crash): C17_negative_refuted."
  },
  {
   "property": "C18",
   "status": "partial",
   "theorems": [
    "C18_equals",
    "C18_error",
    "C18_not",
    "C18_reflexive",
    "C18_structural",
    "C18_symmetric_partial",
    "C18_symmetric_refuted",
    "C18_transitive_refuted",
    "C18_float_refuted"
   ],
   "note": "Exact characterization on plain values; symmetry and transitivity hold only between values of the same types (refuted otherwise), floats never compare equal (C18_float_refuted)."
  },
  {
   "property": "C19",
   "status": "partial",
   "theorems": [
    "C19_order",
    "C19_trichotomy",
    "C19_transitive",
    "C19_mixed",
    "C19_rejected_refuted"
   ],
   "note": "Total order on integers and texts; the claim that all other operand types are rejected is refuted (C19_rejected_refuted)."
  },
  {
   "property": "C20",
   "status": "proved",
   "theorems": [
    "C20_unique",
    "C20_cond",
    "C20_cond_undecided",
    "C20_cond_unchosen",
    "C20_or",
    "C20_or_unchosen",
    "C20_validor",
    "C20_validor_unchosen",
    "C20_not",
    "C20_logical",
    "C20_logical_shortcut",
    "C20_logical_first",
    "C20_pending_refuted",
    "C20_expansion_refuted",
    "C20_document_refuted"
   ],
   "note": "About the evaluation relation of the modelled expressions, for every world (parser, builtins, interpolation, state) that is steady in its recursion argument. What is false of the code is stated separately: an operand whose evaluation is still pending counts as available for || (C20_pending_refuted), expanded operands (C20_expansion_refuted), and a document where (x // 5) || 7 picks 7 although x becomes available (C20_document_refuted)."
  },
  {
   "property": "C21",
   "status": "partial",
   "theorems": [
    "C21_range_partial",
    "C21_sound",
    "C21_range_refuted"
   ],
   "note": "All 64-bit bounds except the last positions of the integer range, for which C21_range_refuted shows the actual behaviour."
  },
  {
   "property": "C22",
   "status": "proved",
   "theorems": [
    "C22_slice",
    "C22_slice_error",
    "C22_slice_empty",
    "C22_mixed_bounds_refuted",
    "C22_substr"
   ],
   "note": "Mixed-sign bounds behave as stated in C22_slice_error/C22_slice_empty (C22_mixed_bounds_refuted documents the surprising cases)."
  },
  {
   "property": "C23",
   "status": "partial",
   "theorems": [
    "C23_uniq",
    "C23_uniq_first_partial",
    "C23_uniq_first_refuted",
    "C23_compact",
    "C23_intersect_partial",
    "C23_intersect_error",
    "C23_intersect_refuted",
    "C23_contains_list",
    "C23_index_list",
    "C23_lastindex_list",
    "C23_nil_refuted",
    "C23_contains_text",
    "C23_index_text",
    "C23_lastindex_text",
    "C23_agree"
   ],
   "note": "First-occurrence form of uniq proved for lists of values of the same types and refuted for mixed ones (== is not transitive); intersect proved for non-nil slices and refuted for nil slices; nil is never found by contains/index (C23_nil_refuted)."
  },
  {
   "property": "C24",
   "status": "partial",
   "theorems": [
    "C24_inplace_refuted",
    "C24_sort_inplace_refuted",
    "C24_other_arrays",
    "C24_sort_permutation",
    "C24_sort",
    "C24_sort_mixed",
    "C24_sort_lambda",
    "C24_reverse"
   ],
   "note": "Values of sort and reverse; sort.SliceStable is modelled as stable insertion sort. The effect on other references to the same array is in C24_inplace_refuted (heap model)."
  },
  {
   "property": "C25",
   "status": "partial",
   "theorems": [
    "C25_value",
    "C25_others",
    "C25_refuted",
    "C25_cases"
   ],
   "note": "The value of a concatenation is proved for every heap and every capacity; that it leaves other values alone is proved for bases without spare capacity and refuted otherwise (C25_refuted: lists parsed from YAML have spare capacity and two concatenations share a cell)."
  },
  {
   "property": "C26",
   "status": "partial",
   "theorems": [
    "C26_join_split",
    "C26_split_pieces",
    "C26_split_limit",
    "C26_split_join",
    "C26_split_length",
    "C26_split_length_refuted",
    "C26_split_chars",
    "C26_join",
    "C26_panic_refuted",
    "C26_trim",
    "C26_trim_list"
   ],
   "note": "All texts and separators; splitting by length and by characters restores the text for valid UTF-8 (refuted otherwise), join(~) and trim() crash."
  },
  {
   "property": "C27",
   "status": "proved",
   "theorems": [
    "C27_roundtrip",
    "C27_lines",
    "C27_decode_injective_refuted"
   ],
   "note": "The decoder ignores unused bits (C27_decode_injective_refuted)."
  },
  {
   "property": "C28",
   "status": "partial",
   "theorems": [
    "C28_concat",
    "C28_concat_assoc",
    "C28_concat_self",
    "C28_concat_other",
    "C28_keys",
    "C28_length",
    "C28_deepmerge",
    "C28_deepmerge_fold",
    "C28_deepmerge_self",
    "C28_deepmerge_assoc_refuted",
    "C28_makemap",
    "C28_makemap_pairs",
    "C28_list_to_map",
    "C28_list_to_map_error",
    "C28_list_to_map_default"
   ],
   "note": "deepmerge is not associative (C28_deepmerge_assoc_refuted). merge() is covered by the merge engine (C02, C03)."
  },
  {
   "property": "C29",
   "status": "partial",
   "theorems": [
    "C29_assigned",
    "C29_kept",
    "C29_conflict_reported",
    "C29_reevaluated",
    "C29_stream_ends",
    "C29_all_end",
    "C29_nothing_invented",
    "C29_stored_node",
    "C29_tag_list",
    "C29_tag_list_unique",
    "C29_doc_component_refuted"
   ],
   "note": "All histories of tag operations; names with a component doc are excluded because they are accepted but never found (C29_doc_component_refuted)."
  },
  {
   "property": "C30",
   "status": "partial",
   "theorems": [
    "C30_user_tags",
    "C30_numbering_partial",
    "C30_second_stream_refuted"
   ],
   "note": "First stream of a processing; after a stream reset the numbers of the old stream stay bound (C30_second_stream_refuted)."
  },
  {
   "property": "C31",
   "status": "proved",
   "theorems": [
    "C31_access",
    "C31_foreign_fs",
    "C31_made",
    "C31_functions",
    "C31_exec_denied",
    "C31_files_denied",
    "C31_document",
    "C31_cascade",
    "C31_no_exec",
    "C31_no_files",
    "C31_context",
    "C31_title_refuted"
   ],
   "note": "Access rights of contexts after every history of API calls (C31_access, C31_foreign_fs), and every access of the modelled functions exec, pipe, read, write, tempfile, lookup, list, mkdir, env in whole evaluations, flows and cascades that return (C31_document, C31_cascade, C31_context), whatever the outside answers. Runs that panic have no final state in the model and are not covered. The environment is readable and read() reaches the network whatever the file system is (C31_title_refuted)."
  },
  {
   "property": "C32",
   "status": "partial",
   "theorems": [
    "C32_persistent",
    "C32_history",
    "C32_result",
    "C32_processing",
    "C32_features",
    "C32_settag_panics",
    "C32_features_refuted",
    "C32_sibling_refuted",
    "C32_settag_refuted"
   ],
   "note": "All histories of context calls: plain With* calls leave every other context alone. False for WithInterpolation, WithControl and WithFeatures, which change the features shared with the receiver (C32_features_refuted, C32_sibling_refuted), and for SetTag (C32_settag_refuted; it panics before CleanupTags)."
  },
  {
   "property": "C33",
   "status": "partial",
   "theorems": [
    "C33_cached_partial",
    "C33_uncached",
    "C33_independent_partial",
    "C33_collision_refuted",
    "C33_failure_refuted",
    "C33_uncached"
   ],
   "note": "Repeated calls are answered from the cache; \"iff same arguments\" and \"failures are not remembered\" are refuted (C33_collision_refuted, C33_failure_refuted)."
  },
  {
   "property": "C34",
   "status": "partial",
   "theorems": [
    "C34_read_stable",
    "C34_read_once",
    "C34_uncached_read",
    "C34_temp_contents",
    "C34_temp_shared",
    "C34_temp_distinct",
    "C34_temp_removed",
    "C34_cleanup_keeps_others",
    "C34_outer_refuted",
    "C34_uncached"
   ],
   "note": "All histories of reads, temporary files and changes from outside; a processing with an outer binding keeps its temporary files (C34_outer_refuted)."
  },
  {
   "property": "C35",
   "status": "proved",
   "theorems": [
    "C35_list",
    "C35_constant",
    "C35_map",
    "C35_empty_refuted",
    "C35_no_variables",
    "C35_count",
    "C35_position",
    "C35_order",
    "C35_scope",
    "C35_list_variables",
    "C35_map_variables",
    "C35_skip_refuted"
   ],
   "note": "For every list of control variables with non-empty ranges, every body and map key, every evaluator and state. An empty range crashes the control instead of yielding nothing (C35_empty_refuted), and an undefined map key does not skip a constant body (C35_skip_refuted)."
  },
  {
   "property": "C36",
   "status": "proved",
   "theorems": [
    "C36_rejected",
    "C36_control",
    "C36_rejected_flow",
    "C36_ready",
    "C36_fields_rejected",
    "C36_waiting",
    "C36_if",
    "C36_if_unchosen",
    "C36_unchosen_refuted",
    "C36_switch",
    "C36_type",
    "C36_cases",
    "C36_switch_undefined",
    "C36_match_refuted",
    "C36_merge"
   ],
   "note": "Recognition of the control of a map (with the registered controls), and the selections of if, switch (fields and cases), type and merge. The control waits for all of its options, also the unchosen one (C36_unchosen_refuted); a match field that is no lambda matches everything (C36_match_refuted)."
  },
  {
   "property": "C37",
   "status": "proved",
   "theorems": [
    "C37_bound",
    "C37_rejected",
    "C37_accepted",
    "C37_missing",
    "C37_partial_application",
    "C37_partial_named",
    "C37_call",
    "C37_call_rejected",
    "C37_call_partial",
    "C37_lambda_value",
    "C37_captured"
   ],
   "note": "Binding of positional, named, default and variadic parameters, rejection, partial application, and the call expression on top of it. Lambda bodies see the scope of the caller, as in the code."
  },
  {
   "property": "C38",
   "status": "proved",
   "theorems": [
    "C38_and",
    "C38_or",
    "C38_or_single_refuted",
    "C38_not",
    "C38_not_single",
    "C38_inverse",
    "C38_double_inverse_refuted",
    "C38_list",
    "C38_containers",
    "C38_field",
    "C38_field_exists",
    "C38_logic",
    "C38_type",
    "C38_order_int",
    "C38_order_text",
    "C38_valueset",
    "C38_lambda_count",
    "C38_lambda",
    "C38_lambda_open",
    "C38_functions",
    "C38_dnslabel",
    "C38_map_order_refuted"
   ],
   "note": "All condition trees, values, states, evaluators and orders of map traversal: and, or (two or more conditions), not, \"!\", list, map, mapfield, optionalfield, and the single checks type, comparisons, valueset. or with a single condition is always true (C38_or_single_refuted), a double \"!\" is an error (C38_double_inverse_refuted), and with an erroneous condition the outcome for a map depends on the traversal order (C38_map_order_refuted)."
  },
  {
   "property": "C39",
   "status": "proved",
   "theorems": [
    "C39_path",
    "C39_addressable",
    "C39_set",
    "C39_error",
    "C39_order",
    "C39_order_refuted",
    "C39_all",
    "C39_argument",
    "C39_arguments"
   ],
   "note": "All names, maps and values: which path a name spells (with a completeness theorem: every path has a spelling), what is found there afterwards, that all other paths are unchanged, when setting fails, and independence of the traversal order of the definitions for paths apart from each other; for overlapping ones the outcome is not determined by the arguments (C39_order_refuted)."
  },
  {
   "property": "C40",
   "status": "proved",
   "theorems": [
    "C40_set",
    "C40_unknown",
    "C40_rejected_names",
    "C40_last_wins",
    "C40_only_features",
    "C40_environment",
    "C40_context"
   ],
   "note": "All settings and histories; unknown names and rejected ones are characterized."
  },
  {
   "property": "C41",
   "status": "proved",
   "theorems": [
    "C41_innermost",
    "C41_shadow",
    "C41_outer",
    "C41_reference",
    "C41_scope",
    "C41_node",
    "C41_root",
    "C41_context"
   ],
   "note": "Resolution of references through the scopes of a binding, for all bindings; the evaluation of references on top of it is C52."
  },
  {
   "property": "C42",
   "status": "partial",
   "theorems": [
    "C42_assoc",
    "C42_flags",
    "C42_failures",
    "C42_issue",
    "C42_reported",
    "C42_replace",
    "C42_clean"
   ],
   "note": "The combination operation itself; some operators drop the information of an operand, which is not covered."
  },
  {
   "property": "C43",
   "status": "partial",
   "theorems": [
    "C43_crash_safe_partial",
    "C43_success",
    "C43_failure",
    "C43_rename_error_refuted"
   ],
   "note": "Every crash point and write failure with a working rename; the error of the first rename is ignored by the code (C43_rename_error_refuted)."
  },
  {
   "property": "C44",
   "status": "proved",
   "theorems": [
    "C44_replace",
    "C44_unique",
    "C44_lambda",
    "C44_lambda_fails",
    "C44_replace_empty"
   ],
   "note": "Non-empty and empty patterns; regular expressions (replace_match) are not modelled."
  },
  {
   "property": "C45",
   "status": "proved",
   "theorems": [
    "C45_equal",
    "C45_equal_iff",
    "C45_fixpoint",
    "C45_returned"
   ],
   "note": "For documents without floating point zeros (0.0 and -0.0 compare equal, C02_zero_refuted) and, for the converse, without NaN."
  },
  {
   "property": "C46",
   "status": "proved",
   "theorems": [
    "C46_overridden",
    "C46_default_kept",
    "C46_nothing",
    "C46_map",
    "C46_own_wins"
   ],
   "note": "Every level of a template map, all evaluators and states; for maps without merge expressions among their fields (quietMap)."
  },
  {
   "property": "C47",
   "status": "proved",
   "theorems": [
    "C47_list",
    "C47_map"
   ],
   "note": "Every list and map level, all evaluators and states."
  },
  {
   "property": "C48",
   "status": "proved",
   "theorems": [
    "C48_parsing_ends",
    "C48_one_answer",
    "C48_no_panic",
    "C48_crash_needs_number",
    "C48_crash_refuted"
   ],
   "note": "The whole grammar (generated rules, taken by script from dynaml.peg.go) and the whole expression builder, for all byte texts. C48_crash_needs_number is about ASCII texts; C48_crash_refuted states that a number beyond 64 bit crashes instead of giving an error."
  },
  {
   "property": "C49",
   "status": "partial",
   "theorems": [
    "C49_written_is_read",
    "C49_unambiguous",
    "C49_group",
    "C49_string_refuted",
    "C49_names_refuted",
    "C49_backslash_refuted",
    "C49_blanks_refuted"
   ],
   "note": "Covers the notations of Written.v (see there); not yet in it: named arguments, slices and projections, top level index, lambda defaults and variadic parameters, float and IP literals, tagged references, tag markers, sync. Refuted separately: non-ASCII strings, names that begin with keywords, a string ending in a backslash, blanks around : and -."
  },
  {
   "property": "C50",
   "status": "proved",
   "theorems": [
    "C50_map",
    "C50_select",
    "C50_mapmap",
    "C50_selectmap",
    "C50_wait",
    "C50_fail",
    "C50_bound",
    "C50_rejected",
    "C50_no_lambda",
    "C50_operand_fails",
    "C50_operand_waits",
    "C50_sum",
    "C50_sum_wait",
    "C50_sum_fail",
    "C50_no_parameter_refuted"
   ],
   "note": "All lists, maps, lambdas and evaluation results, for every steady world. A lambda without parameters crashes the evaluation (C50_no_parameter_refuted)."
  },
  {
   "property": "C51",
   "status": "proved",
   "theorems": [
    "C51_defined_true",
    "C51_defined_false",
    "C51_defined_pending",
    "C51_defined_total",
    "C51_valid_true",
    "C51_valid_false",
    "C51_valid_pending",
    "C51_valid_total",
    "C51_require",
    "C51_optional_no",
    "C51_optional_yes",
    "C51_optional_pending",
    "C51_catch_call",
    "C51_catch",
    "C51_catch_lambda",
    "C51_catch_rejected",
    "C51_stub_own",
    "C51_stub_reference",
    "C51_stub_list",
    "C51_stub_string",
    "C51_stub_argument_undecided",
    "C51_arguments"
   ],
   "note": "All arguments, environments and outcomes, for every steady world. A catch lambda without parameter crashes (finding)."
  },
  {
   "property": "C52",
   "status": "proved",
   "theorems": [
    "C52_reference",
    "C52_unknown",
    "C52_one_outcome",
    "C52_root",
    "C52_qualified",
    "C52_qualified_undecided",
    "C52_qualified_incomplete",
    "C52_computed",
    "C52_element",
    "C52_field",
    "C52_no_field",
    "C52_computed_undecided",
    "C52_no_step",
    "C52_tag_unknown",
    "C52_tag",
    "C52_tag_ambiguous",
    "C52_tag_missing",
    "C52_tag_node"
   ],
   "note": "All paths, environments and outcomes, for every steady world. Tag lookups repeat the full path at every step, as in the source."
  },
  {
   "property": "C53",
   "status": "partial",
   "theorems": [
    "C53_list",
    "C53_list_fails",
    "C53_list_pending",
    "C53_map",
    "C53_map_pending",
    "C53_map_fails",
    "C53_scope",
    "C53_scope_map",
    "C53_range",
    "C53_range_fails",
    "C53_range_pending",
    "C53_slice",
    "C53_slice_undecided",
    "C53_projection",
    "C53_projection_fails",
    "C53_projection_other",
    "C53_projection_undecided_refuted",
    "C53_projection_path",
    "C53_expansion_undecided_refuted"
   ],
   "note": "Proved for all literals, scopes, ranges, slices and projections, both directions. Refuted parts: an undecided list expansion and the undecided list of a projection are reported as failures (C53_expansion_undecided_refuted, C53_projection_undecided_refuted); ranges that end at the largest integer never end (C21)."
  },
  {
   "property": "C54",
   "status": "proved",
   "theorems": [
    "C54_substitution",
    "C54_only",
    "C54_no_template",
    "C54_names",
    "C54_plain",
    "C54_scalar",
    "C54_verbatim",
    "C54_define_map",
    "C54_defined",
    "C54_define_expression"
   ],
   "note": "Both directions for every template value and environment (C54_substitution, C54_only, C54_no_template), scoping (C54_names), and the exact result for templates with plain content (C54_plain, C54_scalar, C54_verbatim)."
  },
  {
   "property": "C55",
   "status": "proved",
   "theorems": [
    "C55_stubs",
    "C55_stub",
    "C55_document",
    "C55_unique"
   ],
   "note": "Whole runs (Cascade) from the texts to the final document: C55_document without stubs, C55_stubs with any list of plain stubs, C55_stub with one (solutionS and docS in DocSpec.v; no stub reaches into a list that contains expressions); uniqueness of the solution: C55_unique. The expressions covered are those of the relation denotes in DocSpec.v; the evaluation of texts is the parser of the world, the document root is a map, names of list elements are not computed."
  },
  {
   "property": "C56",
   "status": "proved",
   "theorems": [
    "C56_cascade",
    "C56_single",
    "C56_determined",
    "C56_list_text_refuted",
    "C56_list_colon_refuted"
   ],
   "note": "Whole runs of Cascade: C56_cascade (any list of plain stubs, each prepared with the ones after it as in C02), C56_single (one stub, taken as it is), C56_determined (the specification fixes the result). The merge expressions are read by the parser of the world; the example uses the parser of C48/C49. Lists of named elements with or without merge entry are included; merge on key and replace in list entries are not. The limits are needed: an own element that is an expression is not evaluated beside a merge entry (C56_list_text_refuted), and an element with a colon in its name is inserted a second time (C56_list_colon_refuted)."
  },
  {
   "property": "C57",
   "status": "partial",
   "theorems": [
    "C57_encode",
    "C57_accepted",
    "C57_roundtrip",
    "C57_empty_refuted",
    "C57_one_message",
    "C57_crash",
    "C57_key_bytes",
    "C57_wrong_key_refuted",
    "C57_password",
    "C57_environment",
    "C57_no_key",
    "C57_refused",
    "C57_unknown_method",
    "C57_password_and_method_refuted"
   ],
   "note": "Proved for every block cipher: C57_roundtrip (nonempty texts), C57_accepted (exactly the accepted texts), C57_one_message, C57_password, C57_environment, C57_no_key. Refuted: the empty text cannot be decrypted again (C57_empty_refuted), a ciphertext of exactly 8 bytes ends the run abnormally (C57_crash), only the first 16 bytes of the password count, so a different password is accepted (C57_wrong_key_refuted, C57_key_bytes), and with password and method given the password is ignored (C57_password_and_method_refuted). Secrecy of the cipher itself is not a subject of the model (the cipher is abstract)."
  },
  {
   "property": "C58",
   "status": "partial",
   "theorems": [
    "C58_string",
    "C58_string_base",
    "C58_integer_text",
    "C58_roundtrip",
    "C58_bool_text",
    "C58_bool_roundtrip",
    "C58_bool_number",
    "C58_truncate",
    "C58_floor",
    "C58_ceil",
    "C58_round",
    "C58_roundtoeven",
    "C58_roundings_exist",
    "C58_integer_of_bool_refuted",
    "C58_float",
    "C58_float_other",
    "C58_abs",
    "C58_abs_refuted",
    "C58_element_list",
    "C58_element_map",
    "C58_string_no_argument_refuted",
    "C58_upper",
    "C58_lower",
    "C58_rand",
    "C58_rand_panics_refuted"
   ],
   "note": "Proved for all inputs: numerals (C58_string, C58_string_base), texts (C58_integer_text, C58_bool_text), round trips, all roundings of finite floats with results in 64 bit (C58_truncate/floor/ceil/round/roundtoeven, C58_roundings_exist), element, lower/upper for ASCII texts, rand. Refuted: integer(true) and floor(true) are no operands of arithmetic, abs of the least integer is negative, string() and rand(least integer) end the run abnormally. The texts of floats (%g, ParseFloat) are parameters."
  },
  {
   "property": "C59",
   "status": "partial",
   "theorems": [
    "C59_md5crypt",
    "C59_check",
    "C59_check_own",
    "C59_other_password",
    "C59_check_error",
    "C59_hash",
    "C59_hash_faithful",
    "C59_hash_default",
    "C59_hash_mode",
    "C59_md4_refuted"
   ],
   "note": "Proved: the algorithm of md5crypt meets the relation apr1 (1000 rounds) and the entry is unique (C59_md5crypt, C59_check, C59_check_own, C59_other_password, C59_check_error); hash and md5 (C59_hash, C59_hash_faithful, C59_hash_default, C59_hash_mode). Refuted: hash(text, \"md4\") contains the whole text in hexadecimal form (C59_md4_refuted). The digest functions themselves are parameters; bcrypt is not modelled."
  },
  {
   "property": "C60",
   "status": "partial",
   "theorems": [
    "C60_one_reading",
    "C60_asjson",
    "C60_document",
    "C60_faithful",
    "C60_error",
    "C60_bytes_refuted",
    "C60_goint_refuted",
    "C60_literal"
   ],
   "note": "Proved for all UTF-8 data: C60_asjson, C60_document, C60_one_reading (the grammar is unambiguous), C60_faithful, C60_error, C60_literal. Refuted: bytes that are no UTF-8 are replaced (C60_bytes_refuted); the Go integers of integer(true) are rejected (C60_goint_refuted). The texts of floats are a parameter (JSON numbers, different for different floats); the encoder is the one of the Go library, modelled for these values. YAML output is not modelled."
  },
  {
   "property": "C61",
   "status": "proved",
   "theorems": [
    "C61_stuck",
    "C61_stubs",
    "C61_solution"
   ],
   "note": "C61_stuck without stubs for every run that returns, C61_stubs with plain stubs (fuel at least what the stubs need), C61_solution: consistency with C55. Specification in StuckSpec.v (stuck, waits, meets); the invariant over the rounds in FlowStuck.v with the evaluation as parameter. The converse (a run that ends unresolved has such a set) is not claimed. A run may also not return (panic) because of the rest of the document."
  },
  {
   "property": "C62",
   "status": "partial",
   "theorems": [
    "C62_null",
    "C62_bool",
    "C62_int",
    "C62_float",
    "C62_time",
    "C62_text",
    "C62_quoted",
    "C62_document",
    "C62_written",
    "C62_root_refuted",
    "C62_hang_refuted",
    "C62_date_refuted",
    "C62_keys_refuted",
    "C62_octal_refuted",
    "C62_float_refuted",
    "C62_plain",
    "C62_single"
   ],
   "note": "C62_null/bool/int/float/time/text/quoted: which plain texts read as what, exactly. C62_written, C62_document: every document of data is written and read back as the same document (floats whose text is an integer come back as integers). Refuted parts: C62_root_refuted (the text null as the whole document comes back as nil, although written in quotes), C62_hang_refuted (a text that is not UTF-8 makes the writer loop forever or panic), C62_date_refuted (unquoted timestamps come back as garbage like 7059-05-08T50:23:76Z without the time of day, because Sanitize formats with a layout that is no Go reference layout), C62_keys_refuted (keys yes, 1: an error; a list as key: a crash), C62_octal_refuted (010 is 8, 08 is a float), C62_float_refuted. C62_plain, C62_single: what is written plain or between single quotes satisfies the rules of YAML for that. Missing: the characters between the events (for texts see C63), i.e. the scanner of the reader and the output of the writer (indentation, escapes, line folding), tags, anchors and aliases; floats rest on a premise about strconv (exactText)."
  },
  {
   "property": "C63",
   "status": "partial",
   "theorems": [
    "C63_literal",
    "C63_read",
    "C63_read_plain",
    "C63_double",
    "C63_single",
    "C63_plain",
    "C63_back",
    "C63_text",
    "C63_example",
    "C63_example_plain"
   ],
   "note": "C63_double, C63_single, C63_plain: what is written, against an independent grammar of quoted contents (content) and continued plain texts (plain); C63_read, C63_read_plain: everything that follows the grammar is read as the text it stands for; C63_back, C63_text: written and read back, for every UTF-8 text with the style the writer selects (C62). C63_literal: every printable ASCII text with line breaks survives as a literal block (Blocks.v: hints, chomping, detected or given indentation), at any indentation, whatever less indented line follows. Missing: characters beyond ASCII and tabs in literal blocks, the block structure between the scalars (indicators, indentation of lists and maps), CR and CR LF as line breaks in the grammar."
  }
 ]
}