# Print Assumptions

Generated: the answer of `Print Assumptions` for every property theorem.

| theorem | file | assumptions |
|---|---|---|
| `C01_plain_document_unchanged` | `PropFlow.v` | Closed under the global context |
| `C01_nan_refuted` | `PropFlow2.v` | Closed under the global context |
| `C02_cycle_refuted` | `PropDoc.v` | Closed under the global context |
| `C02_zero_refuted` | `PropFix.v` | Closed under the global context |
| `C02_cascade` | `PropFlow.v` | Closed under the global context |
| `C02_keys_kept` | `PropFlow.v` | Closed under the global context |
| `C02_last_wins` | `PropFlow.v` | Closed under the global context |
| `C02_untouched` | `PropFlow.v` | Closed under the global context |
| `C02_unsteady_refuted` | `PropFlow2.v` | Closed under the global context |
| `C02_determined` | `PropMrg.v` | Closed under the global context |
| `C03_first_wins` | `PropFlow2.v` | Closed under the global context |
| `C03_none` | `PropFlow2.v` | Closed under the global context |
| `C03_only_first` | `PropFlow2.v` | Closed under the global context |
| `C04_cascade_error` | `PropFlow2.v` | Closed under the global context |
| `C04_cascade_stub_error` | `PropFlow2.v` | Closed under the global context |
| `C04_cascade_success` | `PropFlow2.v` | Closed under the global context |
| `C04_complete` | `PropUnresolved.v` | Closed under the global context |
| `C04_order` | `PropUnresolved.v` | Closed under the global context |
| `C04_resolved` | `PropUnresolved.v` | Closed under the global context |
| `C04_sound` | `PropUnresolved.v` | Closed under the global context |
| `C04_success` | `PropUnresolved.v` | Closed under the global context |
| `C05_final` | `PropCleanup.v` | Closed under the global context |
| `C05_idempotent` | `PropCleanup.v` | Closed under the global context |
| `C05_nothing_left` | `PropCleanup.v` | Closed under the global context |
| `C05_root` | `PropCleanup.v` | Closed under the global context |
| `C05_stages` | `PropCleanup.v` | Closed under the global context |
| `C05_stub` | `PropCleanup.v` | Closed under the global context |
| `C05_stub_idempotent` | `PropCleanup.v` | Closed under the global context |
| `C05_unmarked` | `PropCleanup.v` | Closed under the global context |
| `C06_idempotent` | `PropCleanup.v` | Closed under the global context |
| `C06_list` | `PropCleanup.v` | Closed under the global context |
| `C06_map` | `PropCleanup.v` | Closed under the global context |
| `C06_nested_refuted` | `PropCleanup.v` | Closed under the global context |
| `C07_annotations` | `PropNode.v` | Closed under the global context |
| `C07_characterized` | `PropNode.v` | Closed under the global context |
| `C07_nan_refuted` | `PropNode.v` | Closed under the global context |
| `C07_reflexive` | `PropNode.v` | Closed under the global context |
| `C07_symmetric` | `PropNode.v` | Closed under the global context |
| `C07_transitive` | `PropNode.v` | Closed under the global context |
| `C08_duplicates_refuted` | `PropDiff.v` | Closed under the global context |
| `C08_empty_iff_partial` | `PropDiff.v` | Closed under the global context |
| `C08_equivalent` | `PropDiff.v` | Closed under the global context |
| `C08_jobs_refuted` | `PropDiff.v` | Closed under the global context |
| `C08_map_list_refuted` | `PropDiff.v` | Closed under the global context |
| `C08_self` | `PropDiff.v` | Closed under the global context |
| `C08_stream` | `PropDiff.v` | Closed under the global context |
| `C09_compose` | `PropNode.v` | Closed under the global context |
| `C09_crash_characterized` | `PropNode.v` | Closed under the global context |
| `C09_lookup` | `PropNode.v` | Closed under the global context |
| `C09_missing` | `PropNode.v` | Closed under the global context |
| `C09_missing_refuted` | `PropNode.v` | Closed under the global context |
| `C10_control_refuted` | `PropInterp.v` | Closed under the global context |
| `C10_document` | `PropInterp.v` | Closed under the global context |
| `C10_dynaml` | `PropInterp.v` | Closed under the global context |
| `C10_escaped_inert` | `PropInterp.v` | Closed under the global context |
| `C10_interpolate` | `PropInterp.v` | Closed under the global context |
| `C10_interpolate_protected` | `PropInterp.v` | Closed under the global context |
| `C10_interpolate_refuted` | `PropInterp.v` | Closed under the global context |
| `C10_interpolate_unescape` | `PropInterp.v` | Closed under the global context |
| `C10_literal` | `PropInterp.v` | Closed under the global context |
| `C10_protected` | `PropInterp.v` | Closed under the global context |
| `C10_root_refuted` | `PropInterp.v` | Closed under the global context |
| `C10_roundtrip` | `PropInterp.v` | Closed under the global context |
| `C10_unescape_once` | `PropInterp.v` | Closed under the global context |
| `C10_unescape_other` | `PropInterp.v` | Closed under the global context |
| `C11_div_mod` | `PropArith.v` | Closed under the global context |
| `C11_exact` | `PropArith.v` | Closed under the global context |
| `C11_ring` | `PropArith.v` | Closed under the global context |
| `C11_floats` | `PropArith2.v` | Closed under the global context |
| `C11_mixed` | `PropArith2.v` | Closed under the global context |
| `C11_rejected` | `PropArith2.v` | Closed under the global context |
| `C12_add` | `PropArith.v` | Closed under the global context |
| `C12_refuted` | `PropArith.v` | Closed under the global context |
| `C12_sub_exact` | `PropArith.v` | Closed under the global context |
| `C12_sub_small` | `PropArith.v` | Closed under the global context |
| `C12_network` | `PropArith2.v` | Closed under the global context |
| `C13_back` | `PropArith.v` | Closed under the global context |
| `C13_diff` | `PropArith.v` | Closed under the global context |
| `C13_v4` | `PropArith.v` | Closed under the global context |
| `C14_bounds` | `PropArith.v` | Closed under the global context |
| `C14_contains` | `PropArith.v` | Closed under the global context |
| `C14_num_ip_v4` | `PropArith.v` | Closed under the global context |
| `C14_num_ip_v6_refuted` | `PropArith.v` | Closed under the global context |
| `C15_v4` | `PropArith.v` | Closed under the global context |
| `C15_v6_refuted` | `PropArith.v` | Closed under the global context |
| `C16_refuted` | `PropArith.v` | Closed under the global context |
| `C16_v4` | `PropArith.v` | Closed under the global context |
| `C17_call` | `PropArith.v` | Closed under the global context |
| `C17_first` | `PropArith.v` | Closed under the global context |
| `C17_indexed` | `PropArith.v` | Closed under the global context |
| `C17_negative_refuted` | `PropArith.v` | Closed under the global context |
| `C17_static_range` | `PropArith.v` | Closed under the global context |
| `C17_static_ips` | `PropArith2.v` | Closed under the global context |
| `C18_equals` | `PropCompare.v` | Closed under the global context |
| `C18_error` | `PropCompare.v` | Closed under the global context |
| `C18_float_refuted` | `PropCompare.v` | Closed under the global context |
| `C18_not` | `PropCompare.v` | Closed under the global context |
| `C18_reflexive` | `PropCompare.v` | Closed under the global context |
| `C18_structural` | `PropCompare.v` | Closed under the global context |
| `C18_symmetric_partial` | `PropCompare.v` | Closed under the global context |
| `C18_symmetric_refuted` | `PropCompare.v` | Closed under the global context |
| `C18_transitive_refuted` | `PropCompare.v` | Closed under the global context |
| `C19_mixed` | `PropCompare.v` | Closed under the global context |
| `C19_order` | `PropCompare.v` | Closed under the global context |
| `C19_rejected_refuted` | `PropCompare.v` | Closed under the global context |
| `C19_transitive` | `PropCompare.v` | Closed under the global context |
| `C19_trichotomy` | `PropCompare.v` | Closed under the global context |
| `C20_cond` | `PropCond.v` | Closed under the global context |
| `C20_cond_unchosen` | `PropCond.v` | Closed under the global context |
| `C20_cond_undecided` | `PropCond.v` | Closed under the global context |
| `C20_document_refuted` | `PropCond.v` | Closed under the global context |
| `C20_expansion_refuted` | `PropCond.v` | Closed under the global context |
| `C20_logical` | `PropCond.v` | Closed under the global context |
| `C20_logical_first` | `PropCond.v` | Closed under the global context |
| `C20_logical_shortcut` | `PropCond.v` | Closed under the global context |
| `C20_not` | `PropCond.v` | Closed under the global context |
| `C20_or` | `PropCond.v` | Closed under the global context |
| `C20_or_unchosen` | `PropCond.v` | Closed under the global context |
| `C20_pending_refuted` | `PropCond.v` | Closed under the global context |
| `C20_unique` | `PropCond.v` | Closed under the global context |
| `C20_validor` | `PropCond.v` | Closed under the global context |
| `C20_validor_unchosen` | `PropCond.v` | Closed under the global context |
| `C21_range_partial` | `PropRange.v` | Closed under the global context |
| `C21_range_refuted` | `PropRange.v` | Closed under the global context |
| `C21_sound` | `PropRange.v` | Closed under the global context |
| `C22_mixed_bounds_refuted` | `PropRange.v` | Closed under the global context |
| `C22_slice` | `PropRange.v` | Closed under the global context |
| `C22_slice_empty` | `PropRange.v` | Closed under the global context |
| `C22_slice_error` | `PropRange.v` | Closed under the global context |
| `C22_substr` | `PropRange.v` | Closed under the global context |
| `C23_agree` | `PropList.v` | Closed under the global context |
| `C23_compact` | `PropList.v` | Closed under the global context |
| `C23_contains_list` | `PropList.v` | Closed under the global context |
| `C23_contains_text` | `PropList.v` | Closed under the global context |
| `C23_index_list` | `PropList.v` | Closed under the global context |
| `C23_index_text` | `PropList.v` | Closed under the global context |
| `C23_intersect_error` | `PropList.v` | Closed under the global context |
| `C23_intersect_partial` | `PropList.v` | Closed under the global context |
| `C23_intersect_refuted` | `PropList.v` | Closed under the global context |
| `C23_lastindex_list` | `PropList.v` | Closed under the global context |
| `C23_lastindex_text` | `PropList.v` | Closed under the global context |
| `C23_nil_refuted` | `PropList.v` | Closed under the global context |
| `C23_uniq` | `PropList.v` | Closed under the global context |
| `C23_uniq_first_partial` | `PropList.v` | Closed under the global context |
| `C23_uniq_first_refuted` | `PropList.v` | Closed under the global context |
| `C24_inplace_refuted` | `PropHeap.v` | Closed under the global context |
| `C24_other_arrays` | `PropHeap.v` | Closed under the global context |
| `C24_sort_inplace_refuted` | `PropHeap.v` | Closed under the global context |
| `C24_reverse` | `PropList.v` | Closed under the global context |
| `C24_sort` | `PropList.v` | Closed under the global context |
| `C24_sort_lambda` | `PropList.v` | Closed under the global context |
| `C24_sort_mixed` | `PropList.v` | Closed under the global context |
| `C24_sort_permutation` | `PropList.v` | Closed under the global context |
| `C25_cases` | `PropHeap.v` | Closed under the global context |
| `C25_others` | `PropHeap.v` | Closed under the global context |
| `C25_refuted` | `PropHeap.v` | Closed under the global context |
| `C25_value` | `PropHeap.v` | Closed under the global context |
| `C26_join` | `PropText.v` | Closed under the global context |
| `C26_join_split` | `PropText.v` | Closed under the global context |
| `C26_panic_refuted` | `PropText.v` | Closed under the global context |
| `C26_split_chars` | `PropText.v` | Closed under the global context |
| `C26_split_join` | `PropText.v` | Closed under the global context |
| `C26_split_length` | `PropText.v` | Closed under the global context |
| `C26_split_length_refuted` | `PropText.v` | Closed under the global context |
| `C26_split_limit` | `PropText.v` | Closed under the global context |
| `C26_split_pieces` | `PropText.v` | Closed under the global context |
| `C26_trim` | `PropText.v` | Closed under the global context |
| `C26_trim_list` | `PropText.v` | Closed under the global context |
| `C27_decode_injective_refuted` | `PropText2.v` | Closed under the global context |
| `C27_lines` | `PropText2.v` | Closed under the global context |
| `C27_roundtrip` | `PropText2.v` | Closed under the global context |
| `C28_concat` | `PropMap.v` | Closed under the global context |
| `C28_concat_assoc` | `PropMap.v` | Closed under the global context |
| `C28_concat_other` | `PropMap.v` | Closed under the global context |
| `C28_concat_self` | `PropMap.v` | Closed under the global context |
| `C28_deepmerge` | `PropMap.v` | Closed under the global context |
| `C28_deepmerge_assoc_refuted` | `PropMap.v` | Closed under the global context |
| `C28_deepmerge_fold` | `PropMap.v` | Closed under the global context |
| `C28_deepmerge_self` | `PropMap.v` | Closed under the global context |
| `C28_keys` | `PropMap.v` | Closed under the global context |
| `C28_length` | `PropMap.v` | Closed under the global context |
| `C28_list_to_map` | `PropMap.v` | Closed under the global context |
| `C28_list_to_map_default` | `PropMap.v` | Closed under the global context |
| `C28_list_to_map_error` | `PropMap.v` | Closed under the global context |
| `C28_makemap` | `PropMap.v` | Closed under the global context |
| `C28_makemap_pairs` | `PropMap.v` | Closed under the global context |
| `C29_assigned` | `PropFix.v` | Closed under the global context |
| `C29_all_end` | `PropTags.v` | Closed under the global context |
| `C29_conflict_reported` | `PropTags.v` | Closed under the global context |
| `C29_doc_component_refuted` | `PropTags.v` | Closed under the global context |
| `C29_kept` | `PropTags.v` | Closed under the global context |
| `C29_nothing_invented` | `PropTags.v` | Closed under the global context |
| `C29_reevaluated` | `PropTags.v` | Closed under the global context |
| `C29_stored_node` | `PropTags.v` | Closed under the global context |
| `C29_stream_ends` | `PropTags.v` | Closed under the global context |
| `C29_tag_list` | `PropTags.v` | Closed under the global context |
| `C29_tag_list_unique` | `PropTags.v` | Closed under the global context |
| `C30_numbering_partial` | `PropTags.v` | Closed under the global context |
| `C30_second_stream_refuted` | `PropTags.v` | Closed under the global context |
| `C30_user_tags` | `PropTags.v` | Closed under the global context |
| `C31_access` | `PropContext.v` | Closed under the global context |
| `C31_foreign_fs` | `PropContext.v` | Closed under the global context |
| `C31_made` | `PropContext.v` | Closed under the global context |
| `C31_cascade` | `PropOS.v` | Closed under the global context |
| `C31_context` | `PropOS.v` | Closed under the global context |
| `C31_document` | `PropOS.v` | Closed under the global context |
| `C31_exec_denied` | `PropOS.v` | Closed under the global context |
| `C31_files_denied` | `PropOS.v` | Closed under the global context |
| `C31_functions` | `PropOS.v` | Closed under the global context |
| `C31_no_exec` | `PropOS.v` | Closed under the global context |
| `C31_no_files` | `PropOS.v` | Closed under the global context |
| `C31_title_refuted` | `PropOS.v` | Closed under the global context |
| `C32_features` | `PropContext.v` | Closed under the global context |
| `C32_features_refuted` | `PropContext.v` | Closed under the global context |
| `C32_history` | `PropContext.v` | Closed under the global context |
| `C32_persistent` | `PropContext.v` | Closed under the global context |
| `C32_processing` | `PropContext.v` | Closed under the global context |
| `C32_result` | `PropContext.v` | Closed under the global context |
| `C32_settag_panics` | `PropContext.v` | Closed under the global context |
| `C32_settag_refuted` | `PropContext.v` | Closed under the global context |
| `C32_sibling_refuted` | `PropContext.v` | Closed under the global context |
| `C33_cached_partial` | `PropFiles.v` | Closed under the global context |
| `C33_collision_refuted` | `PropFiles.v` | Closed under the global context |
| `C33_failure_refuted` | `PropFiles.v` | Closed under the global context |
| `C33_independent_partial` | `PropFiles.v` | Closed under the global context |
| `C33_uncached` | `PropFiles.v` | Closed under the global context |
| `C33_uncached` | `PropOS.v` | Closed under the global context |
| `C34_cleanup_keeps_others` | `PropFiles.v` | Closed under the global context |
| `C34_outer_refuted` | `PropFiles.v` | Closed under the global context |
| `C34_read_once` | `PropFiles.v` | Closed under the global context |
| `C34_read_stable` | `PropFiles.v` | Closed under the global context |
| `C34_temp_contents` | `PropFiles.v` | Closed under the global context |
| `C34_temp_distinct` | `PropFiles.v` | Closed under the global context |
| `C34_temp_removed` | `PropFiles.v` | Closed under the global context |
| `C34_temp_shared` | `PropFiles.v` | Closed under the global context |
| `C34_uncached_read` | `PropFiles.v` | Closed under the global context |
| `C34_uncached` | `PropOS.v` | Closed under the global context |
| `C35_constant` | `PropControl.v` | Closed under the global context |
| `C35_count` | `PropControl.v` | Closed under the global context |
| `C35_empty_refuted` | `PropControl.v` | Closed under the global context |
| `C35_list` | `PropControl.v` | Closed under the global context |
| `C35_list_variables` | `PropControl.v` | Closed under the global context |
| `C35_map` | `PropControl.v` | Closed under the global context |
| `C35_map_variables` | `PropControl.v` | Closed under the global context |
| `C35_no_variables` | `PropControl.v` | Closed under the global context |
| `C35_order` | `PropControl.v` | Closed under the global context |
| `C35_position` | `PropControl.v` | Closed under the global context |
| `C35_scope` | `PropControl.v` | Closed under the global context |
| `C35_skip_refuted` | `PropSelect.v` | Closed under the global context |
| `C36_cases` | `PropSelect.v` | Closed under the global context |
| `C36_control` | `PropSelect.v` | Closed under the global context |
| `C36_fields_rejected` | `PropSelect.v` | Closed under the global context |
| `C36_if` | `PropSelect.v` | Closed under the global context |
| `C36_if_unchosen` | `PropSelect.v` | Closed under the global context |
| `C36_match_refuted` | `PropSelect.v` | Closed under the global context |
| `C36_merge` | `PropSelect.v` | Closed under the global context |
| `C36_ready` | `PropSelect.v` | Closed under the global context |
| `C36_rejected` | `PropSelect.v` | Closed under the global context |
| `C36_rejected_flow` | `PropSelect.v` | Closed under the global context |
| `C36_switch` | `PropSelect.v` | Closed under the global context |
| `C36_switch_undefined` | `PropSelect.v` | Closed under the global context |
| `C36_type` | `PropSelect.v` | Closed under the global context |
| `C36_unchosen_refuted` | `PropSelect.v` | Closed under the global context |
| `C36_waiting` | `PropSelect.v` | Closed under the global context |
| `C37_accepted` | `PropLambda.v` | Closed under the global context |
| `C37_bound` | `PropLambda.v` | Closed under the global context |
| `C37_call` | `PropLambda.v` | Closed under the global context |
| `C37_call_partial` | `PropLambda.v` | Closed under the global context |
| `C37_call_rejected` | `PropLambda.v` | Closed under the global context |
| `C37_captured` | `PropLambda.v` | Closed under the global context |
| `C37_lambda_value` | `PropLambda.v` | Closed under the global context |
| `C37_missing` | `PropLambda.v` | Closed under the global context |
| `C37_partial_application` | `PropLambda.v` | Closed under the global context |
| `C37_partial_named` | `PropLambda.v` | Closed under the global context |
| `C37_rejected` | `PropLambda.v` | Closed under the global context |
| `C38_and` | `PropValidate.v` | Closed under the global context |
| `C38_containers` | `PropValidate.v` | Closed under the global context |
| `C38_dnslabel` | `PropValidate.v` | Closed under the global context |
| `C38_double_inverse_refuted` | `PropValidate.v` | Closed under the global context |
| `C38_field` | `PropValidate.v` | Closed under the global context |
| `C38_field_exists` | `PropValidate.v` | Closed under the global context |
| `C38_functions` | `PropValidate.v` | Closed under the global context |
| `C38_inverse` | `PropValidate.v` | Closed under the global context |
| `C38_lambda` | `PropValidate.v` | Closed under the global context |
| `C38_lambda_count` | `PropValidate.v` | Closed under the global context |
| `C38_lambda_open` | `PropValidate.v` | Closed under the global context |
| `C38_list` | `PropValidate.v` | Closed under the global context |
| `C38_logic` | `PropValidate.v` | Closed under the global context |
| `C38_map_order_refuted` | `PropValidate.v` | Closed under the global context |
| `C38_not` | `PropValidate.v` | Closed under the global context |
| `C38_not_single` | `PropValidate.v` | Closed under the global context |
| `C38_or` | `PropValidate.v` | Closed under the global context |
| `C38_or_single_refuted` | `PropValidate.v` | Closed under the global context |
| `C38_order_int` | `PropValidate.v` | Closed under the global context |
| `C38_order_text` | `PropValidate.v` | Closed under the global context |
| `C38_type` | `PropValidate.v` | Closed under the global context |
| `C38_valueset` | `PropValidate.v` | Closed under the global context |
| `C39_addressable` | `PropValues.v` | Closed under the global context |
| `C39_all` | `PropValues.v` | Closed under the global context |
| `C39_argument` | `PropValues.v` | Closed under the global context |
| `C39_arguments` | `PropValues.v` | Closed under the global context |
| `C39_error` | `PropValues.v` | Closed under the global context |
| `C39_order` | `PropValues.v` | Closed under the global context |
| `C39_order_refuted` | `PropValues.v` | Closed under the global context |
| `C39_path` | `PropValues.v` | Closed under the global context |
| `C39_set` | `PropValues.v` | Closed under the global context |
| `C40_context` | `PropContext.v` | Closed under the global context |
| `C40_environment` | `PropContext.v` | Closed under the global context |
| `C40_last_wins` | `PropContext.v` | Closed under the global context |
| `C40_only_features` | `PropContext.v` | Closed under the global context |
| `C40_rejected_names` | `PropContext.v` | Closed under the global context |
| `C40_set` | `PropContext.v` | Closed under the global context |
| `C40_unknown` | `PropContext.v` | Closed under the global context |
| `C41_context` | `PropInfo.v` | Closed under the global context |
| `C41_innermost` | `PropInfo.v` | Closed under the global context |
| `C41_node` | `PropInfo.v` | Closed under the global context |
| `C41_outer` | `PropInfo.v` | Closed under the global context |
| `C41_reference` | `PropInfo.v` | Closed under the global context |
| `C41_root` | `PropInfo.v` | Closed under the global context |
| `C41_scope` | `PropInfo.v` | Closed under the global context |
| `C41_shadow` | `PropInfo.v` | Closed under the global context |
| `C42_assoc` | `PropInfo.v` | Closed under the global context |
| `C42_clean` | `PropInfo.v` | Closed under the global context |
| `C42_failures` | `PropInfo.v` | Closed under the global context |
| `C42_flags` | `PropInfo.v` | Closed under the global context |
| `C42_issue` | `PropInfo.v` | Closed under the global context |
| `C42_replace` | `PropInfo.v` | Closed under the global context |
| `C42_reported` | `PropInfo.v` | Closed under the global context |
| `C43_crash_safe_partial` | `PropFiles.v` | Closed under the global context |
| `C43_failure` | `PropFiles.v` | Closed under the global context |
| `C43_rename_error_refuted` | `PropFiles.v` | Closed under the global context |
| `C43_success` | `PropFiles.v` | Closed under the global context |
| `C44_lambda` | `PropText2.v` | Closed under the global context |
| `C44_lambda_fails` | `PropText2.v` | Closed under the global context |
| `C44_replace` | `PropText2.v` | Closed under the global context |
| `C44_replace_empty` | `PropText2.v` | Closed under the global context |
| `C44_unique` | `PropText2.v` | Closed under the global context |
| `C45_equal` | `PropFix.v` | Closed under the global context |
| `C45_equal_iff` | `PropFix.v` | Closed under the global context |
| `C45_fixpoint` | `PropFix.v` | Closed under the global context |
| `C45_returned` | `PropFix.v` | Closed under the global context |
| `C46_default_kept` | `PropInject.v` | Closed under the global context |
| `C46_map` | `PropInject.v` | Closed under the global context |
| `C46_nothing` | `PropInject.v` | Closed under the global context |
| `C46_overridden` | `PropInject.v` | Closed under the global context |
| `C46_own_wins` | `PropInject.v` | Closed under the global context |
| `C47_list` | `PropInject.v` | Closed under the global context |
| `C47_map` | `PropInject.v` | Closed under the global context |
| `C48_crash_needs_number` | `PropParse.v` | Closed under the global context |
| `C48_crash_refuted` | `PropParse.v` | Closed under the global context |
| `C48_no_panic` | `PropParse.v` | Closed under the global context |
| `C48_one_answer` | `PropParse.v` | Closed under the global context |
| `C48_parsing_ends` | `PropParse.v` | Closed under the global context |
| `C49_backslash_refuted` | `PropParse.v` | Closed under the global context |
| `C49_blanks_refuted` | `PropParse.v` | Closed under the global context |
| `C49_group` | `PropParse.v` | Closed under the global context |
| `C49_names_refuted` | `PropParse.v` | Closed under the global context |
| `C49_string_refuted` | `PropParse.v` | Closed under the global context |
| `C49_unambiguous` | `PropParse.v` | Closed under the global context |
| `C49_written_is_read` | `PropParse.v` | Closed under the global context |
| `C50_bound` | `PropAgg.v` | Closed under the global context |
| `C50_fail` | `PropAgg.v` | Closed under the global context |
| `C50_map` | `PropAgg.v` | Closed under the global context |
| `C50_mapmap` | `PropAgg.v` | Closed under the global context |
| `C50_no_lambda` | `PropAgg.v` | Closed under the global context |
| `C50_no_parameter_refuted` | `PropAgg.v` | Closed under the global context |
| `C50_operand_fails` | `PropAgg.v` | Closed under the global context |
| `C50_operand_waits` | `PropAgg.v` | Closed under the global context |
| `C50_rejected` | `PropAgg.v` | Closed under the global context |
| `C50_select` | `PropAgg.v` | Closed under the global context |
| `C50_selectmap` | `PropAgg.v` | Closed under the global context |
| `C50_sum` | `PropAgg.v` | Closed under the global context |
| `C50_sum_fail` | `PropAgg.v` | Closed under the global context |
| `C50_sum_wait` | `PropAgg.v` | Closed under the global context |
| `C50_wait` | `PropAgg.v` | Closed under the global context |
| `C51_arguments` | `PropFail.v` | Closed under the global context |
| `C51_catch` | `PropFail.v` | Closed under the global context |
| `C51_catch_call` | `PropFail.v` | Closed under the global context |
| `C51_catch_lambda` | `PropFail.v` | Closed under the global context |
| `C51_catch_rejected` | `PropFail.v` | Closed under the global context |
| `C51_defined_false` | `PropFail.v` | Closed under the global context |
| `C51_defined_pending` | `PropFail.v` | Closed under the global context |
| `C51_defined_total` | `PropFail.v` | Closed under the global context |
| `C51_defined_true` | `PropFail.v` | Closed under the global context |
| `C51_optional_no` | `PropFail.v` | Closed under the global context |
| `C51_optional_pending` | `PropFail.v` | Closed under the global context |
| `C51_optional_yes` | `PropFail.v` | Closed under the global context |
| `C51_require` | `PropFail.v` | Closed under the global context |
| `C51_stub_argument_undecided` | `PropFail.v` | Closed under the global context |
| `C51_stub_list` | `PropFail.v` | Closed under the global context |
| `C51_stub_own` | `PropFail.v` | Closed under the global context |
| `C51_stub_reference` | `PropFail.v` | Closed under the global context |
| `C51_stub_string` | `PropFail.v` | Closed under the global context |
| `C51_valid_false` | `PropFail.v` | Closed under the global context |
| `C51_valid_pending` | `PropFail.v` | Closed under the global context |
| `C51_valid_total` | `PropFail.v` | Closed under the global context |
| `C51_valid_true` | `PropFail.v` | Closed under the global context |
| `C52_computed` | `PropRef.v` | Closed under the global context |
| `C52_computed_undecided` | `PropRef.v` | Closed under the global context |
| `C52_element` | `PropRef.v` | Closed under the global context |
| `C52_field` | `PropRef.v` | Closed under the global context |
| `C52_no_field` | `PropRef.v` | Closed under the global context |
| `C52_no_step` | `PropRef.v` | Closed under the global context |
| `C52_one_outcome` | `PropRef.v` | Closed under the global context |
| `C52_qualified` | `PropRef.v` | Closed under the global context |
| `C52_qualified_incomplete` | `PropRef.v` | Closed under the global context |
| `C52_qualified_undecided` | `PropRef.v` | Closed under the global context |
| `C52_reference` | `PropRef.v` | Closed under the global context |
| `C52_root` | `PropRef.v` | Closed under the global context |
| `C52_tag` | `PropRef.v` | Closed under the global context |
| `C52_tag_ambiguous` | `PropRef.v` | Closed under the global context |
| `C52_tag_missing` | `PropRef.v` | Closed under the global context |
| `C52_tag_node` | `PropRef.v` | Closed under the global context |
| `C52_tag_unknown` | `PropRef.v` | Closed under the global context |
| `C52_unknown` | `PropRef.v` | Closed under the global context |
| `C53_expansion_undecided_refuted` | `PropLit.v` | Closed under the global context |
| `C53_list` | `PropLit.v` | Closed under the global context |
| `C53_list_fails` | `PropLit.v` | Closed under the global context |
| `C53_list_pending` | `PropLit.v` | Closed under the global context |
| `C53_map` | `PropLit.v` | Closed under the global context |
| `C53_map_fails` | `PropLit.v` | Closed under the global context |
| `C53_map_pending` | `PropLit.v` | Closed under the global context |
| `C53_projection` | `PropLit.v` | Closed under the global context |
| `C53_projection_fails` | `PropLit.v` | Closed under the global context |
| `C53_projection_other` | `PropLit.v` | Closed under the global context |
| `C53_projection_path` | `PropLit.v` | Closed under the global context |
| `C53_projection_undecided_refuted` | `PropLit.v` | Closed under the global context |
| `C53_range` | `PropLit.v` | Closed under the global context |
| `C53_range_fails` | `PropLit.v` | Closed under the global context |
| `C53_range_pending` | `PropLit.v` | Closed under the global context |
| `C53_scope` | `PropLit.v` | Closed under the global context |
| `C53_scope_map` | `PropLit.v` | Closed under the global context |
| `C53_slice` | `PropLit.v` | Closed under the global context |
| `C53_slice_undecided` | `PropLit.v` | Closed under the global context |
| `C54_define_expression` | `PropTpl.v` | Closed under the global context |
| `C54_define_map` | `PropTpl.v` | Closed under the global context |
| `C54_defined` | `PropTpl.v` | Closed under the global context |
| `C54_names` | `PropTpl.v` | Closed under the global context |
| `C54_no_template` | `PropTpl.v` | Closed under the global context |
| `C54_only` | `PropTpl.v` | Closed under the global context |
| `C54_plain` | `PropTpl.v` | Closed under the global context |
| `C54_scalar` | `PropTpl.v` | Closed under the global context |
| `C54_substitution` | `PropTpl.v` | Closed under the global context |
| `C54_verbatim` | `PropTpl.v` | Closed under the global context |
| `C55_document` | `PropDoc.v` | Closed under the global context |
| `C55_stub` | `PropDoc.v` | Closed under the global context |
| `C55_stubs` | `PropDoc.v` | Closed under the global context |
| `C55_unique` | `PropDoc.v` | Closed under the global context |
| `C56_cascade` | `PropMrg.v` | Closed under the global context |
| `C56_determined` | `PropMrg.v` | Closed under the global context |
| `C56_list_colon_refuted` | `PropMrg.v` | Closed under the global context |
| `C56_list_text_refuted` | `PropMrg.v` | Closed under the global context |
| `C56_single` | `PropMrg.v` | Closed under the global context |
| `C57_accepted` | `PropCrypt.v` | Closed under the global context |
| `C57_crash` | `PropCrypt.v` | Closed under the global context |
| `C57_empty_refuted` | `PropCrypt.v` | Closed under the global context |
| `C57_encode` | `PropCrypt.v` | Closed under the global context |
| `C57_environment` | `PropCrypt.v` | Closed under the global context |
| `C57_key_bytes` | `PropCrypt.v` | Closed under the global context |
| `C57_no_key` | `PropCrypt.v` | Closed under the global context |
| `C57_one_message` | `PropCrypt.v` | Closed under the global context |
| `C57_password` | `PropCrypt.v` | Closed under the global context |
| `C57_password_and_method_refuted` | `PropCrypt.v` | Closed under the global context |
| `C57_refused` | `PropCrypt.v` | Closed under the global context |
| `C57_roundtrip` | `PropCrypt.v` | Closed under the global context |
| `C57_unknown_method` | `PropCrypt.v` | Closed under the global context |
| `C57_wrong_key_refuted` | `PropCrypt.v` | Closed under the global context |
| `C58_abs` | `PropConvert.v` | Closed under the global context |
| `C58_abs_refuted` | `PropConvert.v` | Closed under the global context |
| `C58_bool_number` | `PropConvert.v` | Closed under the global context |
| `C58_bool_roundtrip` | `PropConvert.v` | Closed under the global context |
| `C58_bool_text` | `PropConvert.v` | Closed under the global context |
| `C58_ceil` | `PropConvert.v` | Closed under the global context |
| `C58_element_list` | `PropConvert.v` | Closed under the global context |
| `C58_element_map` | `PropConvert.v` | Closed under the global context |
| `C58_float` | `PropConvert.v` | Closed under the global context |
| `C58_float_other` | `PropConvert.v` | Closed under the global context |
| `C58_floor` | `PropConvert.v` | Closed under the global context |
| `C58_integer_of_bool_refuted` | `PropConvert.v` | Closed under the global context |
| `C58_integer_text` | `PropConvert.v` | Closed under the global context |
| `C58_lower` | `PropConvert.v` | Closed under the global context |
| `C58_rand` | `PropConvert.v` | Closed under the global context |
| `C58_rand_panics_refuted` | `PropConvert.v` | Closed under the global context |
| `C58_round` | `PropConvert.v` | Closed under the global context |
| `C58_roundings_exist` | `PropConvert.v` | Closed under the global context |
| `C58_roundtoeven` | `PropConvert.v` | Closed under the global context |
| `C58_roundtrip` | `PropConvert.v` | Closed under the global context |
| `C58_string` | `PropConvert.v` | Closed under the global context |
| `C58_string_base` | `PropConvert.v` | Closed under the global context |
| `C58_string_no_argument_refuted` | `PropConvert.v` | Closed under the global context |
| `C58_truncate` | `PropConvert.v` | Closed under the global context |
| `C58_upper` | `PropConvert.v` | Closed under the global context |
| `C59_check` | `PropDigest.v` | Closed under the global context |
| `C59_check_error` | `PropDigest.v` | Closed under the global context |
| `C59_check_own` | `PropDigest.v` | Closed under the global context |
| `C59_hash` | `PropDigest.v` | Closed under the global context |
| `C59_hash_default` | `PropDigest.v` | Closed under the global context |
| `C59_hash_faithful` | `PropDigest.v` | Closed under the global context |
| `C59_hash_mode` | `PropDigest.v` | Closed under the global context |
| `C59_md4_refuted` | `PropDigest.v` | Closed under the global context |
| `C59_md5crypt` | `PropDigest.v` | Closed under the global context |
| `C59_other_password` | `PropDigest.v` | Closed under the global context |
| `C60_asjson` | `PropJson.v` | Closed under the global context |
| `C60_bytes_refuted` | `PropJson.v` | Closed under the global context |
| `C60_document` | `PropJson.v` | Closed under the global context |
| `C60_error` | `PropJson.v` | Closed under the global context |
| `C60_faithful` | `PropJson.v` | Closed under the global context |
| `C60_goint_refuted` | `PropJson.v` | Closed under the global context |
| `C60_literal` | `PropJson.v` | Closed under the global context |
| `C60_one_reading` | `PropJson.v` | Closed under the global context |
| `C61_solution` | `PropStuck.v` | Closed under the global context |
| `C61_stubs` | `PropStuck.v` | Closed under the global context |
| `C61_stuck` | `PropStuck.v` | Closed under the global context |
| `C62_bool` | `PropYaml.v` | Closed under the global context |
| `C62_date_refuted` | `PropYaml.v` | Closed under the global context |
| `C62_document` | `PropYaml.v` | Closed under the global context |
| `C62_float` | `PropYaml.v` | Closed under the global context |
| `C62_float_refuted` | `PropYaml.v` | Closed under the global context |
| `C62_hang_refuted` | `PropYaml.v` | Closed under the global context |
| `C62_int` | `PropYaml.v` | Closed under the global context |
| `C62_keys_refuted` | `PropYaml.v` | Closed under the global context |
| `C62_null` | `PropYaml.v` | Closed under the global context |
| `C62_octal_refuted` | `PropYaml.v` | Closed under the global context |
| `C62_plain` | `PropYaml.v` | Closed under the global context |
| `C62_quoted` | `PropYaml.v` | Closed under the global context |
| `C62_root_refuted` | `PropYaml.v` | Closed under the global context |
| `C62_single` | `PropYaml.v` | Closed under the global context |
| `C62_text` | `PropYaml.v` | Closed under the global context |
| `C62_time` | `PropYaml.v` | Closed under the global context |
| `C62_written` | `PropYaml.v` | Closed under the global context |
| `C63_literal` | `PropBlocks.v` | Closed under the global context |
| `C63_back` | `PropScalars.v` | Closed under the global context |
| `C63_double` | `PropScalars.v` | Closed under the global context |
| `C63_example` | `PropScalars.v` | Closed under the global context |
| `C63_example_plain` | `PropScalars.v` | Closed under the global context |
| `C63_plain` | `PropScalars.v` | Closed under the global context |
| `C63_read` | `PropScalars.v` | Closed under the global context |
| `C63_read_plain` | `PropScalars.v` | Closed under the global context |
| `C63_single` | `PropScalars.v` | Closed under the global context |
| `C63_text` | `PropScalars.v` | Closed under the global context |
