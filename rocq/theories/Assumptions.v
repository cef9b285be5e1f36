(** What every theorem named in MANIFEST.json depends on. *)
From Verif Require P_Build.
From Verif Require P_Ports.
From Verif Require P_BrigadeFail.
From Verif Require P_SpreadOnce.
From Verif Require P_Wrap.
From Verif Require P_MakeFree.
From Verif Require P_SplitFree.
From Verif Require P_MapFree.
From Verif Require P_InduceFree.
From Verif Require P_Hash.
From Verif Require P_Traverse.
From Verif Require P_Fold.
From Verif Require P_Induce.
From Verif Require P_Mutate.
From Verif Require P_Filter.
From Verif Require P_Merge.
From Verif Require P_Partition.
From Verif Require P_Compose.
From Verif Require P_Split.
From Verif Require P_Postpone.
From Verif Require P_Spread.
From Verif Require P_Stretch.
From Verif Require P_Dedup.
From Verif Require P_Fabricate.
From Verif Require P_Killed.
From Verif Require P_Kill.
From Verif Require P_Errs.
From Verif Require P_Containers.
From Verif Require P_Free.
From Verif Require P_Reserve.
From Verif Require P_Infer.
From Verif Require P_Sig.
From Verif Require P_Brigade.
From Verif Require P_Errlog.
From Verif Require P_Abort.
From Verif Require P_Context.
From Verif Require P_Fair.
From Verif Require P_Locks.
From Verif Require P_Declare.
From Verif Require P_FreeOom.
From Verif Require P_Search.
From Verif Require P_Lists.
From Verif Require P_ListsLocal.
From Verif Require P_Status.
From Verif Require P_Crews.
From Verif Require P_MergeFree.
From Verif Require P_Init.
From Verif Require P_OpsEdge.
From Verif Require P_Ops.
From Verif Require P_OpsKeep.
From Verif Require P_MutateFree.

(** All of them together, so that what they share is looked at once. *)
Definition everything :=
  (@P_Build.C01_exactly_the_reachable_vertices,
   @P_Build.C01_any_connector,
   @P_Build.C01_building_terminates,
   @P_Build.C02_exactly_the_declared_edges,
   @P_Build.C03_connector_called_once_per_vertex,
   @P_Build.C04_every_moment,
   @P_Build.C04_success,
   @P_Build.C04_failure,
   @P_Build.C05_subconnector_calls,
   @P_Build.C05_reachable_combinations,
   @P_Build.C05_edges_are_the_union,
   @P_Build.C06_schedule_independence,
   @P_Build.C07_limit_respected,
   @P_Build.C07_overflow_justified,
   @P_Build.C08_failed_build_dereferences_null_refuted,
   @P_Build.C08_failure_reported,
   @P_Build.C08_user_error_reported,
   @P_Ports.C09_quiescence_sound,
   @P_Ports.C09_finished_traversal_is_complete,
   @P_Ports.C10_conservation,
   @P_Ports.C10_routing,
   @P_Ports.C10_exactly_once,
   @P_BrigadeFail.C100_grouping_by_terminus,
   @P_BrigadeFail.C100_grouping_by_label,
   @P_BrigadeFail.C100_deduplication,
   @P_BrigadeFail.C100_uniqueness,
   @P_BrigadeFail.C100_reduction,
   @P_BrigadeFail.C100_pruning,
   @P_BrigadeFail.C100_filters,
   @P_BrigadeFail.C100_individual_filters,
   @P_BrigadeFail.C100_joint_filters,
   @P_BrigadeFail.C100_no_spurious_errors,
   @P_SpreadOnce.C101_subconnector_not_repeated,
   @P_Wrap.C102_performed,
   @P_Wrap.C102_limit_accepted,
   @P_Wrap.C102_never_exceeded,
   @P_Wrap.C102_persistent,
   @P_Wrap.C102_allocation,
   @P_Wrap.C102_simulation,
   @P_Wrap.C102_refusals_recorded,
   @P_Wrap.C103_all_clear,
   @P_Wrap.C103_no_accusation,
   @P_Wrap.C103_leaks_reported,
   @P_Wrap.C104_detected,
   @P_Wrap.C104_lasting,
   @P_Wrap.C104_double_free_prevented_refuted,
   @P_Wrap.C103_leaks_reported,
   @P_Wrap.C105_record_of_memory_in_use_refuted,
   @P_Wrap.C105_double_free_missed_refuted,
   @P_MakeFree.C106_no_leak_refuted,
   @P_MakeFree.C106_accounted,
   @P_MakeFree.C106_decent,
   @P_MakeFree.C106_carriers,
   @P_MakeFree.C107_values,
   @P_MakeFree.C107_products,
   @P_MakeFree.C106_carriers,
   @P_SplitFree.C108_no_leak_refuted,
   @P_SplitFree.C108_accounted,
   @P_SplitFree.C108_decent,
   @P_SplitFree.C108_carriers,
   @P_MapFree.C109_accounted,
   @P_MapFree.C109_concluded,
   @P_MapFree.C109_reported,
   @P_MapFree.C109_raised,
   @P_MapFree.C109_raised_reducing,
   @P_MapFree.C109_raised_fusing,
   @P_Ports.C11_no_deadlock,
   @P_Ports.C11_somebody_awake,
   @P_Ports.C11_every_schedule_terminates,
   @P_InduceFree.C110_accounted,
   @P_InduceFree.C110_concluded,
   @P_Ports.C12_spurious_wakeup_refuted,
   @P_Ports.C12_spurious_wakeup_loses_packets_refuted,
   @P_Hash.C13_routing_in_range,
   @P_Hash.C13_routing_is_balanced,
   @P_Hash.C13_default_hash_is_a_bijection,
   @P_Traverse.C14_vertex_count,
   @P_Traverse.C14_terminus_count,
   @P_Traverse.C14_edge_count,
   @P_Traverse.C15_each_vertex_exactly_once,
   @P_Traverse.C15_never_twice_and_nothing_else,
   @P_Traverse.C15_traversal_terminates,
   @P_Traverse.C16_result_of_concurrent_reduction,
   @P_Traverse.C16_result_of_sequential_reduction,
   @P_Traverse.C16_result_is_the_sequential_fold,
   @P_Traverse.C16_empty_graph,
   @P_Traverse.C16_vacuous_case_refuted,
   @P_Traverse.C16_zone_refuted,
   @P_Traverse.C16_reduction_of_missing_value_refuted,
   @P_Fold.C17_intermediate_results_are_destroyed_once,
   @P_Fold.C17_nothing_destroyed_without_destructor,
   @P_Fold.C17_value_with_vacuous_case,
   @P_Fold.C17_value_without_vacuous_case,
   @P_Fold.C17_order_of_edges_is_immaterial,
   @P_Fold.C17_order_of_edges_is_immaterial_if_commutative,
   @P_Fold.C17_nothing_to_fold,
   @P_Fold.C17_no_result_with_error,
   @P_Fold.C18_property_of_a_vertex,
   @P_Fold.C18_property_of_a_vertex_by_bmap,
   @P_Fold.C18_intermediate_results_are_destroyed_once,
   @P_Fold.C18_default_map,
   @P_Fold.C18_default_reduction,
   @P_Fold.C18_given_operators_are_kept,
   @P_Induce.C19_recursive_definition,
   @P_Induce.C19_recursive_equation,
   @P_Induce.C19_errors_are_the_users,
   @P_Induce.C19_failure_returns_nothing,
   @P_Induce.C19_no_deadlock,
   @P_Induce.C19_finitely_many_steps,
   @P_Mutate.C20_ordered_mutation,
   @P_Mutate.C20_unordered_mutation,
   @P_Mutate.C20_unique_solution,
   @P_Mutate.C20_independent_of_schedule,
   @P_Mutate.C20_no_deadlock,
   @P_Mutate.C20_finitely_many_steps,
   @P_Mutate.C20_errors,
   @P_Mutate.C20_order_refuted,
   @P_Mutate.C20_zone_refuted,
   @P_Mutate.C20_outside_zone_refuted,
   @P_Filter.C21_vertices_and_edges_left,
   @P_Filter.C21_edges_tested_jointly,
   @P_Merge.C22_merging_makes_the_quotient,
   @P_Merge.C22_merging_succeeds,
   @P_Merge.C22_independent_of_schedule,
   @P_Merge.C23_flag_is_exact,
   @P_Merge.C22_merging_makes_the_quotient,
   @P_Partition.C24_classes_reflect_properties,
   @P_Partition.C24_size_of_class,
   @P_Partition.C25_unions_generate_equivalence,
   @P_Partition.C25_united,
   @P_Partition.C26_size_is_that_of_original_partial,
   @P_Partition.C26_size_of_united_class_refuted,
   @P_Compose.C27_one_pass,
   @P_Compose.C27_iterated,
   @P_Compose.C27_errors,
   @P_Compose.C27_schedule_is_immaterial,
   @P_Compose.C28_other_edges_refuted,
   @P_Compose.C28_new_edges_refuted,
   @P_Compose.C28_deletion_if_labels_are_distinct,
   @P_Split.C29_splitting,
   @P_Split.C29_schedule_is_immaterial,
   @P_Split.C29_errors,
   @P_Split.C29_success,
   @P_Split.C29_splitting_terminates,
   @P_Split.C29_original_properties_refuted,
   @P_Postpone.C30_one_pass,
   @P_Postpone.C30_iterated,
   @P_Postpone.C30_errors,
   @P_Postpone.C30_no_vertex_is_lost,
   @P_Postpone.C30_schedule_is_immaterial,
   @P_Spread.C31_spreading,
   @P_Spread.C31_success,
   @P_Spread.C31_failure,
   @P_Spread.C31_calls,
   @P_Spread.C31_vertex_limit,
   @P_Spread.C31_no_error_is_ignored,
   @P_Spread.C31_independent_of_schedule,
   @P_Spread.C31_spreading_terminates,
   @P_Spread.C31_preparation_terminates,
   @P_Spread.C74_nonterminal_vertex_refuted,
   @P_Stretch.C32_stretching,
   @P_Stretch.C32_errors,
   @P_Stretch.C32_success,
   @P_Stretch.C32_schedule_is_immaterial,
   @P_Stretch.C32_stretching_terminates,
   @P_Stretch.C32_number_of_edges_refuted,
   @P_Stretch.C32_parallel_edges_refuted,
   @P_Dedup.C33_vertices_lost_refuted,
   @P_Dedup.C33_edges_lost_refuted,
   @P_Dedup.C33_edges_repeated_refuted,
   @P_Dedup.C33_deduplication_sound,
   @P_Dedup.C33_deduplication_succeeds,
   @P_Dedup.C33_nothing_is_lost,
   @P_Dedup.C33_no_repeated_edges,
   @P_Dedup.C33_deduplication_terminates,
   @P_Fabricate.C34_crossing,
   @P_Fabricate.C34_functions_are_called_once,
   @P_Fabricate.C34_crossing_terminates,
   @P_Fabricate.C35_fabrication_is_an_isomorphism,
   @P_Fabricate.C35_functions_are_called_once,
   @P_Fabricate.C35_fabrication_terminates,
   @P_Build.C36_killed_build_fails,
   @P_Killed.C36_killed_pass_reports_it,
   @P_Kill.C36_effective_request_is_reported,
   @P_Kill.C36_request_in_earlier_pass_refuted,
   @P_Kill.C36_request_lost_in_race_refuted,
   @P_Killed.C36_killed_classification_refuted,
   @P_Killed.C36_killed_properties_refuted,
   @P_Killed.C36_killed_filter_refuted,
   @P_Killed.C36_killed_pruning_refuted,
   @P_Induce.C36_killed_induction_refuted,
   @P_Induce.C36_killed_analysis_refuted,
   @P_Mutate.C36_killed_mutation_refuted,
   @P_Merge.C36_killed_merger_refuted,
   @P_Spread.C36_killed_spreading_refuted,
   @P_Dedup.C36_killed_deduplication_refuted,
   @P_Compose.C36_composition_killed_refuted,
   @P_Compose.C36_iterated_composition_crash_refuted,
   @P_Postpone.C36_postponement_killed_refuted,
   @P_Postpone.C36_postponement_missing_vertices_refuted,
   @P_Stretch.C36_killed_stretching_refuted,
   @P_Stretch.C36_dangling_edge_refuted,
   @P_Split.C36_killed_splitting_refuted,
   @P_Kill.C37_late_request_kills_the_next_operation_refuted,
   @P_Kill.C37_write_to_freed_router_refuted,
   @P_Kill.C38_at_most_one_operation_per_request,
   @P_Kill.C38_at_most_one_operation_per_request,
   @P_Kill.C38_pending_request_is_delivered,
   @P_Errs.C39_first_error_stops_the_callbacks,
   @P_Errs.C39_tests,
   @P_Errs.C39_workers_stop_at_their_first_error,
   @P_Errs.C39_reported_error_really_occurred,
   @P_Containers.C40_multisets,
   @P_Containers.C40_multisets_agree,
   @P_Containers.C40_multiplicity_is_number_of_sets,
   @P_Containers.C40_sets,
   @P_Containers.C40_maps,
   @P_Containers.C40_unused_classes,
   @P_Partition.C41_success_partial,
   @P_Partition.C41_no_false_alarm,
   @P_Partition.C41_without_judy_refuted,
   @P_Partition.C41_across_workers_refuted,
   @P_Free.C42_everything_is_destroyed_once,
   @P_Free.C42_errors_of_destructors,
   @P_Free.C42_no_use_after_free,
   @P_Free.C42_freeing_terminates,
   @P_Reserve.C43_packets_are_conserved,
   @P_Reserve.C43_packets_handed_out_are_not_in_use,
   @P_Reserve.C43_allocation_succeeds_while_there_is_a_reserve,
   @P_Reserve.C43_reserve_is_bounded,
   @P_Reserve.C43_limit_of_reserve_refuted,
   @P_Infer.C44_fold_accepted,
   @P_Infer.C44_fold_rejected,
   @P_Infer.C44_fold_faults,
   @P_Infer.C44_default_reduction_refuted,
   @P_Infer.C44_default_reduction_partial,
   @P_Infer.C44_map_accepted,
   @P_Infer.C44_map_rejected,
   @P_Infer.C44_builder_accepted,
   @P_Infer.C44_builder_rejected,
   @P_Infer.C44_null_spread_refuted,
   @P_Infer.C44_spreader_accepted,
   @P_Infer.C44_spreader_rejected,
   @P_Infer.C44_crosser_accepted,
   @P_Infer.C44_crosser_rejected,
   @P_Infer.C44_fabricator_accepted,
   @P_Infer.C44_fabricator_rejected,
   @P_Infer.C44_mapreducer_accepted,
   @P_Infer.C44_mapreducer_rejected,
   @P_Infer.C44_inducer_accepted,
   @P_Infer.C44_inducer_rejected,
   @P_Infer.C44_bmap_in_inducer_refuted,
   @P_Infer.C44_bmap_in_inducer,
   @P_Infer.C44_composer_accepted,
   @P_Infer.C44_composer_rejected,
   @P_Infer.C44_stretcher_accepted,
   @P_Infer.C44_stretcher_rejected,
   @P_Infer.C44_splitter_accepted,
   @P_Infer.C44_splitter_rejected,
   @P_Infer.C44_postponer_accepted,
   @P_Infer.C44_postponer_rejected,
   @P_Infer.C44_classifier_accepted,
   @P_Infer.C44_classifier_rejected,
   @P_Infer.C44_null_classifier,
   @P_Infer.C44_filter_accepted,
   @P_Infer.C44_filter_rejected,
   @P_Infer.C44_bmap_in_filter_refuted,
   @P_Infer.C44_ordered_thinning_refuted,
   @P_Sig.C44_merger,
   @P_Sig.C44_deduplicator,
   @P_Sig.C44_mutator,
   @P_Sig.C44_both_priorities_refuted,
   @P_Sig.C44_mutated_signature,
   @P_Traverse.C45_incident_edges_are_exactly_the_inverse_edges,
   @P_Traverse.C45_back_edges_are_removed,
   @P_Traverse.C45_round_trip,
   @P_Traverse.C45_duplex_test_is_right,
   @P_Brigade.C46_grouping_by_label,
   @P_Brigade.C46_grouping_by_terminus,
   @P_Brigade.C46_ungrouping,
   @P_Brigade.C46_deduplication,
   @P_Ports.C47_workers_released,
   @P_Ports.C48_deferred_not_forgotten,
   @P_Filter.C49_thinning_keeps_a_minimal_edge,
   @P_Filter.C49_thinning_keeps_a_minimal_class,
   @P_Compose.C50_composition_refuted,
   @P_Compose.C50_composition_to_a_fixed_point,
   @P_Compose.C50_another_pass_would_add_nothing,
   @P_Postpone.C50_postponement_refuted,
   @P_Postpone.C50_postponement_to_a_fixed_point,
   @P_Postpone.C50_another_postponement_would_change_nothing,
   @P_Stretch.C50_stretching_fixed_point_refuted,
   @P_Stretch.C32_stretching,
   @P_Partition.C51_partitions_are_freed,
   @P_Filter.C52_forward_zone_refuted,
   @P_Filter.C52_backward_zone_error_refuted,
   @P_Filter.C52_backward_zone_refuted,
   @P_Filter.C53_classes_of_retained_edges_refuted,
   @P_Killed.C54_partition_with_error_refuted,
   @P_Partition.C41_no_false_alarm,
   @P_Kill.C55_last_operation_is_killable_refuted,
   @P_Mutate.C56_compatible_mutation_rejected_refuted,
   @P_Mutate.C56_incompatible_mutation_accepted_refuted,
   @P_Mutate.C20_errors,
   @P_Mutate.C57_unordered_zone_refuted,
   @P_Mutate.C20_unordered_mutation,
   @P_Mutate.C58_killed_mutation_leaks_refuted,
   @P_Mutate.C20_errors,
   @P_Merge.C59_default_classifier_refuted,
   @P_Merge.C59_default_classifier_on_distinct_vertices,
   @P_Merge.C60_incoming_edges_of_classes_refuted,
   @P_Merge.C22_merging_succeeds,
   @P_Merge.C61_outgoing_edges_of_classes_refuted,
   @P_Merge.C22_merging_makes_the_quotient,
   @P_Dedup.C33_nothing_is_lost,
   @P_Dedup.C33_no_repeated_edges,
   @P_Dedup.C33_deduplication_sound,
   @P_Dedup.C33_conservation,
   @P_Sig.C64_merged_orders_refuted,
   @P_Sig.C64_scalar_pruning_refuted,
   @P_Sig.C64_mutated_edge_order,
   @P_Sig.C64_mutated_vertex_order_refuted,
   @P_Sig.C65_mutation_forgets_limit,
   @P_Sig.C65_vertex_limit_refuted,
   @P_Sig.C65_limit_kept_partial,
   @P_Sig.C66_signatures_stay_sound,
   @P_Sig.C66_stretching_is_ordered,
   @P_Sig.C66_splitting_is_ordered,
   @P_Sig.C66_scalars_need_no_order,
   @P_Compose.C67_operands_refuted,
   @P_Compose.C67_unwarranted_edge_refuted,
   @P_Compose.C27_one_pass,
   @P_Compose.C68_incident_properties_refuted,
   @P_Compose.C68_spurious_error_refuted,
   @P_Compose.C27_one_pass,
   @P_Postpone.C69_vertex_refuted,
   @P_Postpone.C69_label_refuted,
   @P_Split.C70_ana_property_refuted,
   @P_Split.C70_incident_edges_refuted,
   @P_Split.C70_schedule_refuted,
   @P_Split.C29_splitting,
   @P_Split.C71_limit,
   @P_Split.C71_limit_refuted,
   @P_Stretch.C71_stretching_limit,
   @P_Stretch.C71_stretching_overflow_refuted,
   @P_Stretch.C72_use_after_free_refuted,
   @P_Stretch.C72_no_use_after_free,
   @P_Stretch.C73_leaks_refuted,
   @P_Stretch.C73_killed_leaks_refuted,
   @P_Stretch.C73_no_leaks,
   @P_Spread.C74_nonterminal_vertex_refuted,
   @P_Spread.C31_spreading,
   @P_Spread.C75_singleton_refuted,
   @P_Spread.C75_repeated_calls_refuted,
   @P_Spread.C31_calls,
   @P_Spread.C76_subconnector_schedule_refuted,
   @P_Spread.C31_independent_of_schedule,
   @P_Spread.C77_equal_edges_refuted,
   @P_Spread.C31_spreading,
   @P_Spread.C78_killed_spreading_hangs_refuted,
   @P_Spread.C36_killed_spreading_refuted,
   @P_Spread.C31_preparation_terminates,
   @P_Spread.C31_spreading_terminates,
   @P_Spread.C78_failure_stops_others,
   @P_Errlog.C79_errors_are_printed,
   @P_Errlog.C79_first_errors,
   @P_Errlog.C79_read_beyond_refuted,
   @P_Errlog.C79_number_of_errors_refuted,
   @P_Errlog.C79_repeated_errors_refuted,
   @P_Abort.C80_new_vertices_are_freed,
   @P_Abort.C80_crash,
   @P_Abort.C80_order_of_evaluation_refuted,
   @P_Abort.C81_failure_is_reported,
   @P_Abort.C81_started,
   @P_Abort.C81_use_after_free_refuted,
   @P_Context.C82_attribute,
   @P_Context.C82_killed,
   @P_Context.C82_outside,
   @P_Context.C82_attribute_iff,
   @P_Context.C82_killed_iff,
   @P_Context.C82_attribute_missing_refuted,
   @P_Context.C82_killed_missing_refuted,
   @P_Context.C82_wrong_attribute_refuted,
   @P_Context.C82_caller_attribute_refuted,
   @P_Context.C83_context,
   @P_Context.C83_declared,
   @P_Context.C82_outside,
   @P_Fair.C84_fair_schedules_end,
   @P_Fair.C84_fairness_needed,
   @P_Fair.C84_inductions_end,
   @P_Fair.C84_mutations_end,
   @P_Locks.C85_atomic,
   @P_Locks.C85_exclusive,
   @P_Locks.C85_in_order,
   @P_Locks.C86_tidy_programs_end,
   @P_Locks.C86_nested_refuted,
   @P_Declare.C87_conserved,
   @P_Declare.C87_left_behind,
   @P_Declare.C87_lost_refuted,
   @P_FreeOom.C88_everything_is_destroyed_once,
   @P_FreeOom.C88_no_use_after_free,
   @P_FreeOom.C88_freeing_ends,
   @P_Search.C89_outcome_of_search,
   @P_Search.C89_vertex_found,
   @P_Search.C89_vertex_missing,
   @P_Search.C89_search_terminates,
   @P_Search.C89_duplicate_vertices_refuted,
   @P_Search.C90_zone_is_reduced,
   @P_Search.C90_reduction_succeeds,
   @P_Search.C90_vertex_missing,
   @P_Search.C90_spurious_kill_refuted,
   @P_Lists.C91_operations,
   @P_Lists.C91_distribution,
   @P_Lists.C91_neighbors_left_alone,
   @P_Lists.C91_union,
   @P_Lists.C91_listed,
   @P_ListsLocal.C92_local,
   @P_ListsLocal.C92_interleaving,
   @P_Status.C93_reported_if_raised,
   @P_Status.C93_first_detected,
   @P_Status.C93_others_are_logged,
   @P_Status.C93_killed,
   @P_Status.C93_workers_finish,
   @P_Status.C93_everything_is_joined,
   @P_Crews.C94_crews_are_conserved,
   @P_Crews.C94_nobody_elses,
   @P_Crews.C94_enough_crews,
   @P_Crews.C94_teardown,
   @P_MergeFree.C95_destroyed_once,
   @P_MergeFree.C95_right_destructor,
   @P_MergeFree.C95_result,
   @P_MergeFree.C95_failure_leaves_nothing,
   @P_MergeFree.C95_terminates,
   @P_MergeFree.C95_progress,
   @P_MergeFree.C95_classified,
   @P_MergeFree.C95_wrong_destructor_refuted,
   @P_Init.C96_initialization,
   @P_Init.C96_calls,
   @P_Init.C96_calls_initialized,
   @P_Init.C96_teardown,
   @P_Init.C96_teardown_progress,
   @P_Init.C96_teardown_measure,
   @P_Init.C96_kill_switch,
   @P_Init.C96_free_kill_switch,
   @P_Init.C96_port,
   @P_Init.C96_router,
   @P_Init.C96_stretch_uninitialized_refuted,
   @P_OpsEdge.C97_empty,
   @P_OpsEdge.C97_empty_kept,
   @P_OpsEdge.C97_corrupted,
   @P_OpsEdge.C97_corrupted_kept,
   @P_OpsEdge.C97_unspecified,
   @P_OpsEdge.C97_crossed_refuted,
   @P_OpsEdge.C97_partition_refuted,
   @P_OpsEdge.C97_corrupted_refuted,
   @P_OpsEdge.C97_spread_refuted,
   @P_Ops.C98_composed,
   @P_Ops.C98_postponed,
   @P_Ops.C98_deduplicated,
   @P_Ops.C98_spread,
   @P_Ops.C98_filtered,
   @P_Ops.C98_stretched_or,
   @P_Ops.C98_mutated_or,
   @P_Ops.C98_split_or,
   @P_Ops.C98_merged_or,
   @P_OpsKeep.C98_fabricated,
   @P_OpsKeep.C98_mapreduced,
   @P_OpsKeep.C98_induced,
   @P_OpsKeep.C98_partition_of,
   @P_OpsKeep.C98_counted,
   @P_OpsKeep.C98_crossed_or,
   @P_OpsEdge.C98_free_now,
   @P_OpsEdge.C98_merged_refuted,
   @P_OpsEdge.C98_stretched_refuted,
   @P_OpsEdge.C98_mutated_refuted,
   @P_OpsEdge.C98_split_refuted,
   @P_OpsEdge.C98_crossed_refuted,
   @P_OpsEdge.C98_badgph_refuted,
   @P_MutateFree.C99_replaced_destroyed,
   @P_MutateFree.C99_vertices_destroyed,
   @P_MutateFree.C99_labels_forward,
   @P_MutateFree.C99_labels_backward,
   @P_MutateFree.C99_labels_unchanged,
   @P_MutateFree.C99_destroyed_once,
   @P_MutateFree.C99_labels_leaked_refuted,
   @P_MutateFree.C99_new_labels_leaked_refuted,
   @P_MutateFree.C99_wrong_label_destructor_refuted,
   @P_MutateFree.C99_unordered_refuted,
   @P_MutateFree.C99_wrong_vertex_destructor_refuted,
   @P_MutateFree.C99_unreachable_refuted).
Print Assumptions everything.
