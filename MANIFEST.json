{
 "claims": [
  {
   "property": "C01",
   "status": "proved",
   "theorems": [
    "C01_exactly_the_reachable_vertices",
    "C01_any_connector",
    "C01_building_terminates"
   ],
   "note": ""
  },
  {
   "property": "C02",
   "status": "proved",
   "theorems": [
    "C02_exactly_the_declared_edges"
   ],
   "note": ""
  },
  {
   "property": "C03",
   "status": "proved",
   "theorems": [
    "C03_connector_called_once_per_vertex"
   ],
   "note": ""
  },
  {
   "property": "C04",
   "status": "proved",
   "theorems": [
    "C04_every_moment",
    "C04_success",
    "C04_failure"
   ],
   "note": ""
  },
  {
   "property": "C05",
   "status": "proved",
   "theorems": [
    "C05_subconnector_calls",
    "C05_reachable_combinations",
    "C05_edges_are_the_union"
   ],
   "note": ""
  },
  {
   "property": "C06",
   "status": "proved",
   "theorems": [
    "C06_schedule_independence"
   ],
   "note": ""
  },
  {
   "property": "C07",
   "status": "proved",
   "theorems": [
    "C07_limit_respected",
    "C07_overflow_justified"
   ],
   "note": ""
  },
  {
   "property": "C08",
   "status": "partial",
   "theorems": [
    "C08_failed_build_dereferences_null_refuted",
    "C08_failure_reported",
    "C08_user_error_reported"
   ],
   "note": "REFUTED: entry.c:210-211 dereferences the null result of a failed build; the positive part (NULL and a non-zero code are what _cru_built computes) is proved"
  },
  {
   "property": "C09",
   "status": "proved",
   "theorems": [
    "C09_quiescence_sound",
    "C09_finished_traversal_is_complete"
   ],
   "note": "any number of lanes, any task, any schedule"
  },
  {
   "property": "C10",
   "status": "proved",
   "theorems": [
    "C10_conservation",
    "C10_routing",
    "C10_exactly_once"
   ],
   "note": ""
  },
  {
   "property": "C100",
   "status": "proved",
   "theorems": [
    "C100_grouping_by_terminus",
    "C100_grouping_by_label",
    "C100_deduplication",
    "C100_uniqueness",
    "C100_reduction",
    "C100_pruning",
    "C100_filters",
    "C100_individual_filters",
    "C100_joint_filters",
    "C100_no_spurious_errors"
   ],
   "note": "For any oracle of allocations and any results and errors of the callback functions and destructors, which may depend on the time: the multiset of edges is conserved between what is returned and what is freed, and likewise for buckets and labels of reductions. Without an error reported, the results are characterised as in C46, also if the heap could have failed."
  },
  {
   "property": "C101",
   "status": "proved",
   "theorems": [
    "C101_subconnector_not_repeated"
   ],
   "note": "For every sequence of packets of the second pass, not only those sent by the workers. That a vertex of the given graph may be passed to the function repeatedly is C75."
  },
  {
   "property": "C102",
   "status": "proved",
   "theorems": [
    "C102_performed",
    "C102_limit_accepted",
    "C102_never_exceeded",
    "C102_persistent",
    "C102_allocation",
    "C102_simulation",
    "C102_refusals_recorded"
   ],
   "note": "The first four for any calls whatever; the others for orderly ones while the system has memory. Locks are assumed not to fail."
  },
  {
   "property": "C103",
   "status": "proved",
   "theorems": [
    "C103_all_clear",
    "C103_no_accusation",
    "C103_leaks_reported"
   ],
   "note": "The first two also if the system runs out of memory; the last one if it does not (see C105)."
  },
  {
   "property": "C104",
   "status": "partial",
   "theorems": [
    "C104_detected",
    "C104_lasting",
    "C104_double_free_prevented_refuted"
   ],
   "note": "REFUTED: a block found to have been deallocated before is passed to free again, and no error is thrown (wrap.c:329, 333), contrary to the comment in wrap.c:294-302. Proved: the place is recorded, and the error is reported by all later simulated allocations and by crudev_all_clear."
  },
  {
   "property": "C105",
   "status": "partial",
   "theorems": [
    "C103_leaks_reported",
    "C105_record_of_memory_in_use_refuted",
    "C105_double_free_missed_refuted"
   ],
   "note": "REFUTED: if malloc fails below the limit after any allocation has succeeded, then the block is recorded as live (wrap.c:254 and 260 test the count and not the pointer), so that a leak is reported on exit though there is none, and a double free can go undetected. Proved: the record is exact if malloc does not fail."
  },
  {
   "property": "C106",
   "status": "partial",
   "theorems": [
    "C106_no_leak_refuted",
    "C106_accounted",
    "C106_decent",
    "C106_carriers"
   ],
   "note": "REFUTED: a vertex that the vertex function of a fabricator returns along with an error is never destroyed (src/fab.c:77). Proved: whatever fails and whenever, everything else made is destroyed once or held, at most one value is lost by each worker and only in this way; if the function returns NULL when it raises an error, nothing is lost."
  },
  {
   "property": "C107",
   "status": "proved",
   "theorems": [
    "C107_values",
    "C107_products",
    "C106_carriers"
   ],
   "note": "The order of arrivals, the outcomes of all calls and the times of kills are arbitrary."
  },
  {
   "property": "C108",
   "status": "partial",
   "theorems": [
    "C108_no_leak_refuted",
    "C108_accounted",
    "C108_decent",
    "C108_carriers"
   ],
   "note": "REFUTED: a vertex that the function cata or ana of a splitter returns along with an error is never destroyed (src/split.c:102-104, 112-114). Proved: whatever fails and whenever, everything else is destroyed once or held, at most one value is lost by each worker and only in this way; if the functions return NULL when they raise an error, nothing is lost."
  },
  {
   "property": "C109",
   "status": "proved",
   "theorems": [
    "C109_accounted",
    "C109_concluded",
    "C109_reported",
    "C109_raised",
    "C109_raised_reducing",
    "C109_raised_fusing"
   ],
   "note": "The order of events, the outcomes of all calls and the times of kills are arbitrary. Destructors are assumed to be given."
  },
  {
   "property": "C11",
   "status": "proved",
   "theorems": [
    "C11_no_deadlock",
    "C11_somebody_awake",
    "C11_every_schedule_terminates"
   ],
   "note": "termination of every schedule is for tasks that never defer; see C84 for those that do"
  },
  {
   "property": "C110",
   "status": "proved",
   "theorems": [
    "C110_accounted",
    "C110_concluded"
   ],
   "note": "The order of events, the outcomes of all calls and the times of kills are arbitrary. A destructor is assumed to be given."
  },
  {
   "property": "C12",
   "status": "partial",
   "theorems": [
    "C12_spurious_wakeup_refuted",
    "C12_spurious_wakeup_loses_packets_refuted"
   ],
   "note": "REFUTED: the claim is false of the code (without spurious wakeups C09-C11 hold): concrete schedule in which a spurious wakeup loses packets"
  },
  {
   "property": "C13",
   "status": "proved",
   "theorems": [
    "C13_routing_in_range",
    "C13_routing_is_balanced",
    "C13_default_hash_is_a_bijection"
   ],
   "note": ""
  },
  {
   "property": "C14",
   "status": "proved",
   "theorems": [
    "C14_vertex_count",
    "C14_terminus_count",
    "C14_edge_count"
   ],
   "note": ""
  },
  {
   "property": "C15",
   "status": "proved",
   "theorems": [
    "C15_each_vertex_exactly_once",
    "C15_never_twice_and_nothing_else",
    "C15_traversal_terminates"
   ],
   "note": "for the common visiting scheme with any per-vertex action; instances: counting, duplexing, map-reduction"
  },
  {
   "property": "C16",
   "status": "partial",
   "theorems": [
    "C16_result_of_concurrent_reduction",
    "C16_result_of_sequential_reduction",
    "C16_result_is_the_sequential_fold",
    "C16_empty_graph",
    "C16_vacuous_case_refuted",
    "C16_zone_refuted",
    "C16_reduction_of_missing_value_refuted"
   ],
   "note": "REFUTED: with one worker the vacuous case is folded in and the zone is ignored, and after a failed first map the reduction is applied to NULL; proved for the concurrent evaluation and for the sequential one without vacuous case"
  },
  {
   "property": "C17",
   "status": "proved",
   "theorems": [
    "C17_intermediate_results_are_destroyed_once",
    "C17_nothing_destroyed_without_destructor",
    "C17_value_with_vacuous_case",
    "C17_value_without_vacuous_case",
    "C17_order_of_edges_is_immaterial",
    "C17_order_of_edges_is_immaterial_if_commutative",
    "C17_nothing_to_fold",
    "C17_no_result_with_error"
   ],
   "note": ""
  },
  {
   "property": "C18",
   "status": "proved",
   "theorems": [
    "C18_property_of_a_vertex",
    "C18_property_of_a_vertex_by_bmap",
    "C18_intermediate_results_are_destroyed_once",
    "C18_default_map",
    "C18_default_reduction",
    "C18_given_operators_are_kept"
   ],
   "note": ""
  },
  {
   "property": "C19",
   "status": "proved",
   "theorems": [
    "C19_recursive_definition",
    "C19_recursive_equation",
    "C19_errors_are_the_users",
    "C19_failure_returns_nothing",
    "C19_no_deadlock",
    "C19_finitely_many_steps"
   ],
   "note": "for operations that are not killed; see C36 for those that are"
  },
  {
   "property": "C20",
   "status": "partial",
   "theorems": [
    "C20_ordered_mutation",
    "C20_unordered_mutation",
    "C20_unique_solution",
    "C20_independent_of_schedule",
    "C20_no_deadlock",
    "C20_finitely_many_steps",
    "C20_errors",
    "C20_order_refuted",
    "C20_zone_refuted",
    "C20_outside_zone_refuted"
   ],
   "note": "REFUTED: the order is not respected if the kernel defines no fold over the edges to the prerequisites (mutate.c:144, 191-195), nothing is mutated in a local_first zone whose initial vertex has prerequisites outside, and vertices outside the zone are mutated if their worker has none inside; proved in full (each vertex exactly once, after its prerequisites, the result being the unique solution of the equations) for kernels that see the prerequisites, and zones that are the whole graph, or remote_first, or otherwise depend on nothing outside, and include a vertex of every worker; not killed, see C36"
  },
  {
   "property": "C21",
   "status": "proved",
   "theorems": [
    "C21_vertices_and_edges_left",
    "C21_edges_tested_jointly"
   ],
   "note": "for filters without a zone; the classes tested jointly include edges to rejected vertices, see C53; not killed, see C36"
  },
  {
   "property": "C22",
   "status": "proved",
   "theorems": [
    "C22_merging_makes_the_quotient",
    "C22_merging_succeeds",
    "C22_independent_of_schedule"
   ],
   "note": "for vertex operations that do not depend on edges (see C60 and C61 for those that do) and edge operations that are given or empty, with functions that raise no errors; classifiers other than the default one, or the default one for distinct vertices (C59); not killed, see C36"
  },
  {
   "property": "C23",
   "status": "proved",
   "theorems": [
    "C23_flag_is_exact",
    "C22_merging_makes_the_quotient"
   ],
   "note": ""
  },
  {
   "property": "C24",
   "status": "proved",
   "theorems": [
    "C24_classes_reflect_properties",
    "C24_size_of_class"
   ],
   "note": "for distinct vertices and a classifier whose equality raises no errors, is an equivalence and compatible with its hash; not killed, see C36"
  },
  {
   "property": "C25",
   "status": "proved",
   "theorems": [
    "C25_unions_generate_equivalence",
    "C25_united"
   ],
   "note": "not killed, see C36"
  },
  {
   "property": "C26",
   "status": "partial",
   "theorems": [
    "C26_size_is_that_of_original_partial",
    "C26_size_of_united_class_refuted"
   ],
   "note": "REFUTED: the size of a united class is that of one of the original classes (classes.c:375); what it is is proved"
  },
  {
   "property": "C27",
   "status": "proved",
   "theorems": [
    "C27_one_pass",
    "C27_iterated",
    "C27_errors",
    "C27_schedule_is_immaterial"
   ],
   "note": "the operands are those of the code, see C67 and C68; edges that are equal to another one of the same vertex are removed where edges are added; not killed, see C36"
  },
  {
   "property": "C28",
   "status": "partial",
   "theorems": [
    "C28_other_edges_refuted",
    "C28_new_edges_refuted",
    "C28_deletion_if_labels_are_distinct"
   ],
   "note": "REFUTED: edges are deleted by their labels, so that other edges with the label of a launching edge are deleted, including new ones if they have the default label; proved if no other edge has the label of a launching one"
  },
  {
   "property": "C29",
   "status": "partial",
   "theorems": [
    "C29_splitting",
    "C29_schedule_is_immaterial",
    "C29_errors",
    "C29_success",
    "C29_splitting_terminates",
    "C29_original_properties_refuted"
   ],
   "note": "REFUTED: the inward labelers are applied to a new property of the origin and not to the original one if the edge originates from the vertex made by cata; proved: with that property in its place, the vertices and edges of the result are those required by the splitter, apart from vertices that are not reachable from the base vertex, whatever the schedule; errors are those reported by functions of the user"
  },
  {
   "property": "C30",
   "status": "proved",
   "theorems": [
    "C30_one_pass",
    "C30_iterated",
    "C30_errors",
    "C30_no_vertex_is_lost",
    "C30_schedule_is_immaterial"
   ],
   "note": "edges from a vertex to itself are neither movable nor siblings; edges that are equal to another one of the same vertex are removed where edges are added; not killed, see C36"
  },
  {
   "property": "C31",
   "status": "partial",
   "theorems": [
    "C31_spreading",
    "C31_success",
    "C31_failure",
    "C31_calls",
    "C31_vertex_limit",
    "C31_no_error_is_ignored",
    "C31_independent_of_schedule",
    "C31_spreading_terminates",
    "C31_preparation_terminates",
    "C74_nonterminal_vertex_refuted"
   ],
   "note": "proved for connectors: the result has the given vertices and edges, one new vertex for each class of equal vertices that are declared and not given, and for each vertex that was terminal or is new exactly the declared edges; an error is reported only if it is returned by the connector or there is an overflow.  REFUTED for subconnectors, which may add edges to a vertex that has some"
  },
  {
   "property": "C32",
   "status": "partial",
   "theorems": [
    "C32_stretching",
    "C32_errors",
    "C32_success",
    "C32_schedule_is_immaterial",
    "C32_stretching_terminates",
    "C32_number_of_edges_refuted",
    "C32_parallel_edges_refuted"
   ],
   "note": "proved: the vertices and edges of the result are those required by the stretcher and no others, up to repetition of equal edges, apart from vertices that are not reachable from the base vertex; errors are the overflow and those reported by functions of the user.  REFUTED: whether equal edges, also given ones that are retained, are united depends on the number of workers and on edges elsewhere.  Assignments to the terminus of an edge are atomic, in the order of packets"
  },
  {
   "property": "C33",
   "status": "partial",
   "theorems": [
    "C33_vertices_lost_refuted",
    "C33_edges_lost_refuted",
    "C33_edges_repeated_refuted",
    "C33_deduplication_sound",
    "C33_deduplication_succeeds",
    "C33_nothing_is_lost",
    "C33_no_repeated_edges",
    "C33_deduplication_terminates"
   ],
   "note": "REFUTED: edges with equal labels to different vertices are removed when vertices are fused, possibly with the vertices they lead to, and edges with equal labels to different nodes that are fused are kept; proved in general: the result has no equal vertices, no other edges, and all labels; see C62"
  },
  {
   "property": "C34",
   "status": "proved",
   "theorems": [
    "C34_crossing",
    "C34_functions_are_called_once",
    "C34_crossing_terminates"
   ],
   "note": "the vertex of the new graph made for a pair of nodes is identified with the pair; the originals are arguments the task cannot change"
  },
  {
   "property": "C35",
   "status": "proved",
   "theorems": [
    "C35_fabrication_is_an_isomorphism",
    "C35_functions_are_called_once",
    "C35_fabrication_terminates"
   ],
   "note": "the vertex of the new graph made for a node is identified with it; the original is an argument the task cannot change"
  },
  {
   "property": "C36",
   "status": "partial",
   "theorems": [
    "C36_killed_build_fails",
    "C36_killed_pass_reports_it",
    "C36_effective_request_is_reported",
    "C36_request_in_earlier_pass_refuted",
    "C36_request_lost_in_race_refuted",
    "C36_killed_classification_refuted",
    "C36_killed_properties_refuted",
    "C36_killed_filter_refuted",
    "C36_killed_pruning_refuted",
    "C36_killed_induction_refuted",
    "C36_killed_analysis_refuted",
    "C36_killed_mutation_refuted",
    "C36_killed_merger_refuted",
    "C36_killed_spreading_refuted",
    "C36_killed_deduplication_refuted",
    "C36_composition_killed_refuted",
    "C36_iterated_composition_crash_refuted",
    "C36_postponement_killed_refuted",
    "C36_postponement_missing_vertices_refuted",
    "C36_killed_stretching_refuted",
    "C36_dangling_edge_refuted",
    "C36_killed_splitting_refuted"
   ],
   "note": "REFUTED: a request is forgotten when the router is reset for a further pass (route.c:512), with the result that cru_partition_of and cru_filtered report success and return a wrong partition, a wrong graph, or one with dangling edges, cru_induced reports success and returns NULL or a wrong value, cru_mutated reports success and deletes edges, and cru_composed reports success without having composed all edges, or uses nodes after freeing them, and cru_split reports success without having split all vertices; also a request made between the end of a pass and its disabling is lost; proved: building and operations consisting of one pass report every request that is effective"
  },
  {
   "property": "C37",
   "status": "partial",
   "theorems": [
    "C37_late_request_kills_the_next_operation_refuted",
    "C37_write_to_freed_router_refuted",
    "C38_at_most_one_operation_per_request"
   ],
   "note": "REFUTED: a request that is pending when the function finishes kills the next one, and one that is concurrent with the end of the function may write to the router after it is freed"
  },
  {
   "property": "C38",
   "status": "proved",
   "theorems": [
    "C38_at_most_one_operation_per_request",
    "C38_pending_request_is_delivered"
   ],
   "note": ""
  },
  {
   "property": "C39",
   "status": "proved",
   "theorems": [
    "C39_first_error_stops_the_callbacks",
    "C39_tests",
    "C39_workers_stop_at_their_first_error",
    "C39_reported_error_really_occurred"
   ],
   "note": ""
  },
  {
   "property": "C40",
   "status": "proved",
   "theorems": [
    "C40_multisets",
    "C40_multisets_agree",
    "C40_multiplicity_is_number_of_sets",
    "C40_sets",
    "C40_maps",
    "C40_unused_classes"
   ],
   "note": "for histories in which _cru_set_membership is only applied to nodes not in the set, as otherwise it is an internal error with Judy arrays; the effect on errors is C41"
  },
  {
   "property": "C41",
   "status": "partial",
   "theorems": [
    "C41_success_partial",
    "C41_no_false_alarm",
    "C41_without_judy_refuted",
    "C41_across_workers_refuted"
   ],
   "note": "REFUTED: not reported without Judy, nor with it if the properties of the two are assigned to different workers; proved: reported with Judy if they are assigned to the same worker, and never reported for distinct vertices; not killed, see C36"
  },
  {
   "property": "C42",
   "status": "proved",
   "theorems": [
    "C42_everything_is_destroyed_once",
    "C42_errors_of_destructors",
    "C42_no_use_after_free",
    "C42_freeing_terminates"
   ],
   "note": "memory for packets and node sets is assumed to suffice"
  },
  {
   "property": "C43",
   "status": "partial",
   "theorems": [
    "C43_packets_are_conserved",
    "C43_packets_handed_out_are_not_in_use",
    "C43_allocation_succeeds_while_there_is_a_reserve",
    "C43_reserve_is_bounded",
    "C43_limit_of_reserve_refuted"
   ],
   "note": "REFUTED: the limit can be exceeded by a race between the test and the increment of the count (pack.c:226-235); conservation and the bound limit + threads - 1 are proved"
  },
  {
   "property": "C44",
   "status": "partial",
   "theorems": [
    "C44_fold_accepted",
    "C44_fold_rejected",
    "C44_fold_faults",
    "C44_default_reduction_refuted",
    "C44_default_reduction_partial",
    "C44_map_accepted",
    "C44_map_rejected",
    "C44_builder_accepted",
    "C44_builder_rejected",
    "C44_null_spread_refuted",
    "C44_spreader_accepted",
    "C44_spreader_rejected",
    "C44_crosser_accepted",
    "C44_crosser_rejected",
    "C44_fabricator_accepted",
    "C44_fabricator_rejected",
    "C44_mapreducer_accepted",
    "C44_mapreducer_rejected",
    "C44_inducer_accepted",
    "C44_inducer_rejected",
    "C44_bmap_in_inducer_refuted",
    "C44_bmap_in_inducer",
    "C44_composer_accepted",
    "C44_composer_rejected",
    "C44_stretcher_accepted",
    "C44_stretcher_rejected",
    "C44_splitter_accepted",
    "C44_splitter_rejected",
    "C44_postponer_accepted",
    "C44_postponer_rejected",
    "C44_classifier_accepted",
    "C44_classifier_rejected",
    "C44_null_classifier",
    "C44_filter_accepted",
    "C44_filter_rejected",
    "C44_bmap_in_filter_refuted",
    "C44_ordered_thinning_refuted",
    "C44_merger",
    "C44_deduplicator",
    "C44_mutator",
    "C44_both_priorities_refuted",
    "C44_mutated_signature"
   ],
   "note": "REFUTED in details: proved for every structure and combination of operators is that accepted specifications are complete, keep what is given and have the documented defaults, and that rejected ones have the fault that is reported; but a bmap in an inducer or in the vertex test of a filter is an internal error, a NULL builder is an internal error in cru_spread, a default reduction is not inferred if there is a vacuous case and a map destructor, CRU_INCTRP is never reported, and an order without an edge filter is accepted if there is a thinner"
  },
  {
   "property": "C45",
   "status": "proved",
   "theorems": [
    "C45_incident_edges_are_exactly_the_inverse_edges",
    "C45_back_edges_are_removed",
    "C45_round_trip",
    "C45_duplex_test_is_right"
   ],
   "note": ""
  },
  {
   "property": "C46",
   "status": "proved",
   "theorems": [
    "C46_grouping_by_label",
    "C46_grouping_by_terminus",
    "C46_ungrouping",
    "C46_deduplication"
   ],
   "note": ""
  },
  {
   "property": "C47",
   "status": "proved",
   "theorems": [
    "C47_workers_released"
   ],
   "note": ""
  },
  {
   "property": "C48",
   "status": "proved",
   "theorems": [
    "C48_deferred_not_forgotten"
   ],
   "note": ""
  },
  {
   "property": "C49",
   "status": "proved",
   "theorems": [
    "C49_thinning_keeps_a_minimal_edge",
    "C49_thinning_keeps_a_minimal_class"
   ],
   "note": "the relation must not distinguish edges of the same class if edges are tested jointly; not killed, see C36"
  },
  {
   "property": "C50",
   "status": "partial",
   "theorems": [
    "C50_composition_refuted",
    "C50_composition_to_a_fixed_point",
    "C50_another_pass_would_add_nothing",
    "C50_postponement_refuted",
    "C50_postponement_to_a_fixed_point",
    "C50_another_postponement_would_change_nothing",
    "C50_stretching_fixed_point_refuted",
    "C32_stretching"
   ],
   "note": "REFUTED: stretching stops if no vertex has been created, also if edges declared in the last pass give cause to create some (C32_stretching proves that no unseen vertex is declared for the graph before the last pass); composition and postponement: iteration stops if the numbers of edges before and after a pass are the same, also if edges added make up for duplicates removed; proved for composition and postponement if there are no repeated edges in the given graph"
  },
  {
   "property": "C51",
   "status": "proved",
   "theorems": [
    "C51_partitions_are_freed"
   ],
   "note": "not killed, see C36"
  },
  {
   "property": "C52",
   "status": "partial",
   "theorems": [
    "C52_forward_zone_refuted",
    "C52_backward_zone_error_refuted",
    "C52_backward_zone_refuted"
   ],
   "note": "REFUTED: forward zones are ignored, because reachability analysis is skipped for filters (route.c:316, zones.c:233); with a backward zone filtering fails with an internal error if a rejected vertex has more than one incident edge (edges.c:414), and may leave a rejected vertex in the graph"
  },
  {
   "property": "C53",
   "status": "partial",
   "theorems": [
    "C53_classes_of_retained_edges_refuted"
   ],
   "note": "REFUTED: edges to rejected vertices are members of the classes tested; what holds instead is C21_edges_tested_jointly"
  },
  {
   "property": "C54",
   "status": "partial",
   "theorems": [
    "C54_partition_with_error_refuted",
    "C41_no_false_alarm"
   ],
   "note": "REFUTED: cru_partition_of returns the partition in spite of CRU_PARDPV (classes.c:342-344)"
  },
  {
   "property": "C55",
   "status": "partial",
   "theorems": [
    "C55_last_operation_is_killable_refuted"
   ],
   "note": "REFUTED: it can be another one"
  },
  {
   "property": "C56",
   "status": "partial",
   "theorems": [
    "C56_compatible_mutation_rejected_refuted",
    "C56_incompatible_mutation_accepted_refuted",
    "C20_errors"
   ],
   "note": "REFUTED both ways: the test in mutate.c:845 is inverted; proved: no such error unless the initial vertex is not the base vertex"
  },
  {
   "property": "C57",
   "status": "partial",
   "theorems": [
    "C57_unordered_zone_refuted",
    "C20_unordered_mutation"
   ],
   "note": "REFUTED: reachability is not analysed without an order (zones.c:233), and all vertices are mutated; proved: the equations hold for the whole graph"
  },
  {
   "property": "C58",
   "status": "partial",
   "theorems": [
    "C58_killed_mutation_leaks_refuted",
    "C20_errors"
   ],
   "note": "REFUTED: a request to kill the last pass is found only after the graph would have been freed (mutate.c:855-857); proved: freed after every other error"
  },
  {
   "property": "C59",
   "status": "partial",
   "theorems": [
    "C59_default_classifier_refuted",
    "C59_default_classifier_on_distinct_vertices"
   ],
   "note": "REFUTED: if two vertices are the same word, an internal error is reported; proved for distinct vertices"
  },
  {
   "property": "C60",
   "status": "partial",
   "theorems": [
    "C60_incoming_edges_of_classes_refuted",
    "C22_merging_succeeds"
   ],
   "note": "REFUTED: the program crashes, because edges_in has been overwritten (merge.c:177)"
  },
  {
   "property": "C61",
   "status": "partial",
   "theorems": [
    "C61_outgoing_edges_of_classes_refuted",
    "C22_merging_makes_the_quotient"
   ],
   "note": "REFUTED: vertices that have already been replaced or cleared are among the operands, and the result depends on the order of classes"
  },
  {
   "property": "C62",
   "status": "proved",
   "theorems": [
    "C33_nothing_is_lost",
    "C33_no_repeated_edges",
    "C33_deduplication_sound"
   ],
   "note": ""
  },
  {
   "property": "C63",
   "status": "proved",
   "theorems": [
    "C33_conservation"
   ],
   "note": "for graphs without back edges; not killed, see C36"
  },
  {
   "property": "C64",
   "status": "partial",
   "theorems": [
    "C64_merged_orders_refuted",
    "C64_scalar_pruning_refuted",
    "C64_mutated_edge_order",
    "C64_mutated_vertex_order_refuted"
   ],
   "note": "REFUTED: not for the vertices of mutated graphs (infer.c:420-421), nor for merged graphs (infer.c:332, 341); proved for the edges of mutated graphs"
  },
  {
   "property": "C65",
   "status": "partial",
   "theorems": [
    "C65_mutation_forgets_limit",
    "C65_vertex_limit_refuted",
    "C65_limit_kept_partial"
   ],
   "note": "REFUTED: every mutation resets it to no limit (infer.c:408); proved for the other operations"
  },
  {
   "property": "C66",
   "status": "proved",
   "theorems": [
    "C66_signatures_stay_sound",
    "C66_stretching_is_ordered",
    "C66_splitting_is_ordered",
    "C66_scalars_need_no_order"
   ],
   "note": ""
  },
  {
   "property": "C67",
   "status": "partial",
   "theorems": [
    "C67_operands_refuted",
    "C67_unwarranted_edge_refuted",
    "C27_one_pass"
   ],
   "note": "REFUTED: the third operand is the adjacent property of the terminus of the second edge (compose.c); proved with that operand"
  },
  {
   "property": "C68",
   "status": "partial",
   "theorems": [
    "C68_incident_properties_refuted",
    "C68_spurious_error_refuted",
    "C27_one_pass"
   ],
   "note": "REFUTED: incoming edges are not seen because the graph is half duplex while properties are computed; proved for the vertex and outgoing edges"
  },
  {
   "property": "C69",
   "status": "partial",
   "theorems": [
    "C69_vertex_refuted",
    "C69_label_refuted"
   ],
   "note": "REFUTED: postponed edges not yet absorbed are ignored by cru_free_now, so that with more than one worker vertices reachable only through them are lost, and with one worker their labels are"
  },
  {
   "property": "C70",
   "status": "partial",
   "theorems": [
    "C70_ana_property_refuted",
    "C70_incident_edges_refuted",
    "C70_schedule_refuted",
    "C29_splitting"
   ],
   "note": "REFUTED: no property is computed for the vertex made by ana, incident edges are ignored for the other one, and vertices at the ends of outgoing edges may or may not be replaced before; proved by C29_splitting: the property of the vertex made by cata is computed from the outgoing edges of the original"
  },
  {
   "property": "C71",
   "status": "partial",
   "theorems": [
    "C71_limit",
    "C71_limit_refuted",
    "C71_stretching_limit",
    "C71_stretching_overflow_refuted"
   ],
   "note": "REFUTED: stretching counts vertices that were not created, so that there is an overflow even if none is; splitting: a result with more vertices than the limit by a single worker isn't detected; proved: the number of vertices of the result in the share of any worker is at most one more than the limit divided by the number of workers, or as it was before; for stretching at most the limit divided by the number of workers, or 1"
  },
  {
   "property": "C72",
   "status": "partial",
   "theorems": [
    "C72_use_after_free_refuted",
    "C72_no_use_after_free"
   ],
   "note": "REFUTED: an edge declared twice is freed but still redirected afterwards if an equal vertex is found later; proved if no edge is declared twice, there is no vertex limit and the expander does not fail"
  },
  {
   "property": "C73",
   "status": "partial",
   "theorems": [
    "C73_leaks_refuted",
    "C73_killed_leaks_refuted",
    "C73_no_leaks"
   ],
   "note": "REFUTED: vertices that become unreachable before the last pass are lost, and so are those of a graph that is killed in the last pass by a single worker; proved if stretching is not iterated and not killed"
  },
  {
   "property": "C74",
   "status": "partial",
   "theorems": [
    "C74_nonterminal_vertex_refuted",
    "C31_spreading"
   ],
   "note": "REFUTED: with a subconnector, a vertex that has edges acquires those declared for a new edge leading to it; proved by C31_spreading for connectors"
  },
  {
   "property": "C75",
   "status": "partial",
   "theorems": [
    "C75_singleton_refuted",
    "C75_repeated_calls_refuted",
    "C31_calls"
   ],
   "note": "REFUTED: with a subconnector, the vertex of a graph with no edges is not passed to it and an internal error is reported; a terminal vertex for which no edges are declared is passed to the connector once for each edge leading to it; proved for connectors: every such vertex is passed to it, and just once if any edges are declared for it"
  },
  {
   "property": "C76",
   "status": "partial",
   "theorems": [
    "C76_subconnector_schedule_refuted",
    "C31_independent_of_schedule"
   ],
   "note": "REFUTED: a subconnector is called for the edge that is traversed first; proved for connectors that do not distinguish equal vertices"
  },
  {
   "property": "C77",
   "status": "partial",
   "theorems": [
    "C77_equal_edges_refuted",
    "C31_spreading"
   ],
   "note": "REFUTED: equal edges declared by a connector for a vertex that was terminal are all kept; proved by C31_spreading: those of new vertices are not repeated"
  },
  {
   "property": "C78",
   "status": "partial",
   "theorems": [
    "C78_killed_spreading_hangs_refuted",
    "C36_killed_spreading_refuted",
    "C31_preparation_terminates",
    "C31_spreading_terminates",
    "C78_failure_stops_others"
   ],
   "note": "REFUTED: if the first pass is killed, a node may be put in the list of nodes of a worker twice, making it cyclic, so that the loop over it never ends, and otherwise the second pass is performed with edges missing and success is reported; proved: the first pass terminates even if killed, and the second pass terminates if the first one was not; once a worker has failed and received another packet, the others cease to call the connector for edges as soon as they poll"
  },
  {
   "property": "C79",
   "status": "partial",
   "theorems": [
    "C79_errors_are_printed",
    "C79_first_errors",
    "C79_read_beyond_refuted",
    "C79_number_of_errors_refuted",
    "C79_repeated_errors_refuted"
   ],
   "note": "REFUTED: after the log is full, the last error is looked up beyond the end of it, and the number of further errors depends on what is found there; proved: the errors that fit are recorded and printed"
  },
  {
   "property": "C80",
   "status": "partial",
   "theorems": [
    "C80_new_vertices_are_freed",
    "C80_crash",
    "C80_order_of_evaluation_refuted"
   ],
   "note": "REFUTED: a packet is taken from the list by one argument of a call and the list is inspected by another, so if arguments are evaluated from left to right there is a null dereference; proved for evaluation from right to left"
  },
  {
   "property": "C81",
   "status": "partial",
   "theorems": [
    "C81_failure_is_reported",
    "C81_started",
    "C81_use_after_free_refuted"
   ],
   "note": "REFUTED: if launching fails the router has been freed by _cru_graph_launched when _cru_built frees the initial vertex by a destructor in it; proved: errors are reported, the vertex is freed and nothing is returned, and the router is used properly if the workers are started"
  },
  {
   "property": "C82",
   "status": "partial",
   "theorems": [
    "C82_attribute",
    "C82_killed",
    "C82_outside",
    "C82_attribute_iff",
    "C82_killed_iff",
    "C82_attribute_missing_refuted",
    "C82_killed_missing_refuted",
    "C82_wrong_attribute_refuted",
    "C82_caller_attribute_refuted"
   ],
   "note": "REFUTED: tasks that set properties, compose and merge edges do not set the storage, callbacks called directly by the calling thread find nothing or the attribute of an enclosing operation; proved for all other tasks, which are characterized exactly; destructors, and hashes and comparisons called in passes that do nothing else, are not modelled"
  },
  {
   "property": "C83",
   "status": "proved",
   "theorems": [
    "C83_context",
    "C83_declared",
    "C82_outside"
   ],
   "note": ""
  },
  {
   "property": "C84",
   "status": "proved",
   "theorems": [
    "C84_fair_schedules_end",
    "C84_fairness_needed",
    "C84_inductions_end",
    "C84_mutations_end"
   ],
   "note": "C84_fairness_needed shows that there is an infinite schedule if a thread is neglected"
  },
  {
   "property": "C85",
   "status": "proved",
   "theorems": [
    "C85_atomic",
    "C85_exclusive",
    "C85_in_order"
   ],
   "note": ""
  },
  {
   "property": "C86",
   "status": "partial",
   "theorems": [
    "C86_tidy_programs_end",
    "C86_nested_refuted"
   ],
   "note": "REFUTED: mutate (mutate.c:393-410) calls user supplied functions while it holds a lock of the pool; if they wait for an operation carried out by other threads that access another pointer with the same lock, nobody can proceed. Proved: any program in which nothing but the assignment happens while a lock is held ends after a bounded number of steps, whatever the schedule"
  },
  {
   "property": "C87",
   "status": "partial",
   "theorems": [
    "C87_conserved",
    "C87_left_behind",
    "C87_lost_refuted"
   ],
   "note": "REFUTED: declarations made by an expander before it raises an error, or before an allocation fails in a further call of cru_stretch other than the last one in it, are lost (stretch.c:87). Proved: everything is accounted for, nothing is freed that is in the graph or freed twice, and nothing is lost except in these cases, in particular by failed allocations after the expander has finished"
  },
  {
   "property": "C88",
   "status": "proved",
   "theorems": [
    "C88_everything_is_destroyed_once",
    "C88_no_use_after_free",
    "C88_freeing_ends"
   ],
   "note": "for every pattern of failed allocations of packets and table entries. Termination supposes that every thread gets to run again and again, and that other operations executed at the same time leave the reserve of packets alone"
  },
  {
   "property": "C89",
   "status": "partial",
   "theorems": [
    "C89_outcome_of_search",
    "C89_vertex_found",
    "C89_vertex_missing",
    "C89_search_terminates",
    "C89_duplicate_vertices_refuted"
   ],
   "note": "REFUTED: if the vertex is in the graph several times, which is possible after fabrication, crossing or mutation, then two workers may find it at the same time, and an internal error is raised by _cru_maybe_disjunction (src/crew.c:428). Otherwise proved: under every schedule, the search ends, a vertex that is there once is found, and CRU_INCINV is reported if it is missing. An error is the result only for one of these reasons or because the predicate raised it."
  },
  {
   "property": "C90",
   "status": "partial",
   "theorems": [
    "C90_zone_is_reduced",
    "C90_reduction_succeeds",
    "C90_vertex_missing",
    "C90_spurious_kill_refuted"
   ],
   "note": "REFUTED: with one worker and no thread specific storage, if the initial vertex is equal to that of the first node but is a different pointer, the router is not reset after the search (src/entry.c:585-588), whose internal kill flag then makes _cru_free_router raise CRU_INTKIL in every run although nobody used the kill switch. Otherwise proved: the zone is reduced exactly, and if no user function fails and nobody kills it then the operation succeeds. A missing vertex is reported by any number of workers."
  },
  {
   "property": "C91",
   "status": "proved",
   "theorems": [
    "C91_operations",
    "C91_distribution",
    "C91_neighbors_left_alone",
    "C91_union",
    "C91_listed"
   ],
   "note": "on a model of the pointers in memory. Allocations of queues are assumed to succeed, and the operations to be used only as they are by the code, i.e., nodes are severed from lists but not from queues"
  },
  {
   "property": "C92",
   "status": "proved",
   "theorems": [
    "C92_local",
    "C92_interleaving"
   ],
   "note": "operations are interleaved as a whole, which is sufficient because what is read and written by each of them belongs to one worker"
  },
  {
   "property": "C93",
   "status": "proved",
   "theorems": [
    "C93_reported_if_raised",
    "C93_first_detected",
    "C93_others_are_logged",
    "C93_killed",
    "C93_workers_finish",
    "C93_everything_is_joined"
   ],
   "note": "operations whose workers return objects with a status report an error of some worker, but conflicting ones are not logged (C93_objects_ex)"
  },
  {
   "property": "C94",
   "status": "proved",
   "theorems": [
    "C94_crews_are_conserved",
    "C94_nobody_elses",
    "C94_enough_crews",
    "C94_teardown"
   ],
   "note": "each operation takes place with the lock held"
  },
  {
   "property": "C95",
   "status": "partial",
   "theorems": [
    "C95_destroyed_once",
    "C95_right_destructor",
    "C95_result",
    "C95_failure_leaves_nothing",
    "C95_terminates",
    "C95_progress",
    "C95_classified",
    "C95_wrong_destructor_refuted"
   ],
   "note": "REFUTED: demerge_edges (src/merge.c:412) passes an edge label made by a kernel edge operation that has no destructor to the edge destructor of the given graph, even without errors, if the pruning pass removes the class. Proved: every item is either in the result or destroyed exactly once, by the right destructor whenever an edge operation without a destructor implies that the graph has none for its labels either; nothing is left after a failure; merging ends. Memory is not exhausted and nobody kills the operation in this model (C36 is about kills)."
  },
  {
   "property": "C96",
   "status": "partial",
   "theorems": [
    "C96_initialization",
    "C96_calls",
    "C96_calls_initialized",
    "C96_teardown",
    "C96_teardown_progress",
    "C96_teardown_measure",
    "C96_kill_switch",
    "C96_free_kill_switch",
    "C96_port",
    "C96_router",
    "C96_stretch_uninitialized_refuted"
   ],
   "note": "REFUTED: cru_stretch (src/entry.c:344) calls pthread_getspecific with a key that may not have been created before it checks whether the library is initialised. Proved: initialisation is all or nothing whichever calls fail; no other sequence of calls uses anything uninitialised, nor does one with cru_stretch after a successful initialisation; everything is destroyed once at the end, in every interleaving with background threads; kill switches, ports and routers are made completely or not at all."
  },
  {
   "property": "C97",
   "status": "partial",
   "theorems": [
    "C97_empty",
    "C97_empty_kept",
    "C97_corrupted",
    "C97_corrupted_kept",
    "C97_unspecified",
    "C97_crossed_refuted",
    "C97_partition_refuted",
    "C97_corrupted_refuted",
    "C97_spread_refuted"
   ],
   "note": "REFUTED: cru_crossed reports an internal error and leaks the router if its first operand is NULL or corrupted, and uses the second one even if it is corrupted; cru_partition_of reports an internal error and leaks the router and the partition if the graph is corrupted; a corrupted graph is freed if there is another error before, such as an invalid kill switch (graph.c:122); cru_spread frees the graph if the builder is NULL, although the manual says an unmodified copy is returned. Proved of all other functions and cases."
  },
  {
   "property": "C98",
   "status": "partial",
   "theorems": [
    "C98_composed",
    "C98_postponed",
    "C98_deduplicated",
    "C98_spread",
    "C98_filtered",
    "C98_stretched_or",
    "C98_mutated_or",
    "C98_split_or",
    "C98_merged_or",
    "C98_fabricated",
    "C98_mapreduced",
    "C98_induced",
    "C98_partition_of",
    "C98_counted",
    "C98_crossed_or",
    "C98_free_now",
    "C98_merged_refuted",
    "C98_stretched_refuted",
    "C98_mutated_refuted",
    "C98_split_refuted",
    "C98_crossed_refuted",
    "C98_badgph_refuted"
   ],
   "note": "REFUTED: cru_merged leaks the copy of the specification if the router can not be made (entry.c:863); cru_stretched and cru_mutated return NULL without freeing the graph if the error occurs in sweeping or the last pass is killed; cru_split loses all nodes if a pass can not be started; cru_crossed leaks a vertex if the workers can not be started; the graph is not freed if a callback function reports CRU_BADGPH. Proved: the other operations settle everything whatever fails, and these are the only things that are left in the ones mentioned, always with an error reported. Passes that start see all nodes in this model."
  },
  {
   "property": "C99",
   "status": "partial",
   "theorems": [
    "C99_replaced_destroyed",
    "C99_vertices_destroyed",
    "C99_labels_forward",
    "C99_labels_backward",
    "C99_labels_unchanged",
    "C99_destroyed_once",
    "C99_labels_leaked_refuted",
    "C99_new_labels_leaked_refuted",
    "C99_wrong_label_destructor_refuted",
    "C99_unordered_refuted",
    "C99_wrong_vertex_destructor_refuted",
    "C99_unreachable_refuted"
   ],
   "note": "REFUTED: after an error in a vertex operation without an edge operation, labels of edges from the node are leaked (mutate.c:455 and 547 with a NULL destructor); if termini are mutated before origins, new labels are leaked after an error in the edge operation (mutate.c:400), new labels without destructor are passed to that of the given graph (mutate.c:815), and labels of edges to nodes outside of the zone are passed to the destructor of new ones; in an unordered mutation in a backwards zone, given labels are passed to the destructor of new ones and then used; if the destructor of vertices raises an error, a new vertex is passed to it. Proved: everything is as it should be if there is no error; vertices are always settled if their destructor raises no errors; labels are if origins are mutated first, or termini are with the exceptions mentioned, or there is no edge operation with the exception mentioned; nothing is ever destroyed twice."
  }
 ]
}