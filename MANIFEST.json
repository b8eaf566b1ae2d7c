{
 "claims": [
  {
   "property": "C01",
   "status": "proved",
   "theorems": [
    "C01_observables_of_a_correction"
   ],
   "note": "Exact integers; graphs without parallel edges; with negative weights see C02_negative_weights."
  },
  {
   "property": "C02",
   "status": "proved",
   "theorems": [
    "C02_negative_weights",
    "C02_weight_is_minimal"
   ],
   "note": "Exact integers; the minimum is over all lists of edges, the attaining correction has no repeated edge."
  },
  {
   "property": "C03",
   "status": "proved",
   "theorems": [
    "C03_infeasible_never_answered",
    "C03_raised_only_if_infeasible"
   ],
   "note": "Both directions; that enough fuel exists is C47."
  },
  {
   "property": "C04",
   "status": "proved",
   "theorems": [
    "C04_pairs_are_shortest_paths",
    "C04_pairs_cover_events"
   ],
   "note": "Also: each pair stands for a shortest path between its ends."
  },
  {
   "property": "C05",
   "status": "proved",
   "theorems": [
    "C05_fresh_graph_unmarked",
    "C05_negative_loop_refuted",
    "C05_raised_only_if_infeasible",
    "C05_solution_edges"
   ],
   "note": "Exact integers; no parallel edges; no self-loops of negative weight: with one the claim fails (C05_negative_loop_refuted)."
  },
  {
   "property": "C06",
   "status": "proved",
   "theorems": [
    "C06_any_history",
    "C06_decode_leaves_idle",
    "C06_same_as_new"
   ],
   "note": "One decode, and any sequence of answered or failed decodes."
  },
  {
   "property": "C07",
   "status": "proved",
   "theorems": [
    "C07_failed_decode_leaves_idle",
    "C07_same_decoder"
   ],
   "note": "Mwpm::reset makes the decoder idle whatever the state before. That an idle decoder decodes correctly is C01-C03."
  },
  {
   "property": "C08",
   "status": "partial",
   "theorems": [
    "C08_nothing_placed_partial",
    "C08_padding_forever_partial",
    "C08_padding_refuted",
    "C08_refuted",
    "C08_rejected_forever_partial"
   ],
   "note": "False in full: C08_refuted, and on the Matching object C08_padding_refuted (a packed shot with a set padding bit passes the checks of decode_batch; the same syndrome is answered before it and refused after it). What holds: if nothing was placed before the bad index the decoder stays idle (C08_nothing_placed_partial); if an event at a node with a neighbour was placed, every later decode is rejected until a reset (C08_rejected_forever_partial, C08_padding_forever_partial). Missing: isolated nodes; graphs with negative edges."
  },
  {
   "property": "C09",
   "status": "proved",
   "theorems": [
    "C09_absolute_weights",
    "C09_mask",
    "C09_optimal",
    "C09_reduction"
   ],
   "note": "Every list of add_edge / add_boundary_edge calls that succeeds, self-loops and parallel edges included; corrections as selections of edges."
  },
  {
   "property": "C10",
   "status": "proved",
   "theorems": [
    "C10_ends",
    "C10_reported_path_is_a_path",
    "C10_search_finds_shortest_path",
    "C10_unconnected_is_undefined"
   ],
   "note": "Exact integers; terminates; both reporting orders. Between unconnected ends the code dereferences null (C10_unconnected_is_undefined), and from or to a node that does not exist it reads outside the array (C10_ends)."
  },
  {
   "property": "C11",
   "status": "proved",
   "theorems": [
    "C11_cancellation"
   ],
   "note": "Graph without parallel edges or self-loops; marker bytes with arbitrary other bits."
  },
  {
   "property": "C12",
   "status": "proved",
   "theorems": [
    "C12_reweighting_is_undone"
   ],
   "note": "Any rules and any number of calls, including calls that throw half way."
  },
  {
   "property": "C13",
   "status": "proved",
   "theorems": [
    "C13_reweighted_weights"
   ],
   "note": "Rules as converted from the user graph; graph without parallel edges."
  },
  {
   "property": "C14",
   "status": "proved",
   "theorems": [
    "C14_cyclic_comparison_correct",
    "C14_half_a_period_unordered",
    "C14_widen_recovers_time"
   ],
   "note": "cyclic<T> for every word size w>=1; the code uses w=32."
  },
  {
   "property": "C15",
   "status": "proved",
   "theorems": [
    "C15_delivery_times_monotone",
    "C15_event_queue_is_priority_queue"
   ],
   "note": "radix_heap_queue refines an abstract monotone priority queue for every legal operation sequence and every word size; use_validation=false."
  },
  {
   "property": "C16",
   "status": "proved",
   "theorems": [
    "C16_clear_empties_queue"
   ],
   "note": "clear() after any legal history."
  },
  {
   "property": "C17",
   "status": "proved",
   "theorems": [
    "C17_wakeup_accepted_exactly_at_wished_time",
    "C17_wakeup_never_lost"
   ],
   "note": "QueuedEventTracker with truncated times; the queue is used through its C15 behaviour (delivers a minimal pending entry)."
  },
  {
   "property": "C18",
   "status": "proved",
   "theorems": [
    "C18_colliding_exact",
    "C18_constructors_exact",
    "C18_directed_exact",
    "C18_equality",
    "C18_meeting_time_exact",
    "C18_no_overflow",
    "C18_offset_exact",
    "C18_other_growth_refused",
    "C18_packed_radius_evaluates_to_line",
    "C18_switching_direction_preserves_value",
    "C18_unit_slope_meeting_time_exact",
    "C18_zero_crossing_exact"
   ],
   "note": "Packed words over unbounded integers, plus a range theorem for 64-bit words."
  },
  {
   "property": "C19",
   "status": "proved",
   "theorems": [
    "C19_pool_destroys_exactly_live_objects",
    "C19_pool_never_hands_out_live_object"
   ],
   "note": "malloc is a counter returning fresh addresses."
  },
  {
   "property": "C20",
   "status": "proved",
   "theorems": [
    "C20_extraction_pairs",
    "C20_shatter_split"
   ],
   "note": "Both splittings: child_pairs (extraction) and split_cycle (shattering during growth), for every odd length and all positions."
  },
  {
   "property": "C21",
   "status": "proved",
   "theorems": [
    "C21_become_root"
   ],
   "note": "Any alternating forest; total with enough fuel."
  },
  {
   "property": "C22",
   "status": "proved",
   "theorems": [
    "C22_common_ancestor",
    "C22_marks_between_trees_refuted"
   ],
   "note": "Lowest common ancestor and exact marks. For nodes of different trees the marks are not removed: C22_marks_between_trees_refuted."
  },
  {
   "property": "C23",
   "status": "partial",
   "theorems": [
    "C23_mask_expands_to_its_bits",
    "C23_more_than_64_rejected",
    "C23_round_trip_partial",
    "C23_round_trip_refuted",
    "C23_round_trip_undefined_refuted"
   ],
   "note": "Expansion proved for up to 64 observables. Round trip proved for n<=31 and refuted for n=32 (sign extension) and n=33 (undefined shift): bit_vector_to_obs_mask shifts a 32-bit int."
  },
  {
   "property": "C24",
   "status": "proved",
   "theorems": [
    "C24_batch_equals_single_decodes",
    "C24_packed_equals_unpacked",
    "C24_packed_predictions_are_exact",
    "C24_packed_shot_reads_its_bits",
    "C24_unpacked_shot_reads_its_entries"
   ],
   "note": "The batch theorem takes the decoder as a parameter whose result depends only on the events (that is C06). Floating-point division of the weight is not modelled."
  },
  {
   "property": "C25",
   "status": "proved",
   "theorems": [
    "C25_user_graph_is_simple"
   ],
   "note": "add_edge / add_boundary_edge through the Python layer, set_boundary, ensure_num_fault_ids; every call sequence and every numeric type."
  },
  {
   "property": "C26",
   "status": "proved",
   "theorems": [
    "C26_graph_is_map",
    "C26_merge_strategies",
    "C26_new_edge_added"
   ],
   "note": "Every strategy, plus the refinement of the whole graph to a map from unordered pairs to attributes."
  },
  {
   "property": "C27",
   "status": "partial",
   "theorems": [
    "C27_fault_ids_in_range_partial",
    "C27_fault_ids_in_range_refuted"
   ],
   "note": "False as stated: replace / smallest-weight merges do not raise num_fault_ids (C27_fault_ids_in_range_refuted). Proved for all other call sequences."
  },
  {
   "property": "C28",
   "status": "proved",
   "theorems": [
    "C28_every_edge_keeps_llr_weight",
    "C28_merged_weight_is_llr_of_xor",
    "C28_model_weights"
   ],
   "note": "Over the real numbers (no floating-point rounding)."
  },
  {
   "property": "C29",
   "status": "proved",
   "theorems": [
    "C29_order_of_calls",
    "C29_order_of_mechanisms",
    "C29_range"
   ],
   "note": "Over the real numbers (no floating-point rounding)."
  },
  {
   "property": "C30",
   "status": "partial",
   "theorems": [
    "C30_flag_iff_probabilities_refuted",
    "C30_flag_implies_probabilities_partial",
    "C30_flag_true_if_all_given_partial"
   ],
   "note": "The direction 'flag true implies all edges have probabilities' is proved, as is 'all calls give probabilities implies flag true'; the full equivalence is refuted (the flag is never set back)."
  },
  {
   "property": "C31",
   "status": "proved",
   "theorems": [
    "C31_defined",
    "C31_integral_exact",
    "C31_integral_order",
    "C31_minute_refuted",
    "C31_range_and_error",
    "C31_refused",
    "C31_total_error"
   ],
   "note": "In binary64 arithmetic, for weights that are any real numbers. All weights below about 2^-1000 but not all zero give an infinite constant (C31_minute_refuted); sign and existence checks for implied weights are not modelled."
  },
  {
   "property": "C32",
   "status": "proved",
   "theorems": [
    "C32_boundary",
    "C32_negative_refuted",
    "C32_well_formed"
   ],
   "note": "Non-negative weights as in the property; for negative ones the claim fails (C32_negative_refuted)."
  },
  {
   "property": "C33",
   "status": "proved",
   "theorems": [
    "C33_caching_is_invisible"
   ],
   "note": "The constructed decoder is an arbitrary function of the graph; covers get_mwpm and get_mwpm_with_search_graph."
  },
  {
   "property": "C34",
   "status": "proved",
   "theorems": [
    "C34_model_loads_as_its_graphlike_components",
    "C34_number_of_nodes"
   ],
   "note": "Flattened detector error models as lists of instructions; loops of the stim parser are not modelled. Real-number weights."
  },
  {
   "property": "C35",
   "status": "proved",
   "theorems": [
    "C35_accepted_models",
    "C35_repeated_component_refuted",
    "C35_rules_are_conditional_probabilities",
    "C35_rules_well_formed",
    "C35_same_graph"
   ],
   "note": "Over the real numbers. The reading 'probability conditional on the edge' fails for mechanisms that repeat a component (C35_repeated_component_refuted); the theorem is for models whose components within a mechanism are distinct."
  },
  {
   "property": "C36",
   "status": "proved",
   "theorems": [
    "C36_check_matrix_accepts",
    "C36_check_matrix_boundary",
    "C36_check_matrix_edges",
    "C36_check_matrix_rejects"
   ],
   "note": "The compressed sparse column arrays are given as one list of rows per column. Distinct supports, otherwise the merge strategies of C26 apply."
  },
  {
   "property": "C37",
   "status": "proved",
   "theorems": [
    "C37_no_noise_without_probabilities",
    "C37_noise_is_consistent",
    "C37_out_of_bounds_after_replace"
   ],
   "note": "Random draws are an arbitrary list of booleans. The fault-id hypothesis is needed: C37_out_of_bounds_after_replace."
  },
  {
   "property": "C38",
   "status": "proved",
   "theorems": [
    "C38_syndrome_1d",
    "C38_syndrome_1d_rejected",
    "C38_syndrome_2d",
    "C38_syndrome_2d_rejected"
   ],
   "note": "numpy's conversion to uint8 is not modelled: entries are integers in [0,256)."
  },
  {
   "property": "C39",
   "status": "proved",
   "theorems": [
    "C39_count_mistakes_counts_mismatches",
    "C39_count_mistakes_missing_observables",
    "C39_predict_writes_one_prediction_per_shot"
   ],
   "note": "File readers/writers are lists of records; the decoder is a parameter whose result depends only on the events (C06). Recorded masks must fit 64 bits."
  },
  {
   "property": "C40",
   "status": "proved",
   "theorems": [
    "C40_merge_keeps_range",
    "C40_out_of_range_weight_skipped",
    "C40_stored_weights_in_range"
   ],
   "note": "Range check of the Python layer; merging keeps the range (over the reals)."
  },
  {
   "property": "C41",
   "status": "proved",
   "theorems": [
    "C41_connections_are_paths"
   ],
   "note": "All states between two matcher events of any run."
  },
  {
   "property": "C42",
   "status": "partial",
   "theorems": [
    "C42_infeasible_partial",
    "C42_infeasible_signed_partial",
    "C42_light_correction_partial",
    "C42_many_observables_partial",
    "C42_refuted",
    "C42_signed_weights_partial",
    "C42_solution_edges_partial",
    "C42_user_graph_partial"
   ],
   "note": "False in full: C42_refuted gives a path graph with the largest accepted weights on which no fuel suffices (wrapped_radius_cached is an int32_t). With the machine's integers decoding ends with the right answer if some correction weighs less than 2^31, or if there is a correction and no two events joined by paths are 2^31 or more apart (the _partial theorems: matching, signed weights, solution edges, many observables; user graphs for the first case). Without a correction it raises if nodes joined by paths are less than 2^31 apart (C42_infeasible_partial, C42_infeasible_signed_partial)."
  },
  {
   "property": "C43",
   "status": "proved",
   "theorems": [
    "C43_no_undefined_behaviour"
   ],
   "note": "Null dereferences and missing elements of the model; reads of freed slots are not detected by the model but never matter."
  },
  {
   "property": "C44",
   "status": "proved",
   "theorems": [
    "C44_raised_only_if_infeasible",
    "C44_signed_weights"
   ],
   "note": "Exact integers; no parallel edges; declared boundary nodes carry no edges in the matching graph."
  },
  {
   "property": "C45",
   "status": "proved",
   "theorems": [
    "C45_raised_only_if_infeasible",
    "C45_user_graph"
   ],
   "note": "Exact integers; non-negative weights; no parallel edges in the user graph."
  },
  {
   "property": "C46",
   "status": "proved",
   "theorems": [
    "C46_any_number_of_observables"
   ],
   "note": "Exact integers; any number of observables; no parallel edges."
  },
  {
   "property": "C47",
   "status": "proved",
   "theorems": [
    "C47_decoding_ends",
    "C47_feasible_is_answered",
    "C47_infeasible_is_raised",
    "C47_many_observables",
    "C47_sessions_end",
    "C47_signed_weights",
    "C47_signed_weights_infeasible",
    "C47_solution_edges",
    "C47_user_graph",
    "C47_user_graph_infeasible"
   ],
   "note": "Exact integers; graphs without parallel edges. With C01 to C04 this is total correctness, also for signed weights, user graphs, solution edges and many observables; for 32-bit integers see C42."
  },
  {
   "property": "C48",
   "status": "proved",
   "theorems": [
    "C48_batch",
    "C48_infeasible",
    "C48_machine_integers",
    "C48_many_observables",
    "C48_negative_weight_refuted",
    "C48_refused_without_correlations",
    "C48_solution_edges",
    "C48_two_passes"
   ],
   "note": "Non-negative weights as stated (with negative ones the reported weight is wrong: C48_negative_weight_refuted); no parallel edges; exact integers, and 32-bit integers when some correction weighs less than 2^31 or no two connected nodes are that far apart."
  },
  {
   "property": "C49",
   "status": "proved",
   "theorems": [
    "C49_decode",
    "C49_decode_machine",
    "C49_decode_to_edges",
    "C49_decode_to_edges_machine",
    "C49_decoder_is_made",
    "C49_harmless_without_boundary_nodes",
    "C49_harmless_without_negative_weights",
    "C49_new_marks",
    "C49_no_correction",
    "C49_no_correction_to_edges"
   ],
   "note": "Merging of parallel edges is in exact real numbers; the discretisation and the reported weight are in binary64. The weights must not all be minute (scalable: all zero, or one of at least 2^-999); fault ids below num_fault_ids; negative weights only where the conversion to a matching graph drops nothing worth using (conversion_harmless, automatic without negative weights or without declared boundary nodes); exact integers, and 32-bit integers if some correction together with all negative edges has at most 64 edges, or if any two connected nodes are connected by at most 64 edges (for integer weights also: absolute weights of at most 2^29 in all)."
  },
  {
   "property": "C50",
   "status": "proved",
   "theorems": [
    "C50_entries",
    "C50_negative_edges"
   ],
   "note": "Observables of an edge as a mask of any width."
  },
  {
   "property": "C51",
   "status": "proved",
   "theorems": [
    "C51_decode",
    "C51_session",
    "C51_signed_weights",
    "C51_user_graph"
   ],
   "note": "Needs a correction lighter than 2^31 or distances less than 2^31, as C42. The calls to enqueue between two calls to dequeue are executed at the start of the second. The search flooder on its heap is C52."
  },
  {
   "property": "C52",
   "status": "proved",
   "theorems": [
    "C52_decode",
    "C52_decode_to_edges",
    "C52_new_decoder",
    "C52_search",
    "C52_session"
   ],
   "note": "As C49 and C51: merging is in exact real numbers, all that follows in binary64; fault ids below num_fault_ids; conversion_harmless; each syndrome has a correction of at most 64 edges counting every edge of negative weight, or any two connected nodes are connected by at most 64 edges (manageable); decode_to_edges without negative self-loops. The enqueue calls between two dequeue calls are executed at the start of the second."
  },
  {
   "property": "C53",
   "status": "proved",
   "theorems": [
    "C53_any_syndrome",
    "C53_few_nodes",
    "C53_session"
   ],
   "note": "As C52; every accepted request needs weights that are scalable as in C49, fault ids below num_fault_ids, conversion_harmless, and for each syndrome either a correction that is manageable as in C49 or a compact graph (with at most 64 nodes always), on which any syndrome may be asked and those that nothing explains raise; events are at nodes of the graph (padding bits of packed shots are zero); edges need no negative self-loops, pairs need no negative weights. Without enable_correlations; the object starts from the constructor with no graph to load."
  },
  {
   "property": "C54",
   "status": "proved",
   "theorems": [
    "C54_matched_pairs"
   ],
   "note": "As C52 with non-negative weights."
  },
  {
   "property": "C55",
   "status": "proved",
   "theorems": [
    "C55_any_events",
    "C55_explainable",
    "C55_most_likely",
    "C55_right_is_most_likely",
    "C55_session"
   ],
   "note": "Merging and logarithms are in exact real numbers, the discretisation and the reported weight in binary64; the weights must not all be minute (2^-999). Components of one instruction count as independent mechanisms, as the code treats them. Needs some explanation of at most 64 mechanisms, counting every mechanism with probability above one half, or of any number if any two connected detectors are connected by at most 64; and weights within the range of the discretisation. C55_any_events covers any syndrome, explained or not, for models with at most 64 detectors or with at most 64 mechanisms between any two connected detectors."
  },
  {
   "property": "C56",
   "status": "proved",
   "theorems": [
    "C56_any_events",
    "C56_cheapest",
    "C56_explainable",
    "C56_no_solution",
    "C56_right_is_cheapest",
    "C56_session",
    "C56_solution"
   ],
   "note": "Merging and logarithms are in exact real numbers, the discretisation and the reported weight in binary64; the weights must not all be minute (2^-999). Repeated columns are covered for the strategy smallest-weight with non-negative weights; zero columns must not have a negative weight, since they are skipped. Needs some explanation of at most 64 errors, counting everything with a negative weight, or a compact graph as in C49. The conversion of dense or scipy matrices to columns is not modelled. C56_any_events and C56_no_solution cover any syndrome, explained or not, for fewer than 64 detectors or a compact graph."
  },
  {
   "property": "C57",
   "status": "proved",
   "theorems": [
    "C57_loaded_without_correlations",
    "C57_repeated_detector_refuted",
    "C57_session"
   ],
   "note": "Merging and logarithms are in exact real numbers, the discretisation and the reported weight in binary64; the weights must not all be minute (2^-999). Needs probabilities of at most one half (the loader refuses others), no two components of an error on the same pair (C35_repeated_component_refuted), two different detectors in each component (C57_repeated_detector_refuted), weights within the range of the discretisation, and at most 64 pairs that account for each syndrome, or any number if any two connected detectors are connected by at most 64; then, or with at most 64 detectors, events that nothing accounts for are proved to raise and to leave the object as good as before. Graphs to which edges or boundary nodes are added after loading a model with correlations are not covered."
  },
  {
   "property": "C58",
   "status": "proved",
   "theorems": [
    "C58_many_observables",
    "C58_many_observables_refuted",
    "C58_missing_observables",
    "C58_predict_and_count"
   ],
   "note": "Proved as stated; the bound of 64 observables is needed (C58_many_observables_refuted). Readers and writers of stim formats and the parsing of arguments are not modelled: files are the records they hold. Merging and logarithms are in exact real numbers, the discretisation and the reported weight in binary64; the weights must not all be minute (2^-999)."
  },
  {
   "property": "C59",
   "status": "proved",
   "theorems": [
    "C59_cancelling_refuted",
    "C59_networkx",
    "C59_networkx_boundary_refuted",
    "C59_networkx_detectors_refuted",
    "C59_parallel_edges_refuted",
    "C59_reading",
    "C59_reading_refused",
    "C59_rustworkx"
   ],
   "note": "Proved as stated, in the real-number instance. Node labels are ints (others are not modelled); num_fault_ids of the original is passed as min_num_fault_ids when reading back. What is lost without the conditions is proved in C59_networkx_detectors_refuted, C59_networkx_boundary_refuted, C59_cancelling_refuted and C59_parallel_edges_refuted."
  },
  {
   "property": "C60",
   "status": "proved",
   "theorems": [
    "C60_documented_refuted",
    "C60_num_fault_ids_exact"
   ],
   "note": "Proved as stated. The value in the documentation is off by one: C60_documented_refuted."
  },
  {
   "property": "C61",
   "status": "proved",
   "theorems": [
    "C61_flag_is_history"
   ],
   "note": "Proved as stated, for numeric types in which a probability is either valid or outside [0,1] (NaN is neither)."
  },
  {
   "property": "C62",
   "status": "proved",
   "theorems": [
    "C62_few_nodes",
    "C62_session",
    "C62_signed_weights"
   ],
   "note": "Proved as stated. Syndromes are lists of distinct detectors of the graph; rejected events are C06 and C08."
  },
  {
   "property": "C63",
   "status": "proved",
   "theorems": [
    "C63_accepts",
    "C63_any_events",
    "C63_cheapest",
    "C63_in_bounds",
    "C63_in_bounds_refuted",
    "C63_missing",
    "C63_no_solution",
    "C63_rejects",
    "C63_solution",
    "C63_values_refuted"
   ],
   "note": "C63_accepts, C63_cheapest, C63_any_events, C63_solution, C63_no_solution, C63_rejects, C63_missing and C63_in_bounds. C63_in_bounds_refuted: a malformed faults matrix that passes the checks is read out of bounds. C63_values_refuted: the check that a matrix holds only ones comes after a cast to 8 bits, so other values pass. Not modelled: scipy's conversions to csc_matrix and numpy's conversions of arrays."
  },
  {
   "property": "C64",
   "status": "proved",
   "theorems": [
    "C64_graph",
    "C64_matrix",
    "C64_model",
    "C64_no_mistakes",
    "C64_right_row"
   ],
   "note": "C64_graph, C64_right_row, C64_matrix, C64_model and C64_no_mistakes, for any distance and number of errors. Detector error models: one probability for all mechanisms, no two on the same detectors; other models are covered by C64_right_row, with the margin for rounding."
  },
  {
   "property": "C65",
   "status": "proved",
   "theorems": [
    "C65_boundary_qubit_id_ignored",
    "C65_largest_boundary_refuted",
    "C65_memory_refuted",
    "C65_raised_changes_nothing",
    "C65_read_back",
    "C65_reserved_node_refuted",
    "C65_session",
    "C65_spec_is_exact"
   ],
   "note": "C65_session, C65_spec_is_exact, C65_raised_changes_nothing and C65_read_back, for any number of calls. C65_reserved_node_refuted, C65_largest_boundary_refuted and C65_memory_refuted show that the conditions on node 2^64-1 and on the memory for boundary nodes are needed; C65_boundary_qubit_id_ignored records that add_boundary_edge drops its argument qubit_id."
  },
  {
   "property": "C66",
   "status": "proved",
   "theorems": [
    "C66_order_of_edges",
    "C66_order_of_edges_weights",
    "C66_predictions",
    "C66_weights"
   ],
   "note": "C66_weights for any two series of calls, C66_predictions if the corrections that are as light as any agree, C66_order_of_edges for additions in any order, and C66_order_of_edges_weights, which joins them."
  },
  {
   "property": "C67",
   "status": "proved",
   "theorems": [
    "C67_certain",
    "C67_corrected",
    "C67_decodable",
    "C67_none"
   ],
   "note": "C67_decodable, C67_corrected (below half the distance), C67_certain (probabilities 0 and 1) and C67_none. The numbers drawn are arguments; the random number generator is not modelled."
  },
  {
   "property": "C68",
   "status": "proved",
   "theorems": [
    "C68_events",
    "C68_nonzero_refuted",
    "C68_session",
    "C68_shapes",
    "C68_shots"
   ],
   "note": "C68_session for any series of calls with arrays of integers, C68_events, C68_shots and C68_shapes for what is read from an array. C68_nonzero_refuted shows that a nonzero entry need not count (256)."
  },
  {
   "property": "C69",
   "status": "proved",
   "theorems": [
    "C69_every_negative_refuted",
    "C69_session"
   ],
   "note": "C69_session for any series of calls. Weights between - M / (2^25 - 2) (1 + 2^-20) and - M / 2^25, M being the largest, are covered by neither case. C69_every_negative_refuted: a minute negative weight raises no exception."
  },
  {
   "property": "C70",
   "status": "proved",
   "theorems": [
    "C70_absent_nodes_undefined",
    "C70_no_path_undefined",
    "C70_session"
   ],
   "note": "C70_session for any series of calls. C70_absent_nodes_undefined: the check for nodes that are not in the graph comes after is_boundary_node has read past the end of the vector. C70_no_path_undefined: two nodes without an edge. Not covered: graphs with negative weights, for which the search takes absolute weights."
  },
  {
   "property": "C71",
   "status": "proved",
   "theorems": [
    "C71_decode",
    "C71_match_edges",
    "C71_match_edges_with_negative_weights",
    "C71_same_end"
   ],
   "note": "C71_same_end for every state; C71_decode for idle decoders on the radix heap with 32-bit times; C71_match_edges for decode_detection_events_to_match_edges. C71_match_edges_with_negative_weights shows what the exception for negative weights avoids."
  },
  {
   "property": "C72",
   "status": "partial",
   "theorems": [
    "C72_check_partial",
    "C72_check_refuted",
    "C72_listing_partial",
    "C72_listing_refuted"
   ],
   "note": "False as stated (C72_listing_refuted): to_vector does not look at the last bucket. C72_listing_partial: it lists the pending events in the same half of the clock's period as the present, in order; satisfies_invariants returns true after every legal history. C72_check_partial: that function checks every bucket but the last, where a misplaced event goes unnoticed (C72_check_refuted)."
  },
  {
   "property": "C73",
   "status": "proved",
   "theorems": [
    "C73_loading_session",
    "C73_loads_or_raises"
   ],
   "note": "C73_loading_session for every sequence of loads, changes and decodings; C73_loads_or_raises: no load reads out of bounds. Weights of check matrices and detector error models are assumed within the limit of add_edge, which does not apply to them."
  },
  {
   "property": "C74",
   "status": "proved",
   "theorems": [
    "C74_bounded_radius",
    "C74_equal_means_same",
    "C74_region_order",
    "C74_tree_walks"
   ],
   "note": "C74_region_order, C74_equal_means_same, C74_bounded_radius and C74_tree_walks, for every state of the main loop between two events. 64-bit overflow of the sum of radii is not modelled; the stitch radius, which only draws, is not modelled."
  },
  {
   "property": "C75",
   "status": "proved",
   "theorems": [
    "C75_decode",
    "C75_right_answers",
    "C75_same_graph",
    "C75_weights"
   ],
   "note": "C75_same_graph for any number type; C75_decode, C75_weights and C75_right_answers for real weights that meet sound_matrix, as in C56. Which of several equally light corrections is reported may differ."
  },
  {
   "property": "C76",
   "status": "proved",
   "theorems": [
    "C76_cheaper_edges",
    "C76_combined",
    "C76_more_edges",
    "C76_norm"
   ],
   "note": "C76_norm, C76_combined, C76_more_edges and C76_cheaper_edges, for fair sessions as in C53 and C66. With weights that are not integral an additional edge can change the rounding of all weights, so C76_more_edges is for integral weights."
  },
  {
   "property": "C77",
   "status": "proved",
   "theorems": [
    "C77_clock_arithmetic",
    "C77_comparisons",
    "C77_moved_together",
    "C77_transitive_refuted"
   ],
   "note": "Proved as stated; += and -= for integer types in which the sum does not overflow."
  },
  {
   "property": "C78",
   "status": "proved",
   "theorems": [
    "C78_checks",
    "C78_edge_laws",
    "C78_events",
    "C78_extended_results",
    "C78_merged",
    "C78_region_edges",
    "C78_results",
    "C78_reversed",
    "C78_tree_edge_refuted"
   ],
   "note": "Proved as stated. Overflow of the 64-bit weight is not modelled; printing is not modelled."
  },
  {
   "property": "C79",
   "status": "proved",
   "theorems": [
    "C79_executable",
    "C79_script",
    "C79_script_refuted",
    "C79_sound_runs"
   ],
   "note": "C79_executable, C79_script and C79_sound_runs; C79_script_refuted shows a run of which the script hides the failure. Argument parsing, what is printed, and the animation are not modelled."
  },
  {
   "property": "C80",
   "status": "proved",
   "theorems": [
    "C80_replies"
   ],
   "note": "C80_replies, for fair sessions as in C53. It covers decode and the shots of decode_batch. Exact equality for integral weights with a total of at most 2^52."
  },
  {
   "property": "C81",
   "status": "proved",
   "theorems": [
    "C81_negative_refuted",
    "C81_quiet"
   ],
   "note": "C81_quiet, for fair sessions as in C53. With negative weights it does not hold (C81_negative_refuted), and with weights of zero other corrections can be as light as the empty one."
  },
  {
   "property": "C82",
   "status": "proved",
   "theorems": [
    "C82_exceptions",
    "C82_parts",
    "C82_predictions"
   ],
   "note": "C82_parts, C82_exceptions and C82_predictions, for fair sessions as in C53. With negative weights the sum also counts what an empty shot weighs, so C82_parts is for weights that are not negative."
  }
 ]
}