{
 "claims": [
  {
   "property": "C01",
   "status": "proved",
   "theorems": [
    "C01_coverage_exactly_once"
   ],
   "note": "well-formed tree and flags as hypotheses; exact coordinates"
  },
  {
   "property": "C02",
   "status": "proved",
   "theorems": [
    "C02_coverage_exactly_once_extents"
   ],
   "note": "exact coordinates; eps fudge bounded by 1/12"
  },
  {
   "property": "C03",
   "status": "proved",
   "theorems": [
    "C03_fmm_sums_all_weights"
   ],
   "note": "exact arithmetic; particle ownership facts (C17-C19, C22) as hypotheses"
  },
  {
   "property": "C04",
   "status": "proved",
   "theorems": [
    "C04_same_level_lists_exact"
   ],
   "note": ""
  },
  {
   "property": "C05",
   "status": "proved",
   "theorems": [
    "C05_list1_is_touching_source_boxes"
   ],
   "note": ""
  },
  {
   "property": "C06",
   "status": "proved",
   "theorems": [
    "C06_list2_well_separated_same_level"
   ],
   "note": ""
  },
  {
   "property": "C07",
   "status": "proved",
   "theorems": [
    "C07_list3_maximal_separated_descendants"
   ],
   "note": ""
  },
  {
   "property": "C08",
   "status": "proved",
   "theorems": [
    "C08_list4_bigger_separated_sources",
    "C08_list3_list4_dual"
   ],
   "note": ""
  },
  {
   "property": "C09",
   "status": "proved",
   "theorems": [
    "C09_build_traversal_succeeds",
    "C09_walk_stack_bound",
    "C09_entries_in_range"
   ],
   "note": ""
  },
  {
   "property": "C10",
   "status": "proved",
   "theorems": [
    "C10_level_starts_delimit"
   ],
   "note": ""
  },
  {
   "property": "C11",
   "status": "proved",
   "theorems": [
    "C11_merge_close_lists",
    "C11_merged_coverage",
    "C11_merge_possible"
   ],
   "note": ""
  },
  {
   "property": "C12",
   "status": "proved",
   "theorems": [
    "C12_tob_well_formed"
   ],
   "note": ""
  },
  {
   "property": "C13",
   "status": "proved",
   "theorems": [
    "C13_leaves_tile_root",
    "C13_boxes_inside_root",
    "C13_root_is_bbox"
   ],
   "note": ""
  },
  {
   "property": "C14",
   "status": "proved",
   "theorems": [
    "C14_invalid_requests_rejected"
   ],
   "note": ""
  },
  {
   "property": "C15",
   "status": "proved",
   "theorems": [
    "C15_coarsening_undoes_refinement"
   ],
   "note": ""
  },
  {
   "property": "C16",
   "status": "proved",
   "theorems": [
    "C16_argsort_ties_irrelevant"
   ],
   "note": ""
  },
  {
   "property": "C17",
   "status": "proved",
   "theorems": [
    "C17_particles_are_permuted"
   ],
   "note": ""
  },
  {
   "property": "C18",
   "status": "proved",
   "theorems": [
    "C18_particles_in_their_boxes",
    "C18_cumulative_ranges_are_cells"
   ],
   "note": "excluded argument combinations are C25 (more than 30 levels), C26 (upper boundary of a user bounding box) and C54 (level restriction with extents), where the claim is false"
  },
  {
   "property": "C19",
   "status": "proved",
   "theorems": [
    "C19_ranges_partition"
   ],
   "note": ""
  },
  {
   "property": "C20",
   "status": "proved",
   "theorems": [
    "C20_leaves_are_light",
    "C20_split_boxes_are_heavy",
    "C20_leaves_are_light_with_extents"
   ],
   "note": ""
  },
  {
   "property": "C21",
   "status": "proved",
   "theorems": [
    "C21_pruning",
    "C21_level_starts"
   ],
   "note": "the level starts of pruned non-adaptive trees with extents are C55, where the claim is false"
  },
  {
   "property": "C22",
   "status": "partial",
   "theorems": [
    "C22_box_flags",
    "C22_has_child_flags_refuted"
   ],
   "note": "proved: the IS_* flags exactly, HAS_*_CHILD_BOXES is set whenever it should be, and exactly then if sources are targets and the tree is pruned. The converse is false in general: both flags are set on every split box (refuted)"
  },
  {
   "property": "C23",
   "status": "partial",
   "theorems": [
    "C23_source_bounding_boxes",
    "C23_target_bounding_boxes",
    "C23_empty_leaves_collapse",
    "C23_tight_refuted"
   ],
   "note": "the boxes are attained bounds over the particles and the centers of the subtree's boxes; tightness over the particles alone is false (refuted)"
  },
  {
   "property": "C24",
   "status": "proved",
   "theorems": [
    "C24_touching_leaves"
   ],
   "note": ""
  },
  {
   "property": "C25",
   "status": "partial",
   "theorems": [
    "C25_geometry_up_to_30_levels",
    "C25_deep_trees_refuted"
   ],
   "note": "holds up to 30 levels, false beyond (1 << level overflows int), although nlevels_max is 106 for doubles"
  },
  {
   "property": "C26",
   "status": "partial",
   "theorems": [
    "C26_closed_bounding_box_refuted",
    "C18_particles_in_their_boxes"
   ],
   "note": "false for particles on the upper boundary; proved for the half-open box"
  },
  {
   "property": "C27",
   "status": "proved",
   "theorems": [
    "C27_area_query_exact",
    "C27_shallow_trees",
    "C27_area_query_of_built_tree"
   ],
   "note": "Balls with nonnegative radius, exact arithmetic. The cases excluded by the quantifier are C59 and C60."
  },
  {
   "property": "C28",
   "status": "proved",
   "theorems": [
    "C28_peer_lists"
   ],
   "note": ""
  },
  {
   "property": "C29",
   "status": "proved",
   "theorems": [
    "C29_transpose"
   ],
   "note": "KeyValueSorter is modelled by its specification: it returns the values of each key in order of appearance."
  },
  {
   "property": "C30",
   "status": "proved",
   "theorems": [
    "C30_space_invaders"
   ],
   "note": "The cast to the bit pattern of a 32-bit float is an arbitrary function that is monotone on nonnegative numbers and maps 0 to 0; atomic_max calls are atomic and run in an arbitrary order."
  },
  {
   "property": "C31",
   "status": "proved",
   "theorems": [
    "C31_last_not_above",
    "C31_terminates"
   ],
   "note": "tools.py bsearch; arrays of length >= 1 (callers never pass an empty array: starts arrays have at least one entry)"
  },
  {
   "property": "C32",
   "status": "proved",
   "theorems": [
    "C32_translation_classes"
   ],
   "note": "For is_translation_per_level=True, the default. Coordinates are exact; class numbers do not overflow."
  },
  {
   "property": "C33",
   "status": "proved",
   "theorems": [
    "C33_rotation_classes",
    "C33_same_direction",
    "C33_classes_are_angles"
   ],
   "note": "The angle is an arbitrary function of the last component and the squared norm; the 'only if' part assumes it is injective on distinct cosines."
  },
  {
   "property": "C34",
   "status": "proved",
   "theorems": [
    "C34_sinks_match_sources",
    "C34_partners_exist",
    "C34_done_in_log2_stages",
    "C34_no_pair_twice",
    "C34_messages_are_for_the_other_half",
    "C34_each_rank_addressed_once",
    "C34_done_has_no_sources"
   ],
   "note": "all sizes, ranks and stages; sinks() of a rank that is done: see C56"
  },
  {
   "property": "C35",
   "status": "proved",
   "theorems": [
    "C35_complete_multipoles",
    "C35_no_deadlock",
    "C35_bounded_executions",
    "C35_executions_complete"
   ],
   "note": "all executions of an interleaving semantics with one FIFO channel per ordered pair of ranks, buffered or rendezvous sends; expansions are values of an arbitrary commutative monoid (exact addition)"
  },
  {
   "property": "C36",
   "status": "proved",
   "theorems": [
    "C36_dfs_order"
   ],
   "note": "For all well-formed trees; the loop never writes past the end of its array."
  },
  {
   "property": "C37",
   "status": "proved",
   "theorems": [
    "C37_assignment",
    "C37_all_ranks_served",
    "C37_too_many_ranks"
   ],
   "note": "Costs are exact integers (floating-point numbers in the code). When a rank is left without boxes is characterised exactly; see C63."
  },
  {
   "property": "C38",
   "status": "proved",
   "theorems": [
    "C38_masks"
   ],
   "note": "For every traversal object, built or not. The multipole, responsible and ancestor masks are characterised exactly, the point source mask is shown to be sufficient."
  },
  {
   "property": "C39",
   "status": "proved",
   "theorems": [
    "C39_local_particles",
    "C39_particles_copied",
    "C39_local_boxes"
   ],
   "note": "Particles without source extents (the code reads an attribute that does not exist for them). The copy kernel is shown independent of the order of its work items."
  },
  {
   "property": "C40",
   "status": "proved",
   "theorems": [
    "C40_distributed_equals_shared",
    "C40_allreduce_equals_shared",
    "C40_execution_exists"
   ],
   "note": "For every interleaving of the ranks. Sending of weights and gathering of potentials are modelled as copies here, and as messages in C83. The private traversal argument _from_sep_smaller_min_nsources_cumul has its default; otherwise the claim is false, see C64."
  },
  {
   "property": "C41",
   "status": "proved",
   "theorems": [
    "C41_operations_are_the_fmm",
    "C41_stage_costs_count_operations",
    "C41_box_costs_count_operations",
    "C41_box_costs_sum_to_stage_costs",
    "C41_device_equals_reference"
   ],
   "note": "Exact rationals for floats, 32-bit integer arithmetic modelled; the operation trace is executed and gives the driver's potentials. Point-to-local operations are charged at the source box's level (C68)."
  },
  {
   "property": "C42",
   "status": "partial",
   "theorems": [
    "C42_linked_point_sources",
    "C42_built_trees_qualify",
    "C42_refuted_for_empty_sources"
   ],
   "note": "Proved for every store order when each source has at least one point source, and for any counts when stores happen in index order. Refuted for sources without point sources under other store orders: colliding stores lose a point source."
  },
  {
   "property": "C43",
   "status": "proved",
   "theorems": [
    "C43_user_order",
    "C43_tree_order",
    "C42_built_trees_qualify"
   ],
   "note": ""
  },
  {
   "property": "C44",
   "status": "proved",
   "theorems": [
    "C44_bounding_box",
    "C44_bracketing_irrelevant"
   ],
   "note": "Exact arithmetic; values within +-huge (the largest finite float)."
  },
  {
   "property": "C45",
   "status": "proved",
   "theorems": [
    "C45_find_box_nr",
    "C45_no_box_beyond",
    "C45_index_conversions",
    "C42_built_trees_qualify"
   ],
   "note": ""
  },
  {
   "property": "C46",
   "status": "proved",
   "theorems": [
    "C46_list_of_mask",
    "C46_lists_of_mask",
    "C46_reverse_index",
    "C46_reverse_index_inverse"
   ],
   "note": "contiguous 1D masks, 2D masks of any strides, list type large enough; the excluded cases are C57 and C58"
  },
  {
   "property": "C47",
   "status": "partial",
   "theorems": [
    "C47_traversal_of_tob_reads_out_of_range_refuted",
    "C47_tob_with_root_parent_0"
   ],
   "note": "the property is false for the code as it is: the root's parent id is -1 and the list 2 kernel indexes with it. Proved: the out-of-range read for every reachable tree, and that with the particle-tree convention (root parent 0) all hypotheses of the traversal theorems hold"
  },
  {
   "property": "C48",
   "status": "proved",
   "theorems": [
    "C48_request_effect",
    "C48_paths_name_boxes"
   ],
   "note": ""
  },
  {
   "property": "C49",
   "status": "partial",
   "theorems": [
    "C12_level_starts_refuted"
   ],
   "note": "the property is false for the code as it is; the refutation is proved"
  },
  {
   "property": "C50",
   "status": "proved",
   "theorems": [
    "C50_build_traverse_evaluate",
    "C50_traversal_succeeds"
   ],
   "note": ""
  },
  {
   "property": "C51",
   "status": "proved",
   "theorems": [
    "C51_build_terminates",
    "C51_saturated_bound_refuted"
   ],
   "note": "the case max_leaf_refine_weight = INT_MAX is refuted"
  },
  {
   "property": "C52",
   "status": "proved",
   "theorems": [
    "C52_stick_out_bound",
    "C52_particles_stay_for_a_reason"
   ],
   "note": ""
  },
  {
   "property": "C53",
   "status": "proved",
   "theorems": [
    "C53_tree_structure"
   ],
   "note": ""
  },
  {
   "property": "C54",
   "status": "partial",
   "theorems": [
    "C18_level_restricted_extents_refuted",
    "C22_level_restricted_extents_refuted"
   ],
   "note": "the property is false for the code as it is; the refutation is proved"
  },
  {
   "property": "C55",
   "status": "partial",
   "theorems": [
    "C21_level_starts_refuted"
   ],
   "note": "the property is false for the code as it is; the refutation is proved"
  },
  {
   "property": "C56",
   "status": "partial",
   "theorems": [
    "C56_done_has_no_sinks_refuted"
   ],
   "note": "The claim is false: sinks() of a rank that is done returns {rank-1}. communicate_mpoles asks done() first and is not affected (C35)."
  },
  {
   "property": "C57",
   "status": "partial",
   "theorems": [
    "C57_strided_masks_refuted"
   ],
   "note": "The claim is false: the 1D kernel ignores the strides of the mask."
  },
  {
   "property": "C58",
   "status": "partial",
   "theorems": [
    "C58_default_list_type_refuted"
   ],
   "note": "The claim is false: the default list type is the type of the mask. The true case (list type large enough) is C46_list_of_mask."
  },
  {
   "property": "C59",
   "status": "partial",
   "theorems": [
    "C59_upper_sliver_refuted"
   ],
   "note": "The claim is false: a query of radius 0 at a particle returns no leaf. What holds is C27."
  },
  {
   "property": "C60",
   "status": "partial",
   "theorems": [
    "C60_childless_split_box_refuted"
   ],
   "note": "The claim is false: a childless box flagged as having children is not reported. What holds is C27."
  },
  {
   "property": "C61",
   "status": "partial",
   "theorems": [
    "C61_class_count_refuted",
    "C61_reported_class_count"
   ],
   "note": "The property is false: the reported number is the dimension. The second theorem shows this for every tree."
  },
  {
   "property": "C62",
   "status": "partial",
   "theorems": [
    "C62_recorded_vectors_refuted",
    "C62_classes_for_all_levels"
   ],
   "note": "The property is false: recorded vectors are scaled by 2^level and level starts stay unset; the second theorem states exactly what is recorded."
  },
  {
   "property": "C63",
   "status": "partial",
   "theorems": [
    "C63_every_rank_served_refuted",
    "C63_two_ranks_refuted"
   ],
   "note": "The property is false; C37_all_ranks_served says exactly when it holds."
  },
  {
   "property": "C64",
   "status": "partial",
   "theorems": [
    "C64_source_threshold_refuted"
   ],
   "note": "The property is false."
  },
  {
   "property": "C65",
   "status": "proved",
   "theorems": [
    "C65_build_partition_evaluate",
    "C65_execution_exists"
   ],
   "note": "End to end: particles, tree, traversal, partition by cost, distributed evaluation. Hypothesis: no rank is left without boxes (see C37, C63)."
  },
  {
   "property": "C66",
   "status": "proved",
   "theorems": [
    "C66_costs_linear",
    "C66_least_squares",
    "C66_exact_recovery",
    "C66_calibrated_model_predicts"
   ],
   "note": "Exact arithmetic."
  },
  {
   "property": "C67",
   "status": "partial",
   "theorems": [
    "C67_refuted",
    "C41_stage_costs_count_operations"
   ],
   "note": "False as stated: int32 product overflows (65536 sources x 32768 targets give a negative cost, the Python reference gives 2^31). Holds below 2^31 pairs (C41)."
  },
  {
   "property": "C68",
   "status": "partial",
   "theorems": [
    "C68_refuted",
    "C68_level_independent_costs"
   ],
   "note": "False: the code uses the level of the source box. Holds if the cost does not depend on the level."
  },
  {
   "property": "C69",
   "status": "partial",
   "theorems": [
    "C69_refuted",
    "C69_no_model_result_gives_zero"
   ],
   "note": "False: 0.0 is returned, proved for all inputs."
  },
  {
   "property": "C70",
   "status": "partial",
   "theorems": [
    "C70_reads_refuted",
    "C70_writes_refuted",
    "C70_filter_reads_shared_trees",
    "C70_point_source_writes"
   ],
   "note": "Refuted: a last box without targets (sources) makes the filter (linking) kernel read one past the end, and an empty last source makes link_point_sources write one past the end. In bounds for pruned trees with shared sources and targets, resp. with nonempty sources; C42/C43 hold whatever the bad reads return."
  },
  {
   "property": "C71",
   "status": "proved",
   "theorems": [
    "C71_accepted_arguments",
    "C71_automatic_root_box",
    "C71_end_to_end"
   ],
   "note": "Coordinates are exact multiples of a unit in which the first 30 halvings of the stretched root box are integral; trees of at most 30 levels (see C18)."
  },
  {
   "property": "C72",
   "status": "partial",
   "theorems": [
    "C72_given_root_box",
    "C72_refuted_upper_boundary",
    "C72_refuted_tiny_boxes"
   ],
   "note": "Refuted: a particle on an upper face of a given bounding box (allowed by the documentation) is put into a box that does not contain it; and the absolute 1e-15 squareness test accepts tiny non-square boxes. Proved for exact cubes with all particles strictly below the upper faces."
  },
  {
   "property": "C73",
   "status": "partial",
   "theorems": [
    "C73_accepted",
    "C73_reasons",
    "C73_refuted_zero_weights"
   ],
   "note": "Refuted for weights that are all zero; proved when some weight is positive (and limits fit int32)."
  },
  {
   "property": "C74",
   "status": "partial",
   "theorems": [
    "C74_refuted_coinciding_particles",
    "C71_automatic_root_box"
   ],
   "note": "Refuted for coinciding particles; the automatic root box is positive when two particles differ or one has a positive radius."
  },
  {
   "property": "C75",
   "status": "partial",
   "theorems": [
    "C75_scaled_below_one",
    "C75_refuted_single",
    "C75_refuted_double"
   ],
   "note": "Refuted: when coordinates exceed the spread of the particles by a large factor, the stretch of 1e-4 is lost in rounding, the largest coordinate scales to exactly 1 and distinct particles get the same Morton number at every level (single precision: points near 1000 with spread 0.1; double: near 1e6 with spread 2e-7). Proved for rounded arithmetic (any precision of at least 24 digits, no overflow or underflow) when the factor is at most 2^(prec-16). The positive theorem uses the real number axioms of the standard library."
  },
  {
   "property": "C76",
   "status": "proved",
   "theorems": [
    "C76_exactly_one_route",
    "C76_fmm_is_sum_over_routes",
    "C76_owners_and_routes_exist",
    "C76_error_bound",
    "C76_exact_routines_give_direct_sum",
    "C76_quadratic_kernel_exact",
    "C76_built_trees_qualify",
    "C76_build_traverse_evaluate",
    "C76_particles_to_potentials"
   ],
   "note": "Expansions and potentials are added exactly (commutative monoids); the numerical routines are parameters, assumed linear where they translate. QuadKernel.v gives a wrangler with exact expansions, so that all hypotheses are met."
  },
  {
   "property": "C77",
   "status": "proved",
   "theorems": [
    "C77_reshapes_succeed",
    "C77_in_bounds",
    "C77_disjoint",
    "C77_no_waste",
    "C77_views_are_independent",
    "C77_rotation_order"
   ],
   "note": "The rotation matrices themselves are not modelled."
  },
  {
   "property": "C78",
   "status": "partial",
   "theorems": [
    "C78_refuted_gradients_fail",
    "C78_refuted_reordering",
    "C78_potentials_only"
   ],
   "note": "Refuted: the output for ifgrad=True is a one-dimensional object array, which is then indexed with two indices (IndexError) for every nonempty set of targets; reordering it into user order would fail as well. Without gradients neither step fails."
  },
  {
   "property": "C79",
   "status": "proved",
   "theorems": [
    "C79_distributed_equals_shared",
    "C79_allreduce_equals_shared",
    "C79_execution_exists",
    "C79_quadratic_kernel_exact",
    "C79_build_partition_evaluate",
    "C79_built_execution_exists",
    "C79_particles_to_potentials"
   ],
   "note": "Expansions and potentials are added exactly (commutative monoids); the numerical routines are parameters, assumed linear. Sending of weights and gathering of potentials are modelled as copies here, and as messages in C83. The private traversal argument _from_sep_smaller_min_nsources_cumul has its default, see C64."
  },
  {
   "property": "C80",
   "status": "proved",
   "theorems": [
    "C80_complete_coefficients",
    "C80_no_deadlock_or_exception",
    "C80_no_exception",
    "C80_bounded_executions",
    "C80_executions_complete"
   ],
   "note": "Coefficients are values of an arbitrary commutative monoid (exact addition). MPI: one FIFO channel per ordered pair of ranks and tag, buffered or rendezvous sends."
  },
  {
   "property": "C81",
   "status": "proved",
   "theorems": [
    "C81_separated_points",
    "C81_list3_with_extents",
    "C81_list4_with_extents",
    "C81_regions_nested",
    "C81_built_trees"
   ],
   "note": "Distances are stated without roots over integer coordinates; exact arithmetic (the 8-epsilon slack of the code is kept). The slack of the list-4 criterion is relative to the size of the source box, as in the code."
  },
  {
   "property": "C82",
   "status": "proved",
   "theorems": [
    "C82_any_evaluation_order",
    "C82_morton_scan",
    "C82_tree_builder_scans",
    "C82_prune_indices",
    "C82_other_scans",
    "C82_negative_weights_refuted"
   ],
   "note": "pyopencl's scan itself is not modelled: its contract is that each item results from some bracketing of the inputs, with across_seg_boundary telling whether the right part has a segment start. C82_negative_weights_refuted shows that the rejection of negative weights by the tree builder is needed."
  },
  {
   "property": "C83",
   "status": "proved",
   "theorems": [
    "C83_evaluations_do_not_mix",
    "C83_no_deadlock",
    "C83_bounded_executions",
    "C83_nothing_left_over",
    "C83_every_evaluation_equals_shared",
    "C83_executions_complete"
   ],
   "note": "MPI is modelled by one first-in-first-out channel per pair of ranks and tag; sends either complete at once or when received (both are covered). What a rank computes between two communications is one step. Numerical routines are parameters, assumed linear for the comparison with the shared-memory driver only."
  },
  {
   "property": "C84",
   "status": "proved",
   "theorems": [
    "C84_accesses_in_bounds",
    "C84_loop_ends"
   ],
   "note": "The kernels are programs of single loads and stores; memory is sequentially consistent at the granularity of these. pyopencl's scan is one operation on the results of the input expressions (its evaluation order is the subject of C82). Debug code is not covered; for the kernels after the level loop see C86. Hypotheses: valid_input and at least two levels allowed (the code allows at least 48)."
  },
  {
   "property": "C85",
   "status": "proved",
   "theorems": [
    "C85_computes_the_tree",
    "C85_order_independent"
   ],
   "note": "Refinement of TreeBuild.v by BuildDevice.v. atomic_or on the force-split flags is a store of 1. Same memory model as C84; the level loop only."
  },
  {
   "property": "C86",
   "status": "partial",
   "theorems": [
    "C86_build_in_bounds",
    "C86_build_ends",
    "C86_uneven_levels_refuted"
   ],
   "note": "Proved unless extents are combined with pruning of non-adaptive trees, where it is refuted. Same memory model as C84. Simplification: where only sources or only targets have extents, the other radii are an array of zeros instead of a placeholder that is not read."
  },
  {
   "property": "C87",
   "status": "proved",
   "theorems": [
    "C87_device_computes_the_tree",
    "C87_order_independent"
   ],
   "note": "Under the same conditions on the arguments as C86. device_has_tree (SpecDeviceEnd.v) lists the arrays passed to Tree; where nothing is pruned the arrays per box are longer than the number of boxes, as in the code, and the first nboxes elements are meant."
  },
  {
   "property": "C88",
   "status": "proved",
   "theorems": [
    "C88_traversal_in_bounds",
    "C88_traversal_ends",
    "C88_merge_in_bounds"
   ],
   "note": "Kernels as programs of single loads, stores and list appends (TravDevice.v); pyopencl's ListOfListsBuilder is modelled with its two passes, scans and compression (ListBuilder.v). Memory model as in C84. Level starts of the tree are given (a tree without level_start_box_nrs is not covered)."
  },
  {
   "property": "C89",
   "status": "proved",
   "theorems": [
    "C89_device_computes_the_traversal",
    "C89_merge_on_device",
    "C89_order_independent"
   ],
   "note": "device_has_traversal and device_has_arguments (SpecDeviceTrav.v) list the arrays."
  },
  {
   "property": "C90",
   "status": "proved",
   "theorems": [
    "C90_from_particles_to_lists"
   ],
   "note": "Composition of C87, C89, C01, C02 and C50; conditions on the arguments as in C86. passed_on (SpecDeviceChain.v): which array of the tree builder is which argument of the traversal builder."
  },
  {
   "property": "C91",
   "status": "proved",
   "theorems": [
    "C91_peers_in_bounds",
    "C91_query_in_bounds",
    "C91_expand_in_bounds",
    "C91_query_ends"
   ],
   "note": "Kernels as programs of single loads, stores and list appends (AreaDevice.v), memory model and list builder as in C88. The sort that turns the expanded starts into the leaves-to-balls lookup is pyopencl's and not modelled as loads and stores; nor is the space invader kernel, which needs atomic updates (C30 treats these in any order)."
  },
  {
   "property": "C92",
   "status": "proved",
   "theorems": [
    "C92_device_computes_the_peers",
    "C92_device_computes_the_query",
    "C92_device_expands_the_starts",
    "C92_peers_on_device",
    "C92_query_on_device",
    "C92_peers_can_be_passed_on",
    "C92_order_independent",
    "C92_from_particles_to_leaves"
   ],
   "note": "device_has_boxes, device_has_balls and entries_of are in SpecDeviceArea.v. Conditions of C27 where the leaves are characterised; conditions of C90 in the chain from particles."
  },
  {
   "property": "C93",
   "status": "proved",
   "theorems": [
    "C93_arguments_belong_to_boxes",
    "C93_rotation_classes_fit",
    "C93_exact_library_gives_direct_sum",
    "C93_particles_to_potentials"
   ],
   "note": "pyfmmlib's routines are parameters (library in FmmLib.v); the meaning of its _imany and _vec wrappers, which read packed argument arrays, is modelled as documented there and trusted. Potentials only: gradients are refuted in C78. linear_library and exact_library in SpecFmmLib.v say what is assumed of the routines; ScaledQuad.v gives a library that satisfies both."
  },
  {
   "property": "C94",
   "status": "proved",
   "theorems": [
    "C94_accepted_arguments",
    "C94_stored_arguments"
   ],
   "note": "The scaling factor is stated for a positive root extent and a nonnegative real Helmholtz parameter; a complex one is not modelled."
  },
  {
   "property": "C95",
   "status": "proved",
   "theorems": [
    "C95_adjacency_with_rounding",
    "C95_traversal_with_rounding_is_exact",
    "C95_coverage_with_rounding",
    "C95_center_error",
    "C95_refuted_single"
   ],
   "note": "precise_enough and geometry_ok are in SpecRounding.v. Rounding is to nearest even with unbounded exponents (no overflow or underflow), one rounding per operation, no fused multiply-add. C95_refuted_single (IEEE single precision, computed) shows that the bound on the precision cannot be dropped. Depends on the standard library's axioms of the real numbers."
  },
  {
   "property": "C96",
   "status": "proved",
   "theorems": [
    "C96_exact_run",
    "C96_particles_near_their_boxes",
    "C96_distance_bound",
    "C96_refuted_single"
   ],
   "note": "Particles without extents. resolvable and runs_on are in SpecFloatBuild.v, precise_enough in SpecRounding.v. Rounding as in C95: to nearest even, unbounded exponents, one rounding per operation. A run of the exact tree builder stands for the floating-point run with the same Morton numbers (runs_on); C96_exact_run gives one for all particles. C96_refuted_single is computed with IEEE single precision. Depends on the standard library's axioms of the real numbers."
  },
  {
   "property": "C97",
   "status": "proved",
   "theorems": [
    "C97_levels_within_width",
    "C97_children_mirrored",
    "C97_refuted"
   ],
   "note": "reachable_in is in SpecTobLevels.v. Powers of two wrap around as numpy's integer power does for a signed dtype. C97_children_mirrored is about the refined tree before boxes are sorted; C97_refuted is a computed tree after sorting. Division by zero two levels further (infinite coordinates) is not represented."
  },
  {
   "property": "C98",
   "status": "proved",
   "theorems": [
    "C98_mesh_of_leaves",
    "C98_elements_tile_root"
   ],
   "note": "corner_signs, element and spanned are in SpecTobLevels.v. modepy's node order is a parameter; meshmode's groups are modelled as their vertex index arrays, its orientation checks are not modelled."
  },
  {
   "property": "C99",
   "status": "proved",
   "theorems": [
    "C99_particles_to_potentials",
    "C99_safe_distance"
   ],
   "note": "Particles without extents; rounding as in C95 and C96. point_params is in PropsFloatEnd.v. Potentials are exact integer sums of weights (constant-one wrangler): what is rounded is the geometry. Depends on the standard library's axioms of the real numbers."
  },
  {
   "property": "C100",
   "status": "proved",
   "theorems": [
    "C100_from_sep_smaller",
    "C100_from_sep_close_smaller",
    "C100_from_sep_bigger",
    "C100_from_sep_close_bigger"
   ],
   "note": "The criteria are restated in real numbers in SpecExtLists.v. Exact arithmetic; for rounding see C95. Depends on the standard library's axioms of the real numbers."
  },
  {
   "property": "C101",
   "status": "proved",
   "theorems": [
    "C101_bit_patterns",
    "C101_space_invader_values",
    "C101_enlarged_distances_cover",
    "C101_distances_cover_refuted"
   ],
   "note": "The counterexample is part of the statement. Coordinates and their differences are exact in the coordinate type. All but C101_bit_patterns depend on the standard library's axioms of the real numbers."
  },
  {
   "property": "C102",
   "status": "proved",
   "theorems": [
    "C102_setup_in_bounds",
    "C102_setup_ends",
    "C102_device_computes_the_local_tree",
    "C102_particles_on_the_device",
    "C102_order_independent"
   ],
   "note": "device_has_global and device_has_local are in SpecDistDevice.v, the program in DistDevice.v. Sources without extents (with them the code reads an attribute that does not exist). pyopencl's scan and its array operations are modelled as in Device.v: a scan is one step, elementwise operations are launches. Widths of integers are not modelled; the mask compressor is in C46."
  },
  {
   "property": "C103",
   "status": "proved",
   "theorems": [
    "C103_search_in_bounds",
    "C103_search_ends",
    "C103_error_is_raised",
    "C103_built_lists_fit",
    "C103_translation_classes_on_device",
    "C103_rotation_in_bounds",
    "C103_rotation_classes_on_device",
    "C103_order_independent"
   ],
   "note": "The programs are in ClassDevice.v, device_has_list2, list2_fits and no_class in SpecClassDevice.v. atomic_or of a flag with 1 is modelled as a store of 1. Coordinates are exact; widths of integers are not modelled."
  },
  {
   "property": "C104",
   "status": "proved",
   "theorems": [
    "C104_vector_with_rounding",
    "C104_translation_classes_with_rounding",
    "C104_rotation_classes_with_rounding",
    "C104_refuted_single"
   ],
   "note": "The condition is that of C95 (SpecRounding.v); the counterexample without it is part of the statement and is computed in IEEE single precision. Unbounded exponents; every operation rounded on its own. All but C104_refuted_single depend on the standard library's axioms of the real numbers."
  },
  {
   "property": "C105",
   "status": "proved",
   "theorems": [
    "C105_in_bounds",
    "C105_ends",
    "C105_device_links",
    "C105_device_filters_in_tree_order",
    "C105_device_filters_in_user_order",
    "C105_point_sources_on_the_device",
    "C105_filtered_targets_on_the_device",
    "C105_user_lists_on_the_device",
    "C105_order_independent",
    "C105_filter_of_shared_trees",
    "C105_in_bounds_refuted"
   ],
   "note": "The programs are in ListDevice.v, what the device holds before and after in SpecListDevice.v. The conditions and the counterexamples without them (C105_in_bounds_refuted) are part of the statement. pyopencl's scans and array operations are modelled as in Device.v; widths of integers are not modelled."
  },
  {
   "property": "C106",
   "status": "proved",
   "theorems": [
    "C106_roman_numerals",
    "C106_box_extents",
    "C106_built_extents",
    "C106_tree_drawn",
    "C106_tikz",
    "C106_tikz_refuted",
    "C106_lists_drawn",
    "C106_same_level_drawn",
    "C106_get_box_list"
   ],
   "note": "scaled_box, marks, surrounds, macro_is and coordinate_is are in SpecPlot.v. A plot is the list of patches added to the axes, a document the list of its definitions. The limit of 4000 boxes (C106_tikz_refuted) is part of the statement. Exact coordinates; transparency, line widths and text labels are not modelled."
  },
  {
   "property": "C107",
   "status": "proved",
   "theorems": [
    "C107_moves",
    "C107_contents",
    "C107_round_trips",
    "C107_refused",
    "C107_on_the_host_already",
    "C107_array_fields",
    "C107_record_contents",
    "C107_record_arrives",
    "C107_record_excluded",
    "C107_record_round_trip",
    "C107_record_refuted"
   ],
   "note": "moved, downloaded, uploaded, requeued, contents and arrays are in SpecTransfer.v. What records do not move (C107_record_refuted) is part of the statement. arraycontext's recursion and its four callers are outside the repository; their behaviour is modelled (rec_map_step in TransferFacts.v states the recursion). Arrays hold integers; element types and tags are not modelled."
  },
  {
   "property": "C108",
   "status": "proved",
   "theorems": [
    "C108_routine_names",
    "C108_routine_names_differ",
    "C108_other_dimensions",
    "C108_translations",
    "C108_without_gradients",
    "C108_direct_sum",
    "C108_gradients_refuted",
    "C108_gradients_two_axes",
    "C108_errors_in_locals",
    "C108_errors_in_multipoles"
   ],
   "note": "documented_routine, returns_potential_and_gradient, derivative and quadrature_size are in SpecFmmGrad.v. That gradients fail (C108_gradients_refuted) is part of the statement. Error codes of the other routines: see C110."
  },
  {
   "property": "C109",
   "status": "proved",
   "theorems": [
    "C109_particles_to_potentials_on_device"
   ],
   "note": "The exact library is a hypothesis (as in C93); coordinates are the integers of the build model. passed_on (SpecDeviceChain.v) and passed_to_classes, read_classes (SpecDeviceWhole.v) say which array reaches which kernel. C109_case runs the whole chain for sources and targets with extents. Traversals whose close lists are merged are covered by C93 and C89 separately."
  },
  {
   "property": "C110",
   "status": "proved",
   "theorems": [
    "C110_right_or_raised",
    "C110_direct_sum_or_raised",
    "C110_no_spurious_errors",
    "C110_forming_errors_raise"
   ],
   "note": "correct_unless_reported and reports_an_error are in SpecFmmErr.v. The vectorized routines are taken to return the largest code of each target box; the assertion on the code of the rotation matrix builder (pyfmmlib_integration.py:599-605) is not modelled."
  },
  {
   "property": "C111",
   "status": "proved",
   "theorems": [
    "C111_dipoles_in_callers_order_refused",
    "C111_constructor",
    "C111_constructor_errors",
    "C111_distributed_equals_shared",
    "C111_exact_library_gives_direct_sum",
    "C111_execution_exists"
   ],
   "note": "rank_dipoles and caller_dipoles are in SpecDistLib.v. That dipoles in the caller's order are refused (the attribute comm is read before it is assigned) is part of the statement. In C111_distributed_equals_shared the order of the rotation matrices has to be the same on all ranks: it depends on the number of angles of each rank's own traversal. C111_exact_library_gives_direct_sum does not need this."
  },
  {
   "property": "C112",
   "status": "proved",
   "theorems": [
    "C112_assignment",
    "C112_all_ranks_served",
    "C112_only_ratios_matter",
    "C112_costs",
    "C112_runner_gives_direct_sum",
    "C112_factory",
    "C112_when_the_runner_runs",
    "C112_otherwise"
   ],
   "note": "The runner is modelled in Runner.v. Costs are exact rationals (floating-point numbers in the code). That ranks can be left with memory that was never written is part of the statement (as in C37). C112_when_the_runner_runs assumes counts whose products stay below 2^31, as C41 does."
  },
  {
   "property": "C113",
   "status": "proved",
   "theorems": [
    "C113_at_most_one_box_too_many",
    "C113_no_rank_stops_early"
   ],
   "note": "partition_work_q (Runner.v) is partition_work with rational costs; qcost_of is the sum of the costs of a list of boxes. Ranks that are left without boxes: C37, C112."
  },
  {
   "property": "C114",
   "status": "proved",
   "theorems": [
    "C114_exact",
    "C114_assignment",
    "C114_potentials_do_not_depend_on_rounding",
    "C114_every_rank_served_refuted"
   ],
   "note": "partition_work_in (PartitionFloat.v) leaves the arithmetic of costs open; the exact and the double-precision instance are there too. That rounding can leave a rank with memory that was never written although exact costs would not is part of the statement; added_up allows every order and grouping of np.sum."
  },
  {
   "property": "C115",
   "status": "proved",
   "theorems": [
    "C115_refine",
    "C115_coarsen",
    "C115_uniform_step",
    "C115_uniform_possible",
    "C115_complete_tree"
   ],
   "note": "The wrappers are in TobWrappers.v; reachable, fine_unit, created and removed are those of C12-C16 and C48 (SpecTob.v). Coordinates are exact and the depth stays below the largest value of the level type, as in C12; for levels near the width of the integer type see C97."
  },
  {
   "property": "C116",
   "status": "proved",
   "theorems": [
    "C116_number_of_boxes",
    "C116_bounded_change"
   ],
   "note": "loses_children and number are defined beside the theorems (PropsTobCount.v). Coordinates are exact and the depth stays below the largest value of the level type, as in C12."
  },
  {
   "property": "C117",
   "status": "proved",
   "theorems": [
    "C117_deepest_level_keeps_numbers",
    "C117_empty_request",
    "C117_coarsening_all_leaves_undoes_uniform_refinement"
   ],
   "note": "The level starts are not among the arrays that are kept: they are dropped by every request (C12_level_starts_refuted). Exact coordinates and depth below the largest value of the level type, as in C12."
  }
 ]
}