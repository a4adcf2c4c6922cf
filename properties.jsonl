{"id": "C01", "title": "Every source/target interaction is covered exactly once (point particles)", "statement": "For a tree without particle extents, take any target box T and any source box S. Over all four interaction lists, S is accounted for exactly once for T: either S is in T's neighbor_source_boxes, or exactly one pair of ancestors-or-self (A of T, B of S) has B in A's from_sep_siblings, or exactly one ancestor-or-self B of S is in T's from_sep_smaller, or exactly one ancestor-or-self A of T has S in its from_sep_bigger; these alternatives are mutually exclusive and no entry is repeated.", "quantifier": "all well-formed trees (any dimension, depth, adaptivity and source/target flags), all well_sep_is_n_away >= 1, all target boxes and source boxes", "why_tests_cant": "test_fmm_completeness samples a few random particle clouds; a missing or doubled pair can depend on an arbitrary adaptive tree shape and on n.", "anchors": ["boxtree/traversal.py:SAME_LEVEL_NON_WELL_SEP_BOXES_TEMPLATE", "boxtree/traversal.py:NEIGHBOR_SOURCE_BOXES_TEMPLATE", "boxtree/traversal.py:FROM_SEP_SIBLINGS_TEMPLATE", "boxtree/traversal.py:FROM_SEP_SMALLER_TEMPLATE", "boxtree/traversal.py:FROM_SEP_BIGGER_TEMPLATE"]}
{"id": "C02", "title": "Every interaction is covered exactly once with target extents and close lists", "statement": "With targets_have_extent, the same exactly-once accounting holds when from_sep_close_smaller and from_sep_close_bigger are added to the alternatives, for every stick_out_factor >= 0, every from_sep_smaller_crit and every from_sep_smaller_min_nsources_cumul.", "quantifier": "all well-formed trees, all n >= 1, all stick-out factors, all separation criteria and source-count thresholds, all target/source box pairs", "why_tests_cant": "The close-list logic depends on real-valued criteria evaluated along chains of ancestors; tests fix stick_out_factor=0.25 and three clouds.", "anchors": ["boxtree/traversal.py:FROM_SEP_SMALLER_TEMPLATE", "boxtree/traversal.py:FROM_SEP_BIGGER_TEMPLATE", "boxtree/traversal.py:meets_sep_bigger_criterion", "boxtree/traversal.py:FMMTraversalBuilder.__call__"]}
{"id": "C03", "title": "The FMM driver delivers the full sum to every target", "statement": "Running drive_fmm with the constant-one wrangler on a traversal of a well-formed tree returns, at every user target index, exactly the sum of all source weights, whatever the weights are.", "quantifier": "all well-formed trees with particles, all weight vectors, all n >= 1, with or without target extents (close lists merged or separate)", "why_tests_cant": "The test uses weights all one on a few clouds; skipped multipole levels (coarsening stops at level 2) are sound only because of properties of all trees.", "anchors": ["boxtree/fmm.py:drive_fmm", "boxtree/constant_one.py:ConstantOneExpansionWrangler"]}
{"id": "C04", "title": "Same-level non-well-separated lists are exact, duplicate-free and symmetric", "statement": "same_level_non_well_sep_boxes of a non-root box contains exactly the other boxes of the same level whose l-infinity index distance is at most well_sep_is_n_away, each once; the relation is symmetric; the root's list is empty.", "quantifier": "all well-formed trees, all n >= 1, all boxes", "why_tests_cant": "A missed branch of the pruned walk only shows for particular tree shapes.", "anchors": ["boxtree/traversal.py:SAME_LEVEL_NON_WELL_SEP_BOXES_TEMPLATE", "boxtree/traversal.py:is_adjacent_or_overlapping_with_neighborhood"]}
{"id": "C05", "title": "List 1 contains exactly the touching source boxes", "statement": "neighbor_source_boxes of a target box contains exactly the boxes flagged as source boxes whose closed box intersects the closed target box, each once.", "quantifier": "all well-formed trees and target boxes", "why_tests_cant": "Requires soundness of pruning by HAS_SOURCE_CHILD flags and of the radius-based adjacency tolerance for all level pairs.", "anchors": ["boxtree/traversal.py:NEIGHBOR_SOURCE_BOXES_TEMPLATE", "boxtree/traversal.py:is_adjacent_or_overlapping"]}
{"id": "C06", "title": "List 2 consists of well-separated same-level boxes with non-well-separated parents", "statement": "Every entry of from_sep_siblings of box B is on B's level, is more than n boxes away from B, and its parent is a same-level non-well-separated box of B's parent; every box with those properties is listed, once.", "quantifier": "all well-formed trees, all n >= 1, all target or target-parent boxes", "why_tests_cant": "Convergence of multipole-to-local needs the separation for every pair ever listed.", "anchors": ["boxtree/traversal.py:FROM_SEP_SIBLINGS_TEMPLATE"]}
{"id": "C07", "title": "List 3 consists of maximal separated descendants of colleagues", "statement": "Without extents, each entry of from_sep_smaller (at source level l) of T is a box on level l > level(T), does not touch T, all its ancestors below T's colleague touch T; each such box containing sources is listed exactly at its own level, once.", "quantifier": "all well-formed trees, all n >= 1, all target boxes, all source levels", "why_tests_cant": "The kernel is re-run per source level with a pruned descent; a dropped level is data dependent.", "anchors": ["boxtree/traversal.py:FROM_SEP_SMALLER_TEMPLATE", "boxtree/traversal.py:FMMTraversalBuilder.__call__"]}
{"id": "C08", "title": "List 4 consists of bigger separated source boxes and is dual to list 3", "statement": "Without extents, each entry of from_sep_bigger of B is a source box, not on a deeper level than B, not touching B, and non-well-separated from B's ancestor on its level; for n = 1 and source boxes that are also target boxes, B is in list 3 of S iff S is in list 4 of B.", "quantifier": "all well-formed trees, all n >= 1, all boxes", "why_tests_cant": "Duality is checked in tests for one cloud only.", "anchors": ["boxtree/traversal.py:FROM_SEP_BIGGER_TEMPLATE"]}
{"id": "C09", "title": "Tree walks terminate inside their fixed-size stacks and never read out of range", "statement": "Each list-construction kernel, on each well-formed tree, finishes, never has more entries on its walk stack than the tree has levels, and only ever reads box ids smaller than nboxes.", "quantifier": "all well-formed trees, all boxes, all walks", "why_tests_cant": "Stack overruns are undefined behaviour on the device and only occur at depths a test does not reach.", "anchors": ["boxtree/traversal.py:TRAVERSAL_PREAMBLE_MAKO_DEFS", "boxtree/traversal.py:walk_advance", "boxtree/traversal.py:walk_push"]}
{"id": "C10", "title": "level_start arrays delimit the box lists by level", "statement": "For each of the source, source-parent, target and target-or-target-parent box lists, the slice between consecutive level_start entries is exactly the sub-list of boxes on that level, also for levels that contribute no box.", "quantifier": "all level-sorted box numberings and all sub-lists, including empty levels", "why_tests_cant": "Levels without listed boxes take a separate backfill path.", "anchors": ["boxtree/traversal.py:LEVEL_START_BOX_NR_EXTRACTOR_TEMPLATE", "boxtree/traversal.py:FMMTraversalBuilder.__call__"]}
{"id": "C11", "title": "Merging close lists preserves interactions", "statement": "merge_close_lists returns a traversal whose neighbor_source_boxes for every target box is list 1 followed by its close-smaller and close-bigger entries, and no close lists remain, so the accounting is unchanged.", "quantifier": "all traversals", "why_tests_cant": "The merged lists are indexed through two different box-number spaces.", "anchors": ["boxtree/traversal.py:FMMTraversalInfo.merge_close_lists", "boxtree/traversal.py:LIST_MERGER_TEMPLATE"]}
{"id": "C12", "title": "Refinement and coarsening keep the tree of boxes well formed", "statement": "Starting from make_tree_of_boxes_root, after any sequence of accepted refine/coarsen calls: box 0 is the root, each non-root box is the correct-morton child of its parent, levels are parent level + 1, centers are parent center +- quarter extent of the parent, each box has all or none of its 2^d children, boxes are sorted by level, flags mark exactly the leaves.", "quantifier": "all sequences of refine/coarsen flag vectors, all dimensions", "why_tests_cant": "Tests run a handful of sequences.", "anchors": ["boxtree/tree_of_boxes.py:refine_and_coarsen_tree_of_boxes", "boxtree/tree_of_boxes.py:_apply_refine_flags_without_sorting", "boxtree/tree_of_boxes.py:_apply_coarsen_flags", "boxtree/tree_of_boxes.py:_sort_and_prune_deleted_boxes"]}
{"id": "C13", "title": "The leaves tile the root box", "statement": "After any sequence of refine/coarsen calls, every point of the half-open root box lies in exactly one leaf box.", "quantifier": "all operation sequences, all points", "why_tests_cant": "Quantifies over all points and histories.", "anchors": ["boxtree/tree_of_boxes.py:refine_and_coarsen_tree_of_boxes", "boxtree/tree_of_boxes.py:make_meshmode_mesh_from_leaves"]}
{"id": "C14", "title": "Invalid refine/coarsen requests are rejected", "statement": "refine_and_coarsen_tree_of_boxes raises ValueError iff a refine flag is set on a non-leaf, a coarsen flag on a non-leaf or on the root, or both flags on a box; with error_on_ignored_flags, RuntimeError iff some coarsen flag is ignored because a peer is not a leaf.", "quantifier": "all trees and flag vectors", "why_tests_cant": "Combination of flags, including boxes created in the same call.", "anchors": ["boxtree/tree_of_boxes.py:_apply_refine_flags_without_sorting", "boxtree/tree_of_boxes.py:_apply_coarsen_flags"]}
{"id": "C15", "title": "Coarsening undoes refinement", "statement": "Refining any set of leaves and then coarsening exactly the newly created boxes yields the original tree up to box numbering (same boxes by path, same leaves, same centers and levels).", "quantifier": "all trees, all refine flags", "why_tests_cant": "Histories.", "anchors": ["boxtree/tree_of_boxes.py:refine_tree_of_boxes", "boxtree/tree_of_boxes.py:coarsen_tree_of_boxes"]}
{"id": "C16", "title": "Sorting by level is independent of argsort's tie breaking", "statement": "Whatever permutation argsort returns among equal levels, the sorted tree is the same tree up to renaming of boxes, with the root still box 0.", "quantifier": "all permutations sorting the level array", "why_tests_cant": "numpy's default argsort is unstable; ties are implementation dependent.", "anchors": ["boxtree/tree_of_boxes.py:_sort_boxes_by_level"]}
{"id": "C17", "title": "Particle reordering is a permutation and its inverse", "statement": "user_source_ids is a permutation of range(nsources); sorted_target_ids is the inverse of the target permutation, so weights[user_source_ids] followed by result[sorted_target_ids] restores user order; sources in tree order are the user's sources.", "quantifier": "all particle sets, all target sets, sources_are_targets or not", "why_tests_cant": "Holds for each input array; depends on scans and scatter being bijective.", "anchors": ["boxtree/tree_build.py:TreeBuilder.__call__", "boxtree/tree_build_kernels.py:SOURCE_AND_TARGET_INDEX_FINDER", "boxtree/tree_build_kernels.py:PARTICLE_RENUMBERER_KERNEL_TEMPLATE", "boxtree/tools.py:reverse_index_array"]}
{"id": "C18", "title": "Every particle lies in the box that owns it and is owned exactly once", "statement": "After the build every particle index belongs to exactly one box's own (nonchild) range, and the particle's coordinates lie in that box (half-open cell of the box's level).", "quantifier": "all particle sets inside the half-open root box, all refine criteria and weights, all dimensions, shared or separate sources and targets, with or without extents (level restriction and extents not combined, see C54), trees of up to 30 levels (see C25)", "why_tests_cant": "Geometric statement over all real inputs and depths.", "anchors": ["boxtree/tree_build.py:TreeBuilder.__call__", "boxtree/tree_build_kernels.py:SCAN_PREAMBLE_TEMPLATE", "boxtree/tree_build_kernels.py:BOX_SPLITTER_KERNEL_TEMPLATE", "boxtree/tree_build_kernels.py:PARTICLE_RENUMBERER_KERNEL_TEMPLATE"]}
{"id": "C19", "title": "Child particle ranges partition the parent's range", "statement": "For each box, its own particles followed by its children's ranges in Morton order are contiguous, disjoint and exactly cover the box's cumulative range; counts_cumul = counts_nonchild + sum of the children's counts_cumul.", "quantifier": "all particle sets, boxes and levels; level restriction and extents not combined (see C54)", "why_tests_cant": "Invariant over all levels.", "anchors": ["boxtree/tree_build_kernels.py:PARTICLE_RENUMBERER_KERNEL_TEMPLATE", "boxtree/tree_build_kernels.py:BOX_SPLITTER_KERNEL_TEMPLATE"]}
{"id": "C20", "title": "Leaves respect the refinement bound", "statement": "When the build returns, every leaf holds at most max_particles_in_box particles (or refine weight at most max_leaf_refine_weight); in an adaptive tree a box was split only if its refine weight exceeded the bound. With extents the bound is on the particles that are not held back by their extent.", "quantifier": "all particle sets, weights, bounds below INT_MAX and refinement kinds", "why_tests_cant": "All inputs; loop termination.", "anchors": ["boxtree/tree_build_kernels.py:SPLIT_BOX_ID_SCAN_TPL", "boxtree/tree_build.py:TreeBuilder.__call__"]}
{"id": "C21", "title": "Pruning removes exactly the empty leaves and renumbers consistently", "statement": "With pruning, the final tree contains exactly the boxes with a non-zero cumulative particle count, order preserved, parent/child ids remapped consistently and level starts recomputed.", "quantifier": "all pre-prune trees; level starts: pruning, non-adaptive refinement and extents not all combined (see C55)", "why_tests_cant": "Renumbering is a scan + gappy copy over arbitrary gaps.", "anchors": ["boxtree/tree_build.py:TreeBuilder.__call__", "boxtree/tree_build_kernels.py:find_prune_indices_knl", "boxtree/tools.py:GappyCopyAndMapKernel"]}
{"id": "C22", "title": "Box flags say what they document", "statement": "box_flags of a particle tree: IS_SOURCE/IS_TARGET iff the box owns sources/targets itself; HAS_SOURCE/TARGET_CHILD iff some child's subtree contains sources/targets.", "quantifier": "all particle trees", "why_tests_cant": "All traversal pruning depends on them.", "anchors": ["boxtree/tree_build_kernels.py:BOX_INFO_KERNEL_TEMPLATE", "boxtree/tree.py:box_flags_enum"]}
{"id": "C23", "title": "Box bounding boxes are tight and bottom-up consistent", "statement": "box_{source,target}_bounding_box_{min,max} of a box equal the min/max over all particles in its subtree of coordinate -/+ radius; boxes without particles collapse to the center.", "quantifier": "all particle trees", "why_tests_cant": "min/max over all particles at all depths.", "anchors": ["boxtree/tree_build_kernels.py:BOX_EXTENTS_FINDER_TEMPLATE", "boxtree/tree_build.py:TreeBuilder.__call__"]}
{"id": "C24", "title": "Level-restricted trees have no large level jumps", "statement": "With kind='adaptive-level-restricted', touching leaves of the returned tree differ by at most one level.", "quantifier": "all particle sets without extents, trees of up to 30 levels", "why_tests_cant": "2:1 balance propagates through arbitrarily many levels.", "anchors": ["boxtree/tree_build_kernels.py:LEVEL_RESTRICT_TPL", "boxtree/tree_build.py:TreeBuilder.__call__"]}
{"id": "C25", "title": "Deep trees keep correct geometry", "statement": "For every level up to the builder's documented depth limit, child centers and level radii satisfy radius(level) = root_extent / 2^(level+1).", "quantifier": "all levels below the limit nlevels_max", "why_tests_cant": "A 32-bit shift is exact only to level 29; no test builds such depth.", "anchors": ["boxtree/tree_build_kernels.py:BOX_SPLITTER_KERNEL_TEMPLATE", "boxtree/tree_build_kernels.py:SCAN_PREAMBLE_TEMPLATE", "boxtree/traversal.py:LEVEL_TO_RAD"]}
{"id": "C26", "title": "Particles on a user-supplied bounding box are placed correctly", "statement": "If the user passes bbox, every particle in the (closed) box is placed in a box that contains it.", "quantifier": "all particles in the closed user bounding box", "why_tests_cant": "Boundary inputs.", "anchors": ["boxtree/tree_build.py:TreeBuilder.__call__", "boxtree/tree_build_kernels.py:scan_t_from_particle"]}
{"id": "C27", "title": "Area queries return exactly the leaves overlapping each ball", "statement": "leaves_near_ball lists for each l-infinity ball exactly the leaf boxes overlapping the closed ball, each once.", "quantifier": "all trees whose childless boxes carry no HAS_*_CHILD flag and reach into the bounding box as it was before stretching (all pruned trees built with the automatic bounding box, all trees of at most 14 levels), all ball centers (also outside the tree) and radii", "why_tests_cant": "Ranges over all real centers/radii and adaptive trees.", "anchors": ["boxtree/area_query.py:AreaQueryBuilder", "boxtree/area_query.py:GUIDING_BOX_FINDER_MACRO", "boxtree/area_query.py:AREA_QUERY_WALKER_BODY"]}
{"id": "C28", "title": "Peer lists meet their definition", "statement": "The peer list of a box contains exactly the boxes that are adjacent to it, at least as large, and have no child that is adjacent and at least as large, each once.", "quantifier": "all well-formed trees and boxes", "why_tests_cant": "All tree shapes.", "anchors": ["boxtree/area_query.py:PEER_LIST_FINDER_TEMPLATE", "boxtree/area_query.py:PeerListFinder"]}
{"id": "C29", "title": "Leaves-to-balls lookup is the transpose of the area query", "statement": "balls_near_box of leaf L contains ball b iff L is in leaves_near_ball of b, with multiplicity, for all boxes including those with no balls.", "quantifier": "all area query results", "why_tests_cant": "Key-value sort with ties in arbitrary order.", "anchors": ["boxtree/area_query.py:LeavesToBallsLookupBuilder", "pyopencl KeyValueSorter (assumed)"]}
{"id": "C30", "title": "Space invader query returns the furthest overlapping ball", "statement": "For each leaf the outer space invader distance is the maximum over the balls overlapping the leaf of the center distance and 0 if there is none, independently of the order in which work items run.", "quantifier": "all ball sets, all schedules of the atomic updates", "why_tests_cant": "Schedules.", "anchors": ["boxtree/area_query.py:SpaceInvaderQueryBuilder", "boxtree/area_query.py:SPACE_INVADER_QUERY_TEMPLATE"]}
{"id": "C31", "title": "Binary search returns the last element not exceeding the key", "statement": "For every non-decreasing array, bsearch returns the largest index whose element is <= the key (-1 if there is none) and terminates.", "quantifier": "all sorted arrays and keys", "why_tests_cant": "All arrays.", "anchors": ["boxtree/tools.py:InlineBinarySearch", "boxtree/area_query.py:STARTS_EXPANDER_TEMPLATE"]}
{"id": "C32", "title": "Translation classes identify translation vectors", "statement": "Two list-2 pairs on the same level get the same translation class iff target_center - source_center agree; the recorded distance vector of the class equals that difference; the class index is in range for every list-2 pair.", "quantifier": "all list-2 pairs of all well-formed trees, all n >= 1, all dimensions, with the default is_translation_per_level=True", "why_tests_cant": "All pairs.", "anchors": ["boxtree/translation_classes.py:TranslationClassesBuilder"]}
{"id": "C33", "title": "Rotation classes identify directions and stay within the allotted bound", "statement": "Two list-2 translation vectors get the same rotation class only if they make the same angle with the last axis; each vector's class angle is its own; the class count stays within the asserted bound.", "quantifier": "all n >= 1, all used vectors, dimensions 1..3", "why_tests_cant": "Combinatorial bound over all n.", "anchors": ["boxtree/rotation_classes.py:RotationClassesBuilder"]}
{"id": "C34", "title": "The all-reduce communication pattern matches up on all ranks", "statement": "At each stage, rank r lists s as a sink iff s lists r as a source; partners are other ranks of the communicator that take part in the stage; a rank that is done receives nothing; all ranks finish after at most ceil(log2 size) stages; no ordered pair of ranks exchanges messages in two stages; and for every other rank there is exactly one stage whose messages are meant for it.", "quantifier": "all communicator sizes and ranks", "why_tests_cant": "Deadlock freedom for each size.", "anchors": ["boxtree/tools.py:AllReduceCommPattern"]}
{"id": "C35", "title": "Multipole exchange delivers complete multipoles", "statement": "After communicate_mpoles each rank holds, for every box it uses, the sum over all ranks of the contributions to that box, each counted exactly once, regardless of message arrival order; the exchange never deadlocks, whether or not sends are buffered, and ends after a bounded number of steps with no message left over.", "quantifier": "all sizes, box-user masks, contribution sets and receive orders; expansions are values of an arbitrary commutative monoid", "why_tests_cant": "Schedules and sizes.", "anchors": ["boxtree/distributed/calculation.py:DistributedExpansionWrangler.communicate_mpoles", "boxtree/distributed/calculation.py:find_boxes_used_by_subrange"]}
{"id": "C36", "title": "DFS order visits every box once with contiguous subtrees", "statement": "get_box_ids_dfs_order returns a permutation of all box ids in which each box is immediately followed by its descendants (contiguous block).", "quantifier": "all well-formed trees", "why_tests_cant": "All shapes.", "anchors": ["boxtree/distributed/partition.py:get_box_ids_dfs_order"]}
{"id": "C37", "title": "Work partitioning assigns every box to exactly one rank", "statement": "When partition_work does not reject the request (more ranks than boxes), the boxes it returns on the ranks, put together in rank order, are all boxes in depth-first order, so every box is assigned to exactly one rank and a rank's boxes are contiguous; a rank is left without boxes (its segment is never written) exactly if for some m the last m boxes cost at least m shares of the total.", "quantifier": "all trees, nonnegative cost vectors and communicator sizes", "why_tests_cant": "Specific cost distributions trigger unassigned segments.", "anchors": ["boxtree/distributed/partition.py:partition_work"]}
{"id": "C38", "title": "Local source masks are sufficient", "statement": "For each rank, every source box whose particles, and every box whose multipole is needed to evaluate the rank's responsible boxes' targets (in lists 1, 3, 4 and the close lists of the box, lists 2 and 4 of its ancestors) is contained in point_src_boxes resp. multipole_src_boxes; multipole_src_boxes contains nothing else; ancestor masks contain exactly the proper ancestors.", "quantifier": "all trees, traversals and responsible sets", "why_tests_cant": "All trees.", "anchors": ["boxtree/distributed/partition.py:get_box_masks", "boxtree/distributed/partition.py:get_ancestor_boxes_mask", "boxtree/distributed/partition.py:get_point_src_boxes_mask", "boxtree/distributed/partition.py:get_multipole_src_boxes_mask"]}
{"id": "C39", "title": "Local trees restrict particles consistently", "statement": "The local tree of a rank has exactly the sources of the boxes whose sources the rank needs and the targets of the boxes it is responsible for, in the order of the global tree; start and count of such a box pick out exactly its particles, other boxes are empty. Box geometry and source flags are those of the global tree, target flags say which boxes have targets of the rank.", "quantifier": "all trees, particle distributions and assignments of boxes", "why_tests_cant": "Scan arithmetic on all masks.", "anchors": ["boxtree/distributed/local_tree.py:construct_local_particles_and_lists", "boxtree/distributed/local_tree.py:generate_local_tree"]}
{"id": "C40", "title": "Distributed evaluation equals single-rank evaluation", "statement": "With every box assigned to exactly one rank, the potentials gathered on the root rank equal those computed by the shared-memory FMM for the constant-one kernel.", "quantifier": "all trees, weights, rank counts and assignments, all interleavings of the ranks, with and without target extents; default value of the private source threshold of the traversal builder", "why_tests_cant": "Cross-product of trees and partitions.", "anchors": ["boxtree/distributed/__init__.py:DistributedFMMRunner", "boxtree/fmm.py:drive_fmm"]}
{"id": "C41", "title": "The cost model counts the operations of the FMM", "statement": "cost_per_stage returns for each stage the summed cost of the translations and evaluations the FMM performs in that stage, cost_per_box the summed cost of those attributed to each box; summed over boxes it equals the total of the stages other than propagation; the device kernels agree with the Python reference. Executing the counted operations yields the FMM potentials.", "quantifier": "all trees, traversals (close lists merged or not), particles, target counts and cost factors with fewer than 2^31 source-target pairs per box", "why_tests_cant": "The repository's operation-count test returns early because the timing data is empty; agreement with the real operation count is never checked for any input.", "anchors": ["boxtree/cost.py:FMMCostModel", "boxtree/cost.py:_PythonFMMCostModel"]}
{"id": "C42", "title": "Point source linking", "statement": "link_point_sources gives each source and each box (own and cumulative counts) exactly the point sources of its sources, in tree order, with user_point_source_ids a permutation and coordinates permuted accordingly, for every order in which the device performs its stores.", "quantifier": "all particle trees, all point_source_starts arrays, all store orders, all values returned by out-of-range reads", "why_tests_cant": "Sources without point sources make several work items store to the same index, so the outcome depends on the device schedule.", "anchors": ["boxtree/tree.py:772-949 link_point_sources", "boxtree/tree_build_kernels.py:1870-1948"]}
{"id": "C43", "title": "Target filtering keeps exactly the flagged targets", "statement": "filter_target_lists_in_user_order and filter_target_lists_in_tree_order give for each box exactly its own targets with a nonzero flag, in tree order, with correct total counts, coordinates and index maps.", "quantifier": "all particle trees, all flag vectors, all store orders, all values returned by out-of-range reads", "why_tests_cant": "All inputs.", "anchors": ["boxtree/tree.py:1057-1239 ParticleListFilter", "boxtree/tree_build_kernels.py:1952-2021"]}
{"id": "C44", "title": "Bounding box reduction", "statement": "BoundingBoxFinder returns the componentwise min/max of particle -/+ radius, independent of the reduction tree.", "quantifier": "all particle sets, all association orders of the reduction", "why_tests_cant": "Reduction order is device dependent.", "anchors": ["boxtree/bounding_box.py:52-122 BBOX_REDUCTION_TPL"]}
{"id": "C45", "title": "Particle to box and index lookups", "statement": "find_box_nr_for_source/target return the unique box whose own range holds the particle and fail outside the particle range; indices_to_tree_source_order/_target_order invert user_source_ids and apply sorted_target_ids.", "quantifier": "all particle trees and indices", "why_tests_cant": "All inputs.", "anchors": ["boxtree/tree.py:639-684"]}
{"id": "C46", "title": "Mask compression and index reversal", "statement": "MaskCompressor returns exactly the indices with non-zero mask in ascending order (per row for 2D, any strides); reverse_index_array yields the inverse of the index map for any order of the parallel writes, and the fill value elsewhere.", "quantifier": "all contiguous 1D masks, all 2D masks, list types that can hold the indices; all injective index arrays", "why_tests_cant": "All inputs.", "anchors": ["boxtree/tools.py:MaskCompressorKernel", "boxtree/tools.py:reverse_index_array"]}
{"id": "C47", "title": "Traversals of trees of boxes stay in range", "statement": "Building an FMM traversal for a tree of boxes obtained by refinement/coarsening reads only existing entries of the tree's and the traversal's arrays.", "quantifier": "all trees of boxes reachable by refine/coarsen calls, all well_sep_is_n_away", "why_tests_cant": "Out-of-range device reads are usually silent; the existing test does not look at the lists.", "anchors": ["boxtree/tree_of_boxes.py:make_tree_of_boxes_root", "boxtree/traversal.py:FROM_SEP_SIBLINGS_TEMPLATE"]}
{"id": "C48", "title": "A refine/coarsen request has exactly the documented effect", "statement": "After an accepted request, the boxes (named by their path of child numbers from the root) are exactly: the old boxes plus all children of boxes flagged for refinement, minus all children of those boxes one of whose children was flagged for coarsening and all of whose children are leaves not being refined.", "quantifier": "all reachable trees, all flag vectors, any argsort tie order", "why_tests_cant": "Tests check box counts on a few examples.", "anchors": ["boxtree/tree_of_boxes.py:refine_and_coarsen_tree_of_boxes"]}
{"id": "C49", "title": "level_start_box_nrs of a tree of boxes delimits the levels", "statement": "level_start_box_nrs of every tree of boxes has nlevels+1 entries, the i-th being the first box of level i.", "quantifier": "all reachable trees of boxes", "why_tests_cant": "-", "anchors": ["boxtree/tree_of_boxes.py:refine_and_coarsen_tree_of_boxes", "boxtree/tree_of_boxes.py:make_tree_of_boxes_root"]}
{"id": "C50", "title": "Build, traverse, evaluate: every target sees every source once", "statement": "Building a tree with TreeBuilder, a traversal with FMMTraversalBuilder and driving an FMM with an additive translation over it yields at each target, in user order, the sum of all source weights.", "quantifier": "all particle sets and arguments of both builders (see C18, C54, C55 for the excluded combinations)", "why_tests_cant": "the composition of three programs over all inputs; tests run a handful of random particle sets", "anchors": ["boxtree/tree_build.py:145-1878", "boxtree/traversal.py:1826-2267", "boxtree/fmm.py:342-532"]}
{"id": "C51", "title": "The tree builder ends and fails only for too many levels", "statement": "For valid arguments TreeBuilder returns a tree or reports that the maximum number of levels was exceeded; reallocation, renumbering and the level loop never fail or run forever.", "quantifier": "all valid inputs, any nboxes_guess > 0, max_leaf_refine_weight < INT_MAX", "why_tests_cant": "termination and absence of assertion failures over all inputs", "anchors": ["boxtree/tree_build.py:836-1233"]}
{"id": "C52", "title": "Extents: particles stay inside their box up to the stick-out factor", "statement": "A particle with extent that was pushed into a non-root box fits, radius included, in the box enlarged by the stick-out factor; a particle that stayed in a split box does not fit in the octant it is in.", "quantifier": "all particle sets with extents, both extent norms, trees of up to 30 levels", "why_tests_cant": "a geometric inequality over all positions, radii and levels; integer position arithmetic in the kernel", "anchors": ["boxtree/tree_build_kernels.py:330-480"]}
{"id": "C53", "title": "The returned arrays describe a tree numbered level by level", "statement": "box_parent_ids, box_child_ids and box_levels of the returned tree are mutually consistent, box 0 is the root and box numbers increase with the level.", "quantifier": "all valid inputs and refinement kinds, however deep", "why_tests_cant": "consistency of several arrays after arbitrary many splits, reallocations and renumberings", "anchors": ["boxtree/tree_build.py:836-1330"]}
{"id": "C54", "title": "Level restriction combined with extents still places every particle", "statement": "With kind='adaptive-level-restricted' and particles with extents every particle is owned by exactly one box.", "quantifier": "all particle sets", "why_tests_cant": "needs a box force-split by level restriction whose particles all stick out", "anchors": ["boxtree/tree_build_kernels.py:1192-1305"]}
{"id": "C55", "title": "Level starts after pruning, with non-adaptive refinement and extents", "statement": "level_start_box_nrs of the returned tree ends with the number of boxes and delimits the levels.", "quantifier": "all pruned non-adaptive trees of particles with extents", "why_tests_cant": "needs levels that become empty by pruning", "anchors": ["boxtree/tree_build.py:1235-1330"]}
{"id": "C56", "title": "A finished rank reports no partners", "statement": "AllReduceCommPattern.sinks() is empty for a rank for which done() holds.", "quantifier": "all sizes and ranks", "why_tests_cant": "the method is never called in that state by the tests", "anchors": ["boxtree/tools.py:AllReduceCommPattern.sinks"]}
{"id": "C57", "title": "Strided 1D masks", "statement": "MaskCompressor returns the indices i with mask[i] non-zero also if the 1D mask is a strided view.", "quantifier": "all masks and strides", "why_tests_cant": "tests use contiguous masks only", "anchors": ["boxtree/tools.py:MaskCompressorKernel"]}
{"id": "C58", "title": "Default index type of mask compression", "statement": "MaskCompressor called without list_dtype returns the indices with non-zero mask.", "quantifier": "all mask types and lengths", "why_tests_cant": "tests use small arrays or pass a list type", "anchors": ["boxtree/tools.py:MaskCompressorKernel.__call__"]}
{"id": "C59", "title": "Area queries at the upper edge of a user-supplied bounding box", "statement": "A query ball around a particle of the tree reports the leaf that holds the particle, whatever bounding box the tree was built with.", "quantifier": "all particle trees, including those built with a user-supplied bounding box, and all particles", "why_tests_cant": "needs a tree of more than 14 levels with a small leaf near the upper boundary", "anchors": ["boxtree/area_query.py:GUIDING_BOX_FINDER_MACRO", "boxtree/tree_build.py:TreeBuilder.__call__"]}
{"id": "C60", "title": "Area queries find the leaves of non-adaptive trees with extents", "statement": "A query ball around a particle reports a leaf, also for pruned non-adaptive trees of particles with extents.", "quantifier": "all such trees", "why_tests_cant": "needs a box that was split although all its particles stay in it", "anchors": ["boxtree/area_query.py:AREA_QUERY_WALKER_BODY", "boxtree/tree_build_kernels.py:BOX_INFO_KERNEL_TPL"]}
{"id": "C61", "title": "The reported number of translation classes", "statement": "nfrom_sep_siblings_translation_classes is the number of distinct translation classes of the list-2 pairs.", "quantifier": "all well-formed trees, all n >= 1, all dimensions", "why_tests_cant": "the value is wrong for every tree but no test reads it; that it is the dimension for all trees needs a proof", "anchors": ["boxtree/translation_classes.py:TranslationClassesInfo"]}
{"id": "C62", "title": "Translation classes that are shared between levels", "statement": "With is_translation_per_level=False, the vector recorded for the class of a list-2 pair is the translation between the centers of its boxes, and the class starts of all levels are set.", "quantifier": "all list-2 pairs of all well-formed trees, all n >= 1", "why_tests_cant": "no test calls the builder with this argument; quantifies over all trees", "anchors": ["boxtree/translation_classes.py:TranslationClassesBuilder.__call__"]}
{"id": "C63", "title": "Every rank gets boxes if there are at least as many boxes as ranks", "statement": "partition_work returns a non-empty list of boxes on every rank whenever the number of ranks does not exceed the number of boxes and all costs are positive.", "quantifier": "all trees, positive cost vectors and communicator sizes up to the number of boxes", "why_tests_cant": "Fails only for particular cost distributions, e.g. equal costs with one rank per box.", "anchors": ["boxtree/distributed/partition.py:partition_work"]}
{"id": "C64", "title": "Distributed evaluation with a source threshold", "statement": "The distributed evaluation equals the shared-memory evaluation also if the traversal builder moves boxes with few sources from list 3 to the close list (_from_sep_smaller_min_nsources_cumul > 0).", "quantifier": "all trees, weights, thresholds", "why_tests_cant": "The local cumulative source counts depend on the partition.", "anchors": ["boxtree/distributed/local_traversal.py:generate_local_travs", "boxtree/traversal.py:FMMTraversalBuilder.__call__"]}
{"id": "C65", "title": "Particles to potentials on several ranks", "statement": "Building a tree from particles, assigning its boxes to ranks by cost and evaluating the constant-one FMM on all ranks gives every target the sum of all source weights, in every execution, provided every rank was assigned boxes.", "quantifier": "all particle sets, build options, weights, costs, rank counts and interleavings (trees of at most 30 levels)", "why_tests_cant": "Composition of four stages, each over unbounded inputs, and all interleavings.", "anchors": ["boxtree/distributed/__init__.py:DistributedFMMRunner", "boxtree/distributed/partition.py:partition_work", "boxtree/tree_build.py:TreeBuilder.__call__"]}
{"id": "C66", "title": "Calibration of the cost model", "statement": "Stage costs are linear in the calibration parameters; estimate_calibration_params returns the least-squares fit per stage; timings exactly proportional to the modelled costs are reproduced exactly by the calibrated model.", "quantifier": "all calibration cases, timings and parameters; stages with a modelled cost above 1e-8 in some case", "why_tests_cant": "Quantifies over all timings and all fits.", "anchors": ["boxtree/cost.py:estimate_calibration_params", "boxtree/cost.py:fmm_cost_factors_for_kernels_from_model"]}
{"id": "C67", "title": "Direct cost for arbitrarily many particles", "statement": "The modelled cost of direct interactions equals the number of source-target pairs times the p2p cost for any number of particles per box.", "quantifier": "all trees and particle counts", "why_tests_cant": "Needs 2^31 pairs in one box; false: a 32-bit product overflows and the cost becomes negative.", "anchors": ["boxtree/cost.py:FMMCostModel.process_direct"]}
{"id": "C68", "title": "Point-to-local costs are charged at the level of the local expansion", "statement": "process_list4 charges each point-to-local translation with the cost entry of the level of the target box's local expansion, as documented.", "quantifier": "all trees and traversals", "why_tests_cant": "Device and reference share the same choice, so their comparison cannot reveal it; false: the level of the source box is used.", "anchors": ["boxtree/cost.py:process_list4"]}
{"id": "C69", "title": "Calibration without model results", "statement": "If no model result contains a stage, estimate_calibration_params returns NaN for its parameter, as documented.", "quantifier": "all calibration inputs", "why_tests_cant": "Contradiction between documentation and code; false: 0.0 is returned.", "anchors": ["boxtree/cost.py:estimate_calibration_params"]}
{"id": "C70", "title": "Post-processing kernels stay inside their arrays", "statement": "The kernels behind filter_target_lists_in_tree_order and link_point_sources read and write only elements of the arrays they are given.", "quantifier": "all trees built by TreeBuilder, all point_source_starts arrays", "why_tests_cant": "Out-of-range device accesses usually go unnoticed; they need a tree whose last box lacks targets (or sources), or an empty last source.", "anchors": ["boxtree/tree_build_kernels.py:1912-1948 POINT_SOURCE_LINKING_BOX_POINT_SOURCES", "boxtree/tree_build_kernels.py:1980-2019 TREE_ORDER_TARGET_FILTER_INDEX_TPL", "boxtree/tree.py:845-866"]}
{"id": "C71", "title": "Accepted arguments make a valid tree", "statement": "Whenever TreeBuilder accepts sources, targets, radii and limits with an automatic bounding box, the root box is a cube that contains every particle with its radius strictly below the upper faces; the returned source and target orders are permutations of what the user passed, and every particle lies in the half-open cell of the box that owns it.", "quantifier": "all dimensions, particle sets, radii, weights, kinds and reduction orders", "why_tests_cant": "The chain from user arrays through concatenation, bounding box, stretching and sorting is only sampled by tests.", "anchors": ["boxtree/tree_build.py:225-590 TreeBuilder.__call__"]}
{"id": "C72", "title": "User-supplied bounding boxes", "statement": "With a given square bounding box that has all particles in its closure (the documented requirement), every particle lies in the closed cell of the box that owns it.", "quantifier": "all bounding boxes and particle sets", "why_tests_cant": "Tests place particles in the interior of boxes of moderate size; false on upper faces and for tiny boxes.", "anchors": ["boxtree/tree_build.py:198-208", "boxtree/tree_build.py:478-508", "boxtree/tree_build_kernels.py:247-420 MORTON_NR_SCAN_PREAMBLE_TPL"]}
{"id": "C73", "title": "Documented arguments are accepted", "statement": "TreeBuilder accepts every set of particles without radii with a positive max_particles_in_box, or with nonnegative refine_weights none of which exceeds a positive max_leaf_refine_weight. Radii without separate targets, two limits at once, no limit, and limits that are not positive are refused, each with its own error.", "quantifier": "all particle sets and weights", "why_tests_cant": "Rejection depends on sums of user data; false when all weights are zero (internal assertion).", "anchors": ["boxtree/tree_build.py:405-452", "boxtree/tree_build.py:535-544"]}
{"id": "C74", "title": "The automatic root box has positive size", "statement": "The root box that TreeBuilder determines from the particles has positive size.", "quantifier": "all particle sets", "why_tests_cant": "Needs degenerate particle sets; false for a single particle, which gives a root box of size 0.", "anchors": ["boxtree/tree_build.py:462-476"]}
{"id": "C75", "title": "Scaled coordinates stay below 1 in floating-point arithmetic", "statement": "The automatic bounding box is enlarged at the top so that the floating-point scaled coordinates of all particles are below 1, as documented; distinct particles can therefore be told apart by their Morton numbers.", "quantifier": "all sets of single or double precision coordinates", "why_tests_cant": "Depends on rounding for offsets that tests do not use; false when the particles are far from the origin compared to their spread.", "anchors": ["boxtree/tree_build.py:203-206", "boxtree/tree_build.py:462-476", "boxtree/tree_build_kernels.py:356-375"]}
{"id": "C76", "title": "FMM with any expansion wrangler: one route per source", "statement": "For an arbitrary expansion wrangler whose translations are linear, drive_fmm gives each target exactly the sum over all sources of what the wrangler's routines produce along one route through the interaction lists (direct, multipole-to-local, multipole evaluation, or local formation; with the up and down translations along the tree). There is exactly one such route for every pair of target box and source box. Hence errors of the individual routes add up to the error of the result, and a wrangler that is exact along each route gives the direct sum.", "quantifier": "all trees, traversals (with or without target extents, close lists merged or not), all wranglers with linear translations, all weights; also all trees made by the tree builder", "why_tests_cant": "Accuracy tests compare with direct sums for a few kernels and particle sets; a pair of boxes handled twice or never can hide below the tolerance.", "anchors": ["boxtree/fmm.py:342-532", "boxtree/pyfmmlib_integration.py:676-1144", "boxtree/traversal.py:1990-2386"]}
{"id": "C77", "title": "Expansion arrays: every coefficient has its own place", "statement": "The arrays returned by multipole_expansion_zeros and local_expansion_zeros have room for one expansion of the order of its level for every box: the view of every level can be formed, the coefficients of distinct boxes never overlap, none lies outside of the array and no entry is unused; assigning one box's expansion leaves all others unchanged. Rotation matrices are precomputed for the largest expansion order whose memory estimate is below the given cutoff, and used only on levels whose order does not exceed it.", "quantifier": "all numbers of levels, box counts per level, orders per level, kernels and memory cutoffs", "why_tests_cant": "Overlap needs particular combinations of orders and level sizes.", "anchors": ["boxtree/pyfmmlib_integration.py:442-492", "boxtree/pyfmmlib_integration.py:557-642", "boxtree/pyfmmlib_integration.py:849"]}
{"id": "C78", "title": "Gradients from the pyfmmlib wrangler", "statement": "A wrangler made with ifgrad=True delivers the potential and its gradient at every target.", "quantifier": "all dimensions, target counts and distributions of targets over boxes", "why_tests_cant": "The tests only run with ifgrad=False; the statement is false for every set of targets.", "anchors": ["boxtree/pyfmmlib_integration.py:644-674", "boxtree/pyfmmlib_integration.py:788-819"]}
{"id": "C79", "title": "Distributed evaluation equals shared-memory evaluation for any wrangler", "statement": "For an arbitrary expansion wrangler whose translations are linear, the potentials gathered on the root rank of a distributed evaluation are exactly those the shared-memory drive_fmm computes with the same wrangler on the whole tree. This holds for every interleaving of the multipole exchange, for the all-reduce variant, and for trees made by the tree builder and partitioned by cost; with a wrangler that is exact along each route the result is the direct sum over the caller's sources.", "quantifier": "all trees, traversals, rank counts and assignments of boxes to ranks, all wranglers with linear translations (expansions and potentials in arbitrary commutative monoids), all weights, all executions; default value of the private source threshold of the traversal builder", "why_tests_cant": "Every combination of tree, partition, wrangler and schedule; a multipole contribution lost on one rank changes the result by less than the tolerance of an accuracy test.", "anchors": ["boxtree/distributed/__init__.py:DistributedFMMRunner", "boxtree/distributed/calculation.py:85-416", "boxtree/fmm.py:342-532"]}
{"id": "C80", "title": "Multipole exchange on flat coefficient arrays", "statement": "The expansions of all boxes live in one flat array, with a number of coefficients per box that depends on the level. After communicate_mpoles every coefficient of every box a rank uses is the sum over all ranks of the coefficients they had there, each counted once; no other entry is disturbed in a way visible there and the arrays keep their size. No slice, reshape, indexed update or receive into the reused buffer ever fails, whatever the buffers contained; the exchange does not deadlock and ends after a bounded number of steps.", "quantifier": "all level structures and expansion orders per level, all sizes, box-user masks, contribution sets, buffer contents, receive orders and interleavings; the two tagged messages of a transfer are separate", "why_tests_cant": "Off-by-one errors in the slicing by level show only for particular sets of boxes; schedules and sizes are unbounded.", "anchors": ["boxtree/distributed/calculation.py:147-202", "boxtree/distributed/calculation.py:271-416", "boxtree/pyfmmlib_integration.py:442-492"]}
{"id": "C81", "title": "Expansions are only used at a safe distance", "statement": "In the interaction lists of a traversal: a multipole expansion of a box of radius r is only evaluated directly (list 3) at points at distance at least 3r from its center; sources are only taken directly into the local expansion of a box of radius R (list 4) from a distance of at least 3R of its center, or 3(1+stick_out_factor)R if targets have extents; multipole-to-local translations (list 2) connect equally large boxes whose centers are so far apart that every point of one is at least (2n+1) radii away from the center of the other, n being well_sep_is_n_away. With extents the distances hold for every point of the target's ball, for each of the three criteria, up to the 8-epsilon slack in the code. For built trees this is stated of the actual sources and targets, which also lie within the region their box's expansion is meant for.", "quantifier": "all trees, traversal parameters (criteria, stick-out factors, well_sep_is_n_away), all points; for the last part all inputs of the tree builder with extents except level restriction with extents and adaptively emptied levels, all sources, all targets and all points of their balls", "why_tests_cant": "A violation slows convergence only for particular pairs of boxes and particle positions; accuracy tests have tolerances and sample positions.", "anchors": ["boxtree/traversal.py:709-860", "boxtree/traversal.py:933-1000", "boxtree/tree_build_kernels.py:403-470"]}
{"id": "C82", "title": "Scans do not depend on the order of evaluation", "statement": "The parallel prefix sums used in tree building, particle filtering, point-source linking and local-tree construction give the same result however the scan library brackets the inputs and pads them with neutral elements: particle counts and (saturated) refine weights per octant of each box, new box ids, pruned box numbers, level sizes, source numbers, filtered-target numbers, point-source ids. In particular the tree does not depend on the device's work-group sizes.", "quantifier": "all inputs, all segment structures, all sizes, all bracketings of the index range (chosen separately for each item), all orders of the work items that store results; refine weights as the tree builder accepts them (nonnegative)", "why_tests_cant": "The order of evaluation is up to the OpenCL implementation, device and problem size; saturation of weights only occurs near 2^31.", "anchors": ["boxtree/tree_build_kernels.py:245-302", "boxtree/tree_build_kernels.py:632", "boxtree/tree_build_kernels.py:1555-1571", "boxtree/tree_build_kernels.py:1697-1782", "boxtree/tree_build_kernels.py:1870-1978", "boxtree/distributed/local_tree.py:93-107"]}
{"id": "C83", "title": "Repeated distributed evaluations", "statement": "Ranks that build their local trees once and then run the distributed FMM any number of times with new source weights never mix up messages of different evaluations although all use the same tags: whatever the order in which messages are delivered, and whether sends are buffered or block, the potentials the root rank obtains in evaluation e are those of the shared-memory FMM for the source weights of evaluation e. The ranks do not deadlock, every execution ends after a bounded number of steps, each evaluation gives one result, and no message is left over.", "quantifier": "all numbers of ranks, trees, traversals, partitions, linear expansion wranglers, numbers of evaluations, source weights, all interleavings of the ranks and orders of message delivery, buffered and synchronous sends", "why_tests_cant": "Message order is up to the MPI implementation and its timing; tests run each evaluation in few interleavings, with buffered sends for small messages.", "anchors": ["boxtree/distributed/calculation.py:85-145", "boxtree/distributed/calculation.py:271-416", "boxtree/distributed/__init__.py:40-65", "boxtree/fmm.py:342-532"]}
{"id": "C84", "title": "Tree build kernels stay inside their arrays", "statement": "When a tree is built, no kernel of the level loop reads or writes outside of the arrays it is given, however the device orders and interleaves the loads and stores of the work items: this includes indices computed from other arrays, the stack of the neighbour walk of level restriction, the slices the host assigns and the single elements it reads back, and holds before and after boxes are reallocated or renumbered. Every kernel comes to an end, and so does the loop.", "quantifier": "all numbers of dimensions, particles, weights, extents, limits, kinds of trees, initial box guesses, and all interleavings of the work items of every launch", "why_tests_cant": "Out-of-bounds accesses on a device usually go unnoticed, and depend on array padding, allocation sizes and scheduling; tests run one scheduling of a few trees.", "anchors": ["boxtree/tree_build.py:512-1233", "boxtree/tree_build_kernels.py:158-1050", "boxtree/tools.py:91-135"]}
{"id": "C85", "title": "The tree does not depend on the scheduling of work items", "statement": "The work items of the kernels of the level loop run concurrently in no particular order, and some of them write to shared flags. Nevertheless two builds from the same particles end with the same error or with identical particle orders, box starts and counts, parents, children, centers, levels and level starts, and these are the ones a sequential reading of the algorithm prescribes.", "quantifier": "all inputs as in C84, all pairs of executions with arbitrary interleavings of single loads and stores, and arbitrary previous contents of the device", "why_tests_cant": "Race conditions show up only under particular interleavings; a CPU OpenCL implementation used by tests mostly runs work items one after the other.", "anchors": ["boxtree/tree_build.py:512-1233", "boxtree/tree_build_kernels.py:158-1050"]}
{"id": "C86", "title": "Whole tree builds stay inside their arrays", "statement": "From the first kernel to the finished tree, no kernel of a tree build reads or writes outside of the arrays it is given, however the device orders and interleaves the loads and stores of the work items: pruning and the copies with gaps, the split into sources and targets, the permutations, the tables of children and centers, the box flags, and the box extents found level by level from the extents of the children. Every kernel comes to an end.", "quantifier": "all inputs as in C84 (adaptive, non-adaptive and level-restricted, with and without extents) and all interleavings of the work items of every launch; particles with extents are not combined with both pruning and non-adaptive refinement (there the property is refuted: the kernel for the box extents reads behind the ends of the arrays)", "why_tests_cant": "Reads behind the end of a device array mostly return some number without notice; the offending combination of arguments is not part of the test suite, and tests run one scheduling of a few trees.", "anchors": ["boxtree/tree_build.py:1235-1878", "boxtree/tree_build_kernels.py:979-1420", "boxtree/tree_build_kernels.py:1690-1760", "boxtree/tools.py:91-135"]}
{"id": "C87", "title": "The finished tree does not depend on the scheduling of work items", "statement": "Two builds from the same particles, on devices with whatever previous contents and scheduling the work items in whatever order, raise the same error or return trees whose arrays agree element by element: sources, targets and radii, user_source_ids, sorted_target_ids, starts and counts of sources and targets per box, parents, children, centers, levels, flags, bounding boxes of sources and targets and level starts; and these are the arrays a sequential reading of the algorithm prescribes.", "quantifier": "all inputs as in C86, all pairs of executions with arbitrary interleavings of single loads and stores", "why_tests_cant": "Races show up only under particular interleavings; in the kernel for the box extents each level reads what the launch for the level below has written.", "anchors": ["boxtree/tree_build.py:512-1878", "boxtree/tree_build_kernels.py:158-1420"]}
{"id": "C88", "title": "Traversal kernels stay inside their arrays", "statement": "While interaction lists are built, no kernel reads or writes outside of the arrays it is given, nor outside of the stack of its tree walk, however the device orders and interleaves the loads and stores of the work items: box lists, level starts, same-level neighbors, lists 1 to 4 with and without extents, the counting and the writing pass of each list, the removal of empty lists, and the merging of close lists. Every kernel comes to an end.", "quantifier": "all well-formed trees and parameters (any dimension, separation distance, criterion, with and without masks and extents), any contents of the device apart from the arguments, all interleavings of the work items of every launch", "why_tests_cant": "Sizes of the lists are found by a first pass over the same code; an index that is off by one in rare trees writes to a neighboring allocation without notice. Tests run one scheduling of a few trees.", "anchors": ["boxtree/traversal.py:60-392", "boxtree/traversal.py:395-1150", "boxtree/traversal.py:1153-1344", "boxtree/traversal.py:2028-2291"]}
{"id": "C89", "title": "The traversal does not depend on scheduling", "statement": "Whatever the order in which the device executes the loads and stores of the work items, the finished traversal is the same: each array of boxes, of list starts and of list entries has exactly the length and the contents of the lists that C01 to C11 are about, whatever the device memory held before. The same holds for merging the close lists.", "quantifier": "all well-formed trees and parameters, any contents of the device apart from the arguments, all interleavings", "why_tests_cant": "A race shows up only under some schedulings, on some devices.", "anchors": ["boxtree/traversal.py:2028-2345", "boxtree/traversal.py:1650-1693"]}
{"id": "C90", "title": "From particles to interaction lists on the device", "statement": "Building a tree from particles on the device and then a traversal of that tree, the arrays that the tree builder leaves behind meet everything the traversal kernels rely on: no access is out of bounds in either, and the lists in device memory afterwards lead every source box to every target box exactly once, so that the FMM sums the weights of all sources at every target.", "quantifier": "all valid inputs with at most 30 levels, no extents together with level restriction, no pruning of non-adaptive trees; all parameters of the traversal; all interleavings of the work items of all kernels", "why_tests_cant": "The contract between the two builders (strides, child numbering, level starts, zeroed entries) is not written down in a checkable form; tests see a few trees.", "anchors": ["boxtree/tree_build.py:1621-1878", "boxtree/traversal.py:1985-2291"]}
{"id": "C91", "title": "Area query kernels stay inside their arrays", "statement": "While peer lists are found, leaves near balls are listed and the starts of these lists are expanded to one entry per leaf, no kernel reads or writes outside of the arrays it is given, nor outside of the stack of its tree walk, however the device orders and interleaves the loads and stores of the work items. Balls may lie partly or entirely outside of the root box and peer lists may be passed in. Every kernel comes to an end.", "quantifier": "all well-formed trees, all balls, any contents of the device apart from the arguments, all interleavings of the work items of every launch", "why_tests_cant": "The guiding box is found by bit arithmetic on clamped coordinates and indexes the children table; the binary search reads one past its probe. An index that is off by one for rare balls reads a neighboring allocation without notice. Tests run one scheduling of a few trees.", "anchors": ["boxtree/area_query.py:178-291", "boxtree/area_query.py:393-473", "boxtree/area_query.py:743-800", "boxtree/area_query.py:863-908", "boxtree/area_query.py:1151-1188"]}
{"id": "C92", "title": "Area queries do not depend on scheduling", "statement": "Whatever the order in which the device executes the loads and stores of the work items, and whatever its memory held before: the entries of the finished peer list of a box are exactly its peers, each once; the entries of the finished list of a ball are exactly the leaves meeting the ball, each once, whether peer lists were passed in or not; the expanded starts name for each entry the ball it belongs to. This includes trees built on the device from particles.", "quantifier": "all well-formed trees (resp. all valid inputs of the tree builder with at most 30 levels), all balls with nonnegative radius, all interleavings", "why_tests_cant": "A race shows up only under some schedulings, on some devices.", "anchors": ["boxtree/area_query.py:743-800", "boxtree/area_query.py:863-908", "boxtree/area_query.py:1151-1188", "boxtree/tree_build.py:1832-1875"]}
{"id": "C93", "title": "FMM with pyfmmlib: every routine gets the arguments of its boxes", "statement": "Each call of a pyfmmlib routine made while driving the FMM passes the centers, scaling factors, orders, radii, rotation matrices and source strengths that belong to the boxes and particles concerned, also when many translations are done by one call with packed argument arrays. Hence the result for a target is the sum over all sources of what the routines give along one route, times the factor of the kernel; and with routines that are exact whenever expansions are read with the center, scaling and order with which they were made, and rotated by the right angle, the FMM gives the direct sum over the caller's sources, with the caller's weights and dipole directions.", "quantifier": "all well-formed trees and traversals (also those built from particles), both kernels, two and three dimensions, all orders per level, with and without dipoles, with and without rotation data", "why_tests_cant": "The routines are approximate, so a test tolerates small errors: a scaling factor of the neighbouring level, a wrong row of a packed array or a rotation matrix of another angle is invisible or depends on the orders and geometry chosen.", "anchors": ["boxtree/pyfmmlib_integration.py:393-426", "boxtree/pyfmmlib_integration.py:496-610", "boxtree/pyfmmlib_integration.py:677-1145", "boxtree/pyfmmlib_integration.py:1147-1168"]}
{"id": "C94", "title": "Construction of the pyfmmlib wrangler", "statement": "The wrangler is constructed exactly if one of order and fmm_level_to_order is given (not both), the Helmholtz parameter is nonzero exactly for the Helmholtz kernel, the dimensions agree and the dipole vector has one column per source. It then uses the given orders for each level, a positive scaling factor which is the box size times the wave number, at most 1 (inverted for Laplace in three dimensions), and for each source the strength the caller gave for it, whether the dipoles were already in tree order or not.", "quantifier": "all arguments of the constructor", "why_tests_cant": "Combinations of arguments are tested only along a few paths.", "anchors": ["boxtree/pyfmmlib_integration.py:283-403", "boxtree/pyfmmlib_integration.py:496-514"]}
{"id": "C95", "title": "Traversals in floating-point arithmetic", "statement": "The box centers, radii and separation tests of the library carry rounding errors. As long as the rounding error of the largest coordinate, times a small factor growing with the number of levels and the neighborhood size, stays below the radius of the smallest box, the traversal of a point tree built in floating point equals the traversal in exact arithmetic; with target extents, for every stick-out factor and separation criterion, every pair of a target box and a source box is still covered exactly once. Where the precision does not suffice interactions can be lost: two touching sibling leaves of a single precision tree around (100, 0) appear in no common list.", "quantifier": "all trees, root centers, root extents, stick-out factors, separation criteria, well_sep_is_n_away and precisions of at least 24 binary digits that satisfy the bound", "why_tests_cant": "Rounding errors accumulate along the path from the root and only matter for deep trees far from the origin; test trees are shallow and near the origin.", "anchors": ["boxtree/traversal.py:160-305", "boxtree/traversal.py:709-819", "boxtree/traversal.py:933-972", "boxtree/tree_build_kernels.py:694-705"]}
{"id": "C96", "title": "Particles and boxes in floating-point arithmetic", "statement": "In a tree built from points in floating-point arithmetic, every particle in the range of a box is within 5/4 of the radius of that box from its center on each axis, where Morton numbers, centers and radii are the rounded ones the library computes, as long as the precision resolves the smallest boxes and the spread of the particles; the excess over the radius is at most (level + 5) rounding errors of the largest coordinate. The box structure and the particle order are those the exact tree builder gives for the coordinates cut off to 30 binary digits. Without the excess the claim is false: in single precision a particle can be put into a box it lies outside of.", "quantifier": "all point sets whose coordinates exceed their spread by at most 2^(prec-16), all precisions of at least 24 binary digits, all refinement parameters and tree kinds, all returned trees of up to 30 levels", "why_tests_cant": "The particles concerned lie within rounding error of a box boundary; random tests do not hit them and compare with a tolerance.", "anchors": ["boxtree/tree_build_kernels.py:356-378", "boxtree/tree_build_kernels.py:440-453", "boxtree/tree_build_kernels.py:694-705", "boxtree/tree_build.py:462-476", "boxtree/tree_build.py:585-588"]}
{"id": "C97", "title": "Level numbers of fixed width in trees of boxes", "statement": "A tree of boxes obtained by refining and coarsening is well formed, and its leaves tile the root box, as long as no box is deeper than the level dtype allows for powers of two: level w - 3 for signed level numbers of w binary digits, 29 for the default. The bound is sharp: refining a box on level w - 3 gives every new child the center of the opposite child.", "quantifier": "all dimensions and bounding boxes, all histories of accepted calls, all orders of ties in sorting, all widths of level numbers", "why_tests_cant": "The default width needs thirty nested refinements, which no test performs; nothing is reported when the power wraps around.", "anchors": ["boxtree/tree_of_boxes.py:155-217", "boxtree/tree_of_boxes.py:351-385", "boxtree/tree_of_boxes.py:392-460"]}
{"id": "C98", "title": "Mesh made from the leaves of a tree of boxes", "statement": "The mesh made from a tree of boxes has one element per leaf box, the returned map gives the leaf of each element in increasing order, the vertices of an element are exactly the corners of its leaf, no two elements share a vertex number, and the elements tile the root box.", "quantifier": "all trees of boxes obtained by accepted refinements and coarsenings, all dimensions, all orders of the corners of the reference cube", "why_tests_cant": "Only a picture or an integral over a few meshes is checked; swapped or misplaced corners can leave volumes unchanged.", "anchors": ["boxtree/tree_of_boxes.py:467-508", "boxtree/tree.py:266-269"]}
{"id": "C99", "title": "From floating-point particles to potentials", "statement": "Building a tree from points, building its traversal and evaluating, all in floating-point arithmetic, delivers to every target the weight of every source exactly once, as long as the precision resolves the smallest boxes and the spread of the particles. Expansions are used at a safe distance: particles whose interaction goes through an expansion of a box without belonging to it are at least 9/4 of its radius away from its computed center (2n + 1/4 for boxes of one level and well_sep_is_n_away = n), while the particles of the box are within 5/4 of the radius (C96).", "quantifier": "all point sets whose coordinates exceed their spread by at most 2^(prec-16), all precisions of at least 24 binary digits, all refinement parameters and tree kinds, all returned trees of up to 30 levels, all well-separatedness numbers, all weights", "why_tests_cant": "Errors appear only for particles within rounding error of box boundaries and for boxes near the limit of the precision; tests compare sums with a tolerance.", "anchors": ["boxtree/tree_build_kernels.py:356-378", "boxtree/tree_build_kernels.py:694-705", "boxtree/traversal.py:279-305", "boxtree/traversal.py:1969-2345", "boxtree/fmm.py:342-535"]}
{"id": "C100", "title": "Interaction lists of targets with extents hold exactly the boxes of their criteria", "statement": "For targets with extents, the lists between boxes of different sizes hold exactly what their documentation says, without duplicates. from_sep_smaller_by_level[l] of a target box T: the boxes of level l below a colleague of T that are not adjacent to T, meet from_sep_smaller_crit (static_linf, precise_linf or static_l2) and have at least from_sep_smaller_min_nsources_cumul sources, unless a box above them does. from_sep_close_smaller: the non-adjacent source boxes below a colleague of T that no such box contains. from_sep_bigger of a box A: the source boxes, not smaller than A, in whose direction A has a colleague, which are not adjacent to A and at least 3 radii of the enlarged box away, unless that holds for the parent of A already. from_sep_close_bigger of a target box: those that fail this criterion.", "quantifier": "all well-formed trees, all well-separatedness numbers, all stick-out factors, all three criteria, all source count thresholds, all machine epsilons up to 1/12, all boxes", "why_tests_cant": "Tests check that every source reaches every target once. A box in a less efficient or less accurate list than documented passes them.", "anchors": ["boxtree/traversal.py:607-875", "boxtree/traversal.py:880-1145"]}
{"id": "C101", "title": "Space invader distances are the exact ones rounded to single precision", "statement": "The space invader query returns, for every leaf, the number of single precision nearest to the largest l-infinity distance of a ball meeting the leaf, cast to the coordinate type; infinity if that distance rounds beyond the largest single precision number; and 0 for other boxes and leaves that no ball meets. The order of the concurrent atomic updates, which compare bit patterns as integers, does not matter. The relative error is at most 2^-24 (absolute error 2^-150 below 2^-126), and the result is exact if the distance is a single precision number. A double precision result can be smaller than the distance of a ball that meets the leaf; multiplied by 1 + 2^-23, plus 2^-150, it is not.", "quantifier": "all well-formed trees whose leaves meet the unstretched root box, all balls of nonnegative radius, all coordinate types at least as wide as single precision, all orders of the updates", "why_tests_cant": "Tests compare with a tolerance on random balls, and run the kernel in one order.", "anchors": ["boxtree/area_query.py:613-650", "boxtree/area_query.py:1012-1049"]}
{"id": "C102", "title": "Setting up the tree of a rank on its device does not depend on scheduling", "statement": "When a rank of a distributed computation sets up its part of the tree on its device (masks of the boxes it is responsible for and of those it needs, its sources and targets with coordinates and radii, starts and counts of its boxes, box flags), no kernel reads or writes outside of its arrays and the setup comes to an end. Whatever the order in which the device performs the loads and stores of the work items, it ends with the same tree: each box of the rank has its targets, each source box that interacts directly with them has its sources, with their coordinates in the order of the global tree, other boxes have no targets, and the host receives the indices of the rank's particles.", "quantifier": "all well-formed trees, traversals built for them (merged or not), lists of boxes of the rank, particle ranges within the particles, with and without target extents, any contents of the device apart from the arguments, all interleavings of the work items of every launch", "why_tests_cant": "Several work items set the same mask entries without synchronization, ancestors are found in rounds that stop when an any-reduction is zero, and the kernels that copy particles index by a scan of a mask. Tests on one device see one scheduling; a race that leaves an entry unset shows up as a wrong potential on some ranks only.", "anchors": ["boxtree/distributed/partition.py:134-172", "boxtree/distributed/partition.py:174-194", "boxtree/distributed/partition.py:197-327", "boxtree/distributed/partition.py:330-357", "boxtree/distributed/local_tree.py:69-185", "boxtree/distributed/local_tree.py:198-284", "boxtree/distributed/local_tree.py:316-424"]}
{"id": "C103", "title": "Classes of list 2 found on the device do not depend on scheduling", "statement": "When translation classes (or rotation classes) of list 2 are computed on the device, no kernel reads or writes outside of its arrays and the computation comes to an end, for any list 2 of boxes of the tree. It raises an error exactly if some entry of the list is on another level than its target box or more than 2 n + 1 box widths away from it in some direction. For the list 2 of a traversal it never does: whatever the order in which the device performs the loads and stores of the work items, the array on the device ends with the class of each pair of boxes, two pairs have equal entries exactly if they are on the same level and have the same translation vector, the recorded vector of a class is that translation, and every class is used; the entries for rotation classes refer to the angle of the direction of the translation.", "quantifier": "all trees and lists of boxes of them with levels below the number of levels (errors, bounds); all well-formed trees and traversals built for them (classes); any padding of the array of centers; with and without classes per level; any contents of the device apart from the arguments; all interleavings of the work items", "why_tests_cant": "One work item per list entry searches its target box by bisection of the starts, and many work items set the same flag. A read outside of the arrays, or an unset flag under some scheduling, cannot be excluded by running on one device.", "anchors": ["boxtree/translation_classes.py:65-123", "boxtree/translation_classes.py:128-186", "boxtree/translation_classes.py:324-373", "boxtree/translation_classes.py:376-438", "boxtree/rotation_classes.py:163-196", "boxtree/tools.py:594-630"]}
{"id": "C104", "title": "Classes of list 2 in floating-point arithmetic are the exact ones if the precision resolves the smallest boxes", "statement": "With box centers, normalized vectors and recorded vectors computed in floating-point arithmetic, if the precision resolves the smallest boxes of the tree, computing the translation classes of list 2 raises no error; two pairs of boxes have the same class exactly if they are on the same level and their exact translations agree; the recorded vector of a class is within one rounding error of the exact translation, and within 2 nlevels + 1 rounding errors of the difference of the computed centers of each of its pairs; every class is used, and the classes of a level are contiguous. Rotation classes are those of the exact directions. Without the condition the computation can raise ValueError on a valid tree.", "quantifier": "all well-formed trees, well_sep_is_n_away >= 1, with or without extents, root boxes and precisions of at least 24 digits that meet the condition, traversals built with rounding; rounding to nearest even, unbounded exponents", "why_tests_cant": "Rounding errors depend on the position of the root box, on depth and on precision; tests use a few trees near the origin.", "anchors": ["boxtree/translation_classes.py:71-85", "boxtree/translation_classes.py:104-186", "boxtree/translation_classes.py:324-438", "boxtree/rotation_classes.py:163-196", "boxtree/tree_build_kernels.py:695-705"]}
{"id": "C105", "title": "Linking point sources and filtering targets on the device do not depend on scheduling", "statement": "When point sources are linked to a tree, or targets are filtered into lists per box, on the device, no kernel reads or writes outside of its arrays and the computation comes to an end, provided that every source has at least one point source and that every box starts at a valid source (for filtering in tree order: at a valid target; filtering in user order needs no condition on boxes). Whatever the order in which the device performs the loads and stores of the work items, it ends with the arrays of the linked tree (permuted point source indices, starts, counts, coordinates) and of the filtered lists (starts, entries, filtered coordinates). Without the conditions kernels do read outside of their arrays: linking for a tree with a box that starts past the last source or with a last source without point sources, and filtering for a tree with a box that starts past the last target.", "quantifier": "all trees, point sources, flags and contents of the device apart from the arguments; all interleavings of the work items of every launch; counterexamples computed", "why_tests_cant": "Device memory is not checked: a read just past the end of an array returns whatever is there, and the result is wrong only if that value matters. Orders of the loads and stores cannot be enumerated by tests.", "anchors": ["boxtree/tree.py:772-949", "boxtree/tree.py:1057-1239", "boxtree/tree_build_kernels.py:1870-2021"]}
{"id": "C106", "title": "Plots show the boxes and the interaction lists they claim to show", "statement": "The extent reported for a box is the cube around its center; it holds the particles of the box, lies within that of the root box, and the latter is the bounding box of the tree. Drawing a two-dimensional tree draws each box once. Drawing the interaction lists of a box marks, in the color of each list, exactly the entries of that list for the box, each by a rectangle inside of the marked box; lists without a row for the box are indicated by an outline around it, which is blue whatever the list. The TikZ document of a tree of at most 4000 boxes defines, for each box, its own corners, center, size and level under names that TeX accepts and that no other box uses; for larger trees ValueError is raised, because box numbers are written as Roman numerals. Roman numerals are the usual ones from 1 to 3999, Z for zero. get_box_list returns the list of the box with the given index; there is no such access to list 3, which is stored by level.", "quantifier": "all well-formed trees, boxes and traversals built for them, merged or not; any random numbers; all integers; built trees without level restriction of particles with extents", "why_tests_cant": "The number of trees is not bounded, and whether two of thousands of generated names coincide, or a list is attributed to the wrong box, is not visible in a picture.", "anchors": ["boxtree/visualization.py:31-51", "boxtree/visualization.py:58-171", "boxtree/visualization.py:178-276", "boxtree/tree.py:265-287", "boxtree/tree.py:625-631", "boxtree/traversal.py:1699-1703"]}
{"id": "C107", "title": "Moving trees, lists and records between host and device changes no contents", "statement": "Moving a tree, a traversal or another container to the host or to the device, freezing or thawing it, changes nothing but where its arrays are: numbers, missing values, names, the counts of lists and the fields that are not declared as arrays stay. To the device and back, and freezing and thawing, give back the same object. The operation is refused (TypeError) exactly when a leaf is neither an array of the expected kind nor a number nor None; so what is already on the host is refused by to_numpy. The array fields of a class are those declared as arrays, containers, object arrays of these, or one of these or None; tuples of arrays are not moved. The deprecated methods get, with_queue and to_device of a data record keep the contents as well, move all arrays of plain records, nested or in lists, but for excluded fields, and to_device followed by get gives back the record; they leave lists in an object array and trees in a record where they are, and get fails on a dictionary.", "quantifier": "all containers and records of any nesting whose classes have distinct field names; all queues, excluded fields and class declarations", "why_tests_cant": "Objects nest without bound; whether some field of some combination is dropped or left behind shows only if that field is looked at.", "anchors": ["boxtree/array_context.py:63-103", "boxtree/array_context.py:139-214", "boxtree/array_context.py:222-238", "boxtree/tools.py:294-402"]}
{"id": "C108", "title": "pyfmmlib is called by its documented names and its results and errors are used as documented; gradients cannot be computed", "statement": "For both kernels, in two and three dimensions, with and without dipoles, every stage of the FMM calls the documented routine of pyfmmlib, and no two stages share one; evaluation in other dimensions is refused (ValueError). Translations get the caller's arguments and, for the Helmholtz kernel in three dimensions, a quadrature with 2.5 times the order of the result (at least 6) nodes. An error code other than zero always raises RuntimeError, and nothing else does in a three-dimensional evaluation. Without gradients, drive_fmm gives one number for each target, with exact routines the direct sum, whatever the routines return for the gradient that was not asked for. With ifgrad=True, drive_fmm raises IndexError for every tree with a target, because output_zeros makes an array with one axis that is then indexed with two. With an output array of two axes (from a subclass) the rows would be the potential and the components of its gradient in tree order, with the sign of the three-dimensional field turned.", "quantifier": "all kernels, both dimensions, all stages, trees, traversals, weights, orders, libraries and error codes", "why_tests_cant": "The existing tests never set ifgrad; pyfmmlib reports errors only for inputs that are hard to provoke, and whether each is noticed is a property of every call.", "anchors": ["boxtree/pyfmmlib_integration.py:138-267", "boxtree/pyfmmlib_integration.py:404-425", "boxtree/pyfmmlib_integration.py:644-674", "boxtree/pyfmmlib_integration.py:777-821", "boxtree/pyfmmlib_integration.py:937-978", "boxtree/pyfmmlib_integration.py:1108-1162"]}
{"id": "C109", "title": "Building, traversing and evaluating, from particles on the device to potentials of pyfmmlib, gives the direct sum", "statement": "Start with particles on the device. Build the tree, build the traversal, find the rotation classes, make a pyfmmlib wrangler from them (any kernel, orders, dipoles, in two or three dimensions) and drive the FMM. Whatever the order in which the work items of all kernels access memory, no access is out of bounds, no error is raised, and if the routines of pyfmmlib are exact then the potential returned for the caller's target j is the sum over the caller's sources of the kernel of their coordinates, weights and dipole directions, with the factor of the kernel. In particular the rotation classes found on the device give every multipole-to-local translation the matrices of its own angle.", "quantifier": "all particle sets with or without extents (not level-restricted with extents), all schedules of all kernels, all kernels, orders, weights, dipoles and exact libraries", "why_tests_cant": "The existing tests compare with tolerances for a few particle sets; a test sees one schedule per kernel, while each of the three stages on the device must hand on the right result for all of them.", "anchors": ["boxtree/tree_build.py:145-1880", "boxtree/traversal.py:1969-2345", "boxtree/rotation_classes.py:163-196", "boxtree/pyfmmlib_integration.py:81-116", "boxtree/pyfmmlib_integration.py:283-395", "boxtree/fmm.py:342-535"]}
{"id": "C110", "title": "Errors reported by pyfmmlib never lead to wrong potentials", "statement": "Whenever the routines of pyfmmlib compute correct values for all arguments for which they report no error (and whatever values they return with an error), drive_fmm with the pyfmmlib wrangler either returns exactly what it returns with routines that never fail -- with exact expansions, the direct sum over all sources at every target -- or raises RuntimeError. This holds for all routines: forming, translating and evaluating multipole and local expansions, also if many boxes are handled by one vectorized call that reports the largest code per target box. RuntimeError is raised only if some routine reports an error, and an error in forming the multipole expansion of any box with sources always raises it.", "quantifier": "all libraries and error codes that satisfy the hypothesis, both kernels, two and three dimensions, all trees, traversals, weights, orders and dipoles", "why_tests_cant": "pyfmmlib reports errors only for inputs that are hard to provoke, and whether each is noticed, in vectorized calls too, is a property of every call.", "anchors": ["boxtree/pyfmmlib_integration.py:169-191", "boxtree/pyfmmlib_integration.py:246-267", "boxtree/pyfmmlib_integration.py:676-775", "boxtree/pyfmmlib_integration.py:823-935", "boxtree/pyfmmlib_integration.py:980-1106"]}
{"id": "C111", "title": "Distributed evaluation with pyfmmlib gives the shared-memory result", "statement": "With DistributedFMMLibExpansionWrangler on every rank, the potentials on the root rank are exactly those that drive_fmm computes with FMMLibExpansionWrangler on the whole tree, for every distribution of the boxes over the ranks, every interleaving of the exchange of multipole expansions, with and without communicate_mpoles_via_allreduce, and with dipoles, provided that the routines are additive and that the rotation matrices used on the ranks have the same order as those of the shared-memory evaluation (which may depend on the number of angles in the traversal of each rank). With exact routines they are the direct sum over the caller's sources, whatever rotation matrices each rank uses. The arguments from which the shared-memory wrangler can be made are also accepted on the ranks, if each rank is given the dipoles of its own sources in the order of its local tree; dipoles that are not already reordered are refused on every rank, with AttributeError if the arguments are otherwise acceptable. The other errors are those of the shared-memory wrangler.", "quantifier": "all trees, particles, traversals with and without target extents or merged close lists, numbers of ranks, partitions, message orders, kernels, orders, weights, dipoles and rotation data that fit the rank's traversal", "why_tests_cant": "The numbers passed to pyfmmlib on a rank come from a tree and lists that depend on the partition, and the result on the order of messages; tests see a few partitions and orders.", "anchors": ["boxtree/distributed/calculation.py:419-453", "boxtree/distributed/calculation.py:85-145", "boxtree/distributed/calculation.py:271-416", "boxtree/pyfmmlib_integration.py:283-385", "boxtree/fmm.py:342-532"]}
{"id": "C112", "title": "The distributed FMM runner: costs, distribution of boxes, and potentials", "statement": "With a DistributedFMMRunner made from a tree that the tree builder built, a traversal builder and a factory of DistributedFMMLibExpansionWrangler, drive_dfmm returns on the root rank the direct sum over the caller's sources (exact routines), whatever calibration parameters are given and in every interleaving of the exchange. The cost assigned to a box is the sum of the costs of the operations charged to it, with the expansion orders the factory was given and the default calibration if none is given. Boxes are handed out in depth-first order, each to exactly one rank; multiplying all calibration parameters by the same positive number changes nothing. With calibration parameters that are not negative, an execution exists exactly if the factory can make a wrangler for the whole tree, there are no more ranks than boxes, and for every m less than the number of ranks the last m boxes in depth-first order cost less than m shares of the total; otherwise the factory or the runner raises, or a rank reads a row that was never written.", "quantifier": "all particles, trees, traversals, numbers of ranks, calibration parameters, kernels, orders, weights, dipoles, rotation data, message orders", "why_tests_cant": "Which boxes a rank gets depends on costs that depend on the whole traversal; tests see a few trees on a few ranks, and never a rank that gets no boxes.", "anchors": ["boxtree/distributed/__init__.py:154-310", "boxtree/distributed/partition.py:60-121", "boxtree/cost.py:445-525", "boxtree/cost.py:387-432", "boxtree/cost.py:152-180", "boxtree/distributed/calculation.py:419-453"]}
{"id": "C113", "title": "Work is distributed evenly over the ranks", "statement": "With costs that are not negative, the boxes partition_work returns on a rank cost at most a fair share of the total (the total cost divided by the number of ranks) if the last of them is not counted, and on the last rank even if it is; and for every other rank that is given boxes, either no box is left for the later ranks or the ranks up to it together cost more than their fair shares.", "quantifier": "all trees, costs that are not negative, numbers of ranks, and ranks that are given boxes", "why_tests_cant": "A statement about every cut of every tree for every cost function; tests check that the result is correct, not how the work is spread.", "anchors": ["boxtree/distributed/partition.py:60-121"]}
{"id": "C114", "title": "Rounding of costs cannot lose boxes or change potentials, but can leave a rank without work", "statement": "Whatever arithmetic the costs are computed and compared in (floating point of any precision, any order of summation, not-a-number included), partition_work gives every box to exactly one rank, in depth-first order, and the ranks that are given boxes are the first ones; so if all ranks are given boxes, the distributed evaluation with a library exact for its kernel returns the direct sum. With exact costs this is the partition of C112. But in double precision a rank can be left with a range that was never written although with exact arithmetic on the same costs every rank is given boxes.", "quantifier": "all arithmetics, trees, cost functions, numbers of ranks; for the potentials all valid inputs, libraries, merges and schedules; the last sentence is about the existence of costs, for every order and grouping of the summation", "why_tests_cant": "Rounding effects occur for particular costs only, and the summation order differs between machines; tests run with a few measured costs.", "anchors": ["boxtree/distributed/partition.py:60-121", "boxtree/distributed/__init__.py:180-314"]}
{"id": "C115", "title": "Refining only, coarsening only, and uniform refinement of a tree of boxes", "statement": "refine_tree_of_boxes keeps all boxes and adds exactly the children of the flagged ones; it raises ValueError exactly if a flagged box is not a leaf, and never RuntimeError. coarsen_tree_of_boxes adds no box and removes exactly the children of parents all of whose children are leaves and one of whose children is flagged; it raises ValueError exactly if a flagged box is the root or not a leaf, and RuntimeError exactly if errors are requested, all flags are valid and a flagged box has a sibling that is not a leaf. uniformly_refine_tree_of_boxes always succeeds and gives children to exactly the leaves. Applied n times to a root in d dimensions it yields a complete tree: (2^d)^k boxes on every level k up to n, none deeper, the leaves being exactly the boxes of level n.", "quantifier": "all trees of boxes reachable from a root by any requests, all flags, all ways in which sorting breaks ties, all dimensions and numbers of refinements within the range of the level type", "why_tests_cant": "Tests refine a few times in two or three dimensions; the statement is about every history of requests and every n and d.", "anchors": ["boxtree/tree_of_boxes.py:122-152", "boxtree/tree_of_boxes.py:351-385"]}
{"id": "C116", "title": "A request changes the number of boxes by a bounded amount per box flagged", "statement": "If refine_and_coarsen_tree_of_boxes accepts a request, the number of boxes grows by 2^d for every box flagged for refinement and shrinks by 2^d for every box that loses its children, i.e. every box one of whose children is flagged for coarsening and all of whose children are leaves not flagged for refinement; there are at most as many such boxes as boxes flagged for coarsening. So, as the documentation says, the change in the number of boxes is bounded per box flagged.", "quantifier": "all trees of boxes reachable from a root by any requests, all flags, all ways in which sorting breaks ties, all dimensions", "why_tests_cant": "Several flagged siblings remove their family once only; tests compare counts for a few requests, the statement is about all combinations of flags.", "anchors": ["boxtree/tree_of_boxes.py:351-385", "boxtree/tree_of_boxes.py:220-282", "boxtree/tree_of_boxes.py:326-348"]}
{"id": "C117", "title": "Requests that keep box numbers, and undoing a uniform refinement", "statement": "Refining only leaves of the deepest level of a tree of boxes succeeds and renumbers nothing, whatever order the sort would give: every existing box keeps its number, level, centre and parent, boxes that are not flagged keep their children, and child m of the j-th flagged box gets number nboxes + 2^d j + m. A request without any flags returns a tree with the same boxes under the same numbers, with the same levels, parents, children, centres and flags. Coarsening with all leaves flagged is accepted after a uniform refinement and gives back the boxes there were before, up to their numbers.", "quantifier": "all trees of boxes reachable from a root by any requests, all sets of flagged leaves of the deepest level, all dimensions, all results of the sort", "why_tests_cant": "Data attached to box numbers stays valid only if this holds for every history and every set of flags; the sort is not stable and may differ between machines.", "anchors": ["boxtree/tree_of_boxes.py:122-128", "boxtree/tree_of_boxes.py:155-217", "boxtree/tree_of_boxes.py:285-348", "boxtree/tree_of_boxes.py:351-385"]}
