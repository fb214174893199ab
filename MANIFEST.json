{"claims": [
{"property": "C01", "status": "proved", "theorems": ["C01_compare_is_curve_order", "C01_compare_total_order", "C01_valid_quadrants"], "note": ""},
{"property": "C02", "status": "proved", "theorems": ["C02_linear_id_set_morton", "C02_64bit_versions", "C02_extended_round_trip", "C02_order_and_coarser_id"], "note": "64 bit functions agree with the 128 bit ones while the id fits 64 bits"},
{"property": "C03", "status": "proved", "theorems": ["C03_children_partition", "C03_sibling_parent"], "note": ""},
{"property": "C04", "status": "proved", "theorems": ["C04_ancestor_and_overlap", "C04_ancestor_unique"], "note": ""},
{"property": "C05", "status": "proved", "theorems": ["C05_nearest_common_ancestor"], "note": ""},
{"property": "C06", "status": "proved", "theorems": ["C06_descendants", "C06_successor"], "note": ""},
{"property": "C07", "status": "partial", "theorems": ["C07_is_next_refuted", "C07_is_next_partial"], "note": "The documented statement is false (refuted by witness); the exact meaning is proved"},
{"property": "C08", "status": "partial", "theorems": ["C08_sorted_linear", "C08_complete_refuted", "C08_complete_partial"], "note": "Sorted and linear are exact; the completeness check accepts arrays with holes (refuted by witness)"},
{"property": "C09", "status": "partial", "theorems": ["C09_is_family_refuted", "C09_is_family_partial", "C09_consecutive_ids"], "note": "The family test ignores alignment (refuted by witness); exact if the first quadrant has child id 0. The second sentence (consecutive ids in a gap-free array) is proved in full"},
{"property": "C10", "status": "proved", "theorems": ["C10_face_neighbor", "C10_corner_neighbor", "C10_edge_neighbor", "C10_half_size_neighbors"], "note": "Stated on closed boxes of lattice points"},
{"property": "C11", "status": "proved", "theorems": ["C11_face_transform", "C11_isometry", "C11_containment"], "note": "All faces and orientations, with the 32 bit arithmetic"},
{"property": "C12", "status": "proved", "theorems": ["C12_face_neighbor_corner", "C12_face_neighbor_edge"], "note": "Finite domain, checked completely; the 3D edge maps as well"},
{"property": "C13", "status": "proved", "theorems": ["C13_lower_bound", "C13_higher_bound"], "note": "all sorted arrays of 32-bit quadrants, all guesses inside the array; termination and bounds included"},
{"property": "C14", "status": "proved", "theorems": ["C14_split_array"], "note": "sc_array_split modelled by its contract"},
{"property": "C15", "status": "proved", "theorems": ["C15_search_tree", "C15_search_forest", "C15_all_leaves", "C15_prune", "C15_points"], "note": "search nodes characterised independently (leaves, and quadrants with leaves in two children); arbitrary stateful callbacks via the run protocol, closed-form traces for predicate callbacks"},
{"property": "C16", "status": "partial", "theorems": ["C16_cut_monotone", "C16_equal_shares_refuted", "C16_equal_shares_double_refuted", "C16_equal_shares_partial"], "note": "Monotone cuts with the right ends are proved for all counts with the floating point rounding; 'shares differ by at most one' is refuted for N*P > 2^64 by witness and proved for N*P <= 2^prec"},
{"property": "C17", "status": "proved", "theorems": ["C17_weighted_counts", "C17_zero_weights", "C17_weight_bound", "C17_messages"], "note": "Weighted branch of p4est_partition_ext, all ranks with their messages: counts are non-negative and sum to the global number, cut p is the lowest index whose prefix weight reaches the p-th share, every process's weight without its last element is at most its share, and every receive has exactly one matching message and vice versa. Total weight below 2^63 (the code's int64_t), P < 2^31, long double of 53 to 64 bits."},
{"property": "C18", "status": "proved", "theorems": ["C18_partition_given"], "note": "p4est_partition_given on all ranks: no access outside arrays, no missing message, global sequence and data unchanged, prescribed counts, new gfq, return value; data travel with their leaf (one list of elements)"},
{"property": "C19", "status": "proved", "theorems": ["C19_partition_given", "C19_transfer_fixed", "C19_transfer_items"], "note": "messages of partition_given, transfer_fixed, transfer_custom and transfer_items"},
{"property": "C20", "status": "proved", "theorems": ["C20_transfer_fixed", "C20_transfer_items", "C20_transfer_disjoint"], "note": "byte counts are unbounded integers; MPI delivers each message to the receive posted for its sender"},
{"property": "C21", "status": "proved", "theorems": ["C21_correction", "C21_fixed_point", "C21_partition", "C31_histories_with_coarsening_flag"], "note": "The correction is modelled rank by rank with its messages; memory before partition_now holds a non-negative number (C22). With all-zero weights the code returns before the correction."},
{"property": "C22", "status": "partial", "theorems": ["C22_in_bounds_partial", "C22_in_bounds_refuted"], "note": "False in general: C22_in_bounds_refuted shows that p4est_partition (p4est, 1, NULL) on a new forest of 8 quadrants on 4 ranks reads partition_now[-1]. C22_in_bounds_partial proves it in bounds whenever no new range begins at 1..2^d-2 in a larger forest."},
{"property": "C23", "status": "proved", "theorems": ["C23_find_owner", "C23_find_owner_forest", "C23_bsearch_partition"], "note": "sc_bsearch_range is modelled from its documentation (libsc is not in the repository)"},
{"property": "C24", "status": "proved", "theorems": ["C24_find_partition", "C24_end_refuted"], "note": "the header's remark on end = num_procs - 1 is refuted; sc_array_split modelled by its contract"},
{"property": "C25", "status": "proved", "theorems": ["C25_count_pertree", "C25_messages"], "note": "p4est_comm_count_pertree: the result is the running sum of the true global per-tree counts for every forest whose leaves cover all trees, whatever empty ranks and shared trees there are; and the point-to-point messages match in both directions (no rank waits forever, no message is left over)."},
{"property": "C26", "status": "proved", "theorems": ["C26_global_partition"], "note": ""},
{"property": "C27", "status": "proved", "theorems": ["C27_refine_tree", "C27_refine_tiles", "C27_refine_recursive_exact"], "note": "single tree; loop ends, array/list algorithm equals recursive refinement for all stateful callbacks; tiling, counters, exact result for pure decisions"},
{"property": "C28", "status": "proved", "theorems": ["C28_unread_intact"], "note": "all reachable states of the work loop"},
{"property": "C29", "status": "proved", "theorems": ["C29_coarsen_tree", "C29_nonrecursive_one_pass", "C29_nonrecursive_one_level"], "note": "single tree, all stateful callbacks; termination and bounds included"},
{"property": "C30", "status": "proved", "theorems": ["C30_fixed_point", "C30_recursive_exact"], "note": "single tree; fixed point and exact characterisation of the resulting leaves"},
{"property": "C31", "status": "proved", "theorems": ["C31_valid_forest", "C31_refine_exists", "C31_refine", "C31_coarsen", "C31_partition", "C31_histories", "C31_find_owner"], "note": "Histories of new, refine, coarsen and partition (all ranks, any callbacks, any weights whose sum fits 64 bits), without partition_for_coarsening."},
{"property": "C32", "status": "proved", "theorems": ["C32_complete_region", "C32_complete_region_inside"], "note": "complete_region fills the gap between disjoint ends (or up to a descendant) with the maximal quadrants, in order, each initialised once; counters and maximum level exact"},
{"property": "C33", "status": "proved", "theorems": ["C33_linearize"], "note": "linearize_tree keeps exactly the leaves containing no later one; counters, freed data and removed count exact"},
{"property": "C34", "status": "proved", "theorems": ["C34_initial_level", "C34_new_ext", "C31_valid_forest"], "note": "Level choice, validity and markers for both fill modes; the exact list and shares for fill_uniform."},
{"property": "C35", "status": "proved", "theorems": ["C35_save_load", "C35_same_ranks", "C35_refused"], "note": "Serial file I/O; user data as bytes. MPI I/O variant not modelled."},
{"property": "C36", "status": "partial", "theorems": ["C36_truncated", "C36_truncated_refuted", "C36_partition_read_refuted"], "note": "Cut files are refused; a failing partition read (its return value is ignored in the code) is not, and a cut in unwanted data of the last leaf goes unseen when reading from a file."},
{"property": "C37", "status": "proved", "theorems": ["C37_deflate_inflate", "C37_without_data", "C37_same_ranks"], "note": "The arrays of all ranks put together may be cut anew in any way that gives each rank a non-negative number of quadrants; inflate then succeeds, the result is a valid forest and has the same leaves and data in the same order. Also for the case without data. With the same cut every rank gets exactly its own leaves. Per-tree counts are those of p4est_comm_count_pertree. Trees must be nonempty, as they are in every valid forest."},
{"property": "C38", "status": "proved", "theorems": ["C38_marks", "C38_adapt", "C38_histories"], "note": "Marks of every history; the outcome of adapt leaf by leaf on every rank of every valid forest; histories of mark, adapt and partition. Balance is a parameter of adapt."},
{"property": "C39", "status": "partial", "theorems": ["C39_adapt", "C39_adapt_exists", "C39_reports_change_refuted"], "note": "With zlib true means that the mesh changed; false means that it did not, or that two meshes share leaf count and checksum. That the value is exact is refuted by an Adler-32 collision, which also zeroes memory outside the flag arrays. Balance is a parameter."},
{"property": "C40", "status": "proved", "theorems": ["C40_partition"], "note": "The window on every rank of every valid forest."},
{"property": "C41", "status": "proved", "theorems": ["C41_combine", "C41_checksum", "C41_partition_independent"], "note": "zlib's adler32 and adler32_combine are modelled as documented"},
{"property": "C42", "status": "proved", "theorems": ["C42_build", "C42_added", "C42_add_twice"], "note": "Calls must name local trees and quadrants in the range of the rank, in curve order (the documented preconditions); repeated quadrants are allowed. The result is the coarsest tiling of the same range that contains the added leaves, with the callbacks and the return values."},
{"property": "C43", "status": "proved", "theorems": ["C43_round_trip", "C43_accepts_valid", "C43_truncated", "C43_attr_size_refuted"], "note": "C43_attr_size_refuted: the attribute size is computed with overflow, so an accepted file may claim attributes that are not there"},
{"property": "C44", "status": "partial", "theorems": ["C44_in_bounds_partial", "C44_in_bounds_refuted", "C44_source_refuted"], "note": "False in general: C44_in_bounds_refuted gives tables of the allocated sizes for which p4est_connectivity_is_valid reads outside of them, C44_source_refuted gives files. C44_in_bounds_partial proves it in bounds under conditions on the corner and edge numbers and on the first offset; each condition is shown to be needed"},
{"property": "C45", "status": "proved", "theorems": ["C45_faces_symmetric", "C45_crossing_injective"], "note": ""},
{"property": "C46", "status": "proved", "theorems": ["C46_refine", "C46_coarsen", "C46_partition", "C46_partition_for_coarsening", "C46_histories"], "note": "A change is a change of the leaves of some rank; the callbacks of refine may change user data without changing the revision."},
{"property": "C47", "status": "proved", "theorems": ["C47_find_quadrant_cumulative"], "note": ""},
{"property": "C48", "status": "proved", "theorems": ["C48_corner_neighbors"], "note": ""},
{"property": "C49", "status": "partial", "theorems": ["C49_edge_neighbors", "C49_listed_once_refuted"], "note": "Which edges are listed is proved; 'once each' is refuted: the validity check notices a repetition only between consecutive occurrences"},
{"property": "C50", "status": "partial", "theorems": ["C50_accepts_valid", "C50_counters_partial", "C50_disjoint_partial", "C50_missing_refuted", "C50_hole_refuted", "C50_overlap_refuted", "C50_misaligned_refuted", "C50_gfq_refuted", "C50_levels_refuted"], "note": "Every valid forest is accepted (proved). What acceptance gives is proved: counters, offsets and descendants agree with the leaves, local tree range, order and disjointness when leaves and markers are valid and markers ascend. That leaves cover the trees, do not overlap, are valid quadrants, that the level counters and inner global_first_quadrant entries are right is refuted by witnesses."},
{"property": "C51", "status": "partial", "theorems": ["C51_valid_input", "C51_safe_partial", "C51_safe_refuted", "C51_only_valid_refuted"], "note": "Input from a valid forest gives this forest (proved). Undefined behaviour for levels outside 0..30 and for trees without quadrants, and acceptance of a forest with a gap, are refutations. Proved safe when the arrays describe leaves of levels 0..30 with at least one in every tree; a forest that is then returned has exactly these leaves and, if they are valid quadrants, no two overlap."},
{"property": "C52", "status": "partial", "theorems": ["C52_collision", "C52_separates_refuted"], "note": "refuted: on three ranks the partitions n,m,1 and n,0,m+1 always collide"},
{"property": "C53", "status": "proved", "theorems": ["C53_complete_subtree", "C53_empty"], "note": "For every sorted disjoint list with right counters and range. Refill, the order of the init calls, is a specification beside the model. Completion of the empty list does nothing (C53_empty)."},
{"property": "C54", "status": "proved", "theorems": ["C54_enlarge_first", "C54_enlarge_last"], "note": ""},
{"property": "C55", "status": "proved", "theorems": ["C55_balance_subtree", "C55_balance_twice"], "note": "For trees that are complete between first_desc and last_desc. Ghost quadrants of other ranks or trees (the exterior quadrants of the header) are not modelled. bsearch is any function with the contract of the C standard."},
{"property": "C56", "status": "partial", "theorems": ["C56_balance_gaps_refuted"], "note": "False of the code: refuted with a range that begins deeper than any leaf. What holds is C55: complete trees."},
{"property": "C57", "status": "proved", "theorems": ["C57_protocol", "C57_quadrants", "C57_points", "C57_forest"], "note": "for all valid marker arrays and all callbacks; C57_forest shows that the markers of every complete forest are valid"},
{"property": "C58", "status": "partial", "theorems": ["C58_find_range_boundaries_partial", "C58_find_range_boundaries_refuted"], "note": "proved for all ranges except those of one smallest quadrant (lq and uq given and equal) in a larger quadrant; for these the statement is refuted: the recursion passes the last level and bits are missing"},
{"property": "C59", "status": "partial", "theorems": ["C59_ghost_send_partial", "C59_corner_refuted", "C59_single_refuted"], "note": "Proved for forests where no rank has just one leaf of the highest level and, if edges or corners count, for connectivities where trees that meet at an edge or corner also have a neighbor across some face there. Both conditions are needed: refuted without them, and p4est_ghost_new then deadlocks."},
{"property": "C60", "status": "partial", "theorems": ["C60_ghost_layer_partial"], "note": "All ranks, all connection types, any complete forest. Not covered: a rank with exactly one smallest quadrant and trees that meet only at an edge or corner (both refuted, see C59), and in 3D with edge or corner connections a connectivity that lists a tree edge twice."},
{"property": "C61", "status": "partial", "theorems": ["C61_ghost_search", "C61_forest_search_partial", "C61_any_tree_refuted"], "note": "proved for every layer in order and every tree; on the layer of p4est_ghost_new under the hypotheses of C60; refuted for which_tree = -1, which the header allows: the window of several trees is not sorted"},
{"property": "C62", "status": "partial", "theorems": ["C62_quadrant_exists_partial"], "note": "on the ghost layer of C60 and under its hypotheses (connected trees, no rank with a single smallest quadrant; 3D: no tree edge listed twice for connections beyond faces)"},
{"property": "C63", "status": "partial", "theorems": ["C63_exchange_custom_partial", "C63_exchange_data_partial"], "note": "p4est_ghost_exchange_data, _custom and _custom_levels for data of any type and any order of arrival. Partial as for C60: no rank with a single smallest leaf, trees meeting at an edge or corner have a face neighbor there, tree edges of 3D listed once. Only the blocking combination of begin and end; data_size 0 (no exchange) is not modelled."},
{"property": "C64", "status": "partial", "theorems": ["C64_is_balanced_partial", "C64_hang_refuted"], "note": "Proved for neighbors across faces: the call returns true exactly for the balanced forests, and never goes outside of an array. Refuted: for some unbalanced forests it does not return. Missing: edges and corners are not modelled; no rank may have just one leaf of the highest level."},
{"property": "C65", "status": "partial", "theorems": ["C65_search_forest_partial", "C65_all_leaves", "C65_subset_refuted"], "note": "Proved when the reorder callback keeps all trees at the root level; below the roots it may choose any subset.  Refuted for a subset of the trees: the code reads beyond the end of the shrunk index array.  The callbacks answer by functions of their arguments and all three are given."},
{"property": "C66", "status": "partial", "theorems": ["C66_neighbor_transforms", "C66_listed", "C66_faces_symmetric", "C66_overflow_refuted"], "note": "listed transforms, agreement with the find functions, round trip and symmetry across faces proved for all accepted connectivities; the forward map overflows int32 for some points of the closed tree away from the interface (refuted)"},
{"property": "C67", "status": "partial", "theorems": ["C67_minimum", "C67_same_images", "C67_face_canonical", "C67_edge_canonical", "C67_corner_canonical", "C67_not_canonical_refuted"], "note": "minimum of the images for all points; equal for all images on faces, and on edges and corners that are numbered consistently; refuted without that, since p4est_connectivity_is_valid does not check it"},
{"property": "C68", "status": "partial", "theorems": ["C68_permute", "C68_attributes_refuted", "C68_no_vertices_refuted"], "note": "proved for connectivities with vertices, except for the attributes; refuted: attributes are not moved, and a valid connectivity without vertices makes the code read a NULL array"},
{"property": "C69", "status": "proved", "theorems": ["C69_reduce"], "note": ""},
{"property": "C70", "status": "proved", "theorems": ["C70_brick", "C70_countable", "C70_translation"], "note": "Arrays are modelled by the sequence of writes; double coordinates by a conversion function. Integer overflow is excluded by hypothesis; C70_countable shows that up to 89 million trees are within range."},
{"property": "C71", "status": "partial", "theorems": ["C71_complete_valid", "C71_complete_neighbors", "C71_periodicity_lost_refuted", "C71_valid_stays_valid_refuted"], "note": "proved: validity of the result, exact faces with orientation, exact corner and edge neighbors for connectivities whose unpaired faces are on the boundary and whose faces have distinct vertices that match by a face map. Refuted: periodicity that is not in the vertices is lost; a valid input gives a valid result even if a face was linked to another face than its vertices say"},
{"property": "C72", "status": "partial", "theorems": ["C72_join_faces_2d", "C72_join_faces_2d_neighbors", "C72_faces_linked_partial", "C72_join_edges_3d_refuted"], "note": "2D in full: validity, linked faces, and the corners that meet, also as reported by p4est_find_corner_transform. 3D: the linked faces are proved for every result; the orientation of edges is refuted by three cubes: p8est_connectivity_join_edges toggles flips as if the edge of the left tree were stored without flip. Missing: validity and corners in 3D."},
{"property": "C73", "status": "partial", "theorems": ["C73_is_equal", "C73_is_equivalent", "C73_equivalence", "C73_join_order_2d", "C73_join_sides_2d", "C73_join_order_3d_refuted"], "note": "exact meaning of both functions, memory safety and equivalence relation proved in 2D and 3D; independence of the order and of the sides of joins proved in 2D; in 3D refuted by three cubes, whose joins in two orders give connectivities that are not equivalent"},
{"property": "C74", "status": "proved", "theorems": ["C74_nodes_are_corners", "C74_clamp", "C74_unclamp", "C74_to_quadrant", "C74_corner_quadrant", "C74_ancestor_face", "C74_ancestor_corner"], "note": "2D and 3D, all levels; every quadrant and lattice point is covered."},
{"property": "C75", "status": "proved", "theorems": ["C75_quadrant", "C75_faces"], "note": "Valid quadrants only; the reverse is proved on images of valid quadrants."}
]}
