{"id": "C01", "title": "Quadrant comparison is the Morton order", "statement": "p4est_quadrant_compare orders any two quadrants (inside the root or extended) by the Z-curve position of their lower-left corner and, for equal corners, by level (ancestor first). It is antisymmetric, transitive, total, and returns 0 exactly for equal quadrants, so sorting and binary searching with it is well defined; p4est_quadrant_disjoint returns 0 exactly when one of the two quadrants contains the other and otherwise agrees with the order.", "quantifier": "all pairs and triples of quadrants with arbitrary 32-bit coordinates and any level, in 2D and 3D", "why_tests_cant": "about 2^64 position pairs per comparison; the exclusive-or trick that finds the most significant differing bit can be wrong on isolated bit patterns", "anchors": ["src/p4est_bits.c:p4est_quadrant_compare", "src/p4est_bits.c:p4est_quadrant_disjoint", "src/p4est_bits.c:p4est_quadrant_is_equal"]}
{"id": "C02", "title": "Linear id and set_morton are inverse bijections", "statement": "For every level, p4est_quadrant_set_morton maps 0 .. num_at_level-1 one to one onto the valid quadrants of that level, p4est_quadrant_linear_id is its inverse, and the order of ids is the order of p4est_quadrant_compare. Asking for the id at a coarser level gives the id of the ancestor.", "quantifier": "all levels, all ids/quadrants, both dimensions", "why_tests_cant": "up to 2^58 (2D) / 2^87 (3D) ids", "anchors": ["src/p4est_bits.c:p4est_quadrant_linear_id", "src/p4est_bits.c:p4est_quadrant_set_morton"]}
{"id": "C03", "title": "Children partition their parent", "statement": "Every valid non-maximal quadrant is the disjoint union of its children: each lattice point of the parent lies in exactly one child, child ids returned for the children are 0..2^d-1 in curve order, the parent of each child is the quadrant itself, and sibling(q,i) equals child i of parent(q).", "quantifier": "all valid quadrants, all child ids, all lattice points", "why_tests_cant": "infinite-like input space (2^30 coordinates per axis)", "anchors": ["src/p4est_bits.c:p4est_quadrant_child", "src/p4est_bits.c:p4est_quadrant_parent", "src/p4est_bits.c:p4est_quadrant_child_id", "src/p4est_bits.c:p4est_quadrant_sibling", "src/p4est_bits.c:p4est_quadrant_childrenv", "src/p4est_bits.c:p4est_quadrant_ancestor_id"]}
{"id": "C04", "title": "Two quadrants are nested or disjoint; ancestor tests are exact", "statement": "For valid quadrants, is_ancestor(q,r) holds exactly when r's region is strictly inside q's region; overlaps(q,r) holds exactly when the regions share a lattice point; hence quadrants either are nested or share no point. The ancestor computed at a level is the unique quadrant of that level containing q.", "quantifier": "all pairs of valid quadrants", "why_tests_cant": "pairs of 2^30-coordinate quadrants cannot be enumerated", "anchors": ["src/p4est_bits.c:p4est_quadrant_is_ancestor", "src/p4est_bits.c:p4est_quadrant_overlaps", "src/p4est_bits.c:p4est_quadrant_ancestor"]}
{"id": "C05", "title": "Nearest common ancestor is the smallest common container", "statement": "p4est_nearest_common_ancestor(q1,q2) contains both q1 and q2 and every quadrant containing both also contains it.", "quantifier": "all pairs of valid quadrants, 2D and 3D", "why_tests_cant": "needs all candidate containers of all pairs", "anchors": ["src/p4est_bits.c:p4est_nearest_common_ancestor", "src/p4est_bits.c:p4est_nearest_common_ancestor_D"]}
{"id": "C06", "title": "First and last descendants and successor/predecessor", "statement": "first_descendant/last_descendant(q,l) are the smallest and largest level-l quadrants inside q; successor and predecessor move by exactly one along the curve at the same level and are inverse to one another.", "quantifier": "all valid quadrants and admissible levels", "why_tests_cant": "unbounded family of inputs", "anchors": ["src/p4est_bits.c:p4est_quadrant_first_descendant", "src/p4est_bits.c:p4est_quadrant_last_descendant", "src/p4est_bits.c:p4est_quadrant_successor", "src/p4est_bits.c:p4est_quadrant_predecessor"]}
{"id": "C07", "title": "is_next means 'no gap between the two quadrants'", "statement": "Documented contract of p4est_quadrant_is_next(q,r): r is the immediate successor of q along the curve, i.e. no lattice position lies after the end of q and before the start of r.", "quantifier": "all pairs of valid quadrants", "why_tests_cant": "violations need particular level differences", "anchors": ["src/p4est_bits.c:p4est_quadrant_is_next", "src/p4est_bits.c:p4est_quadrant_is_next_D"]}
{"id": "C08", "title": "Tree completeness/linearity checks are exact", "statement": "p4est_tree_is_sorted / is_linear accept exactly the strictly increasing / non-overlapping arrays; p4est_tree_is_complete accepts exactly the arrays that are non-overlapping and leave no gap between their first and last quadrant.", "quantifier": "all arrays of valid quadrants of any length", "why_tests_cant": "arrays of arbitrary length", "anchors": ["src/p4est_algorithms.c:p4est_tree_is_sorted", "src/p4est_algorithms.c:p4est_tree_is_linear", "src/p4est_algorithms.c:p4est_tree_is_complete"]}
{"id": "C09", "title": "Family test is exact", "statement": "is_family/is_familyv accept 2^d quadrants exactly when they are, in order, the children of one common quadrant. In an array without gaps and overlaps, 2^d consecutive quadrants with child ids 0,1,...,2^d-1 are a family.", "quantifier": "all tuples of valid quadrants; all gap-free arrays", "why_tests_cant": "all levels and positions", "anchors": ["src/p4est_bits.c:p4est_quadrant_is_family", "src/p4est_bits.c:p4est_quadrant_is_familyv", "src/p4est.c:p4est_coarsen_ext"]}
{"id": "C10", "title": "Face and corner neighbours", "statement": "Crossing face f and then the opposite face returns to the start; the face neighbour has the same level and touches q exactly in face f; the corner neighbour touches q exactly in that corner; the neighbour is inside the root exactly when the face is not on the root boundary.", "quantifier": "all valid quadrants, all faces and corners", "why_tests_cant": "all positions and levels", "anchors": ["src/p4est_bits.c:p4est_quadrant_face_neighbor", "src/p4est_bits.c:p4est_quadrant_corner_neighbor", "src/p4est_bits.c:p4est_quadrant_is_inside_root", "src/p4est_bits.c:p4est_quadrant_touches_corner"]}
{"id": "C11", "title": "Face transformations between trees are invertible isometries", "statement": "Transforming a quadrant through a face connection and back through the reciprocal connection gives the original quadrant, for every combination of the two faces and the orientation; the transformed quadrant has the same level, an exterior quadrant just outside face f lands inside the neighbour tree against its face, and containment between quadrants is preserved.", "quantifier": "all faces, neighbour faces, orientations, all quadrants outside the face", "why_tests_cant": "144 / 12 transforms times 2^90 positions", "anchors": ["src/p4est_bits.c:p4est_quadrant_transform_face", "src/p4est_bits.c:p4est_coordinates_transform_face", "src/p4est_connectivity.c:p4est_expand_face_transform"]}
{"id": "C12", "title": "Corner numbering across a face connection is consistent", "statement": "p4est_connectivity_face_neighbor_corner is a bijection between the corners of the two faces, its inverse is the same map with the faces swapped, and it agrees with the geometric face transformation of the corner point.", "quantifier": "all faces, orientations and corners", "why_tests_cant": "finite; tests sample, here the entire domain and the geometric meaning for all levels is covered", "anchors": ["src/p4est_connectivity.c:p4est_connectivity_face_neighbor_face_corner", "src/p4est_connectivity.c:p4est_connectivity_face_neighbor_corner"]}
{"id": "C13", "title": "Binary search in quadrant arrays", "statement": "p4est_find_lower_bound returns the lowest index whose quadrant is >= the query and p4est_find_higher_bound the highest index whose quadrant is <= the query, -1 if there is none, for every sorted array and every starting guess; no index outside the array is read and the loop terminates.", "quantifier": "all sorted arrays, queries and guesses", "why_tests_cant": "loop correctness for all lengths and guesses", "anchors": ["src/p4est_search.c:p4est_find_lower_bound", "src/p4est_search.c:p4est_find_higher_bound"]}
{"id": "C14", "title": "Splitting an array by children", "statement": "p4est_split_array returns nondecreasing split indices such that children i of the given ancestor own exactly the quadrants in [indices[i],indices[i+1]).", "quantifier": "all sorted linear arrays inside an ancestor", "why_tests_cant": "arbitrary arrays", "anchors": ["src/p4est_search.c:p4est_split_array"]}
{"id": "C15", "title": "Local search visits every leaf once", "statement": "With a callback that always descends, p4est_search_local calls it exactly once per local leaf, in curve order, with the correct local number, and once per occupied branch before its leaves; when the callback returns false on a branch nothing below that branch is visited and all other branches are unaffected; point queries reach a leaf exactly if accepted by all its ancestors.", "quantifier": "all local arrays, all callbacks", "why_tests_cant": "all callback behaviours and meshes", "anchors": ["src/p4est_search.c:p4est_search_local", "src/p4est_search.c:p4est_search_local_loop / p4est_local_recursion"]}
{"id": "C16", "title": "Equal partition cuts", "statement": "p4est_partition_cut_gloidx(N,p,P) is nondecreasing in p, is 0 at p=0 and N at p=P, and any two processes' shares differ by at most one; no intermediate value leaves the 64 bit range for N < 2^63 when computed with the documented rounding.", "quantifier": "all N, P, p", "why_tests_cant": "all counts", "anchors": ["src/p4est_base.h / p4est.h:p4est_partition_cut_gloidx"]}
{"id": "C17", "title": "Weighted partition assigns contiguous, weight-bounded ranges", "statement": "For every weight function with non-negative weights, the new counts computed in parallel by p4est_partition_ext are non-negative, sum to the global count, and put cut p at the lowest element index whose prefix weight reaches the p-th equal share of the total weight, so each process's weight is at most its equal share plus one element; every computed cut message has exactly one sender and one receiver.", "quantifier": "all global meshes, weights, rank counts and old distributions", "why_tests_cant": "parallel runs with arbitrary distributions (including empty ranks)", "anchors": ["src/p4est.c:p4est_partition_ext"]}
{"id": "C18", "title": "Partitioning preserves the global mesh and its data", "statement": "p4est_partition_given with any new counts summing to the global number moves quadrants between processes without loss, duplication or reordering: concatenating the ranks' leaves (with user data) gives the same sequence before and after, each rank holds exactly its prescribed count, and the return value is the number of quadrants whose owner changed.", "quantifier": "all old and new distributions over any number of ranks", "why_tests_cant": "all distributions; empty ranks; multi-tree splits", "anchors": ["src/p4est_algorithms.c:p4est_partition_given"]}
{"id": "C19", "title": "Send and receive sets match", "statement": "In p4est_partition_given, p4est_transfer_fixed/custom/items: rank i posts a message for rank j exactly if rank j waits for a message from rank i, and both compute the same number of elements, so the exchange neither hangs nor leaves unmatched messages.", "quantifier": "all pairs of distributions, all ranks", "why_tests_cant": "every pair of distributions; mismatches show up as deadlocks", "anchors": ["src/p4est_algorithms.c:p4est_partition_given", "src/p4est_communication.c:p4est_transfer_fixed_begin", "src/p4est_communication.c:p4est_transfer_custom_begin"]}
{"id": "C20", "title": "Data transfer follows the partition", "statement": "After p4est_transfer_fixed (custom, items) each destination rank's array holds, in global order, the data items that belong to its new elements; nothing else is written.", "quantifier": "all source/destination distributions and data sizes (zero sizes included)", "why_tests_cant": "arbitrary sizes per element", "anchors": ["src/p4est_communication.c:p4est_transfer_fixed", "src/p4est_communication.c:p4est_transfer_custom", "src/p4est_communication.c:p4est_transfer_items"]}
{"id": "C21", "title": "Partition for coarsening never splits a family", "statement": "With partition_for_coarsening the corrected counts stay non-negative and sum to the global number and all 2^d siblings of every complete family of leaves lie on the same rank, moving every cut by less than a family.", "quantifier": "all leaf sequences and all proposed cuts", "why_tests_cant": "all cut positions relative to all families and ranks", "anchors": ["src/p4est.c:p4est_partition_for_coarsening", "src/p4est_algorithms.c:p4est_partition_correction", "src/p4est_algorithms.c:p4est_next_nonempty_process"]}
{"id": "C22", "title": "Partition for coarsening stays within its arrays", "statement": "The communication-set computation of p4est_partition_for_coarsening only reads the partition arrays at indices 0..P.", "quantifier": "all process counts, element counts and cuts", "why_tests_cant": "heap over-reads are silent", "anchors": ["src/p4est.c:p4est_partition_for_coarsening", "src/p4est_search.c:p4est_find_partition"]}
{"id": "C23", "title": "Owner search is exact", "statement": "p4est_comm_find_owner and p4est_comm_is_owner identify for every position the unique non-empty rank whose range contains it, for every partition including runs of empty ranks and every guess.", "quantifier": "all partitions, positions and guesses", "why_tests_cant": "arbitrary runs of empty ranks", "anchors": ["src/p4est_communication.c:p4est_comm_find_owner", "src/p4est_communication.c:p4est_comm_is_owner", "src/p4est_communication.c:p4est_bsearch_partition"]}
{"id": "C24", "title": "Partition search by inclusive ranges", "statement": "p4est_find_partition returns the lowest process indices whose array values are not below the begin and end keys, as documented.", "quantifier": "all sorted arrays and keys", "why_tests_cant": "array length and key position arbitrary", "anchors": ["src/p4est_search.c:p4est_find_partition", "src/p4est_search.h:p4est_find_partition"]}
{"id": "C25", "title": "Global per-tree counts", "statement": "p4est_comm_count_pertree returns on every rank the same cumulative array whose difference at tree t equals the global number of leaves in tree t, for every distribution of trees over ranks, including trees spanning many ranks and empty ranks.", "quantifier": "all distributions of leaves to ranks and trees", "why_tests_cant": "all spans of trees over ranks", "anchors": ["src/p4est_communication.c:p4est_comm_count_pertree"]}
{"id": "C26", "title": "Global first positions with empty ranks", "statement": "After p4est_comm_global_partition the marker array is non-decreasing, ends with the sentinel, and a rank is empty exactly when its marker equals its successor's; the markers bound the rank's leaves.", "quantifier": "all rank/leaf distributions", "why_tests_cant": "runs of empty ranks in any position", "anchors": ["src/p4est_communication.c:p4est_comm_global_partition", "src/p4est_communication.c:p4est_comm_is_empty_gfp", "src/p4est_communication.c:p4est_comm_is_contained"]}
{"id": "C27", "title": "Refinement computes the recursive refinement", "statement": "p4est_refine_ext replaces each leaf by the leaves obtained by recursively splitting it as long as the user callback asks (once if not recursive) and the level is below the allowed maximum; leaves stay in curve order; every callback invocation, with any side effects it has, happens exactly once per candidate in curve (preorder) sequence, and user data is initialised exactly for created leaves.", "quantifier": "all leaf arrays, all (stateful) callbacks, recursive and not, all allowed levels", "why_tests_cant": "callbacks and meshes arbitrary; in-place buffer reuse is subtle", "anchors": ["src/p4est.c:p4est_refine_ext"]}
{"id": "C28", "title": "Refinement never overwrites an unread leaf", "statement": "During refinement in the grown array no leaf is overwritten before it has been read, the work list does not run empty while leaves remain, and no index outside the array is used.", "quantifier": "all arrays and refinement patterns", "why_tests_cant": "memory-safety over all patterns of growth vs. look-ahead", "anchors": ["src/p4est.c:p4est_refine_ext"]}
{"id": "C29", "title": "Coarsening replaces only complete families and keeps the covered region", "statement": "p4est_coarsen_ext only replaces 2^d siblings by their parent, in nonrecursive mode each resulting leaf is at most one level coarser, the resulting array is linear and covers the same region, and no index outside the array is accessed.", "quantifier": "all leaf arrays, all callbacks", "why_tests_cant": "window arithmetic for all family patterns", "anchors": ["src/p4est.c:p4est_coarsen_ext"]}
{"id": "C30", "title": "Recursive coarsening reaches a fixed point", "statement": "After recursive p4est_coarsen_ext with a state-independent decision, no complete family of local leaves remains for which the callback answers yes.", "quantifier": "all leaf arrays and decision predicates", "why_tests_cant": "arbitrary recursion patterns", "anchors": ["src/p4est.c:p4est_coarsen_ext"]}
{"id": "C31", "title": "Operations preserve a valid tiling", "statement": "Starting from a new forest, any sequence of refine, coarsen and partition operations with any callbacks keeps: every tree exactly tiled by its leaves across ranks, leaves sorted, and per-tree counters (local count, tree offset, per-level counts) equal to what the leaves say.", "quantifier": "all operation histories, callbacks, rank counts", "why_tests_cant": "unbounded histories", "anchors": ["src/p4est.c:p4est_new_ext", "src/p4est.c:p4est_refine_ext", "src/p4est.c:p4est_coarsen_ext", "src/p4est.c:p4est_partition_ext", "src/p4est_algorithms.c:p4est_is_valid"]}
{"id": "C32", "title": "The coarsest fill of a gap", "statement": "p4est_complete_region(q1,q2) produces a sorted, non-overlapping array covering exactly the positions after q1 and before q2 (plus the ends if requested) and using the coarsest possible quadrants: each inserted quadrant's parent would not fit.", "quantifier": "all pairs q1<q2 at any levels", "why_tests_cant": "position/level pairs unbounded", "anchors": ["src/p4est_algorithms.c:p4est_complete_region"]}
{"id": "C33", "title": "Linearize keeps exactly the leaves", "statement": "p4est_linearize_tree on a sorted array removes exactly the quadrants that contain another quadrant of the array, leaving a linear array, and reports the number removed.", "quantifier": "all sorted arrays", "why_tests_cant": "chains of nested quadrants of any length", "anchors": ["src/p4est_algorithms.c:p4est_linearize_tree"]}
{"id": "C34", "title": "A new forest is the prescribed uniform or minimal mesh", "statement": "p4est_new_ext with fill_uniform creates on all ranks together exactly all quadrants of the requested level in curve order, each rank receiving the equal share; the per-rank first positions equal the first local leaf.", "quantifier": "all levels, trees and rank counts", "why_tests_cant": "all combinations", "anchors": ["src/p4est.c:p4est_new_ext"]}
{"id": "C35", "title": "Save/load round trip", "statement": "A forest written by p4est_save_ext and read by p4est_load/p4est_source_ext has the same trees, leaves, levels and user data; with the same number of ranks (no autopartition) it has the same partition, with autopartition the equal one.", "quantifier": "all forests, rank counts at save and load", "why_tests_cant": "all forests and rank-count pairs", "anchors": ["src/p4est.c:p4est_save_ext", "src/p4est.c:p4est_source_ext", "src/p4est_io.c:p4est_inflate_internal"]}
{"id": "C36", "title": "Loading rejects truncated partition data", "statement": "p4est_source_ext fails (returns NULL/reports) whenever a header read fails.", "quantifier": "all truncation points of a file", "why_tests_cant": "all crash/truncation points", "anchors": ["src/p4est.c:p4est_source_ext"]}
{"id": "C37", "title": "Deflate/inflate round trip", "statement": "p4est_inflate(p4est_deflate_quadrants(...)) restores quadrants and data for every rank-local part and any target distribution.", "quantifier": "all forests", "why_tests_cant": "all shapes", "anchors": ["src/p4est_io.c:p4est_deflate_quadrants", "src/p4est_io.c:p4est_inflate"]}
{"id": "C38", "title": "Wrap flags stay consistent over any history", "statement": "In p4est_wrap, after any sequence of mark_refine/mark_coarsen calls, the internally used count of refine marks equals the number of leaves marked for refinement, no leaf is marked both ways, and during adapt all flag accesses are inside the allocated arrays and each leaf is refined/coarsened exactly according to its last mark.", "quantifier": "all histories of mark calls and leaves", "why_tests_cant": "unbounded histories", "anchors": ["src/p4est_wrap.c:p4est_wrap_mark_refine", "src/p4est_wrap.c:p4est_wrap_mark_coarsen", "src/p4est_wrap.c:p4est_wrap_adapt"]}
{"id": "C39", "title": "Wrap reports change faithfully", "statement": "p4est_wrap_adapt returns true exactly if the mesh changed.", "quantifier": "all adaptations", "why_tests_cant": "needs a checksum collision", "anchors": ["src/p4est_wrap.c:p4est_wrap_adapt", "src/p4est_communication.c:p4est_comm_checksum"]}
{"id": "C40", "title": "Unchanged range after partition", "statement": "p4est_wrap_partition reports the window of leaves that a process held both before and after: indices into old and new local numbering that designate the same leaves, maximal.", "quantifier": "all pairs of distributions", "why_tests_cant": "all overlaps", "anchors": ["src/p4est_wrap.c:partition_unchanged_first / p4est_wrap_partition"]}
{"id": "C41", "title": "Checksum is partition independent", "statement": "The forest checksum depends only on the global sequence of leaves, not on how it is distributed over ranks.", "quantifier": "all forests and distributions", "why_tests_cant": "all distributions", "anchors": ["src/p4est_communication.c:p4est_comm_checksum", "src/p4est_algorithms.c:p4est_quadrant_checksum"]}
{"id": "C42", "title": "Building a forest leaf by leaf", "statement": "p4est_build_add/complete yields a complete forest containing every added leaf, with everything else as coarse as possible; adding the same leaf twice is reported by 0 and has no effect.", "quantifier": "all sequences of added leaves", "why_tests_cant": "all add sequences", "anchors": ["src/p4est_build.c:p4est_build_add", "src/p4est_build.c:p4est_build_complete"]}
{"id": "C43", "title": "Connectivity serialisation round trip", "statement": "p4est_connectivity_source reads back exactly what p4est_connectivity_sink wrote, and accepts only connectivities passing p4est_connectivity_is_valid.", "quantifier": "all valid connectivities", "why_tests_cant": "all table contents", "anchors": ["src/p4est_connectivity.c:p4est_connectivity_sink", "src/p4est_connectivity.c:p4est_connectivity_source"]}
{"id": "C44", "title": "Connectivity validation is memory safe", "statement": "p4est_connectivity_is_valid (also used on untrusted file contents by p4est_connectivity_source) reads its tables only within bounds, whatever their contents.", "quantifier": "all table contents", "why_tests_cant": "adversarial contents", "anchors": ["src/p4est_connectivity.c:p4est_connectivity_is_valid", "src/p4est_connectivity.c:p4est_find_corner_transform"]}
{"id": "C45", "title": "Validated face connections are symmetric", "statement": "For a connectivity accepted by p4est_connectivity_is_valid, crossing a tree face and crossing back through the neighbour's face returns to the original tree and face with the inverse coordinate map.", "quantifier": "all accepted connectivities", "why_tests_cant": "all tables", "anchors": ["src/p4est_connectivity.c:p4est_connectivity_is_valid", "src/p4est_connectivity.c:p4est_find_face_transform", "src/p4est_bits.c:p4est_quadrant_transform_face"]}
{"id": "C46", "title": "Revision counter tracks changes", "statement": "p4est_revision grows strictly on every refine, coarsen, or partition that changes the forest and stays the same when nothing changed.", "quantifier": "all histories", "why_tests_cant": "all histories", "anchors": ["src/p4est.c:p4est_refine_ext", "src/p4est.c:p4est_coarsen_ext", "src/p4est.c:p4est_partition_ext"]}
{"id": "C47", "title": "Search by cumulative number", "statement": "p4est_find_quadrant_cumulative returns, for every local number and every admissible guess of the tree, the tree and index whose quadrant has that local number; it terminates and reads only local trees.", "quantifier": "all distributions of leaves over local trees (empty ones included), numbers and guesses", "why_tests_cant": "needs all interleavings of binary search steps over arbitrarily many trees", "anchors": ["src/p4est_search.c:196-244", "src/p4est_search.h:112-135"]}
{"id": "C48", "title": "Corner neighbours across trees", "statement": "For a connectivity accepted by p4est_connectivity_is_valid, p4est_find_corner_transform lists, once each, exactly the tree corners that carry the same corner number and are neither the corner itself nor met through a face (or, in 3D, an edge).", "quantifier": "all accepted connectivities, trees and corners, 2D and 3D", "why_tests_cant": "all tables", "anchors": ["src/p4est_connectivity.c:p4est_find_corner_transform", "src/p4est_connectivity.c:p4est_connectivity_is_valid"]}
{"id": "C49", "title": "Edge neighbours across trees", "statement": "For a connectivity accepted by p8est_connectivity_is_valid, p8est_find_edge_transform lists, once each, tree edges that carry the same edge number and are not met through a face in the same direction; every tree edge with this number is listed, or is the edge itself, or is met through a face.", "quantifier": "all accepted connectivities, trees and edges", "why_tests_cant": "all tables", "anchors": ["src/p8est_connectivity.c:p8est_find_edge_transform", "src/p4est_connectivity.c:p4est_connectivity_is_valid"]}
{"id": "C50", "title": "p4est_is_valid tells valid forests from others", "statement": "p4est_is_valid returns true for every valid forest. If it returns true then all counters of the forest agree with its leaves, no tree that is not local has leaves, and the leaves of all ranks together cover every tree without gap and without overlap.", "quantifier": "all forests, valid or not, any number of trees and ranks", "why_tests_cant": "the forests to be rejected are an arbitrary set of memory contents; tests pass valid forests", "anchors": ["src/p4est_algorithms.c:p4est_is_valid", "src/p4est_algorithms.c:p4est_tree_is_complete", "src/p4est_algorithms.c:p4est_quadrant_in_range"]}
{"id": "C51", "title": "p4est_inflate_null rejects input that makes no valid forest", "statement": "p4est_inflate_null with arrays from a valid forest returns this forest; with any other input of the right sizes it has no undefined behaviour and returns NULL if the created forest would not be valid.", "quantifier": "all quadrant arrays, cumulative counts and numbers of ranks", "why_tests_cant": "input comes from files or other programs, any content is possible", "anchors": ["src/p4est_io.c:p4est_inflate_null", "src/p4est_io.c:p4est_inflate_internal"]}
{"id": "C52", "title": "The partition checksum tells partitions apart", "statement": "p4est_checksum_partition depends on the leaves and on how they are distributed over the ranks: two forests with the same leaves and different partitions have different partition checksums, except for chance collisions.", "quantifier": "all forests and pairs of partitions", "why_tests_cant": "collisions occur for particular pairs of partitions that a test has to guess", "anchors": ["src/p4est.c:p4est_checksum_partition", "src/p4est.c:p4est_checksum_local"]}
{"id": "C53", "title": "Completing a tree fills every gap with the coarsest leaves", "statement": "p4est_complete_subtree turns a sorted list of disjoint leaves of a tree into a complete list between the tree's first and last descendant. All given leaves stay with their data, the new leaves are as coarse as any complete list with the given leaves can be, each new leaf is initialised exactly once in order, and the counters fit.", "quantifier": "all sorted lists of disjoint leaves, first and last descendants, and callbacks", "why_tests_cant": "the gaps between leaves come in unboundedly many shapes, and the loop has to terminate for all of them", "anchors": ["src/p4est_algorithms.c:p4est_complete_subtree", "src/p4est_algorithms.c:p4est_complete_or_balance", "src/p4est_algorithms.c:p4est_complete_or_balance_kernel"]}
{"id": "C54", "title": "Enlarging a quadrant at its first or last corner", "statement": "For an ancestor a and a descendant q of it, p4est_quadrant_enlarge_first returns the largest valid quadrant inside a that begins where q begins on the curve, and p4est_quadrant_enlarge_last the largest valid one inside a that ends where q ends; neither leaves a, neither is smaller than q.", "quantifier": "all pairs of an ancestor and a descendant (or equal), 2D and 3D", "why_tests_cant": "all positions and pairs of levels; the result depends on bit patterns of the coordinates", "anchors": ["src/p4est_bits.c:p4est_quadrant_enlarge_first", "src/p4est_bits.c:p4est_quadrant_enlarge_last"]}
{"id": "C55", "title": "Balancing one tree gives the coarsest balanced refinement, and doing it twice changes nothing", "statement": "p4est_balance_subtree on a complete local tree keeps the range of the tree without gaps or overlaps, only refines, and returns leaves that are 2:1 balanced across faces, edges or corners as asked. No balanced refinement of a quadrant around the range is coarser anywhere in the range. Leaves that remain keep their data, each new leaf is initialised once in order, the counters fit, and a second call changes nothing.", "quantifier": "all complete local trees in 2D and 3D, all balance types, all ranges from first to last descendant, all callbacks, and any bsearch that meets the C standard", "why_tests_cant": "the ripple of refinement depends on all leaves at once; minimality quantifies over all other balanced refinements", "anchors": ["src/p4est_algorithms.c:p4est_balance_subtree", "src/p4est_algorithms.c:p4est_complete_or_balance_kernel", "src/p4est_algorithms.c:p4est_complete_or_balance"]}
{"id": "C56", "title": "Balancing a sorted tree with gaps gives a balanced tree", "statement": "p4est_balance_subtree, given a sorted tree whose leaves do not fill the range from first to last descendant, completes it to a tree that is balanced.", "quantifier": "all sorted lists of disjoint leaves and ranges, all balance types", "why_tests_cant": "the failure needs a range that begins or ends with a deeper descendant than any leaf given", "anchors": ["src/p4est_algorithms.h:p4est_balance_subtree", "src/p4est_algorithms.c:p4est_complete_or_balance_kernel"]}
{"id": "C57", "title": "The partition search visits exactly the shared quadrants and the largest quadrants of one rank, each with its range of ranks", "statement": "p4est_search_partition (with or without the counts) visits, tree by tree and ancestors first in curve order, every quadrant of which at least two ranks own a part, and the largest quadrants of which one rank owns all; the latter cover each tree. Each visit passes the tree, the lowest and the highest rank that own a part of the quadrant, whatever the number and place of empty ranks. A rejected quadrant is not descended; a point is passed exactly to the quadrants all of whose visited ancestors accepted it. For the markers of a complete forest, a rank owns a part exactly if one of its leaves overlaps the quadrant. The view into the array of points and the recursion always end within bounds.", "quantifier": "all trees, all valid marker arrays (any number of ranks, any of them empty), all callbacks and points, 2D and 3D", "why_tests_cant": "the visited set depends on markers of any depth and on runs of empty ranks at any place", "anchors": ["src/p4est_search.c:p4est_search_partition_gfp", "src/p4est_search.c:p4est_search_partition_gfx", "src/p4est_search.c:p4est_partition_recursion", "src/p4est_search.c:p4est_traverse_is_clean_start"]}
{"id": "C58", "title": "The range boundary search reports exactly the faces, edges and corners touched by a range of quadrants", "statement": "For a quadrant of any level and the range of smallest quadrants between lq and uq inside it (NULL for an open end), p4est_find_range_boundaries sets the face bit f, the edge bit e (3D) or the corner bit c if and only if some smallest quadrant in the range touches face f, edge e or corner c of the quadrant from inside.  This decides which ranks enter the ghost layer on the unbalanced path.", "quantifier": "for all dimensions, containing quadrants of all levels, all valid lower and upper bounds, either or both NULL", "why_tests_cant": "the range between two bounds contains up to 4^29 or 8^29 smallest quadrants; the result depends on all of the levels between; the fast paths by tables are hit only for special ranges", "anchors": ["src/p4est_search.h:p4est_find_range_boundaries", "src/p4est_search.c:298-580"]}
{"id": "C59", "title": "The ghost layer sends to each rank exactly the leaves that have a neighbor there", "statement": "On every rank of a distributed complete forest, p4est_ghost_new puts into the send buffer for rank p exactly those local leaves that touch a leaf of rank p across a face (also an edge, a corner, by the connection type), including neighbors in other trees, in the order of the curve, once each, with their local number.  The mirrors array lists the leaves sent to any rank; mirror_proc_offsets and mirror_proc_mirrors give for each rank the positions in mirrors of what it is sent; mirror_tree_offsets counts the mirrors of the trees before.", "quantifier": "for all dimensions, valid connectivities, complete forests (balanced or not) and all distributions over any number of ranks, also empty ones, and all connection types", "why_tests_cant": "the condition relates all pairs of leaves of any two ranks through any gluing of trees; the code only examines neighbor regions, owner searches and boundary bits; errors show for special distributions (one smallest quadrant on a rank) or special connectivities (trees that meet at a corner only)", "anchors": ["src/p4est_ghost.h:p4est_ghost_new", "src/p4est_ghost.c:1125-2222", "src/p4est_communication.c:809-918"]}
{"id": "C60", "title": "The ghost layer of each rank is exactly the leaves of other ranks that touch a local leaf", "statement": "After p4est_ghost_new on all ranks of a distributed complete forest, no rank is left waiting for a message, and on each rank the ghosts between proc_offsets[p] and proc_offsets[p+1] are exactly the leaves of rank p that touch a local leaf across a face (also an edge, a corner, by the connection type), in the order of the curve, once each, with their local number on p.  All ghosts together ascend along the curve, and tree_offsets divides them by trees.", "quantifier": "for all dimensions, valid connectivities, complete forests (balanced or not) and all distributions over any number of ranks, also empty ones, and all connection types", "why_tests_cant": "each rank posts a receive from the ranks that it sends to, so the exchange is correct only if the neighbor relation that the two sides compute independently is symmetric for every gluing of trees; a test sees only particular meshes and process counts", "anchors": ["src/p4est_ghost.h:p4est_ghost_new", "src/p4est_ghost.c:1982-2200", "src/p4est_connectivity.c:p4est_find_corner_transform", "src/p8est_connectivity.c:p8est_find_edge_transform"]}
{"id": "C61", "title": "Searching the ghost layer finds exactly the ghosts", "statement": "p4est_ghost_bsearch returns the index of the ghost that equals the given quadrant in the given tree, restricted to the given owner if that is not -1, and -1 if and only if there is no such ghost; p4est_ghost_contains does the same for the ghost that equals the quadrant or is its ancestor.  No offset is read out of bounds.  After p4est_ghost_new a quadrant is found exactly if it is (lies in) a leaf of another rank that touches a local leaf.", "quantifier": "for all ghost layers (with any number of ranks, trees and ghosts, also none), all owners or -1, all trees (the header also allows -1) and all valid quadrants", "why_tests_cant": "the binary search runs on the intersection of the window of the owner with that of the tree, any of which may be empty, and the key may lie anywhere relative to the window; that the order used by the search is the order of the ghosts is a statement about all layers", "anchors": ["src/p4est_ghost.h:p4est_ghost_bsearch", "src/p4est_ghost.h:p4est_ghost_contains", "src/p4est_ghost.c:268-351"]}
{"id": "C62", "title": "p4est_quadrant_exists reports the images of a quadrant, their owner and their index", "statement": "For a quadrant given in the coordinates of a tree, inside or beyond its boundary, p4est_quadrant_exists reports one entry for each quadrant that it is identified with by the connectivity: itself, or the image across a face, or all images across an edge or a corner, none at the domain boundary.  The reported rank owns the first corner of the image.  The entry exists if and only if the image is a local leaf or a leaf of another rank that touches a local leaf, and then local_num is its index in the local tree or in the ghost layer.", "quantifier": "for all dimensions, valid connectivities, complete distributed forests with their ghost layer, all ranks, all trees and all quadrants in the tree or in the ring of the size of a tree around it", "why_tests_cant": "the lookup composes owner search, coordinate transformation between trees and binary search in two arrays; an error shows only for particular gluings of trees and particular partitions", "anchors": ["src/p4est_ghost.h:p4est_quadrant_exists", "src/p4est_ghost.c:353-577"]}
{"id": "C63", "title": "The exchange of ghost data delivers to each ghost the data of its leaf", "statement": "After p4est_ghost_exchange_data, ghost_data holds for every ghost the user data of the same leaf on the rank that owns it.  With p4est_ghost_exchange_custom it holds the element of the owner's mirror_data for that leaf, and with p4est_ghost_exchange_custom_levels the same for the ghosts with a level in the given range, while the elements of the others are not changed.  Every message sent has a receive of the same length, none waits for a message that is not sent, and the result does not depend on the order in which messages arrive.", "quantifier": "for all dimensions, valid connectivities, complete distributed forests with their ghost layer, all ranks, all types and values of the data, all ranges of levels, all prior contents of ghost_data and all orders of arrival", "why_tests_cant": "the result depends on the order of arrival, and a wrong offset shows only if a rank in between has no ghosts or no ghosts in the range of levels", "anchors": ["src/p4est_ghost.h:p4est_ghost_exchange_data", "src/p4est_ghost.h:p4est_ghost_exchange_custom_levels", "src/p4est_ghost.c:2328-2755"]}
{"id": "C64", "title": "p4est_is_balanced tells whether the levels of face neighbors differ by at most one", "statement": "p4est_is_balanced with P4EST_CONNECT_FACE returns true on every rank if the levels of all leaves that touch across a face, in the same tree or across a tree face and on the same or another rank, differ by at most one; if it returns true then they do; and it always returns.", "quantifier": "for all dimensions, valid connectivities, complete distributed forests and numbers of ranks", "why_tests_cant": "whether an unbalanced pair is noticed depends on the ranks of the leaves and on how the faces of the trees are glued; a call that does not return shows only for some partitions", "anchors": ["src/p4est_ghost.h:p4est_is_balanced", "src/p4est_ghost.c:845-1123", "src/p4est_ghost.c:1567-1634"]}
{"id": "C65", "title": "p4est_search_reorder visits each quadrant at most once, in the order asked for, and all of its inside between its first and last call", "statement": "p4est_search_reorder calls the pre-quadrant callback once for every quadrant of a local tree that contains a local leaf (with skip_levels, for every leaf and every quadrant with leaves in two of its children), unless the callback returned false or the reorder callback left out the branch for a larger quadrant around it, or no point matched; no other quadrant is visited.  If it returns true, the point callback follows once for each point that matched in all larger visited quadrants, in their order, then everything inside of the quadrant, then the post-quadrant callback.  The trees and the children of a quadrant are visited one after the other in the order of the indices that the reorder callback leaves.  Leaves are passed with their local number, all others with -1.  The reorder callback may permute the indices or choose a subset.", "quantifier": "for all dimensions, forests with sorted leaves in any number of trees, both values of skip_levels, all answers of the callbacks and all sets of points, given or NULL", "why_tests_cant": "the order is chosen by the user at each branch; an error shows only for particular gaps in the leaves and answers of the callbacks", "anchors": ["src/p4est_search.h:p4est_search_reorder", "src/p4est_search.h:294-376", "src/p4est_search.c:777-1082"]}
{"id": "C66", "title": "Neighbor transforms list all neighbors of an interface and map its points there and back", "statement": "p4est_connectivity_get_neighbor_transforms for a face, an edge, a corner or the tree itself lists the identity and one transform for each neighbor that p4est_find_face_transform, p8est_find_edge_transform and p4est_find_corner_transform give for the interfaces that contain it, and no others.  Each transform maps the points of the interface to points of the matching interface of the neighbor tree, as the coordinate transforms of faces, edges and corners do, and p4est_neighbor_transform_coordinates_reverse undoes it.  Across a face the neighbor lists the inverse transform.", "quantifier": "for all dimensions, connectivities that p4est_connectivity_is_valid accepts, trees, interfaces and points", "why_tests_cant": "signs and origins depend on 24 (2D: 8) ways to glue two faces, 288 pairs of edges and 64 pairs of corners; coordinates at the end of the range overflow only for some of them", "anchors": ["src/p4est_connectivity.h:286-345", "src/p4est_connectivity.c:5434-5732"]}
{"id": "C67", "title": "p4est_connectivity_coordinates_canonicalize gives the same result for all images of a point", "statement": "p4est_connectivity_coordinates_canonicalize returns one of the images of a point of a closed tree in the trees that contain it, the one with the lowest tree and the lowest position on the space filling curve in this tree.  All images of the point have the same canonical coordinates, and these are canonical themselves.", "quantifier": "for all dimensions, connectivities that p4est_connectivity_is_valid accepts, trees and points of the closed tree", "why_tests_cant": "depends on how many and which trees meet at an edge or corner and how their coordinates are turned against each other", "anchors": ["src/p4est_connectivity.h:347-375", "src/p4est_connectivity.c:5734-5947", "src/p8est_bits.c:371-423"]}
{"id": "C68", "title": "p4est_connectivity_permute renumbers the trees and nothing else", "statement": "After p4est_connectivity_permute with a permutation of the trees, given in either direction, the connectivity is valid; the tree that has got a new number has the same neighbors across faces, edges and corners as before, under their new numbers and with the same transformations, the same vertices and the same attributes.", "quantifier": "for all dimensions, valid connectivities, permutations and both values of is_current_to_new", "why_tests_cant": "the permutation has to be applied to the entries and to the places of five tables in the right direction; involutions and small cycles hide most errors", "anchors": ["src/p4est_connectivity.h:865-881", "src/p4est_connectivity.c:4156-4252"]}
{"id": "C69", "title": "p4est_connectivity_reduce leaves a valid connectivity with the same faces", "statement": "p4est_connectivity_reduce removes all edges and corners; the connectivity still passes p4est_connectivity_is_valid and has the same vertices, attributes and transformations across faces.", "quantifier": "for all dimensions and valid connectivities", "why_tests_cant": "holds for whatever corners and edges were listed before", "anchors": ["src/p4est_connectivity.h:858-863", "src/p4est_connectivity.c:4132-4154"]}
{"id": "C70", "title": "p4est_connectivity_new_brick builds the box lattice that was asked for", "statement": "p4est_connectivity_new_brick (m, n, p, periodic flags) returns a connectivity that passes p4est_connectivity_is_valid. Its trees are the unit cubes of an m x n (x p) box, numbered without gaps and increasing in every direction. Across a face is the adjacent cube, around the box in periodic directions, with a transformation that is a pure translation; or the domain boundary. A corner and an edge has a number exactly if no cube is missing around it, and then lists exactly the cubes around it. Two corners of trees have the same vertex exactly if they are the same point, and the vertex has its coordinates.", "quantifier": "for all dimensions, all positive m, n, p within the range of p4est_topidx_t, and all periodicities", "why_tests_cant": "the trees are in a z-order that depends on the ordering of log2 of the three sizes, with gaps for sizes that are no powers of two; directions of size 1 that are periodic make a tree its own neighbor", "anchors": ["src/p4est_connectivity.h:759-765", "src/p8est_connectivity.h:843-849", "src/p4est_connectivity.c:2752-3279"]}
{"id": "C71", "title": "p4est_connectivity_complete connects trees exactly as their vertices say", "statement": "For a connectivity that passes p4est_connectivity_is_valid and has vertices, where no three tree faces have the same vertices, p4est_connectivity_complete yields a connectivity that passes p4est_connectivity_is_valid with the same vertices and attributes. Tree faces with the same vertices are neighbors, with the orientation that respects the vertices. Two tree corners have the same vertex exactly if they are found from each other across a face, across an edge or by p4est_find_corner_transform; two tree edges have the same end vertices, with a relative orientation, exactly if they are found from each other, with this orientation, across a face or by p8est_find_edge_transform. Periodicity that is not in the vertices is lost.", "quantifier": "for both dimensions and all connectivities with vertices", "why_tests_cant": "the result depends on the incidence of all vertices of all trees; the code finds pairs with a hash over sorted vertices, and drops edges and corners that are redundant with faces and edges; examples cannot exclude a missed or a superfluous neighbor", "anchors": ["src/p4est_connectivity.h:847-857", "src/p4est_connectivity.c:3360-3447", "src/p4est_connectivity.c:3724-4132"]}
{"id": "C72", "title": "p4est_connectivity_join_faces glues exactly the two faces", "statement": "For a valid connectivity whose faces and stored corners agree, joining two different boundary faces with an orientation yields a valid connectivity of the same kind. The two faces are neighbors of each other with this orientation, all other faces keep their neighbors, and vertices and attributes are unchanged. Two tree corners are then found from each other, across a face or by p4est_find_corner_transform, exactly if they are identified by the old connectivity together with the pairs of corners of the two faces. In 3D, an edge neighbor that p8est_find_edge_transform reports has the same end points in the reported orientation.", "quantifier": "for all valid connectivities, pairs of boundary faces and orientations, and so for all sequences of joins", "why_tests_cant": "the function splices the arrays of the stored corners and edges in place and renumbers them; the result depends on which corners were stored before, on their order, and on the orientations of edges that earlier joins have left behind", "anchors": ["src/p4est_connectivity.h:948-966", "src/p4est_connectivity.c:4498-4602", "src/p4est_connectivity.c:4605-4701", "src/p4est_connectivity.c:4704-4791", "src/p4est_connectivity.c:4795-4903", "src/p4est_connectivity.c:4907-4987"]}
{"id": "C73", "title": "p4est_connectivity_is_equal and _is_equivalent answer exactly, and joining faces does not depend on the order", "statement": "p4est_connectivity_is_equal is true exactly if all members of two connectivities are equal. For valid connectivities, p4est_connectivity_is_equivalent is true exactly if the numbers of trees, the neighbors across each face, the edge neighbors with orientation (3D) and the tree corners that meet are the same; numbers of corners and edges, vertices and attributes do not matter. Neither reads outside of an array. Equivalence is reflexive, symmetric and transitive. Joining two pairs of boundary faces in either order, or with left and right exchanged, gives equivalent connectivities.", "quantifier": "for all pairs (triples) of valid connectivities, all orders in which the sort may leave equal elements, and all pairs of boundary faces", "why_tests_cant": "the answer is about all numberings of the same topology; a test compares a few pairs, and a wrong order in 3D shows only for certain combinations of orientations", "anchors": ["src/p4est_connectivity.h:549-554", "src/p4est_connectivity.h:968-981", "src/p4est_connectivity.c:1147-1246", "src/p4est_connectivity.c:4988-5012", "src/p4est_connectivity.c:5014-5137"]}
{"id": "C74", "title": "Mesh nodes are the corners of quadrants; clamping loses nothing; each node has one quadrant per level; tests for descendants at a face or corner are exact", "statement": "p4est_quadrant_is_node (unclamped) is true exactly for the corners of valid quadrants. p4est_node_clamp_inside moves a node into the root, leaves nodes that are inside unchanged, and p4est_node_unclamp is its inverse both ways. p4est_node_to_quadrant gives the one valid quadrant of a level that contains a clamped node; the quadrants of one node on different levels are nested. The clamped node of corner k of a quadrant belongs to that quadrant exactly if the quadrant ends at the tree boundary in each direction in which the corner is on the upper side. p4est_quadrant_is_ancestor_face is true exactly if what is across the face of the descendant is outside of the ancestor, and p4est_quadrant_is_ancestor_corner exactly if the descendant is the one in that corner of the ancestor.", "quantifier": "for all nodes, valid quadrants, pairs of ancestor and descendant, levels, faces and corners, in 2D and 3D", "why_tests_cant": "nodes at the boundary of the tree and the smallest quadrants differ from others by one unit of 2^30; tests try some coordinates, the statement is about all", "anchors": ["src/p4est_bits.h:231-238", "src/p4est_bits.c:566-629", "src/p4est_bits.c:734-752", "src/p4est_bits.c:1714-1730", "src/p4est_bits.c:2721-2804"]}
{"id": "C75", "title": "Neighbor transforms of quadrants are those of their points and can be undone", "statement": "For every transform that p4est_connectivity_get_neighbor_transforms lists, p4est_neighbor_transform_quadrant applied to a valid quadrant does not overflow, keeps the level, gives an extended quadrant whose closed cube consists of the images of the points of the closed cube of the quadrant under p4est_neighbor_transform_coordinates, gives the quadrant itself for the tree itself and a quadrant outside of the root for any neighbor; p4est_neighbor_transform_quadrant_reverse undoes it. Across a face it is the same as p4est_quadrant_transform_face.", "quantifier": "for all dimensions, connectivities that p4est_connectivity_is_valid accepts, trees, interfaces, listed transforms, valid quadrants and points", "why_tests_cant": "which corner of the image is the lowest depends on all combinations of signs, permutations and origins; tests try the transforms of a few connectivities and a few quadrants", "anchors": ["src/p4est_connectivity.h:264-310", "src/p4est_bits.c:2639-2678", "src/p4est_bits.c:2679-2719"]}
