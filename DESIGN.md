# Design of the formal model of p4est

Source: `/repo` (cburstedde/p4est, read as text only).  Prover: Rocq/Coq 8.16.1,
standard library only.  Everything is in `rocq/theories`.

## Trusted base

* Coq's kernel (and `vm_compute` where a finite case or a concrete witness is evaluated).
* What `Print Assumptions` lists for each property theorem.  Every `Properties*.v` file
  ends each theorem with `Print Assumptions`; the expected answer everywhere is
  "Closed under the global context" (no axioms, also none of the standard library).
* The reading of the C code: the definitions in the model files are hand translations,
  each with a comment that names file and lines in `/repo` and says what was simplified.
* libsc is not in the tree (`/repo/sc` is empty).  `sc_array_split`, `sc_bsearch_range`,
  `sc_search_lower_bound64`, `sc_list`, `sc_io_source/sink`, `sc_uint128` and MPI are modelled
  from their documented behaviour.

## Modelling conventions

* Coordinates, levels and indices are `Z` (coordinates) or `nat`/`Z` (indices).  32/64 bit
  wrap-around is modelled only where a property is about it, otherwise ranges are
  hypotheses (`valid`, `extended`), and the theorems show that results stay in range.
* `dim := D2 | D3` mirrors `#ifdef P4_TO_P8`; a quadrant has `x y z level`, `z = 0` in 2D
  (there is no such member in the C struct).  All theorems quantify over `dim`.
* Loops become structural recursion or fuelled recursion; where fuel is used, running out
  of fuel and out-of-bounds accesses are a distinct result (`None`), and theorems show that
  it does not occur.
* User callbacks are arbitrary functions in state passing style, so "any callback with any
  side effect on user state" is a universally quantified variable of the theorem.
* User data is a type parameter.
* Parallel code is modelled as functions `rank -> ...`; collective results (Allgather etc.)
  are functions of all ranks' contributions, point-to-point messages are (source, destination,
  payload) triples whose send and receive sets are computed separately from the two sides' code.
* C assertions (`P4EST_ASSERT`) are preconditions: they are compiled out in production builds.

## Key abstraction

A valid quadrant corresponds to a pair (level, index on the space filling curve).  The file
`Morton.v` defines the index by bit interleaving, and `Bits*.v` relate every bit-twiddling function
of `p4est_bits.c` to index arithmetic and to the set of lattice points covered by a quadrant.
Property statements use the lattice-point set `inq` (a point (a,b,c) with
x <= a < x+len ...) or the plain interval of curve positions, not model helpers.

## Plan per property

| id | modelled | method |
|----|----------|--------|
| C01 | `p4est_quadrant_compare`, `disjoint`, `is_equal` with the 32-bit unsigned casts | bit induction: xor trick = most significant differing bit; order laws via Morton index |
| C02 | `linear_id`, `set_morton` bit loops | fold over bits = recursive interleaving; inverse by induction on bits |
| C03 | `parent`, `child`, `childrenv`, `child_id`, `ancestor_id`, `sibling` | testbit/div-mod lemmas on coordinates, lattice points |
| C04 | `is_ancestor`, `overlaps`, `ancestor` | xor-shift test = equality of quotients |
| C05 | `nearest_common_ancestor(_D)` | highest differing bit |
| C06 | `first/last_descendant`, `successor`, `predecessor` (iterative carry loops) | index arithmetic |
| C07 | `is_next` | expected false: refutation by witness, plus the correct half for same-or-coarser r |
| C08 | `tree_is_sorted/linear/complete` | induction; completeness inherits C07 (refuted) |
| C09 | `is_family`, `is_familyv`, child-id test of coarsen | index arithmetic |
| C10 | neighbours | linear arithmetic on coordinates |
| C11 | `expand_face_transform`, `transform_face`, `coordinates_transform_face` | finite case split on faces/orientation, linear arithmetic for the rest |
| C12 | connectivity tables and `face_neighbor_corner` | whole finite domain by computation, geometric meaning by arithmetic |
| C13 | the two binary searches, fuelled | loop invariant |
| C14 | `split_array` through `sc_array_split` | sorted keys |
| C15 | `search_local` recursion with `split_array` | induction on level |
| C16 | `partition_cut_gloidx` with the product and quotient in floating point (any precision, round to nearest even) | monotone rounding; refuted: equal shares can differ by 2 for large numbers |
| C17 | weighted branch of `partition_ext`, per rank, with messages | prefix sums, uniqueness of owner of a cut |
| C18 | `partition_given` on the global array level, per-rank send/receive ranges, per-tree packing | interval overlap arithmetic |
| C19 | send/receive loops | both sides' sets computed and compared |
| C20 | `transfer_*` | same |
| C21 | `partition_correction`, cut correction | arithmetic over families |
| C22 | index computation of the receive side | expected false: witness |
| C23 | `find_owner`, `bsearch_partition`, `is_owner` | loop invariant |
| C24 | `find_partition` | split; documented upper value expected false: witness |
| C25 | `comm_count_pertree` | induction over ranks |
| C26 | `comm_global_partition` | backward induction |
| C27 | `refine_ext` list/array algorithm | simulation against the recursive specification |
| C28 | same, with checked array accesses | invariant on read/write positions |
| C29 | `coarsen_ext` window algorithm with checked accesses | invariant |
| C30 | same | invariant |
| C31 | state machine new/refine/coarsen/partition | inductive invariant |
| C32 | `complete_region` work list | recursion over the ancestor tree |
| C33 | `linearize_tree` | in-place loop = filter |
| C34 | `new_ext` | successor iteration = set_morton of consecutive ids |
| C35 | byte-level writer/reader of the forest part | round trip |
| C36 | reader with failing reads | every cut file aborts (except unwanted data of the last leaf); witnesses for the ignored partition read and the unseen cut |
| C37 | deflate/inflate | round trip |
| C38 | wrap flags state machine | invariant over histories |
| C39 | change detection by Adler-32 | exact but for a collision; refuted by a collision witness |
| C40 | `partition_unchanged` | interval arithmetic |
| C41 | Adler-32 and its combine rule | algebra mod 65521 |
| C42 | build functions, one rank after another, callbacks change state | invariant between the calls; each finished tree by C53's fill loop |
| C43 | sink/source | round trip |
| C44 | `connectivity_is_valid` with checked reads | expected false: witness |
| C45 | face part of `is_valid` + C11 | composition |
| C46 | revision counter in the state machine of C31 | invariant |
| C48 | corner part of `is_valid`, `p4est_find_corner_transform` | exact contents of the list |
| C49 | edge part of `is_valid`, `p8est_find_edge_transform` | exact contents; repetition by witness |
| C50 | `p4est_is_valid` | accepts every valid forest; what acceptance gives (counters, order under assumptions); six witnesses of invalid forests that pass |
| C51 | `p4est_inflate_null` | from C37 and C50; definedness under assumptions; witnesses of undefined behaviour and of an accepted forest with a gap |
| C52 | Adler-32 with a rank dependent start | refuted by a general collision |
| C53 | `p4est_complete_subtree` | the fill loop keeps a tiling of what it passed; each emitted quadrant is justified because its parent contains a list element or leaves the range; merge with the old leaves by a `refill` function |
| C54 | `enlarge_first`, `enlarge_last` | the loops climb while the child id is 0 (the last one); the bit masks are the levels |
| C55 | `p4est_balance_subtree` on complete trees | quadrants that must have children form the least set closed under ancestors and under parents of neighbors; the lists of the kernel represent that set (`BalanceState.v`, `BalanceClosed.v`), the precluded and duplicate flags only drop what is represented deeper; the fill then emits exactly the quadrants outside the set whose parents are in it |
| C56 | `p4est_balance_subtree` on trees with gaps | refuted by a witness: `maxlevel` does not see the ends of the range; C55 is the part that holds |
| C57 | `p4est_search_partition` | the ranks given to a call of the recursion are the owners of the first and last position of its quadrant; the array split by child number or tree number cuts the marker array at the positions of the children (trees); then a run over the list of nodes as for C15, and a map between traces |
| C58 | `p4est_find_range_boundaries` | induction over the levels: a range open at one end touches a boundary object iff one of the whole children on the open side does or the part in the child of the end does; the table of child masks is compared with the geometry for each child; refuted for a range of one smallest quadrant (the recursion passes the last level) |
| C59 | `p4est_ghost_new` (send side), `p4est_comm_tree_info`, `p4est_comm_neighborhood_owned` | each step for a face, edge or corner adds exactly the ranks that own a smallest quadrant touching the leaf there (owner search and range boundaries); the early skip is right because a neighborhood inside the own range has no other owner; invariant over the loop: each buffer is the selection of the leaves so far; refuted for trees that meet at a corner only and for a rank with one smallest quadrant (both deadlock) |
| C60 | `p4est_ghost_new` (receive side, offsets) | touching is symmetric: two leaves touch iff two smallest quadrants in them are one step apart, and this is symmetric inside a tree, across a face (inverse transforms of C45), an edge and a corner (the lists of C48, C49 are symmetric); hence sends and receives match; the sizes give the offsets |
| C61 | `p4est_ghost_bsearch`, `p4est_ghost_contains` | the window is the ghosts of the tree and the owner because the ghosts ascend (C60); in one tree the order of the curve is the order of `p4est_quadrant_compare`, so the contracts of bsearch and `sc_bsearch_range` apply; refuted for tree -1, where the window is not sorted |
| C62 | `p4est_quadrant_exists` | case split on the faces that q is beyond gives the list of images; C23 for the owner, C61 for the ghosts, the contract of bsearch for the local tree |
| C63 | `p4est_ghost_exchange_data`, `_custom`, `_custom_levels` | the windows of sender and receiver hold the same leaves by C59 and C60; specification of one receive; invariant over the receives completed so far, with disjoint windows; no mirror occurs twice, so the result is unique |
| C64 | `p4est_is_balanced` with `P4EST_CONNECT_FACE` | images of the half, equal and double size neighbors under a face transform; the leaf that holds a cell next to a leaf; a balanced forest sends what p4est_ghost_new sends, so C62 applies; whatever is sent are leaves, so what is found is a leaf; refuted: it hangs for an unbalanced forest across a face glued with a rotation |
| C65 | `p4est_search_reorder` | induction over the levels on the calls logged; what is called for a quadrant is split at its first visited ancestor; refuted: the reorder callback may not leave out a tree, the code then reads beyond the end of its indices |
| C66 | `p4est_connectivity_get_neighbor_transforms` and its two coordinate maps | finite tables of all gluings, lifted to all points by linearity of each coordinate; refuted: the image of a point of the closed tree may exceed int32 |
| C67 | `p4est_connectivity_coordinates_canonicalize` | the result is the minimum of the images that C66 gives; the set of images is the same from every tree for faces, and for edges and corners that are numbered consistently; refuted: not canonical if a corner met through faces carries no number |
| C68 | `p4est_connectivity_permute` | every function of the connectivity model commutes with a renumbering of trees; refuted: attributes stay at their old place, and a connectivity without vertices can not be permuted |
| C69 | `p4est_connectivity_reduce` | the checks that remain are those on faces and vertices |
| C70 | `p4est_connectivity_new_brick` | the numberings of trees, edges and corners are bijections onto the cubes and inner edges and corners of the lattice; every table entry is written exactly once; vertices by induction over the trees in z-order |
| C71 | `p4est_connectivity_complete` | invariants of the two loops over hash arrays (pairs of faces, groups of edges); the arrays of edges and corners are one slice per group; dropped groups are those where every member is found across faces and edges; orientation by finite tables. Two findings: links that are not in the vertices are not removed, and a valid input can give an invalid result |
| C72 | `p4est_connectivity_join_faces` | the stored corners are a list of groups; storing appends a group, combining moves one group behind another and leaves an empty one; "meet" is an equivalence relation, and each step joins two classes. 2D in full; in 3D the linked faces only. Finding: in 3D the orientation of joined edges is wrong if one of them is stored with a flip |
| C73 | `p4est_connectivity_is_equal`, `p4est_connectivity_is_equivalent` | memcmp is equality of lists; sorted permutations are equal, so the sorted transforms agree if the unsorted ones are permutations; with C48 this is about corners that meet. The sort is a parameter with a contract. Order and sides of joins: 2D in full. Finding: in 3D the order of joins changes the result |
| C74 | nodes, `p4est_quadrant_is_ancestor_face`, `p4est_quadrant_is_ancestor_corner` | one coordinate at a time: unclamped nodes are even, so 2^30 - 1 is free for the clamped ones; masks are blocks of the grid; the rest is about lattice points covered by quadrants |
| C75 | `p4est_neighbor_transform_quadrant`, `p4est_neighbor_transform_quadrant_reverse` | on top of C66: each axis is a signed shift, the minimum picks the lower end; the origins are multiples of the side length or add up to 2^30 |

## Model files and the code they cover

| model file | code |
|------------|------|
| `Quad.v`, `Morton.v`, `Neighbor.v` | `src/p4est_bits.c` (and `p8est_bits.c` through `dim`) |
| `Tree.v` | `p4est_tree_is_sorted/linear/complete` and the tree tests in `src/p4est_algorithms.c` |
| `Transform.v` | face transforms and connectivity tables (`src/p4est_connectivity.c`, `src/p4est_bits.c`) |
| `Search.v` | `src/p4est_search.c` 25-775 (binary searches, split, local search, partition search) |
| `Adapt.v` | per-tree loops of `p4est_refine_ext`, `p4est_coarsen_ext` (`src/p4est.c`) |
| `Cut.v`, `Weighted.v` | `p4est_partition_cut_gloidx`, the weighted branch of `p4est_partition_ext` |
| `Partition.v`, `Comm.v` | `p4est_partition_given` (`src/p4est_algorithms.c`), markers and owner search (`src/p4est_communication.c`) |
| `Transfer.v`, `Pertree.v` | `p4est_transfer_*`, `p4est_comm_count_pertree` |
| `Complete.v` | `p4est_complete_region`, `p4est_linearize_tree` |
| `Forest.v` | `p4est_new_ext`, `p4est_refine_ext`, `p4est_coarsen_ext`, `p4est_partition_ext` on all ranks, with all counters, `first_desc`/`last_desc`, `global_first_quadrant`, `global_first_position`, `revision` |
| `PartCoarse.v` | `p4est_partition_for_coarsening` with its messages, `p4est_partition_correction`, `p4est_next_nonempty_process`, and `p4est_partition_ext` with the flag |
| `Conn.v` | `p4est_connectivity_is_valid`, `p4est_find_face_transform`, `p8est_find_edge_transform`, `p4est_find_corner_transform`, with every array read checked |
| `Bytes.v`, `ConnIO.v` | little-endian words; `p4est_connectivity_sink`, `p4est_connectivity_source`; libsc's sink and source by their contract (append; read exactly n bytes or fail) |
| `Inflate.v` | `p4est_deflate_quadrants`, `p4est_inflate_internal` (all ranks; a NULL or out-of-bounds access is `None`) |
| `Valid.v` | `p4est_is_valid`, `p4est_tree_is_complete`, `p4est_quadrant_in_range`, `p4est_inflate_null`; the level-30 counter is left out, the tree count and parallel environment always agree |
| `SaveLoad.v` | `p4est_save_ext`, `p4est_source_ext`, `p4est_load_ext`, `p4est_comm_global_first_quadrant` on bytes; without MPI I/O; file positions do not overflow; a failing write or open aborts and is left out; user data is `data_size` bytes per leaf |
| `Checksum.v` | `p4est_checksum`, `p4est_checksum_partition`, `p4est_comm_checksum`, `p4est_quadrant_checksum`; `adler32`, `adler32_combine` and `sc_array_checksum` are modelled from zlib's documented algorithm (sources not in the repository); quadrant checksums leave out user data as called by `p4est_checksum` |
| `Wrap.v` | `p4est_wrap_mark_refine`, `p4est_wrap_mark_coarsen`, `p4est_wrap_adapt`, `p4est_wrap_partition`, `partition_weight`, the refine, coarsen and replace callbacks of `src/p4est_wrap.c`; every flag access is checked; balance is a parameter that keeps a valid forest and changes no flags; left out: the user's replace function, ghost and mesh, hollow wraps, copies, the `newly_refined` arrays; `partition_for_coarsening` is 0; ages in `user_int` do not overflow |
| `Balance.v` | `p4est_complete_or_balance_kernel`, `p4est_complete_or_balance`, `p4est_complete_subtree`, `p4est_balance_subtree` of `src/p4est_algorithms.c` 1574-2114, 2165-2383, 2635-2648; the binary search of libsc is a parameter; memory pools and statistics counters are left out; out of fuel is an error |
| `PartSearch.v` | p4est_search.c 1094-1606: `p4est_traverse_is_empty_gfx`, `is_clean_start`, `type_childid`, `type_tree`, `p4est_partition_recursion`, `p4est_search_partition`, `_gfx`, `_gfp` |
| `PartSearchLemmas.v`, `PartSearchRun.v` | lemmas on the split of the marker array; the recursion as a run over its nodes |
| `Reorder.v` | p4est_search.c 777-1082: `p4est_reorder_recursion`, `p4est_search_reorder`; an index outside of an array is an error |
| `Canon.v` | p4est_connectivity.c 5434-5947, p8est_bits.c 371-423, p4est_bits.c 2208-2238: neighbor transforms and canonical coordinates.  Coordinates wrap at 32 bits.  The C code skips a face whose neighbor tree is higher before it computes the transform, the model computes it first |
| `CanonLemmas.v`, `CanonRun.v`, `CanonConn.v`, `CanonEdge.v` | the transforms as signed permutations; the order of points; what an accepted connectivity gives for each interface; points on an edge |
| `Permute.v` | p4est_connectivity.c 4132-4252: `p4est_connectivity_reduce`, `p4est_connectivity_permute`; `sc_array_permute` is modelled by its documentation (libsc is not in the repository) |
| `PermuteLemmas.v`, `PermuteArray.v` | renumbered connectivities; permuted arrays |
| `Brick.v` | p4est_connectivity.c 2752-3279: `brick_linear_to_xyz`, `brick_xyz_to_linear`, `p4est_connectivity_new_brick`; `SC_LOG2_32` of libsc is modelled by its documentation; arrays that are written by the loop are modelled by the sequence of their writes |
| `BrickBits.v`, `BrickNumber.v`, `BrickWrite.v`, `BrickVertex.v`, `BrickValid.v` | the z-order of the box; numbers of trees, edges, corners; the tables; the vertices; validity |
| `ConnComplete.v` | p4est_connectivity.c 3360-3447, 3724-4132, p4est_base.h 477-496: `p4est_connectivity_complete` with `p4est_topidx_bsort`; hash arrays are association lists; the provisional numbers in tree_to_edge and tree_to_corner are left out |
| `ConnCompleteArray.v`, `ConnCompleteFaces.v`, `ConnCompleteGroups.v`, `ConnCompleteEdges.v`, `ConnCompleteCorners.v`, `ConnCompleteValid.v`, `ConnCompleteMeaning.v` | sorting and arrays; pairs of faces; groups of edges and corners; the arrays of the result; validity; what the transforms find in the result |
| `Join.v` | p4est_connectivity.c 4480-4987: `p4est_connectivity_join_faces`, `join_corners`, `join_edges`, `store_corner`, `store_edge`; sort and uniq as insertion into a sorted list |
| `JoinArray.v`, `JoinCorners.v`, `JoinFaces.v` | offsets and slices of groups; storing and combining corners; corners that meet in 2D |
| `Equiv.v` | p4est_connectivity.c 1147-1246 and 4986-5137: `p4est_connectivity_is_equal`, `p4est_connectivity_is_equivalent` and the compare functions. Not modelled: the leak of the transform arrays when the answer is no |
| `Node.v` | p4est_bits.c 566-611, 734-752 and 2721-2804: `p4est_quadrant_is_node`, `p4est_node_clamp_inside`, `p4est_node_unclamp`, `p4est_node_to_quadrant`, `p4est_quadrant_is_ancestor_face`, `p4est_quadrant_is_ancestor_corner`. Not modelled: the hash and equality of nodes, which also use the tree number |
| `NtQuad.v` | p4est_bits.c 2639-2719: `p4est_neighbor_transform_quadrant` and `_reverse`. Intermediate differences are not wrapped; they stay within 2^30 for valid quadrants |
| `NtQuadFace.v` | no code; lemmas for C75: each of the 32 (2D) or 144 (3D) face transforms agrees with p4est_quadrant_transform_face for all quadrants |
| `ReorderSpec.v`, `ReorderLemmas.v`, `ReorderRun.v` | which quadrants are to be visited, with which points and in which order; the windows of the recursion; the calls of a run.  The callbacks of the theorems append to a log and answer by any function of their arguments |
| `RangeBound.v` | p4est_search.c 298-580: `p4est_corner_boundaries`, `p4est_all_boundaries`, `p4est_limit_boundaries`, `p4est_range_boundaries`, `p4est_find_range_boundaries` |
| `RangeBoundLemmas.v` | which smallest quadrants touch a face, edge or corner; the masks per child; the recursion |
| `Ghost.v` | p4est_ghost.c 1125-2222: `p4est_ghost_new_check` with P4EST_GHOST_UNBALANCED_ALLOW (what `p4est_ghost_new` calls), `p4est_ghost_mirror_init`, `_add`, `_reset`, `p4est_ghost_test_add`; the exchange of counts and quadrants; p4est_communication.c 809-918: `p4est_comm_tree_info`, `p4est_comm_neighborhood_owned`; the serial early return (1 rank) gives the same empty layer and is not distinguished |
| `GhostSpec.v` | which quadrants touch across faces, edges, corners and trees |
| `GhostGeom.v`, `GhostState.v`, `GhostTest.v`, `GhostOut.v`, `GhostSteps.v`, `GhostQuad.v`, `GhostLoop.v`, `GhostForest.v` | lemmas: neighbor regions; mirror state; one neighbor region; objects of the tree boundary; one face, edge, corner; one leaf; all leaves; markers of a forest |
| `GhostSym.v`, `GhostCells.v`, `GhostTouch.v` | lemmas: edge and corner neighbors of trees are symmetric; touching leaves and touching smallest quadrants; the latter is symmetric |
| `GhostFind.v` | `p4est_ghost.c` 268-577: `p4est_ghost_check_range`, `p4est_ghost_bsearch`, `p4est_ghost_contains`, `p4est_quadrant_exists`; bsearch of the C library and `sc_bsearch_range` of libsc are parameters with a contract |
| `GhostData.v` | p4est_ghost.c 2328-2755: `p4est_ghost_exchange_data`, `_custom`, `_custom_levels`, begin and end together; one element of any type instead of data_size bytes; the receives complete in any order |
| `GhostDataLemmas.v` | lemmas: windows of offsets, one message, one receive, all receives |
| `Balanced.v` | p4est_ghost.c 845-1123: `p4est_is_balanced`, and 1567-1634: the loop of `p4est_ghost_new_check` over faces with P4EST_GHOST_UNBALANCED_FAIL, both with P4EST_CONNECT_FACE; edges and corners are left out |
| `BalancedSpec.v`, `BalancedGeom.v`, `BalancedImage.v`, `BalancedCore.v`, `BalancedSend.v`, `BalancedLeaf.v` | what balanced means; lemmas: neighbors of half and double size; their images in the neighbor tree; which leaf is there; what is sent; the check of one leaf |
| `Build.v` | all of `src/p4est_build.c`; the calls on a rank are a list of operations; memory pools are left out; the assertions on the order of the calls are hypotheses of the theorems |

`Forest.v` leaves out memory pools, the temporary `user_pointer` protocol and
inspection counters.  A message exchange there is the function of all ranks proved correct in
`PropertiesPartition.v`.

`PartCoarse.v` delivers every message by its source and destination; a rank that waits for a message
nobody sends has no result.  A read of `partition_now[-1]` is a parameter (`junk`): no result, or any
number.  The debug-only recomputation in `P4EST_ENABLE_DEBUG` is left out.

## Not modelled

MPI progress/failures, memory allocation failure, logging, statistics, VTK output, threads, floating
point geometry, byte order of the host (file images are modelled with little-endian words).
Also not modelled: p4est_balance across trees and ranks, the ghost layer with the balance checks
(P4EST_GHOST_UNBALANCED_FAIL/ABORT) across edges and corners, ghost expansion, iterate, lnodes, mesh, p6est.
