# Formal model of ParDeTria

Rocq 8.16.1 development in `rocq/theories`.  The code in /repo is read as text; nothing is run.

Files of a component X: `XModel.v` definitions that follow the code, each with file and lines; `XSpec.v` specifications
that do not mention the model's helpers; `XProofs.v` and others lemmas; `XProps.v` the theorems named after the
properties, each with `Print Assumptions` and an `Example` that meets its hypotheses.  `_partial` in a name: part of the
property, the comment says what is missing.  `_refuted`: a witness that the property is false of the model.

Outcomes (`Outcome.v`): `Val`, `NoFuel` (loop did not end within the fuel) and `Undef` (undefined behaviour in C++).
`returns f v`: some fuel gives `Val v`; `diverges f`: no fuel ends it; `undefined f`: some fuel gives `Undef`.

Concurrency: `Conc.v` interleaves threads, one atomic access per step, any number of threads, any schedule;
`Pool.v` drains a pool of tasks in any order (parallel_do, parallel_for), tasks may add tasks.

## Trusted base

1. Coq's kernel (and `vm_compute`, used for closed computations in examples and witnesses).
2. The standard library axioms listed per theorem below; all of them enter through the real numbers.  No axioms of our own.
3. That the model follows the code.  Every definition cites its lines; simplifications are in its comment.  The general ones:
   * **Machine**: unsigned arithmetic wraps explicitly; `tIdType`, `size_t` 64 bits, `tHashType`, `uint` 32 bits.
     Allocation succeeds.
   * **Memory model**: atomics are sequentially consistent, `compare_exchange_strong` does not fail spuriously.  Plain
     accesses that race (marks and neighbor slots in the neighbor update, edge extraction) are single reads and writes of
     the latest value; that is weaker than what C++ guarantees for races (nothing), so safety theorems there hold
     for such hardware only.
   * **Real numbers**: coordinates are exact (`GeoModel`), except: the k-way splitter has rounding functions as parameters,
     the bubble generators use `SpecFloat` floats for the center index, and the first stage of the predicates is modelled with rounding (`PredModel`).  Geometric predicates are sign exact, as Shewchuk's
     adaptive predicates and CGAL's exact ones intend.
   * **TBB**: ranges are split arbitrarily, bodies run in any order and overlap; queues and vectors are atomic; reductions
     join in any tree.  `enumerable_thread_specific` gives a thread its own copy.
   * **Ideal containers above the tables**: components that use several tables (edge extraction, face table, neighbor
     update, merge, verify, crossCheck, sample graph, k-way splitter, tree partitioners) treat them as sets, maps and bags
     whose operations are atomic and lose nothing.  What the tables do themselves is C01 - C18, C50; the gap (an insert lost
     while a table grows, C18_insert_kept_refuted) is named in the notes.
   * **Library contracts**: `std::sort`, `lower_bound`, `nth_element`, `priority_queue`, `spatial_sort` do what they promise,
     for every such result.  Random engines and distributions are arbitrary sources of numbers; what is needed of the
     numbers is a hypothesis.
   * **External**: METIS/KaHIP's partition of the sample graph, the file system and logging are not modelled (parameters or left
     out).  `ASSERT` does nothing (release build).
   * **CGAL**: its triangulation of a base case is an oracle.  The contract (`cgal_ok`, DcSpec) is a hypothesis of C65-C84: its
     finite cells are the Delaunay simplices of the points for heights that agree with the spheres and break ties
     (`breaks`), the same heights in each call.  That is what CGAL's symbolic perturbation gives, which compares the points
     lexicographically, whatever other points there are.  `cgal_ex` and `heights_ex` show that such cells and heights exist for all points.
   * **Id counter**: `simplexID.fetch_add`, some order of the calls (`drawn`, DcSpec); that it does not wrap is a hypothesis.

## Modelled code

| files | model |
|---|---|
| utils/Misc.h | Words |
| utils/StaticSort.h | Sort |
| utils/IndexHandler.h | Id |
| utils/MakeIds.h, VectorAdapter2.hxx, dPoints | Point |
| utils/Generator.h, UnboundBubble-, PatchBubble-, MaliciousBubbleGenerator.h | Gen |
| datastructures/LP_Set.hxx | LPSet, Range (iterators), ConcSet |
| datastructures/LP_Map.hxx | LPMap, ConcMap |
| datastructures/LP_MultiMap.hxx | LPMultiMap, ConcMap, ConcMMVal |
| datastructures/Bit_Set.hxx | BitSet, ConcBitSet |
| datastructures/Growing_LP.hxx | Grow (set instance) |
| datastructures/BlockedArray2.hxx, dSimplices | Block, Visit |
| datastructures/AABBTree.h, GridIntersectionChecker.h | AABB |
| Geometry.h, Geometry.cpp | Simplex, Geo, Check, Near |
| Partitioner.h, Partitioner.cpp | Part |
| DCTriangulator.cpp, LoadBalancedDCTriangulator.tpp | Tree, Edge, Where, Nbr, Merge, Inf |
| load_balancing/BoxUtils.h, VectorOperations.h, Grid.h | Geo |
| load_balancing/PartitionTree.h, SimplePartitioner.h, FlatPartitioner.h, OldPartitionerPartitioner.h | Tree |
| load_balancing/kWaySplitter.h | KWay |
| load_balancing/sample_partitioner/Sampler.h, CommandLineInterface.h (weights) | Sample, Mapper |
| load_balancing/BoundsIntersectionChecker.h, GridIntersectionChecker.h, AccurateGridIntersectionChecker.h (partition makers) | Maker |
| load_balancing/sample_partitioner/BoundsDistance-, CenterDistance-, NearestSample...Partitioner.h (assigners) | Assign |
| load_balancing/sample_partitioner/HyperplaneBipartitioner.h, BinaryBoxEstimating-, NearestSample...Bipartitioner.h, HyperplaneIntersectionChecker.h | Bisect |
| CGALTriangulator.cpp:301-365 (collecting the cells), DCTriangulator.cpp:477-608 (recursion), one merge step | Dc, Step, Split, Top |
| LoadBalancedDCTriangulator.tpp:50-695 (recursion over partition trees), OldPartitionerPartitioner.h (trees from the real splitters) | Lb |
| load_balancing/kWaySplitter.h:16-109 (as a tree for the triangulator) | KWay, KTree, Way |
| the sample partitioners as trees for the triangulator | Samp (nearest centre), Nest (nearest box, nearest sample), Hyp (hyperplanes), Est (box estimation), Flat (FlatPartitioner, nearest sample bipartitioner) |
| src/exe/DAC_Test.cpp:139-152 (check of the result; the same in DS_Studies.cpp, LB_Painting.cpp) | Self |
| DAC_Test.cpp:135, Benchmark.cpp:96, Experiment.h:73 (the number of simplices reported) | Agree |
| DCTriangulator.cpp:477-608 (its base cases), Partitioner.h:234-313 (getRecursionDepth) | Call |
| src/utils/Predicates.cpp (static constructor; orient, insphere up to the call of _adapt, 2d and 3d) | Pred, Float |
| CGALTriangulator.cpp:482-504 (PureCGALTriangulator's result) | Pure |
| src/utils/Timings.cpp (ExperimentRun: traits, str without measurements, reading, ==) | Exp |
| src/exe/Benchmark.cpp:113-118, 134-251 (generation and order of the experiments; log10, pow taken to be right) | Exp, ExpGen |
| include/utils/StringUtils.h (is_int, is_float), DBConnection.cpp:114-128 (traits; std::stod not modelled) | Bson |
| Geometry.h:255-303 (loadFromFile), Misc.h:68-85 (split), LB_PointDump.cpp:43-45 (std::stod, printf: functions given from outside; streams are byte lists) | Load |
| ComprehensiveMonitor.h:11-36 (registerBaseTriangulation), Timings.h:92-94 (incCounter for one name), Timings.cpp:64-75 (avgMeasurement); sequentially consistent memory | Mon |
| include/utils/Logger.h, src/utils/Logger.cpp (release build; std::cout takes a message in one piece) | Log |
| Predicates.cpp:779-845 (fast_expansion_sum_zeroelim; the size of the output array is not modelled) | Expans |
| Predicates.cpp:193-272, 1132-1141, 1268-1345 (orient_adapt in the plane; indeterminate array elements are 0; the adaptive parts of the other three predicates are not modelled) | Adapt, AdaptFull |

Not modelled: include/mods (CGAL and TBB modifications), CGALTriangulator's use of CGAL, the later stages of Predicates.cpp,
Painter, DBConnection, Timings and monitors (other than listed above), the executables except for their check of the result (DAC_Test.cpp:139-152), BlockedArray.hxx, VectorAdapter.hxx,
IndexedVector.hxx (unused or output only).

## Plan per property

| id | property | status | model and proof |
|---|---|---|---|
| C01 | LP_Set is a set | partial | LPSet: array model, every function by fuel; refinement to a finite set of keys by induction over the operation list. |
| C02 | LP_Set queries return | proved | LPSet: termination proved from a free cell; divergence (every fuel runs out) proved for the full table; refuted for default-constructed sets. |
| C03 | Growing LP_Set keeps a free cell | proved | LPSet: invariant 'count of zero cells >= 1' over insert histories; power-of-two capacity invariant. |
| C04 | LP_Set merge and filter | partial | LPSet: fold over the old array; refinement to union / difference; the filtered merge ignores cmp for its own elements (refuted). |
| C05 | LP_Set copy, comparison and serialization | proved | LPSet: copy and save/load as state functions; operator== by counting argument (same size + inclusion = equality). |
| C06 | Iteration and range splitting cover each element once | proved | Range: iterator and TBB range_type; induction over an arbitrary split tree. |
| C07 | LP_Map is a map with last write | partial | LPMap: refinement to an association map, last write wins. |
| C08 | LP_Map::contains reports presence | partial | LPMap: proved for non-zero values; refuted with value 0. |
| C09 | LP_Map and LP_MultiMap lookups return | partial | LPMap/LPMultiMap: integer division in the load test; refuted with a two-insert history, guard proved. |
| C10 | LP_MultiMap::get returns all values | partial | LPMultiMap: probe chain; proved when two cells are free, refuted for one free cell. |
| C11 | Concurrent set: one winner per key | proved | ConcSet: small-step interleaving semantics with one atomic action per step; inductive invariant over all schedules. |
| C12 | Concurrent set: completed inserts stay visible | proved | ConcSet: probe-chain invariant is stable under CAS (cells never change once set). |
| C13 | Concurrent set: size is exact at rest | proved | ConcSet: counter invariant items + (threads between CAS and ++) = occupied cells. |
| C14 | Concurrent fixed set: inserts finish | proved | ConcSet: per-thread measure; full table and absent key diverge (refuted for over-full use). |
| C15 | Concurrent map insert | proved | ConcMap: key/value arrays, interleaving semantics. |
| C16 | Concurrent map rehash and migrate keep every entry | partial | ConcMap: _insert has no exit: divergence theorem; unsafe_rehash shown to keep all entries when it doubles. |
| C17 | Concurrent multimap keeps every pair | partial | ConcMap, ConcMMVal: interleaving semantics, ghost multiset of completed inserts. |
| C18 | Growing table: growth keeps every element | partial | Grow: transition system of handles, migration blocks, epochs; lost-insert witness (refuted) and preservation when no insert is in flight during migration. |
| C19 | Bit_Set is a set of indices | partial | BitSet: words of 32 bits as N; refinement to sets of indices. |
| C20 | Bit_Set merge, filter and resize | partial | BitSet: merge/filter/mergeFilter/resize; filter's counter refuted for non-covered bounds. |
| C21 | Bit_Set::batchSet sets a range | partial | BitSet: batchSet refuted (overwrites words; shift by 32 is undefined), guarded form proved. |
| C22 | Bit_Set iteration | proved | BitSet: iterator. |
| C23 | Concurrent bit set is linearizable | proved | ConcBitSet: interleaving semantics with CAS retry; linearization by ghost log. |
| C24 | Block array addresses by id | proved | Block: binary search over sorted disjoint blocks. |
| C25 | Block array iteration and splitting | proved | Block, Visit: iterator, range splitting. |
| C26 | Insertion sort with data | proved | Sort: insertion sort on lists with explicit hole moves. |
| C27 | Word utilities | proved | Words: arithmetic modulo 2^w. |
| C28 | Id handler never hands out a live id twice | proved | Id: sequential history and interleaving model. |
| C29 | Simplex vertex queries | proved | Simplex: sorted vertex lists of any dimension. |
| C30 | Fingerprints identify equal faces | partial | Simplex: xor of rotated ids; order independence, shared faces; equalNeighbors is inverted (refuted). |
| C31 | Box and sphere tests are exact | proved | Geo: real coordinates, any dimension. |
| C32 | Circumsphere and inSphere | partial | Geo, GeoCirc: real coordinates, field identities. |
| C33 | Simplices clear of other partitions stay Delaunay | proved | Geo: consequence of exact box tests and valid bounds. |
| C34 | Partitioners place every point exactly once | partial | Part: sequential loops by induction, parallel ones as pools of tasks over concurrent tables. |
| C35 | Point statistics | partial | Part: reduction tree; refuted for all-negative coordinates. |
| C36 | Grid cells tile space | proved | Geo: reals and integer floor. |
| C37 | Distances to boxes | proved | Geo: distance to a box and to its border over the reals. |
| C38 | AABB tree query | partial | AABB: tree model; undefined behaviour as outcome. |
| C39 | Partition tree flattening | proved | Tree: structural induction on rose trees. |
| C40 | k-way splitter | partial | KWay: recursion with rounding functions as parameters; leaves characterised if it returns; it does not for flat, small or rounded groups. |
| C41 | Edge extraction is schedule independent | partial | Edge: worklist transition system; closure characterisation independent of the schedule. |
| C42 | Merged triangulation content | proved | Merge: filter, face table, loop over the edge triangulation (Visit), neighbor update, every schedule. |
| C43 | Neighbor update | partial | Nbr, Where: pool of tasks, one access per step. |
| C44 | verify and crossCheck decide | partial | Check: exact characterisation of what verify and crossCheck accept. |
| C45 | Point id sets | proved | Point, Simplex. |
| C46 | Divide and conquer recursion | partial | Tree: the recursion with any partitioner; C46_d_way_splits links Part. Call: the relation of DcModel with the base cases listed; the sets below a split are placed (DcProofs), so each splitter keeps its contract on every level. |
| C47 | Sample graph in CSR form | proved | Sample: sequential, parallel and reproducible graph construction. |
| C48 | Generators fill every point | partial | Gen: index coverage and bounds; floats for the center index. |
| C49 | Nearest simplex search | partial | Near: walk with any priority queue. |
| C50 | Concurrent merge of sets | proved | ConcSet: parallel copy as set of concurrent inserters. |
| C51 | A saved block array can be loaded | partial | Block: save and load. |
| C52 | Simplex ids of different triangulations differ | proved | Id, Block: fetch_add ranges. |
| C53 | Point in simplex | proved | Geo: barycentric signs. |
| C54 | Distance to a face | partial | Geo: value computed against the squared distance. |
| C55 | Infinite points enclose the input | partial | Inf: exact criterion. |
| C56 | Fingerprint of a triangulation | partial | Check: fingerprint as xor of simplex fingerprints. |
| C57 | Nearest vertex of a simplex | proved | Near: loop over the vertices. |
| C58 | Edge weights of the sample graph | partial | Mapper: scale converted to int. |
| C59 | Generators consume the random engine | partial | Gen: state of the engine after a call. |
| C60 | Partition makers | partial | Maker: id sets by induction over the loop; box loop as a pool of tasks with word-level flags; race witness by a schedule. |
| C61 | Sample partitioners assign each point to the nearest partition | partial | Assign: boxes and centres by induction over the samples, least distance by induction; k-d tree search is an oracle with a stated contract. |
| C62 | Hyperplane bipartitioner | partial | Bisect: recursion by log2 p; division from the two sets of a split; soundness by Cauchy-Schwarz for unit normals; sampler and SVD are oracles. |
| C63 | Box estimating partitioner | partial | Bisect: recursion by remaining depth; division by the box test; median from sortedness and permutation; sampler and sort are oracles. |
| C64 | Nearest sample bipartitioner | partial | Bisect: recursion by log2 p over the maker's id sets; owners of id sets tracked to show dangling references. |
| C65 | Base case: from CGAL's cells to a triangulation | proved | DcModel, DcBase: the loop over cells by induction; sorting carries neighbors along; CGAL's result is an oracle with the contract cgal_ok. |
| C66 | One merge step keeps the Delaunay triangulation | proved | StepModel, DelSpec..StepPlaced: Delaunay simplices as lower hull of lifted points; cavity of a point is connected; edge search reaches all simplices that die; merged set equals the lower hull of all points; neighbors by face hashes. |
| C67 | triangulate returns the Delaunay triangulation | proved | DcModel, DcProofs, SplitModel, TopProofs: induction over the depth from C65, C66, C70; the constructor's corners give the box. |
| C68 | The result is a mesh | proved | MeshSpec, MeshProofs: from the lower hull to coverage, faces and the empty sphere property. |
| C69 | The finite simplices fill the convex hull of the input | partial | DcProps: Delaunay and presence of simplices away from the corners proved; covering the hull refuted by four points. |
| C70 | The splitters give what the recursion relies on | proved | SplitModel, SplitProofs, SplitEx: from the partitioners of C34 and statistics of C35 to hyperplanes and boxes; executions exist by choosing any thread that can step. |
| C71 | triangulate returns | proved | DcEx, StepEx, TopRuns: the recursion is run, drawing ids in order; terminating thread pools have an execution that ends. |
| C72 | The load balanced triangulator returns the Delaunay triangulation | proved | LbModel, LbSpec, LbLevel, LbProofs, LbEx, LbTop: induction on the tree; each level is a merge step of C66 with the children as parts; runs exist by drawing ids in order. |
| C73 | OldPartitionerPartitioner gives trees the load balanced triangulator can work on | partial | LbTrees: the trees of `built` with the splitters of SplitModel keep `tree_ok`; open: nodes without finite points. |
| C74 | Load balanced triangulation with the k-way splitter | proved | KTree: leaves of the k-way recursion are parted by axis hyperplanes (monotone rounding of the grid index), boxes cover; WayProps composes with C72. |
| C75 | Load balanced triangulation with cells of the nearest centre | proved | SampModel, SampProofs: cells of nearest centres are parted by bisectors (centres as the code computes them), makers of C60 give boxes that cover; an empty cell reads an uninitialised box. |
| C76 | Load balanced triangulation with partitions of the nearest box | partial | NestProofs, NestTop, NestProps: sample boxes inside of each other; every run keeps a triangle that the merge cannot see to be wrong (a base case's simplex without hit stays, `flat_kept`). |
| C77 | Load balanced triangulation with partitions of the nearest sample | partial | NestProps: as C76 with the nearest sample. |
| C78 | Load balanced triangulation with the hyperplane bipartitioner | partial | HypSpec, BinTree, HypProofs: planes through the trees of C62; corners on either side of a plane that cuts; without a normal the checkers deny all, and a simplex of corners stays. |
| C79 | Load balanced triangulation with the binary box estimating partitioner | proved | EstProofs: boxes of C63 are parted by the cut; an empty side has a box that reaches beyond the points, or touches one of them. |
| C80 | Flattened partition trees | proved | FlatSpec, FlatProofs: leaves of a tree are pairwise parted by the hyperplane of the node where their paths part; a checker that reaches beyond survives as a leaf's. |
| C81 | Load balanced triangulation with the nearest sample bipartitioner | partial | FlatProps: the root of a split tree is a node without checker (C64); an unsplit one is a leaf. |
| C82 | The programs' own check of a result | proved | Self: verify and crossCheck (Check) on the results of C67 and C72 and of the base case; which answer they give, and that ties make it no. |
| C83 | All triangulators give the same triangulation | proved | Agree: each result is the triangulation of C65, C67 or C72; two of them have twins by completeness, slots by uniqueness; without ties the Delaunay simplices do not depend on the heights. |
| C84 | The number of simplices that is reported | proved | Agree: the cells of a result are the ids taken (invariant of the recursions, made exact); an edge has a simplex, which is deleted but keeps its cell. |
| C85 | The first stage of the adaptive predicates | proved | Pred: a calculus of pairs (computed value with its relative bound, computed permanent), closed under rounded +, -, *; the bounds A follow by second order estimates. Float: rounding to nearest even is such a rounding; the constructor's loop; computations on a grid never underflow. |
| C86 | The predicates are exact for all finite points | partial | Pred: the legs 2^-600 of a right-angled triangle; their product rounds to zero. |
| C87 | The algorithms with CGAL alone | partial | Pure: the result has one default simplex, which is not a live one, whatever the input; verify misses the first point. |
| C88 | Experiment runs can be written and read | partial | Exp: strings are byte lists, find and substr with npos and wrap; the loop is followed over the list of traits, each separator is found where it was written (find_sep). std::map is a list in ascending order. |
| C89 | Comparison of experiment runs | partial | Exp: counting of ignored and other traits. Witness: a run with a start time against one with one more trait. |
| C90 | The benchmark generates the experiments asked for | partial | ExpGen: the numbers of points form a chain of 76 numbers below 4000000000, the doublings by induction; the runs are the image of a list of experiments without repetition. |
| C91 | Traits are stored with their type | partial | Bson: the expressions are read as functions on byte lists; decimal digits by the standard library's conversion. The class [(-|+)|] is the range from ( to |. |
| C92 | Points from a file | partial | Load: files are byte lists, std::stod and the formatting of numbers are functions about which only the round trip is assumed. |
| C93 | The monitor counts every base triangulation | proved | Mon: threads with their calls, each call five steps (lock, read, write, append, unlock), any interleaving; an invariant over the thread inside, and a measure. |
| C94 | Profiling counters add up | partial | Mon: += as a read and a write without lock, any interleaving. A race of plain accesses is formally undefined; the model gives it the mildest reading. |
| C95 | Average measurement | partial | Mon: the sum with wrap modulo 2^64. |
| C96 | The log | partial | Log: a fold over the events of all threads; the text is specified by a recursion that knows no entries. |
| C97 | Sums of expansions are exact | partial | Expans: arrays as lists with checked reads, rounding after every operation; invariant over the merge. ErrFree: with IEEE rounding to nearest (any precision, with underflow, without overflow) Two_Sum and Fast_Two_Sum are error free. |
| C98 | The adaptive orientation test is exact where the filter fails | partial | Adapt: all four stages of orient_adapt with the macros for differences and products. Proved: Two_Diff and Two_Two_Diff are error free, the four expansions add up to the determinant if Two_Product is error free (hypothesis), and equal points with an inexact difference reach the out of bounds reads of C97. Missing: Two_Product, the error bounds of stages B and C, and that the last component has the sign of the sum. AdaptGrid: for doubles and points with integer coordinates up to 2^24 the whole test, filter and adaptive part, returns the determinant itself, with no hypothesis on products or error bounds. AdaptExact: with exact differences (and error free products) the test returns after the second stage. |

## Assumptions of each theorem

Output of `Print Assumptions`, grouped.  "Closed" means closed under the global context.

**Closed** (264):
C61_divides, C64_tree_partial, C64_alive_partial, C64_dangling_refuted, C19_history, C19_zeros_partial, C19_zeros_refuted, C19_contains, C19_insert, C19_erase, C19_insert_outside_undefined, C20_merge, C20_mergeFilter, C20_resize, C20_filter_partial, C20_filter_ones_refuted, C20_copy, C21_batchSet_partial, C21_batchSet_empty_partial, C21_keeps_others_refuted, C21_count_refuted, C21_aligned_end_undefined, C22_iteration, C22_decrement, C24_at, C24_unique, C24_write, C24_contains, C24_addBlock, C24_merge, C24_exact_size, C24_bounds, C24_absent_undefined, C24_empty_block_refuted, C25_iteration, C25_decrement, C25_decrement_end, C25_decrement_first_refuted, C25_empty_block_refuted, C51_load, C51_load_refuted, C44_cross, C44_cross_same, C44_verify, C44_verify_accepts_partial, C44_cross_missing_refuted, C44_cross_neighbors_refuted, C44_cross_deleted_refuted, C44_verify_neighbors_refuted, C44_verify_delaunay_refuted, C44_verify_zero_refuted, C44_verify_ids_refuted, C56_words, C56_same, C56_differ_refuted, C23_safe, C23_linearizable, C23_ones, C23_balance, C23_one_winner, C23_terminates, C23_progress, C15_linearizable, C15_stored_once, C15_one_winner, C15_at_rest, C15_visible, C15_value_before_write_refuted, C15_last_write_refuted, C15_safe, C15_own_steps, C15_terminates, C15_progress, C15_new, C15_new_zero_refuted, C15_internal_insert_refuted, C16_rehash, C16_small_rehash_refuted, C16_merge, C16_filtered_merge, C17_linearizable, C17_at_rest, C17_get, C17_get_small_refuted, C17_rehash, C17_merge, C17_empty_merge_refuted, C11_linearizable, C11_stored_once, C11_one_winner, C11_answered, C11_at_rest, C11_safe, C11_new, C11_new_zero_refuted, C12_visible, C12_no_ghost, C13_size, C14_own_steps, C14_terminates, C14_progress, C14_growing, C14_growing_load, C14_growing_lookups, C14_race_refuted, C50_merge, C50_empty_refuted, C41_result, C41_safe, C41_ends, C41_mark_wrap_refuted, C18_safe, C18_kept, C18_insert_kept, C18_insert_newest_kept, C18_origin, C18_no_deadlock, C18_sequential, C18_insert_kept_refuted, C18_insert_once_refuted, C18_race_free_refuted, C18_size_zero_never_returns, C18_size_zero_lookup_refuted, C28_sequential, C28_concurrent, C28_double_release_refuted, C52_ranges, C52_distinct, C40_zero_refuted, C07_inserts, C07_get_last_write, C07_history_partial, C07_size_zero_undefined, C07_merge, C07_merge_filtered, C07_iteration, C07_save_load, C08_contains_partial, C08_zero_value_refuted, C09_lookup_absent_refuted, C10_inserts, C10_get_partial, C10_get_one_free_partial, C10_one_free_refuted, C10_full_diverges, C10_contains, C10_merge, C10_merge_filtered, C10_iteration, C10_save_load, C09_multimap_lookup_refuted, C09_multimap_lookup_partial, C09_map_lookup_partial, C10_size_zero_undefined, C01_growing_set_partial, C01_fixed_set, C01_growing_inserts, C01_default_size_refuted, C02_query_returns, C02_fixed_insert_returns, C03_growing_keeps_free_cell, C04_merge_union, C04_filter_difference, C04_merge_filtered_partial, C04_merge_filtered_cmp_refuted, C04_merge_filtered_empty_refuted, C05_copy, C05_save_load, C05_equality, C06_iteration, C06_decrement, C60_ids_partial, C60_few_refuted, C42_content, C42_inserted, C42_hull, C42_table, C42_update, C42_filter_returns, C42_table_safe, C42_loop_safe, C42_loop_ends, C43_result, C43_mutual, C43_terminates, C43_safe_partial, C43_exclusive_safe, C43_safe_refuted, C43_mark_wrap_refuted, C49_walk, C34_contains_simplex, C34_empty_refuted, C45_finite_infinite, C45_contains, C45_access, C45_range, C45_make_ids, C45_equality, C47_sequential, C47_parallel, C47_reproducible, C47_symmetric, C29_contains, C29_shared, C29_contains_all_any, C29_isfinite, C29_sort_vertices, C30_vertex_set, C30_shared_face, C30_equal_vertices, C30_defined, C30_equality_refuted, C30_equal_neighbors_refuted, C26_sort_with_data, C26_sort, C26_large_refuted, C39_flatten, C39_collect, C39_to_old, C39_collect_full_refuted, C39_to_old_refuted, C46_load_balanced, C46_load_balanced_refuted, C46_build_proper, C43_table, C43_table_safe, C43_table_ends, C43_table_once_refuted, C43_table_wrap_refuted, C27_nextPow2_least, C27_nextPow2_out_of_range_refuted, C27_isPow2, C27_isPowN_refuted, C27_log2_floor, C27_logN_floor, C27_logN_refuted, C27_logN_base1_diverges, C27_popcount32, C88_round_trip, C88_plain, C88_equal, C88_started_refuted, C88_empty_refuted, C89_same_partial, C89_symmetric_refuted, C90_runs, C90_overflow_refuted, C90_zero_points_refuted, C90_zero_threads_refuted, C90_visit, C90_read_back, C91_numbers, C91_words_refuted, C91_decimals_refuted, C93_monitor, C94_counter_partial, C94_calm, C94_lost_refuted, C95_avg_partial, C95_overflow_refuted, C96_stored, C96_live, C96_silent, C96_level_refuted.

**`ClassicalDedekindReals.sig_forall_dec`** (9):
C61_nearest, C48_unbound_refuted, C48_unbound_index_refuted, C59_unbound, C34_lookup, C46_build_tree, C46_recursion, C59_malicious, C59_patch.

**`ClassicalDedekindReals.sig_forall_dec`, `FunctionalExtensionality.functional_extensionality_dep`** (95):
C38_grid_partial, C38_points_partial, C38_grid_refuted, C38_nested_refuted, C61_bounds_partial, C61_empty_refuted, C61_center_partial, C61_center_refuted, C63_tree, C63_median, C63_border_refuted, C71_ctor, C80_flat, C80_old_uniform, C48_uniform, C48_normal, C48_skew_partial, C48_skew_refuted, C48_bubble_partial, C48_bubble_refuted, C48_unbound_partial, C48_unbound_outside_refuted, C31_contains_point, C31_contains_box, C31_contains_sphere, C31_intersects_sphere, C31_split, C31_split_border, C31_minus, C31_minus_upper, C32_in_sphere_2d_partial, C32_in_sphere_3d_partial, C53_in_simplex_2d, C53_in_simplex_3d, C54_distance_partial, C54_distance_refuted, C33_keep, C36_in_cell, C36_cells_overlap, C36_center, C36_index, C36_intersects, C37_distance, C37_zero, C37_boundary, C37_bounding, C55_exact, C55_enclosed_partial, C55_enclosed_refuted, C40_partial, C40_index, C40_returns, C40_flat_refuted, C40_few_refuted, C40_round_refuted, C60_boxes_partial, C60_calm_partial, C60_race_refuted, C60_empty_refuted, C60_bounds_partial, C60_grid_partial, C60_grid_refuted, C60_accurate_partial, C58_range, C58_monotone, C58_ends_partial, C58_squared_inverted_refuted, C49_plane_partial, C49_space_partial, C49_nearest_refuted, C49_stored_refuted, C49_deleted_refuted, C57_nearest_vertex, C34_d_way_partial, C34_one_dim_partial, C34_cycle_partial, C34_extend_partial, C34_one_dim_lookup_refuted, C34_cycle_full_refuted, C34_extend_refuted, C35_stats_partial, C35_schedule, C35_covers, C35_maximum_refuted, C46_threads, C46_d_way_splits, C46_simple, C85_stage, C87_pure_refuted, C92_load_partial, C92_tight_refuted, C92_short_refuted, C92_dump_refuted, C97_value_partial, C97_bounds_refuted.

**`ClassicalDedekindReals.sig_forall_dec`, `ClassicalDedekindReals.sig_not_dec`, `FunctionalExtensionality.functional_extensionality_dep`** (24):
C62_tree_partial, C62_sides, C62_zero_refuted, C62_single_refuted, C81_null_refuted, C48_ellipsoid, C48_ellipsoid_returns, C48_malicious_refuted, C48_malicious_partial, C48_malicious_index_refuted, C48_malicious_coincide_refuted, C48_patch_partial, C48_patch_refuted, C59_refuted, C32_circumsphere_2d, C32_circumsphere_3d, C32_circumsphere_order_2d, C32_circumsphere_order_3d, C32_in_sphere_order_2d, C32_in_sphere_order_3d, C32_in_sphere_strict_refuted, C32_degenerate, C58_inverted_refuted, C46_traces.

**`ClassicalDedekindReals.sig_forall_dec`, `Classical_Prop.classic`, `FunctionalExtensionality.functional_extensionality_dep`** (8):
C65_base, C70_many, C70_split, C73_old_partial, C75_center, C75_returns, C75_empty_refuted, C74_kway.

**`ClassicalDedekindReals.sig_forall_dec`, `FunctionalExtensionality.functional_extensionality_dep`, `classic`** (1):
C79_boxes.

**`ClassicalDedekindReals.sig_forall_dec`, `ClassicalDedekindReals.sig_not_dec`, `Classical_Prop.classic`, `FunctionalExtensionality.functional_extensionality_dep`** (38):
C66_step, C67_triangulate, C68_mesh, C71_runs, C69_hull_partial, C69_hull_refuted, C72_load_balanced, C72_runs, C73_old_mesh, C76_nested_refuted, C76_no_mesh_refuted, C77_nested_refuted, C75_mesh, C74_mesh, C82_check, C82_dc, C82_lb, C82_accepts_refuted, C83_agree, C83_any, C84_dc, C84_lb, C84_number_refuted, C46_base_cases, C46_all_threads, C85_constants, C85_ieee, C86_all_points_refuted, C97_two_sum, C97_fast_two_sum, C97_ieee, C98_two_diff, C98_two_two_diff, C98_terms_partial, C98_equal_refuted, C98_exact_diffs, C98_equal, C98_grid.

**`ClassicalDedekindReals.sig_forall_dec`, `ClassicalDedekindReals.sig_not_dec`, `FunctionalExtensionality.functional_extensionality_dep`, `classic`** (7):
C79_mesh, C80_mesh, C81_small_mesh, C78_hyper_partial, C78_mesh_partial, C78_zero_refuted, C78_centred_refuted.

## Findings

Defects and surprises of the code, with the theorem that shows them.

Hash tables
* Queries on a default-constructed (size 1) growing set, and lookups of absent keys in a full map, multimap or fixed set, never
  return: C01_default_size_refuted, C09_lookup_absent_refuted, C09_multimap_lookup_refuted, C14_race_refuted.
* `contains` of LP_Map is false for keys stored with value 0: C08_zero_value_refuted.
* Merging two empty tables leaves no cells: C04_merge_filtered_empty_refuted, C50_empty_refuted, C17_empty_merge_refuted.
  The filtered merge with cmp = true ignores it for its own elements: C04_merge_filtered_cmp_refuted.
* A multimap of size 2 accepts an insert and then lists nothing: C10_one_free_refuted, C17_get_small_refuted.
* Concurrent map: a lookup during the first insert reads an indeterminate value, the last write may be lost, the internal
  `_insert(k, v)` has no exit, a rehash into a small table drops entries: C15_value_before_write_refuted,
  C15_last_write_refuted, C15_internal_insert_refuted, C16_small_rehash_refuted.
* Growing table: an insert that overlaps a growth can be lost, a key can be inserted twice with success, `g_table_r` is
  read and written unsynchronised, size 0 never grows: C18_insert_kept_refuted, C18_insert_once_refuted,
  C18_race_free_refuted, C18_size_zero_never_returns, C18_size_zero_lookup_refuted.

Bit sets, arrays, words
* zeros(), filter's counter, batchSet: C19_zeros_refuted, C20_filter_ones_refuted, C21_*.
* Block array: at() in a gap is undefined, empty blocks break search and iteration, `operator--` at the first live cell,
  loading more than one block dereferences null: C24_absent_undefined, C24_empty_block_refuted, C25_*_refuted, C51_load_refuted.
* Insertion sort undefined above 32768 elements; isPowN and logN wrong for bases that are no powers of two:
  C26_large_refuted, C27_isPowN_refuted, C27_logN_refuted.

Geometry
* operator== of dSimplex is not transitive, equalNeighbors is inverted, fingerprints shift by 32 for ids divisible
  by 32 and collide: C30_*_refuted, C56_differ_refuted.
* inSphere is closed and true for degenerate simplices; sqDistanceToFace is not the squared distance:
  C32_in_sphere_strict_refuted, C32_degenerate, C54_distance_refuted.
* The box of infinite points is centred at the origin: C55_enclosed_refuted.
* findNearestSimplex never returns its start for outside points; a single simplex or deleted start gives cINF: C49_*_refuted.
* verify and crossCheck accept wrong triangulations in several ways: C44_*_refuted.

Partitioning
* Statistics: maximum wrong if all coordinates are negative: C35_maximum_refuted.
* Partitioners on few ids, coinciding points, no ids: C34_*_refuted.
* AABB tree drops cells on grid lines, nested boxes write out of bounds: C38_*_refuted.
* k-way splitter: flat groups, groups smaller than their parts, a minimum rounded up to float, 0 parts: C40_*_refuted.
* Edge weights "inverted" and "squared-inverted" are constant: C58_*_refuted.
* toOldPartitioning and recursiveTriangulate on trees without checker: C39_to_old_refuted, C46_load_balanced_refuted.

Divide and conquer
* 8-bit triangulation marks wrap at 254: C41_mark_wrap_refuted, C43_mark_wrap_refuted, C43_table_wrap_refuted.
* The neighbor update may access the infinite id if three tasks work on one simplex: C43_safe_refuted.

Generators
* Points left unset, written past the end, outside the bounds, coinciding: C48_*_refuted; identical results of
  repeated calls: C59_refuted.

Partition makers and sample partitioners
* The makers set flags of a std::vector<bool> from several threads: a lost flag makes a box forget points and its checker
  deny spheres (C60_race_refuted).  Boxes of partitions without ids are read uninitialised (C60_empty_refuted), fewer ids than
  partitions fail (C60_few_refuted), the grid checker misses points on a cell's border (C60_grid_refuted).
* Bounds assignment reads an uninitialised box if a partition has no sample (C61_empty_refuted); centres are the sum over
  n + 1, not the mean (C61_center_refuted).
* Hyperplanes: a zero normal vector (no cut edge) sends all points right, with checkers that deny every sphere
  (C62_zero_refuted); one id never returns (C62_single_refuted).
* The border length of the box estimation is overwritten, not summed (C63_border_refuted).
* Accurate grid checkers below depth one keep the address of an id set that a finished call owned (C64_dangling_refuted).

The triangulator as a whole
* The infinite points are at 200 times the extent of the input.  A flat triangle of input points can have a circumsphere that
  reaches a corner, and then it is not in the result: the finite simplices do not cover the convex hull (C69_hull_refuted, four points).
* The box of the infinite points is centred at the origin (C55), so inputs far from it are outside the hypotheses of C67-C69.
* PartitionTree's subtrees are copied with `checker->copy()`: a tree with a null intersection checker is undefined behaviour in
  LoadBalancedDCTriangulator.tpp (LbModel.ck_hits/lb_run make it so).
* ExtendPartitioner divides by an extent of zero or takes statistics of nothing with fewer than two finite points; the theorems on
  splitters ask for at least one finite point and treat the rest as undefined.
* SimplePartitioner::partition lacks the monitor parameter of Partitioner::partition, so the class stays abstract.
* OldPartitionerPartitioner: nodes without a finite point are not covered by C73 (the uninitialised statistics of C35).

Load balanced triangulation with each partitioner of CommandLineInterface.h
* Right: OldPartitionerPartitioner (C73), k-way (C74), nearest centre if no cell is empty (C75), hyperplanes that cut the points (C78),
  box estimation (C79), and any of them flattened (C80).
* Not Delaunay: nearest box and nearest sample, if one part is inside of another (C76_nested_refuted, C77_nested_refuted, four points).
  Both share no separating hyperplane, and the merge has no way to see it.
* Undefined: nearest centre with an empty cell (C75_empty_refuted); nearest sample bipartitioner whenever it splits, the root
  has no checker (C81_null_refuted).
* The programs reject correct results if points are cospherical: verify asks inSphere, which counts points on the sphere as inside,
  about the vertex across each facet (C82_accepts_refuted: the corners of a square, in every run).  The exit code is then a failure.
* The number of simplices the programs report counts deleted ones: whenever the points are split it is too large, and depends on the
  partitioning (C84_dc, C84_lb, C84_number_refuted).
* Wrong: hyperplanes without a normal.  The decomposition of cut edges whose midpoints are centred at the origin and spread out
  gives the normal (0, ..., 0) (C78_centred_refuted); then simplices of infinite points stay in the result (C78_zero_refuted).
* An unknown name leaves the wrapped partitioner of OldPartitionerPartitioner null (CommandLineInterface.h:184-199; not modelled).

The contract of C72 (`tree_ok`, LbSpec) asks that two children of a node have finite points, or that a checker of another child
covers a point beyond those of the only one (`past`): within the corners and parted from them, one of them if all are in a
hyperplane, or one on the border of their hull.  The theorems C73-C80 derive it from the code of the partitioners.

Predicates
* orient returns 0 for triangles whose products underflow (legs of 2^-600), inSphere is then true for every point
  (C86_all_points_refuted).

Pure CGAL
* The algorithms 'c' and 'm' return an empty result for every input, report one simplex and fail the programs' check (C87_pure_refuted).

Experiments
* A run that has started is not equal to what is read back (C88_started_refuted); an empty value swallows the rest of the line
  (C88_empty_refuted); == is not symmetric (C89_symmetric_refuted).
* minN = 0 and minThreads = 0 never end, maxN from 4000000000 on converts a double that does not fit
  (C90_zero_points_refuted, C90_zero_threads_refuted, C90_overflow_refuted).
* Storing a trait like "c3" throws, since the class [(-|+)|] contains letters (C91_words_refuted); 10.5 and -0.5 are stored as text
  (C91_decimals_refuted).
* The box of loaded points reaches up to numeric_limits::min() if all coordinates are below it (C92_tight_refuted); lines with too few fields are
  undefined behaviour in release builds (C92_short_refuted); a dumped point set has the origin as an additional first point (C92_dump_refuted).
* incCounter loses increments: for any two threads that count there is a run that loses one for good (C94_lost_refuted). Averages wrap
  (C95_overflow_refuted).
* Raising the log level within an indented part gives an indentation of 2^32 - 1 (C96_level_refuted).
* fast_expansion_sum_zeroelim reads one element behind both expansions, outside of the arrays in calls like Predicates.cpp:1330
  (C97_bounds_refuted, C97_call).
* Predicates<2>::orient with two equal points and an inexact difference to the third one, as (2^60, 2) twice and (1, 1), gets to the
  last stage of orient_adapt, which reads behind its arrays B and u (C98_equal_refuted, C98_ex).

Noted, not proved: the capacity of the
edge map of the sampler has a precedence slip; PartitionTree's copy assignment does not copy.

## Mutation tests

`seeded/LOG.jsonl`: one line per wrong program tried, with the theorems that no longer prove.
